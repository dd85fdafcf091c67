(* C73: clearing, copying, setting a bit, and freeing; what goes wrong. *)
From Verif Require Import Base Value_Model Heap_Model Value_Proofs Value_Proofs2 Value_Props Heap_Spec Heap_Proofs List_Proofs GC_Model Eq_Model Eq_Spec Eq_Props
  Flat_Model Flat_Spec Flat_Proofs Flat_Proofs2 Flat_Proofs3 Sym_Model Read_Model ArrExt_Model ArrExt_Spec ArrExt_Proofs ArrExt_Props.
From Verif Require Read_Props.
Local Open Scope Z_scope.

Section Arch.
Context {A : Arch} {L : Libc} {C : Conv}.

(* ---- clearing ---- *)
Lemma memset_ok bs start b len : (start + len <= length bs)%nat ->
  memset bs (Z.of_nat start) b (Z.of_nat len) = Ok (put_at start (repeat b len) bs).
Proof.
  intros H. unfold memset. destruct (Z.leb_spec 0 (Z.of_nat start)); [|lia]. destruct (Z.leb_spec 0 (Z.of_nat len)); [|lia].
  destruct (Z.leb_spec (Z.of_nat start + Z.of_nat len) (Z.of_nat (length bs))); [|lia]. cbn [andb]. unfold put_at. rewrite repeat_length, !Nat2Z.id, <- Nat2Z.inj_add, Nat2Z.id. auto.
Qed.
Lemma wrap8_32 x : wrap 8 (wrap 32 x) = x mod 256.
Proof.
  unfold wrap. change (2 ^ 32) with (256 * 2 ^ 24). change (2 ^ 8) with 256. rewrite Z.rem_mul_r by lia. rewrite Z.mul_comm, Z.mod_add by lia. apply Z.mod_mod. lia.
Qed.

(* the byte, the start and the length asked for; what is not given is 0, 0 and the rest *)
Theorem bufclear_correct : forall fl u arr bs vs ns, no_null (uh u) -> writable fl (uh u) arr bs -> Z.of_nat (length bs) < 2 ^ 32 ->
  Forall2 (integer fl (uh u)) vs ns -> (length ns <= 3)%nat ->
  let b := nth 0 ns 0 mod 256 in
  let start := Z.to_nat (nth 1 ns 0 mod 2 ^ 32) in
  let rest := (length bs - start)%nat in
  let len := match ns with [_; _; l] => Nat.min (Z.to_nat (l mod 2 ^ 32)) rest | _ => rest end in
  ((start < length bs)%nat \/ (length ns <= 1)%nat -> exists u', bufclear u (arr :: vs) = Ok (u', TRUE) /\
    rewritten fl (uh u) arr (put_at start (repeat b len) bs) (uh u') /\ u' = set_h u (uh u')) /\
  ((length bs <= start)%nat -> (2 <= length ns)%nat -> bufclear u (arr :: vs) = Ok (u, TERROR)).
Proof.
  intros fl u arr bs vs ns NN Wr Sz F LN. pose proof Wr as (D&K). destruct (array_facts _ _ _ _ NN D) as (p&d&q&R&M&AR&AO&RW&_). specialize (RW K).
  assert (LEN : forall s, (s <= length bs)%nat -> wrap 32 (wrap 32 (Z.of_nat (length bs)) - Z.of_nat s) = Z.of_nat (length bs - s)).
  { intros s S. rewrite (wrap_small 32 (Z.of_nat (length bs))) by lia. rewrite wrap_small by lia. lia. }
  assert (GO : forall s b l, (s + l <= length bs)%nat -> exists u', (let! bs := memset bs (Z.of_nat s) b (Z.of_nat l) in Ok (put_array u (fst (p, d)) (snd (p, d)) bs, TRUE)) = Ok (u', TRUE) /\
    rewritten fl (uh u) arr (put_at s (repeat b l) bs) (uh u') /\ u' = set_h u (uh u')).
  { intros s b l S. rewrite memset_ok by auto. cbn [bind fst snd]. eexists. split; [reflexivity|]. split; [|reflexivity]. eapply rewritten_put; eauto. }
  destruct F as [|v1 n1 vs ns I1 F].
  { cbn [nth length]. split; [intros _|lia]. unfold bufclear. count. args. rewrite RW. cbn [bind negb]. rewrite AO. cbn [bind].
    change (1 >? 1) with false. change (1 >? 2) with false. change (1 >? 3) with false. cbn iota. cbv zeta.
    change (wrap 32 (Z.of_nat (length bs)) - 0) with (wrap 32 (Z.of_nat (length bs)) - Z.of_nat 0). rewrite LEN by lia. apply (GO 0%nat). lia. }
  destruct (integer_arg _ _ _ _ I1) as (N1&U1&_).
  destruct F as [|v2 n2 vs ns I2 F].
  { cbn [nth length]. split; [intros _|lia]. unfold bufclear. count. args. rewrite RW. cbn [bind negb]. rewrite AO. cbn [bind].
    change (2 >? 1) with true. change (2 >? 2) with false. change (2 >? 3) with false. cbn iota. args. rewrite N1, U1. cbn [bind]. cbv zeta. rewrite wrap8_32.
    change (wrap 32 (Z.of_nat (length bs)) - 0) with (wrap 32 (Z.of_nat (length bs)) - Z.of_nat 0). rewrite LEN by lia. apply (GO 0%nat). lia. }
  destruct (integer_arg _ _ _ _ I2) as (N2&U2&_). pose proof (Z.mod_pos_bound n2 (2 ^ 32) ltac:(lia)) as B2.
  assert (S2 : wrap 32 n2 = Z.of_nat (Z.to_nat (n2 mod 2 ^ 32))) by (unfold wrap; lia).
  destruct F as [|v3 n3 vs ns I3 F].
  { cbn [nth length]. cbv zeta. set (st := Z.to_nat (n2 mod 2 ^ 32)) in *.
    unfold bufclear. count. args. rewrite RW. cbn [bind negb]. rewrite AO. cbn [bind].
    change (3 >? 1) with true. change (3 >? 2) with true. change (3 >? 3) with false. cbn iota. args. rewrite N1, U1. cbn [bind]. args. rewrite N2, U2. cbn [bind]. cbv zeta. rewrite wrap8_32, S2.
    split.
    - intros [In|]; [|lia]. destruct (Z.ltb_spec (Z.of_nat st) (Z.of_nat (length bs))); [|lia]. rewrite LEN by lia. apply GO. lia.
    - intros Out _. destruct (Z.ltb_spec (Z.of_nat st) (Z.of_nat (length bs))); [lia|]. auto. }
  destruct F; [|cbn in LN; lia].
  destruct (integer_arg _ _ _ _ I3) as (N3&U3&_). pose proof (Z.mod_pos_bound n3 (2 ^ 32) ltac:(lia)) as B3.
  assert (S3 : wrap 32 n3 = Z.of_nat (Z.to_nat (n3 mod 2 ^ 32))) by (unfold wrap; lia).
  cbn [nth length]. cbv zeta. set (st := Z.to_nat (n2 mod 2 ^ 32)) in *. set (ln := Z.to_nat (n3 mod 2 ^ 32)) in *.
  unfold bufclear. count. args. rewrite RW. cbn [bind negb]. rewrite AO. cbn [bind].
  change (4 >? 1) with true. change (4 >? 2) with true. change (4 >? 3) with true. cbn iota. args. rewrite N1, U1. cbn [bind]. args. rewrite N2, U2. cbn [bind]. cbv zeta. rewrite wrap8_32, S2.
  split.
  - intros [In|]; [|lia]. destruct (Z.ltb_spec (Z.of_nat st) (Z.of_nat (length bs))); [|lia]. rewrite LEN by lia. rewrite N3, U3. cbn [bind]. rewrite S3.
    replace (if Z.of_nat ln <=? Z.of_nat (length bs - st) then Z.of_nat ln else Z.of_nat (length bs - st)) with (Z.of_nat (Nat.min ln (length bs - st))).
    + apply GO. lia.
    + destruct (Z.leb_spec (Z.of_nat ln) (Z.of_nat (length bs - st))); lia.
  - intros Out _. destruct (Z.ltb_spec (Z.of_nat st) (Z.of_nat (length bs))); [lia|]. auto.
Qed.

(* ---- copying ---- *)
Lemma memcpy_ok same dst s1 src s2 len : (s1 + len <= length dst)%nat -> (s2 + len <= length src)%nat ->
  (same = false \/ (s1 + len <= s2)%nat \/ (s2 + len <= s1)%nat) ->
  memcpy same dst (Z.of_nat s1) src (Z.of_nat s2) (Z.of_nat len) = Ok (put_at s1 (slice s2 len src) dst).
Proof.
  intros H1 H2 O. unfold memcpy. destruct (Z.leb_spec (Z.of_nat s1 + Z.of_nat len) (Z.of_nat (length dst))); [|lia].
  destruct (Z.leb_spec (Z.of_nat s2 + Z.of_nat len) (Z.of_nat (length src))); [|lia].
  replace (same && (Z.of_nat s1 <? Z.of_nat s2 + Z.of_nat len) && (Z.of_nat s2 <? Z.of_nat s1 + Z.of_nat len)) with false.
  - cbn [andb negb]. unfold put_at, slice. rewrite firstn_length_le by (rewrite skipn_length; lia). rewrite !Nat2Z.id, <- Nat2Z.inj_add, Nat2Z.id. auto.
  - symmetry. destruct same; auto. destruct (Z.ltb_spec (Z.of_nat s1) (Z.of_nat s2 + Z.of_nat len)); auto.
    destruct (Z.ltb_spec (Z.of_nat s2) (Z.of_nat s1 + Z.of_nat len)); auto. exfalso. destruct O as [|[|]]; [discriminate|lia|lia].
Qed.

Theorem bufcpy_correct : forall fl u dst bs1 v1 i1 src bs2 v2 i2 v3 l, no_null (uh u) ->
  writable fl (uh u) dst bs1 -> integer fl (uh u) v1 i1 -> den fl (uh u) src (Bytes bs2) -> integer fl (uh u) v2 i2 -> integer fl (uh u) v3 l ->
  Z.of_nat (length bs1) < 2 ^ 32 -> Z.of_nat (length bs2) < 2 ^ 32 ->
  let s1 := Z.to_nat (i1 mod 2 ^ 32) in let s2 := Z.to_nat (i2 mod 2 ^ 32) in
  let len := Nat.min (Z.to_nat (l mod 2 ^ 32)) (Nat.min (length bs1 - s1) (length bs2 - s2)) in
  ((s1 < length bs1)%nat -> (s2 < length bs2)%nat ->
    (forall p q1 q2, ref_cell (uh u) dst = Ok (p, q1) -> ref_cell (uh u) src <> Ok (p, q2)) \/ (s1 + len <= s2)%nat \/ (s2 + len <= s1)%nat ->
    exists u', bufcpy u [dst; v1; src; v2; v3] = Ok (u', TRUE) /\
      rewritten fl (uh u) dst (put_at s1 (slice s2 len bs2) bs1) (uh u') /\ u' = set_h u (uh u')) /\
  ((length bs1 <= s1)%nat \/ (length bs2 <= s2)%nat -> bufcpy u [dst; v1; src; v2; v3] = Ok (u, TRUE)).
Proof.
  intros fl u dst bs1 v1 i1 src bs2 v2 i2 v3 l NN Wr I1 D2 I2 I3 Z1 Z2 s1 s2 len. pose proof Wr as (D1&K).
  destruct (array_facts _ _ _ _ NN D1) as (p1&d1&q1&R1&M1&_&AO1&RW&_). specialize (RW K).
  destruct (array_facts _ _ _ _ NN D2) as (p2&d2&q2&R2&M2&AR&AO2&_&_).
  destruct (integer_arg _ _ _ _ I1) as (N1&U1&_). destruct (integer_arg _ _ _ _ I2) as (N2&U2&_). destruct (integer_arg _ _ _ _ I3) as (N3&U3&_).
  assert (P32 : forall n, wrap 32 n = Z.of_nat (Z.to_nat (n mod 2 ^ 32))).
  { intros n. unfold wrap. pose proof (Z.mod_pos_bound n (2 ^ 32) ltac:(lia)). lia. }
  unfold bufcpy. count. args. rewrite RW. cbn [bind]. rewrite AR. cbn [bind]. rewrite N1, N2, N3. cbn [andb]. rewrite AO1. cbn [bind]. rewrite U1. cbn [bind].
  rewrite AO2. cbn [bind]. rewrite U2. cbn [bind]. rewrite U3. cbn [bind fst snd]. cbv zeta. rewrite !P32. fold s1 s2.
  set (l' := Z.to_nat (l mod 2 ^ 32)) in *.
  split.
  - intros H1 H2 O. destruct (Z.ltb_spec (Z.of_nat s1) (Z.of_nat (length bs1))); [|lia]. destruct (Z.ltb_spec (Z.of_nat s2) (Z.of_nat (length bs2))); [|lia]. cbn [andb].
    rewrite <- !P32. rewrite !(wrap_small 32 (Z.of_nat _)) by lia. rewrite !(wrap_small 32 (_ - _)) by lia.
    match goal with |- context [memcpy _ _ _ _ _ ?m] => replace m with (Z.of_nat len) end.
    2:{ unfold len. rewrite !Z.gtb_ltb. destruct (Z.ltb_spec (Z.of_nat (length bs1) - Z.of_nat s1) (Z.of_nat l'));
        [destruct (Z.ltb_spec (Z.of_nat (length bs2) - Z.of_nat s2) (Z.of_nat (length bs1) - Z.of_nat s1))|destruct (Z.ltb_spec (Z.of_nat (length bs2) - Z.of_nat s2) (Z.of_nat l'))]; lia. }
    rewrite memcpy_ok; [|unfold len; lia|unfold len; lia|].
    + cbn [bind]. eexists. split; [reflexivity|]. split; [|reflexivity]. eapply rewritten_put; eauto.
    + destruct O as [O|O]; [left|right; auto]. apply Z.eqb_neq. intros ->. eapply O; eauto.
  - intros O. destruct (Z.ltb_spec (Z.of_nat s1) (Z.of_nat (length bs1))); cbn [andb]; auto. destruct (Z.ltb_spec (Z.of_nat s2) (Z.of_nat (length bs2))); [lia|]. auto.
Qed.

(* ---- setting a bit ---- *)
Theorem bufset_bit_correct : forall fl u arr bs pv p bv b, no_null (uh u) -> writable fl (uh u) arr bs -> Forall (fun b => 0 <= b < 256) bs ->
  integer fl (uh u) pv p -> integer fl (uh u) bv b ->
  let pos := p mod 2 ^ 32 in
  (pos / 8 < Z.of_nat (length bs) -> exists u' new, bufset_bit u [arr; pv; bv] = Ok (u', TRUE) /\
    rewritten fl (uh u) arr (put_at (Z.to_nat (pos / 8)) [new] bs) (uh u') /\ u' = set_h u (uh u') /\ 0 <= new < 256 /\
    forall j, 0 <= j < 8 -> Z.testbit new j = if j =? pos mod 8 then negb (b mod 2 ^ 32 =? 0) else Z.testbit (nth (Z.to_nat (pos / 8)) bs 0) j) /\
  (Z.of_nat (length bs) <= pos / 8 -> bufset_bit u [arr; pv; bv] = Ok (u, TRUE)).
Proof.
  intros fl u arr bs pv p bv b NN Wr B IP IB pos. pose proof Wr as (D&K). destruct (array_facts _ _ _ _ NN D) as (a&d&q&R&M&_&AO&RW&_). specialize (RW K).
  destruct (integer_arg _ _ _ _ IP) as (N1&U1&_). destruct (integer_arg _ _ _ _ IB) as (N2&U2&_).
  unfold bufset_bit. count. args. rewrite RW. cbn [bind]. rewrite N1, N2. cbn [andb]. rewrite AO. cbn [bind]. rewrite U1. cbn [bind]. rewrite U2. cbn [bind fst snd]. cbv zeta.
  change (wrap 32 p) with pos. change (wrap 32 b) with (b mod 2 ^ 32).
  assert (P0 : 0 <= pos) by (apply Z.mod_pos_bound; lia). assert (Q0 : 0 <= pos / 8) by (apply Z.div_pos; lia). pose proof (Z.mod_pos_bound pos 8 ltac:(lia)) as J8.
  split.
  - intros In. destruct (Z.ltb_spec (pos / 8) (Z.of_nat (length bs))); [|lia]. rewrite (rd_ok _ _ 0) by lia. cbn [bind].
    set (x := nth (Z.to_nat (pos / 8)) bs 0). set (bit := if b mod 2 ^ 32 =? 0 then 0 else 1). rewrite wr_ok by lia. cbn [bind].
    set (new := Z.lor (Z.land x (wrap 8 (Z.lnot (Z.shiftl 1 (pos mod 8))))) (wrap 8 (Z.shiftl bit (pos mod 8)))).
    exists (put_array u a d (upd bs (Z.to_nat (pos / 8)) new)), new. split; [reflexivity|]. split.
    { replace (put_at (Z.to_nat (pos / 8)) [new] bs) with (upd bs (Z.to_nat (pos / 8)) new); [eapply rewritten_put; eauto|].
      unfold put_at. cbn [length app]. destruct (split_at bs (Z.to_nat (pos / 8)) 1 ltac:(lia)) as (pre&mid&post&->&<-&Lm).
      destruct mid as [|m [|]]; try discriminate. cbn [app]. rewrite upd_mid. rewrite firstn_app, Nat.sub_diag, firstn_all, firstn_O, app_nil_r. f_equal.
      replace (length pre + 1)%nat with (length (pre ++ [m])) by (rewrite app_length; cbn; lia).
      replace (pre ++ m :: post) with ((pre ++ [m]) ++ post) by (rewrite <- app_assoc; auto). rewrite skipn_app, Nat.sub_diag, skipn_all. auto. }
    split; [reflexivity|].
    assert (BX : 0 <= x < 256) by (unfold x; rewrite Forall_forall in B; apply B; apply nth_In; lia).
    assert (HX : forall j, 8 <= j -> Z.testbit x j = false).
    { intros j J. destruct (Z.eq_dec x 0) as [->|NX]; [apply Z.bits_0|]. apply Z.bits_above_log2; [lia|]. assert (Z.log2 x < 8) by (apply Z.log2_lt_pow2; lia). lia. }
    assert (TB : forall j, 0 <= j < 8 -> Z.testbit new j = if j =? pos mod 8 then negb (b mod 2 ^ 32 =? 0) else Z.testbit x j).
    { intros j J. unfold new, wrap. rewrite Z.lor_spec, Z.land_spec, !Z.mod_pow2_bits_low, Z.lnot_spec by lia. rewrite !Z.shiftl_spec by lia.
      destruct (Z.eqb_spec j (pos mod 8)) as [->|NJ].
      - rewrite Z.sub_diag. unfold bit. destruct (b mod 2 ^ 32 =? 0); cbn; rewrite andb_false_r; reflexivity.
      - assert (Z0 : forall y, y = 0 \/ y = 1 -> Z.testbit y (j - pos mod 8) = false).
        { intros y [->| ->]; [apply Z.bits_0|]. destruct (Z.ltb_spec (j - pos mod 8) 0); [apply Z.testbit_neg_r; auto|]. change 1 with (2 ^ 0). apply Z.pow2_bits_false. lia. }
        rewrite (Z0 1), (Z0 bit) by (try (unfold bit; destruct (b mod 2 ^ 32 =? 0)); auto). cbn. rewrite andb_true_r, orb_false_r. auto. }
    split; [|exact TB].
    assert (N0 : 0 <= new). { unfold new. apply Z.lor_nonneg. split; [apply Z.land_nonneg; left; lia|]. unfold wrap. apply Z.mod_pos_bound. lia. }
    split; [auto|]. change 256 with (2 ^ 8). destruct (Z.eq_dec new 0) as [->|NX]; [lia|]. apply Z.log2_lt_pow2; [lia|].
    destruct (Z.ltb_spec (Z.log2 new) 8) as [|HL]; auto. exfalso. assert (T : Z.testbit new (Z.log2 new) = true) by (apply Z.bit_log2; lia).
    revert T. unfold new at 1. rewrite Z.lor_spec, Z.land_spec, HX by lia. cbn. unfold wrap. rewrite Z.mod_pow2_bits_high by lia. discriminate.
  - intros Out. destruct (Z.ltb_spec (pos / 8) (Z.of_nat (length bs))); [lia|]. auto.
Qed.

(* ---- the length ---- *)
Theorem buflen_correct : forall fl u arr bs, no_null (uh u) -> den fl (uh u) arr (Bytes bs) -> Z.of_nat (length bs) < 2 ^ 27 ->
  exists r, buflen u [arr] = Ok (u, r) /\ den fl (uh u) r (Leaf KI (Z.of_nat (length bs))).
Proof.
  intros fl u arr bs NN D S. destruct (array_facts _ _ _ _ NN D) as (p&d&q&R&M&AR&AO&_&_). unfold buflen. count. args. rewrite AR. cbn [bind]. rewrite AO. cbn [bind].
  eexists. split; [reflexivity|]. apply den_int. pose proof payload_big. assert (P27 : 2 ^ 27 <= 2 ^ (payload A - 1)) by (apply Z.pow_le_mono_r; lia). lia.
Qed.

(* ---- freeing ---- *)
Lemma free_steps fl h arr bs p d : writable fl h arr bs -> ref_cell h arr = Ok (p, SYM_ARRAY_TYPE_ENC) -> mem h p = Some (OByte d bs) -> no_null h ->
  free_array h arr = Ok (hput (hput (set_obj (mem_free (mem_free h d) p) p None) (f_ix arr) (NIL, SYM_ARRAY_TYPE_ENC)) (f_ix arr) (NIL, NIL), true).
Proof.
  intros (D&K) R M NN. destruct (array_facts _ _ _ _ NN D) as (p'&d'&q&R'&M'&_&AO&RW&_). specialize (RW K).
  inversion D as [| |v' p0 q0 bs0 d0 P Hd T Rc M0|]; subst.
  unfold free_array. rewrite RW. cbn [bind]. unfold cdr, car. rewrite P, R. cbn [bind fst snd]. rewrite Z.eqb_refl, M.
  destruct (cons_type_ix arr) as (T2&W2&I2&P2&G2). set (w := set_ptr_type arr TYPE_CONS) in *.
  assert (RWw : is_cons_rw w = true) by (rewrite cons_rw_iff, P2, T2 by auto; reflexivity).
  pose proof (rw_not_const _ W2 RWw) as Kw. rewrite ref_cell_rw in R by auto.
  destruct (cell h (f_ix arr)) as [c0|] eqn:C0; [|discriminate]. injection R as ->.
  unfold set_car, set_cdr. rewrite RWw. unfold is_cons_rw in RWw. rewrite RWw.
  assert (C1 : cell (set_obj (mem_free (mem_free h d) p) p None) (f_ix arr) = Some (p, SYM_ARRAY_TYPE_ENC)) by exact C0.
  rewrite ref_cell_rw, I2, C1 by auto. cbn [bind snd]. rewrite put_cell_rw, I2, C1 by auto. cbn [bind].
  pose proof (cell_hput_eq _ _ _ (NIL, SYM_ARRAY_TYPE_ENC) C1) as C2.
  rewrite ref_cell_rw, I2, C2 by auto. cbn [bind fst]. rewrite put_cell_rw, I2, C2 by auto. reflexivity.
Qed.
Theorem free_correct : forall fl u arr bs p d, no_null (uh u) -> writable fl (uh u) arr bs -> ref_cell (uh u) arr = Ok (p, enc_sym SYM_ARRAY_TYPE) ->
  mem (uh u) p = Some (OByte d bs) ->
  exists u', free_ext u [arr] = Ok (u', TRUE) /\ freed (uh u') = p :: d :: freed (uh u) /\ mem (uh u') p = None /\
    (forall x, x <> p -> mem (uh u') x = mem (uh u) x) /\
    ref_cell (uh u') arr = Ok (NIL, NIL) /\ (forall j, j <> f_ix arr -> cell (uh u') j = cell (uh u) j) /\
    (forall little sg n iv xv opt, (length opt <= 1)%nat -> bufset little sg n u' (arr :: iv :: xv :: opt) = Ok (u', TERROR)) /\
    (forall little g iv opt, (length opt <= 1)%nat -> bufget little g u' (arr :: iv :: opt) = Ok (u', TERROR)) /\
    (forall a b, bufset_bit u' [arr; a; b] = Ok (u', TERROR)) /\
    (forall vs, (length vs <= 3)%nat -> bufclear u' (arr :: vs) = Ok (u', TERROR)) /\
    free_ext u' [arr] = Ok (u', TERROR).
Proof.
  intros fl u arr bs p d NN Wr R M. pose proof (free_steps _ _ _ _ _ _ Wr R M NN) as F. pose proof Wr as (D&K).
  destruct (array_facts _ _ _ _ NN D) as (p'&d'&q&R'&M'&AR&AO&RW&_). specialize (RW K).
  inversion D as [| |v' p0 q0 bs0 d0 P Hd T Rc M0|]; subst.
  set (h' := hput (hput (set_obj (mem_free (mem_free (uh u) d) p) p None) (f_ix arr) (NIL, SYM_ARRAY_TYPE_ENC)) (f_ix arr) (NIL, NIL)) in *.
  exists (set_h u h'). assert (FE : free_ext u [arr] = Ok (set_h u h', TRUE)).
  { unfold free_ext. count. args. rewrite RW. cbn [bind]. rewrite F. reflexivity. }
  split; [auto|]. split; [reflexivity|]. split; [cbn; rewrite Z.eqb_refl; auto|]. split; [intros x X; cbn; destruct (Z.eqb_spec x p); congruence|].
  assert (C0 : exists c, cell (uh u) (f_ix arr) = Some c). { rewrite ref_cell_rw in R by auto. destruct (cell (uh u) (f_ix arr)); [eauto|discriminate]. }
  destruct C0 as (c0&C0). pose proof (cell_range _ _ _ C0) as IR.
  assert (R2 : ref_cell h' arr = Ok (NIL, NIL)).
  { rewrite ref_cell_rw by auto. unfold h'. rewrite (cell_hput_eq _ _ (NIL, SYM_ARRAY_TYPE_ENC)); auto. apply (cell_hput_eq _ _ c0). auto. }
  split; [auto|]. split. { intros j J. cbn [uh set_h]. unfold h'. rewrite !cell_hput_neq by (auto; lia). reflexivity. }
  assert (V : array_valid h' arr = Ok false) by (unfold array_valid, car; rewrite P, R2; cbn [bind fst]; rewrite NIL_0; reflexivity).
  assert (Rf : is_array_r h' arr = Ok false) by (unfold is_array_r; rewrite V; destruct (_ =? _); auto).
  assert (Wf : is_array_rw h' arr = Ok false) by (unfold is_array_rw; rewrite V; destruct (_ && _); auto).
  split. { intros little sg n iv xv opt LO. unfold bufset, decode_append_args. destruct opt as [|v [|]]; [| |cbn in LO; lia]; count; cbn [bind]; args; cbn [uh set_h]; rewrite Wf; reflexivity. }
  split. { intros little g iv opt LO. unfold bufget, decode_get_args. destruct opt as [|v [|]]; [| |cbn in LO; lia]; count; cbn [bind]; args; cbn [uh set_h]; rewrite Rf; reflexivity. }
  split. { intros a b. unfold bufset_bit. count. args. cbn [uh set_h]. rewrite Wf. reflexivity. }
  split. { intros vs LV. unfold bufclear. replace ((1 <=? Z.of_nat (length (arr :: vs))) && (Z.of_nat (length (arr :: vs)) <=? 4)) with true.
    - cbv zeta. args. cbn [uh set_h]. rewrite Wf. reflexivity.
    - symmetry. apply andb_true_iff. cbn [length]. split; apply Z.leb_le; lia. }
  unfold free_ext. count. args. cbn [uh set_h]. rewrite Wf. reflexivity.
Qed.
End Arch.

(* ---- cases, and what goes wrong ---- *)
#[local] Instance conv0 : Conv := {| f32_i32 _ := None; f64_i32 _ := None |}.
#[local] Instance libc1 : Libc := Read_Props.libc0.

(* one array of six bytes, and a free cell *)
Definition heap2 {A : Arch} : heap :=
  mkHeap [(400, enc_sym SYM_ARRAY_TYPE); (0, 0)] [] 0 1 [] 0 0 0 0
    (fun p => if p =? 400 then Some (OByte 404 [1; 2; 3; 4; 5; 200]) else None) [] false.
Definition st2 {A : Arch} : ust := mkU heap2 [] (mksy [] 0 [] 0 0) [].
Definition arr2 {A : Arch} : Z := set_ptr_type (enc_cons_ptr 0) TYPE_ARRAY.
Definition LITTLE : Z := 70000.

Lemma arr2_ok {A : Arch} : no_null heap2 /\ writable [1] heap2 arr2 [1; 2; 3; 4; 5; 200].
Proof.
  split; [reflexivity|]. destruct A; (split; [|reflexivity]); (eapply den_bytes; [reflexivity|intros _ _ [X|[]]; revert X; vm_compute; discriminate|reflexivity|reflexivity|reflexivity]).
Qed.
Lemma int2 {A : Arch} n : -2 ^ 27 <= n < 2 ^ 27 -> integer [1] heap2 (enc_i n) n.
Proof.
  intros R. exists KI. split; [repeat split; discriminate|]. apply den_int. pose proof payload_big. assert (P27 : 2 ^ 27 <= 2 ^ (payload A - 1)) by (apply Z.pow_le_mono_r; lia). lia.
Qed.
Lemma little2 {A : Arch} : endianness [1] heap2 LITTLE [enc_sym LITTLE] false.
Proof.
  right. exists (enc_sym LITTLE), (Leaf KSym LITTLE). split; [auto|]. split; [|tauto]. destruct A; (apply den_leaf; [intros X; discriminate X|reflexivity|reflexivity|reflexivity]).
Qed.

(* (bufset-i16 a 1 -2 'little-endian) and reading it back *)
Example bufset_case {A : Arch} : exists u', bufset LITTLE true 2 st2 [arr2; enc_i 1; enc_i (-2); enc_sym LITTLE] = Ok (u', TRUE) /\
  rewritten [1] heap2 arr2 [1; 254; 255; 4; 5; 200] (uh u') /\ bufget LITTLE GI16 u' [arr2; enc_i 1; enc_sym LITTLE] = Ok (u', enc_i (-2)) /\
  bufget LITTLE GI16 u' [arr2; enc_i 1] = Ok (u', enc_i (-257)) /\ bufset LITTLE true 2 st2 [arr2; enc_i 5; enc_i (-2)] = Ok (st2, EERROR).
Proof.
  destruct arr2_ok as (NN&Wr). destruct (bufset_correct [1] st2 LITTLE true arr2 _ (enc_i 1) 1 (enc_i (-2)) (-2) [enc_sym LITTLE] false 2 NN Wr) as (IN&_);
    [apply int2; lia|apply int2; lia|apply little2|lia|destruct A; vm_compute; discriminate|].
  destruct IN as (u'&E&Rw&U); [vm_compute; lia|]. exists u'. split; [exact E|]. split; [exact Rw|]. vm_compute Z.of_nat in E.
  destruct A; vm_compute in E; injection E as <-; (split; [reflexivity|split; reflexivity]).
Qed.
Example bufclear_case {A : Arch} : exists u', bufclear st2 [arr2; enc_i 258; enc_i 1; enc_i 3] = Ok (u', TRUE) /\
  rewritten [1] heap2 arr2 [1; 2; 2; 2; 5; 200] (uh u') /\ bufclear st2 [arr2; enc_i 7; enc_i 6] = Ok (st2, TERROR).
Proof.
  destruct arr2_ok as (NN&Wr). destruct (bufclear_correct [1] st2 arr2 _ [enc_i 258; enc_i 1; enc_i 3] [258; 1; 3] NN Wr) as (IN&_);
    [cbn; lia|repeat constructor; apply int2; lia|cbn; lia|].
  destruct IN as (u'&E&Rw&_); [left; vm_compute; lia|]. exists u'. split; [exact E|]. split; [exact Rw|]. destruct A; reflexivity.
Qed.
Example bufcpy_case {A : Arch} : exists u', bufcpy st2 [arr2; enc_i 0; arr2; enc_i 4; enc_i 100] = Ok (u', TRUE) /\ rewritten [1] heap2 arr2 [5; 200; 3; 4; 5; 200] (uh u').
Proof.
  destruct arr2_ok as (NN&Wr). destruct (bufcpy_correct [1] st2 arr2 [1; 2; 3; 4; 5; 200] (enc_i 0) 0 arr2 [1; 2; 3; 4; 5; 200] (enc_i 4) 4 (enc_i 100) 100 NN Wr) as (IN&_);
    [apply int2; lia|apply Wr|apply int2; lia|apply int2; lia|cbn; lia|cbn; lia|].
  destruct IN as (u'&E&Rw&_); [vm_compute; lia|vm_compute; lia|right; left; vm_compute; lia|]. exists u'. split; [exact E|exact Rw].
Qed.
Example bufset_bit_case {A : Arch} : exists u', bufset_bit st2 [arr2; enc_i 10; enc_i 1] = Ok (u', TRUE) /\ array_of (uh u') arr2 = Ok (400, 404, [1; 6; 3; 4; 5; 200]).
Proof. destruct A; eexists; (split; [reflexivity|reflexivity]). Qed.
Example free_case {A : Arch} : exists u', free_ext st2 [arr2] = Ok (u', TRUE) /\ freed (uh u') = [400; 404] /\ buflen u' [arr2] = Ok (u', EERROR).
Proof. destruct A; eexists; (split; [reflexivity|split; reflexivity]). Qed.

(* C72 is false on 32 bits: the end of the access wraps around, and index -1 gets
   through (array_extensions.c 132-134 and 384-386) *)
Theorem bufset_index_refuted : exists i, integer (A := A32) [1] (heap2 (A := A32)) (enc_i (A := A32) i) i /\
  bufset (A := A32) LITTLE false 2 (st2 (A := A32)) [arr2 (A := A32); enc_i (A := A32) i; enc_i (A := A32) 7] = UB /\
  bufget (A := A32) LITTLE GU16 (st2 (A := A32)) [arr2 (A := A32); enc_i (A := A32) i] = UB.
Proof. exists (-1). split; [apply int2; lia|]. split; reflexivity. Qed.
(* C71 is false of bufget-i32 on 32 bits: the result is cut to 28 bits
   (array_extensions.c 484) *)
Theorem bufget_i32_refuted : exists r n, bufget (A := A32) LITTLE GI32 (st2 (A := A32)) [arr2 (A := A32); enc_i (A := A32) 2; enc_sym (A := A32) LITTLE] = Ok (st2 (A := A32), r) /\
  den (A := A32) [1] (heap2 (A := A32)) r (Leaf KI n) /\ reading GI32 (number (order false (slice 2 4 [1; 2; 3; 4; 5; 200]))) <> n.
Proof.
  exists (enc_i (A := A32) (-133889021)), (-133889021). split; [reflexivity|]. split; [apply den_int; vm_compute; split; [discriminate|reflexivity]|]. vm_compute. discriminate.
Qed.
(* C73 is false of bufcpy within one array: the ranges of memcpy may overlap
   (array_extensions.c 652) *)
Theorem bufcpy_overlap_refuted : forall {A : Arch}, integer [1] heap2 (enc_i 1) 1 /\ bufcpy st2 [arr2; enc_i 1; arr2; enc_i 0; enc_i 3] = UB.
Proof. intros A. split; [apply int2; lia|]. destruct A; reflexivity. Qed.

Print Assumptions bufset_correct.
Print Assumptions bufget_correct.
Print Assumptions bufset_bufget.
Print Assumptions bufset_safe.
Print Assumptions bufget_safe.
Print Assumptions bufclear_correct.
Print Assumptions bufcpy_correct.
Print Assumptions bufset_bit_correct.
Print Assumptions free_correct.
