(* C44: the constant heap is append only. *)
From Verif Require Import Base Value_Model Value_Proofs Value_Proofs2 Const_Model.
Local Open Scope Z_scope.

(* ---- Specification ---- *)
(* Operations; the target of a single word write is arbitrary. *)
Inductive op :=
| OCell                                (* lbm_allocate_const_cell *)
| ORaw (n : Z)                         (* lbm_allocate_const_raw *)
| OWrite (data : list Z)               (* lbm_write_const_raw *)
| OArray (bytes : list Z)              (* lbm_write_const_array_padded *)
| OWord (ix v : Z)                     (* lbm_const_write *)
| OCar (cell v : Z) | OCdr (cell v : Z).
(* status and, for allocations, the index of the first word *)
Inductive ans := Ans (s : fstat) (ix : Z).

Section Arch.
Context {A : Arch}.

Definition step (c : cheap) (o : op) : res (cheap * ans) :=
  match o with
  | OCell => let '(c1, s, r) := allocate_const_cell c in Ok (c1, Ans s (dec_ptr r))
  | ORaw n => let '(c1, s, r) := allocate_const_raw c n in Ok (c1, Ans s r)
  | OWrite d => let! (c1, s, r) := write_const_raw c d in Ok (c1, Ans s r)
  | OArray d => let! (c1, s, r) := write_const_array_padded c d in Ok (c1, Ans s r)
  | OWord ix v => let! (c1, s) := const_write c ix v in Ok (c1, Ans s 0)
  | OCar p v => let! (c1, s) := write_const_car c p v in Ok (c1, Ans s 0)
  | OCdr p v => let! (c1, s) := write_const_cdr c p v in Ok (c1, Ans s 0)
  end.

(* sensible operands: sizes that do not overflow a word, indices not negative *)
Definition op_ok (size : nat) (o : op) : Prop :=
  match o with
  | ORaw n => 0 <= n /\ Z.of_nat size + n < 2 ^ W
  | OWrite d => Z.of_nat size + Z.of_nat (length d) < 2 ^ W
  | OArray d => Z.of_nat size + Z.of_nat (length d) < 2 ^ W /\ Forall (fun b => 0 <= b < 256) d
  | OWord ix _ => 0 <= ix
  | _ => True
  end.

Inductive steps : cheap -> list (op * ans) -> cheap -> Prop :=
| steps_nil c : steps c [] c
| steps_cons c o a c1 h c2 : op_ok (length (c_mem c)) o -> step c o = Ok (c1, a) -> steps c1 h c2 ->
  steps c ((o, a) :: h) c2.

(* words of an array of bytes, rounded up *)
Definition array_words (bytes : list Z) : Z := (Z.of_nat (length bytes) + WB - 1) / WB.

(* the ranges of words handed out by the successful operations of a history *)
Definition range (x : op * ans) : list (Z * Z) :=
  match x with
  | (OCell, Ans WRITE_OK ix) => [(ix, 2)]
  | (ORaw n, Ans WRITE_OK ix) => [(ix, n)]
  | (OWrite d, Ans WRITE_OK ix) => [(ix, Z.of_nat (length d))]
  | (OArray d, Ans WRITE_OK ix) => [(ix, array_words d)]
  | _ => []
  end.
Definition ranges (h : list (op * ans)) : list (Z * Z) := flat_map range h.

Definition apart (x y : Z * Z) : Prop := fst x + snd x <= fst y \/ fst y + snd y <= fst x.

(* ---- Proofs ---- *)
Lemma W_big : 2 ^ 32 <= 2 ^ W.
Proof. unfold W, sel. destruct A; cbn; lia. Qed.

(* [grows c c']: words that are not erased keep their value, the size stays *)
Definition grows (c c' : cheap) : Prop :=
  length (c_mem c') = length (c_mem c) /\
  forall i v, nth_error (c_mem c) i = Some v -> v <> ERASED -> nth_error (c_mem c') i = Some v.

Lemma grows_refl c n : grows c (mkch (c_mem c) n).
Proof. split; auto. Qed.
Lemma grows_trans a b c : grows a b -> grows b c -> grows a c.
Proof. intros [L1 H1] [L2 H2]. split; [congruence|auto]. Qed.

Lemma dev_ok c ix w : 0 <= ix ->
  exists c' ok, dev_write c ix w = Ok (c', ok) /\ grows c c' /\ c_next c' = c_next c /\
  (forall i, Z.of_nat i <> ix -> nth_error (c_mem c') i = nth_error (c_mem c) i) /\
  (ok = true -> nth_error (c_mem c') (Z.to_nat ix) = Some w /\ ix < c_size c) /\
  (ok = false -> c' = c).
Proof.
  intros P. unfold dev_write, c_size. rewrite Z.geb_leb. destruct (Z.leb_spec (Z.of_nat (length (c_mem c))) ix).
  - eexists _, _. split; [reflexivity|]. split; [split; auto|]. repeat split; auto; discriminate.
  - destruct (nth_error (c_mem c) (Z.to_nat ix)) as [old|] eqn:E; [|apply nth_error_None in E; lia].
    rewrite (rd_nth _ _ old) by auto. cbn [bind]. destruct (Z.eqb_spec old ERASED) as [->|NE].
    + rewrite wr_ok by lia. cbn [bind]. eexists _, _. split; [reflexivity|]. cbn [c_mem c_next].
      split; [|split; [auto|split; [|split; [|discriminate]]]].
      * split; cbn [c_mem]; [apply length_upd|]. intros i v Ei NV. rewrite nth_error_upd_neq; auto.
        intros EQ. rewrite <- EQ in Ei. congruence.
      * intros i NI. apply nth_error_upd_neq. lia.
      * intros _. split; [apply nth_error_upd_eq; lia|auto].
    + destruct (Z.eqb_spec old w) as [->|NW]; eexists _, _; (split; [reflexivity|]); (split; [split; auto|]);
        repeat split; auto; try discriminate.
Qed.

Lemma words_ok data : forall c ix, 0 <= ix -> ix + Z.of_nat (length data) < 2 ^ W ->
  exists c' ok, write_words c ix data = Ok (c', ok) /\ grows c c' /\ c_next c' = c_next c /\
  (forall i, Z.of_nat i < ix \/ ix + Z.of_nat (length data) <= Z.of_nat i -> nth_error (c_mem c') i = nth_error (c_mem c) i) /\
  (ok = true -> forall k w, nth_error data k = Some w -> nth_error (c_mem c') (Z.to_nat ix + k) = Some w).
Proof.
  induction data as [|w t IH]; intros c ix P B; cbn [write_words length] in *.
  - eexists _, _. split; [reflexivity|]. split; [split; auto|]. repeat split; auto. intros _ [|k] w E; discriminate.
  - destruct (dev_ok c ix w P) as (c1&ok&E&G&NX&O&T&F). rewrite E. cbn [bind]. destruct ok.
    + rewrite wrap_small by lia. destruct (IH c1 (ix + 1) ltac:(lia) ltac:(lia)) as (c2&ok2&E2&G2&NX2&O2&T2).
      rewrite E2. eexists _, _. split; [reflexivity|]. split; [eapply grows_trans; eauto|]. split; [congruence|]. split.
      * intros i Hi. rewrite O2 by lia. apply O. lia.
      * intros OK [|k] x Ex.
        -- injection Ex as <-. rewrite Nat.add_0_r, O2 by lia. apply T. auto.
        -- replace (Z.to_nat ix + S k)%nat with (Z.to_nat (ix + 1) + k)%nat by lia. apply T2; auto.
    + eexists _, _. split; [reflexivity|]. split; auto. split; auto. split; [intros i Hi; apply O; lia|discriminate].
Qed.

(* invariant: next is within the memory *)
Definition cinv (c : cheap) : Prop :=
  0 <= c_next c <= c_size c /\ c_size c < 2 ^ W - 2 /\ c_size c mod 2 = 0.

Lemma raw_ok c data : cinv c -> c_size c + Z.of_nat (length data) < 2 ^ W ->
  exists c' s r, write_const_raw c data = Ok (c', s, r) /\ cinv c' /\ grows c c' /\
  (forall i, Z.of_nat i < c_next c -> nth_error (c_mem c') i = nth_error (c_mem c) i) /\
  (s = WRITE_OK -> r = c_next c /\ c_next c' = c_next c + Z.of_nat (length data) /\ c_next c' < c_size c /\
     forall k w, nth_error data k = Some w -> nth_error (c_mem c') (Z.to_nat r + k) = Some w) /\
  (s <> WRITE_OK -> c_next c' = c_next c).
Proof.
  intros (B&S&EV) L. unfold write_const_raw. cbv zeta. unfold c_size in *. rewrite wrap_small by lia.
  destruct (Z.ltb_spec (c_next c + Z.of_nat (length data)) (Z.of_nat (length (c_mem c)))).
  - destruct (words_ok data c (c_next c) ltac:(lia) ltac:(lia)) as (c1&ok&E&G&NX&O&T). rewrite E. cbn [bind].
    destruct G as [GL GV]. destruct ok; eexists _, _, _; (split; [reflexivity|]).
    + split; [|split; [split; auto|split; [|split; [|congruence]]]].
      * unfold cinv, c_size. cbn [c_mem c_next]. rewrite GL. rewrite ?wrap_small by lia. lia.
      * cbn [c_mem]. intros i Hi. apply O. lia.
      * intros _. cbn [c_mem c_next]. auto.
    + split; [|split; [split; auto|split; [|split; [discriminate|auto]]]].
      * unfold cinv, c_size. rewrite GL, NX. lia.
      * intros i Hi. apply O. lia.
  - eexists _, _, _. split; [reflexivity|]. split; [unfold cinv, c_size; lia|]. split; [split; auto|].
    split; auto. split; [discriminate|auto].
Qed.

Lemma word_bits b : Forall (fun x => 0 <= x < 256) b -> 0 <= word_of b < 256 ^ Z.of_nat (length b).
Proof.
  induction 1 as [|x t B F IH]; cbn [word_of length]; [cbn; lia|].
  replace (Z.of_nat (S (length t))) with (Z.of_nat (length t) + 1) by lia. rewrite Z.pow_add_r by lia. lia.
Qed.

Lemma WB_pos : 1 <= WB <= 8. Proof. arch; lia. Qed.

Lemma skip_skip {X} a : forall b (l : list X), skipn b (skipn a l) = skipn (a + b) l.
Proof. induction a; intros b [|x l]; cbn [skipn Nat.add]; auto. destruct b; auto. Qed.

Lemma words_len n : forall b, length (words_of n b) = n.
Proof. induction n; intros; cbn [words_of length]; auto. Qed.

Lemma array_ok c bytes : cinv c -> c_size c + Z.of_nat (length bytes) < 2 ^ W ->
  exists c' s r, write_const_array_padded c bytes = Ok (c', s, r) /\ cinv c' /\ grows c c' /\
  (forall i, Z.of_nat i < c_next c -> nth_error (c_mem c') i = nth_error (c_mem c) i) /\
  c_next c <= c_next c' /\
  (s = WRITE_OK -> r = c_next c /\ c_next c' = c_next c + array_words bytes /\
     forall k w, nth_error (words_of (Z.to_nat (array_words bytes)) bytes) k = Some w ->
       nth_error (c_mem c') (Z.to_nat r + k) = Some w).
Proof.
  intros I L. unfold write_const_array_padded. cbv zeta. pose proof WB_pos as WP. assert (WN : WB <> 0) by lia. assert (WQ : 0 < WB) by lia.
  set (n := Z.of_nat (length bytes)) in *.
  pose proof (Z.div_mod n WB WN) as DM. pose proof (Z.mod_pos_bound n WB WQ) as MB.
  assert (N0 : 0 <= n) by (unfold n; lia).
  assert (D0 : 0 <= n / WB) by (apply Z.div_pos; lia).
  assert (AW : array_words bytes = n / WB + (if n mod WB =? 0 then 0 else 1)).
  { unfold array_words. fold n. destruct (Z.eqb_spec (n mod WB) 0) as [E|E].
    - symmetry. apply Z.div_unique with (WB - 1); lia.
    - symmetry. apply Z.div_unique with (n mod WB - 1); lia. }
  assert (WL : forall k, Z.of_nat (length (words_of (Z.to_nat k) bytes)) = Z.max 0 k) by (intros; rewrite words_len; lia).
  assert (FB : n / WB <= n) by (apply Z.div_le_upper_bound; nia).
  destruct (Z.eqb_spec (n mod WB) 0) as [E|E].
  - destruct (raw_ok c (words_of (Z.to_nat (n / WB)) bytes) I ltac:(rewrite WL; lia)) as (c1&s&r&E1&I1&G1&O1&T1&F1).
    rewrite E1. eexists _, _, _. split; [reflexivity|]. split; auto. split; auto. split; auto. split.
    + destruct s; [|rewrite F1 by discriminate; lia..]. specialize (T1 eq_refl). lia.
    + intros ->. destruct (T1 eq_refl) as (-> & T2 & T3 & T4). rewrite AW, Z.add_0_r. rewrite WL in T2. split; auto. split; [lia|auto].
  - rewrite Z.geb_leb.
    assert (LAST : forall m b, Z.of_nat (length b) = m * WB + n mod WB -> 0 <= m ->
       words_of (Z.to_nat (m + 1)) b = words_of (Z.to_nat m) b ++ [word_of (skipn (Z.to_nat (m * WB)) b)]).
    { intros m b LB PM. replace (Z.to_nat (m + 1)) with (S (Z.to_nat m)) by lia.
      replace (Z.to_nat (m * WB)) with (Z.to_nat m * Z.to_nat WB)%nat by lia.
      assert (LB' : length b = (Z.to_nat m * Z.to_nat WB + Z.to_nat (n mod WB))%nat) by lia.
      assert (MB' : (Z.to_nat (n mod WB) <= Z.to_nat WB)%nat) by lia.
      clear - LB' MB'. revert b LB'. induction (Z.to_nat m) as [|q IH]; intros b LB.
      - cbn. rewrite firstn_all2 by lia. reflexivity.
      - change (words_of (S (S q)) b) with (word_of (firstn (Z.to_nat WB) b) :: words_of (S q) (skipn (Z.to_nat WB) b)).
        rewrite IH by (rewrite skipn_length; lia). rewrite skip_skip.
        change (words_of (S q) b) with (word_of (firstn (Z.to_nat WB) b) :: words_of q (skipn (Z.to_nat WB) b)).
        cbn [app]. reflexivity. }
    assert (LL : Z.of_nat (length bytes) = n / WB * WB + n mod WB) by (fold n; lia).
    pose proof (LAST _ bytes LL D0) as LAST0.
    destruct (Z.leb_spec 1 (n / WB)).
    + destruct (raw_ok c (words_of (Z.to_nat (n / WB)) bytes) I ltac:(rewrite WL; lia)) as (c1&s&r&E1&I1&G1&O1&T1&F1).
      rewrite E1. cbn [bind]. destruct s.
      * destruct (T1 eq_refl) as (-> & T2 & T3 & T4). rewrite WL in T2.
        assert (SZ : c_size c1 = c_size c) by (unfold c_size; destruct G1 as [-> _]; auto).
        destruct (raw_ok c1 [word_of (skipn (Z.to_nat (n / WB * WB)) bytes)] I1 ltac:(cbn [length]; lia)) as (c2&s2&r2&E2&I2&G2&O2&U1&F2).
        rewrite E2. cbn [bind]. eexists _, _, _. split; [reflexivity|]. split; auto. split; [eapply grows_trans; eauto|].
        split; [intros i Hi; rewrite O2 by lia; apply O1; auto|]. split.
        -- destruct s2; [|rewrite F2 by discriminate; lia..]. specialize (U1 eq_refl). lia.
        -- intros ->. destruct (U1 eq_refl) as (-> & U2 & U3 & U4). cbn [length] in U2. split; auto. split; [lia|].
           rewrite AW, LAST0. intros k w Ek.
           destruct (Nat.lt_ge_cases k (length (words_of (Z.to_nat (n / WB)) bytes))) as [LT|GE].
           ++ rewrite nth_error_app1 in Ek by auto. rewrite O2; [apply T4; auto|].
              rewrite words_len in LT. destruct I as (? & _). lia.
           ++ rewrite nth_error_app2 in Ek by auto. 
              destruct (k - length (words_of (Z.to_nat (n / WB)) bytes))%nat as [|q] eqn:Q; [|destruct q; discriminate].
              specialize (U4 0%nat w Ek). rewrite words_len in *. rewrite <- U4. f_equal. destruct I as (? & _). lia.
      * eexists _, _, _. split; [reflexivity|]. repeat (split; auto). rewrite F1 by discriminate; lia. all: discriminate.
      * eexists _, _, _. split; [reflexivity|]. repeat (split; auto). rewrite F1 by discriminate; lia. all: discriminate.
    + assert (Z0 : n / WB = 0) by lia. rewrite Z0 in *. 
      destruct (raw_ok c [word_of (skipn (Z.to_nat (0 * WB)) bytes)] I ltac:(cbn [length]; lia)) as (c1&s&r&E1&I1&G1&O1&T1&F1).
      rewrite E1. eexists _, _, _. split; [reflexivity|]. split; auto. split; auto. split; auto. split.
      * destruct s; [|rewrite F1 by discriminate; lia..]. specialize (T1 eq_refl). cbn [length] in T1. lia.
      * intros ->. destruct (T1 eq_refl) as (-> & T2 & T3 & T4). cbn [length] in T2. split; auto. split; [lia|].
        rewrite AW, LAST0. exact T4.
Qed.

Lemma cell_ptr ix : 0 <= ix -> ix mod 2 = 0 -> ix < 2 ^ (W - 8) ->
  let p := Z.lor (Z.lor (Z.lor (wrap W (Z.shiftl ix ADDRESS_SHIFT)) PTR_BIT) TYPE_CONS) PTR_TO_CONSTANT_BIT in
  dec_ptr p = ix /\ 2 * dec_cons_cell_ptr p = ix.
Proof.
  intros P EV B. cbv zeta.
  assert (E : Z.lor (Z.lor (Z.lor (wrap W (Z.shiftl ix ADDRESS_SHIFT)) PTR_BIT) TYPE_CONS) PTR_TO_CONSTANT_BIT
    = 5 * 2 ^ (W - 6) + ix * 4 + 0 * 2 + 1).
  { rewrite <- (Z.lor_assoc _ PTR_BIT), (Z.lor_comm PTR_BIT), (Z.lor_assoc _ TYPE_CONS).
    change (Z.lor (enc_cons_ptr ix) PTR_TO_CONSTANT_BIT = 5 * 2 ^ (W - 6) + ix * 4 + 0 * 2 + 1).
    rewrite enc_cons_ptr_f by lia. pose proof W_pos.
    replace PTR_TO_CONSTANT_BIT with (1 * 2 ^ (W - 6)) by (arch; reflexivity).
    assert (P6 : 2 ^ (W - 6) = 2 ^ (W - 8) * 4).
    { replace (W - 6) with (W - 8 + 2) by lia. rewrite Z.pow_add_r by lia. reflexivity. }
    replace (4 * 2 ^ (W - 6) + ix * 4 + 0 * 2 + 1) with (4 * 2 ^ (W - 6) + (ix * 4 + 1)) by lia.
    rewrite <- (lor_add 4) by lia. rewrite <- Z.lor_assoc, (Z.lor_comm (ix * 4 + 1)), Z.lor_assoc.
    rewrite <- !Z.shiftl_mul_pow2 by lia. rewrite <- Z.shiftl_lor. change (Z.lor 4 1) with 5.
    rewrite Z.shiftl_mul_pow2 by lia. rewrite lor_add by lia. lia. }
  rewrite E. destruct (fields_unique 5 ix 0 1 ltac:(lia) (conj P B) ltac:(lia) ltac:(lia)) as (WD&FT&FI&_&_).
  set (p := 5 * 2 ^ (W - 6) + ix * 4 + 0 * 2 + 1) in *. clearbody p.
  rewrite dec_ptr_f. split; auto. unfold dec_cons_cell_ptr. rewrite dec_ptr_f, FI.
  replace PTR_TO_CONSTANT_BIT with (Z.shiftl (Z.ones 1) (W - 6)) by (arch; reflexivity).
  rewrite land_field by (pose proof W_pos; lia). fold (f_ty p). rewrite FT. change (5 mod 2 ^ 1) with 1.
  replace PTR_TO_CONSTANT_SHIFT with (W - 6) by (arch; reflexivity).
  rewrite (Z.shiftr_div_pow2 (1 * _)) by (pose proof W_pos; lia).
  rewrite Z.div_mul by (apply Z.pow_nonzero; pose proof W_pos; lia).
  rewrite Z.shiftr_div_pow2 by lia. change (2 ^ 1) with 2. lia.
Qed.

Lemma dec_ptr_pos x : 0 <= dec_ptr x < 2 ^ W.
Proof.
  rewrite dec_ptr_f. pose proof (f_ix_range x) as R. pose proof W_pos.
  assert (2 ^ (W - 8) <= 2 ^ W) by (apply Z.pow_le_mono_r; lia). lia.
Qed.

Lemma cinv_size c c' : grows c c' -> c_size c' = c_size c.
Proof. intros [L _]. unfold c_size. congruence. Qed.

Lemma mod2_step a b : a mod 2 = 1 -> b mod 2 = 0 -> a <= b -> a + 1 <= b /\ (a + 1) mod 2 = 0.
Proof. intros. Z.div_mod_to_equations. lia. Qed.

Lemma cell_ok c : cinv c -> c_size c <= 2 ^ (W - 8) ->
  let '(c', s, p) := allocate_const_cell c in
  cinv c' /\ c_mem c' = c_mem c /\ c_next c <= c_next c' /\
  (s = WRITE_OK -> c_next c <= dec_ptr p /\ c_next c' = dec_ptr p + 2 /\ dec_ptr p mod 2 = 0 /\ 2 * dec_cons_cell_ptr p = dec_ptr p /\
     dec_ptr p + 2 <= c_size c).
Proof.
  intros (B&S&EV) SZ. unfold allocate_const_cell.
  set (nx := if c_next c mod 2 =? 1 then wrap W (c_next c + 1) else c_next c).
  assert (N : c_next c <= nx <= c_size c /\ nx mod 2 = 0).
  { unfold nx. destruct (Z.eqb_spec (c_next c mod 2) 1) as [E|E].
    - rewrite wrap_small by lia. destruct (mod2_step _ _ E EV ltac:(lia)). lia.
    - split; [lia|]. pose proof (Z.mod_pos_bound (c_next c) 2). lia. }
  clearbody nx. cbv zeta. rewrite !(wrap_small W (nx + _)) by lia.
  destruct (Z.ltb_spec (nx + 1) (c_size c)).
  - destruct (cell_ptr nx ltac:(lia) ltac:(lia) ltac:(lia)) as [D1 D2]. unfold cinv, c_size in *. cbn [c_mem c_next].
    split; [lia|]. split; auto. split; [lia|]. intros _. rewrite D1. repeat split; auto; lia.
  - unfold cinv, c_size in *. cbn [c_mem c_next]. split; [lia|]. split; auto. split; [lia|discriminate].
Qed.

Lemma allocraw_ok c n : cinv c -> 0 <= n -> c_size c + n < 2 ^ W ->
  let '(c', s, p) := allocate_const_raw c n in
  cinv c' /\ c_mem c' = c_mem c /\ c_next c <= c_next c' /\
  (s = WRITE_OK -> p = c_next c /\ c_next c' = p + n /\ p + n < c_size c).
Proof.
  intros (B&S&EV) P L. unfold allocate_const_raw. rewrite wrap_small by lia.
  destruct (Z.ltb_spec (c_next c + n) (c_size c)); unfold cinv, c_size in *; cbn [c_mem c_next];
    (split; [lia|]); split; auto; (split; [lia|]); auto; discriminate.
Qed.

(* Everything a step does. *)
Lemma step_all c o : cinv c -> c_size c <= 2 ^ (W - 8) -> op_ok (length (c_mem c)) o ->
  exists c' a, step c o = Ok (c', a) /\ cinv c' /\ grows c c' /\ c_next c <= c_next c' /\
  Forall (fun r => c_next c <= fst r /\ 0 <= snd r /\ fst r + snd r <= c_next c') (range (o, a)) /\
  (match o with OWord _ _ | OCar _ _ | OCdr _ _ => c_next c' = c_next c | _ =>
     forall i, Z.of_nat i < c_next c -> nth_error (c_mem c') i = nth_error (c_mem c) i end).
Proof.
  intros I SZ OK. unfold op_ok, c_size in *. destruct o as [|n|d|d|ix v|p v|p v]; cbn [step].
  - pose proof (cell_ok c I SZ) as H. destruct (allocate_const_cell c) as [[c1 s] p]. destruct H as (I1&M1&N1&T).
    eexists _, _. split; [reflexivity|]. split; auto. split; [unfold grows; rewrite M1; auto|]. split; auto. split.
    + destruct s; cbn [range]; constructor; auto. cbn [fst snd]. specialize (T eq_refl). lia.
    + intros. congruence.
  - destruct OK as [OK1 OK2]. pose proof (allocraw_ok c n I OK1 OK2) as H. destruct (allocate_const_raw c n) as [[c1 s] p].
    destruct H as (I1&M1&N1&T).
    eexists _, _. split; [reflexivity|]. split; auto. split; [unfold grows; rewrite M1; auto|]. split; auto. split.
    + destruct s; cbn [range]; constructor; auto. cbn [fst snd]. specialize (T eq_refl). lia.
    + intros. congruence.
  - destruct (raw_ok c d I OK) as (c1&s&r&E&I1&G1&O1&T1&F1). rewrite E. cbn [bind].
    eexists _, _. split; [reflexivity|]. split; auto. split; auto.
    assert (c_next c <= c_next c1). { destruct s; [|rewrite F1 by discriminate; lia..]. specialize (T1 eq_refl). lia. }
    split; auto. split; auto. destruct s; cbn [range]; constructor; auto. cbn [fst snd]. specialize (T1 eq_refl). lia.
  - destruct OK as [OK _]. destruct (array_ok c d I OK) as (c1&s&r&E&I1&G1&O1&N1&T1). rewrite E. cbn [bind].
    eexists _, _. split; [reflexivity|]. split; auto. split; auto. split; auto. split; auto.
    destruct s; cbn [range]; constructor; auto. cbn [fst snd]. destruct (T1 eq_refl) as (->&T2&_). split; [lia|]. split; [|lia].
    pose proof WB_pos. unfold array_words. apply Z.div_pos; lia.
  - unfold const_write. destruct (dev_ok c ix v OK) as (c1&ok&E&G&NX&O&T&F). rewrite E. cbn [bind].
    eexists _, _. split; [reflexivity|]. split.
    { unfold cinv in *. rewrite (cinv_size _ _ G), NX. auto. } split; auto. split; [lia|]. split; [destruct ok; constructor|auto].
  - unfold write_const_car. destruct (dev_ok c (dec_ptr p) v ltac:(apply dec_ptr_pos)) as (c1&ok&E&G&NX&O&T&F). rewrite E. cbn [bind].
    eexists _, _. split; [reflexivity|]. split.
    { unfold cinv in *. rewrite (cinv_size _ _ G), NX. auto. } split; auto. split; [lia|]. split; [destruct ok; constructor|auto].
  - unfold write_const_cdr. assert (0 <= wrap W (dec_ptr p + 1)) as P0 by (unfold wrap; apply Z.mod_pos_bound, Z.pow_pos_nonneg; pose proof W_pos; lia).
    destruct (dev_ok c _ v P0) as (c1&ok&E&G&NX&O&T&F). rewrite E. cbn [bind].
    eexists _, _. split; [reflexivity|]. split.
    { unfold cinv in *. rewrite (cinv_size _ _ G), NX. auto. } split; auto. split; [lia|]. split; [destruct ok; constructor|auto].
Qed.

Lemma steps_all c h c' : steps c h c' -> cinv c -> c_size c <= 2 ^ (W - 8) ->
  cinv c' /\ grows c c' /\ c_next c <= c_next c' /\
  Forall (fun r => c_next c <= fst r /\ 0 <= snd r /\ fst r + snd r <= c_next c') (ranges h) /\
  ForallOrdPairs apart (ranges h).
Proof.
  induction 1 as [c|c o a c1 h c2 OK E ST IH]; intros I SZ.
  - split; auto. split; [split; auto|]. split; [lia|]. split; constructor.
  - destruct (step_all c o I SZ OK) as (c1'&a'&E'&I1&G1&N1&R1&_). rewrite E in E'. injection E' as <- <-.
    destruct (IH I1 ltac:(rewrite (cinv_size _ _ G1); auto)) as (I2&G2&N2&R2&P2).
    split; auto. split; [eapply grows_trans; eauto|]. split; [lia|]. unfold ranges. cbn [flat_map]. fold (ranges h).
    assert (CASE : range (o, a) = [] \/ exists r, range (o, a) = [r])
      by (destruct o, a as [[| |] ?]; cbn; eauto).
    destruct CASE as [->|[r RE]].
    + cbn [app]. split; auto. eapply Forall_impl; [|exact R2]. cbn. intros; lia.
    + rewrite RE in *. cbn [app]. inversion R1 as [|? ? R3 _]; subst. split.
      * constructor; [lia|]. eapply Forall_impl; [|exact R2]. cbn. intros; lia.
      * constructor; auto. eapply Forall_impl; [|exact R2]. unfold apart. cbn. intros; lia.
Qed.

(* ---- Properties ---- *)

(* A constant heap over any memory contents: [next] in range, an even number of
   words (both checked or set by lbm_const_heap_init) that pointers can address. *)
Definition const_ready (c : cheap) : Prop :=
  0 <= c_next c <= c_size c /\ c_size c <= 2 ^ (W - 8) /\ c_size c mod 2 = 0.

Lemma ready_inv c : const_ready c -> cinv c /\ c_size c <= 2 ^ (W - 8).
Proof.
  intros (B&S&E). split; auto. split; auto. split; auto. eapply Z.le_lt_trans; [exact S|]. arch; reflexivity.
Qed.

(* No operation leaves the memory; the heap stays usable. *)
Theorem const_safe : forall c o, const_ready c -> op_ok (length (c_mem c)) o ->
  exists c' a, step c o = Ok (c', a) /\ const_ready c' /\ c_size c' = c_size c.
Proof.
  intros c o R OK. destruct (ready_inv c R) as [I SZ]. destruct (step_all c o I SZ OK) as (c'&a&E&I1&G&_).
  eexists _, _. split; [exact E|]. pose proof (cinv_size _ _ G) as SE. split; auto. destruct I1 as (?&?&?).
  repeat split; auto; lia.
Qed.

(* Over any history: what was handed out lies within the memory and never
   overlaps; a word that is not the erased pattern never changes again. *)
Theorem const_append_only : forall c h c', const_ready c -> steps c h c' ->
  ForallOrdPairs apart (ranges h) /\
  Forall (fun r => c_next c <= fst r /\ 0 <= snd r /\ fst r + snd r <= c_size c) (ranges h) /\
  (forall i v, nth_error (c_mem c) i = Some v -> v <> ERASED -> nth_error (c_mem c') i = Some v).
Proof.
  intros c h c' R ST. destruct (ready_inv c R) as [I SZ]. destruct (steps_all c h c' ST I SZ) as (I2&G&N&F&P).
  split; auto. split; [|apply G]. rewrite <- (cinv_size _ _ G). destruct I2 as (B&_).
  eapply Forall_impl; [|exact F]. cbn. intros; lia.
Qed.

(* The allocating operations leave every word handed out before alone, erased or not. *)
Theorem const_alloc_keeps : forall c o c' a, const_ready c -> op_ok (length (c_mem c)) o -> step c o = Ok (c', a) ->
  match o with OWord _ _ | OCar _ _ | OCdr _ _ => False | _ => True end ->
  forall i, Z.of_nat i < c_next c -> nth_error (c_mem c') i = nth_error (c_mem c) i.
Proof.
  intros c o c' a R OK E NW. destruct (ready_inv c R) as [I SZ]. destruct (step_all c o I SZ OK) as (c2&a2&E2&_&_&_&_&K).
  rewrite E in E2. injection E2 as <- <-. destruct o; auto; contradiction.
Qed.

(* Written words read back at the address returned. *)
Theorem const_write_reads_back : forall c data c' ix, const_ready c -> op_ok (length (c_mem c)) (OWrite data) ->
  write_const_raw c data = Ok (c', WRITE_OK, ix) ->
  forall k w, nth_error data k = Some w -> rd (c_mem c') (ix + Z.of_nat k) = Ok w.
Proof.
  intros c d c' ix R OK E k w K. destruct (ready_inv c R) as [I SZ]. destruct (raw_ok c d I OK) as (c1&s&r&E1&I1&G1&O1&T1&F1).
  rewrite E in E1. injection E1 as <- <- <-. destruct (T1 eq_refl) as (->&_&_&T). destruct I as (B&_).
  apply rd_nth; [lia|]. rewrite <- (T k w K). f_equal. lia.
Qed.

Lemma word_byte b : Forall (fun x => 0 <= x < 256) b -> forall k v, nth_error b k = Some v ->
  (word_of b / 256 ^ Z.of_nat k) mod 256 = v.
Proof.
  induction 1 as [|x t B F IH]; intros [|k] v E; try discriminate; cbn [word_of].
  - injection E as ->. change (256 ^ Z.of_nat 0) with 1. rewrite Z.div_1_r.
    rewrite (Z.mul_comm 256), Z.mod_add by lia. apply Z.mod_small; lia.
  - replace (Z.of_nat (S k)) with (1 + Z.of_nat k) by lia. rewrite Z.pow_add_r by lia. change (256 ^ 1) with 256.
    rewrite <- Z.div_div by (try apply Z.pow_pos_nonneg; lia).
    replace ((x + 256 * word_of t) / 256) with (word_of t); [apply IH; auto|].
    apply Z.div_unique with x; lia.
Qed.

Lemma words_nth n : forall b k w, nth_error (words_of n b) k = Some w ->
  w = word_of (firstn (Z.to_nat WB) (skipn (k * Z.to_nat WB) b)).
Proof.
  induction n; intros b [|k] w E; try discriminate; cbn [words_of] in E.
  - injection E as <-. reflexivity.
  - cbn [nth_error] in E. rewrite (IHn _ _ _ E), skip_skip. reflexivity.
Qed.

Lemma nth_firstn {X} n : forall (l : list X) k, (k < n)%nat -> nth_error (firstn n l) k = nth_error l k.
Proof. induction n; intros [|x l] [|k] H; cbn; auto; try lia. apply IHn. lia. Qed.
Lemma nth_skipn {X} n : forall (l : list X) k, nth_error (skipn n l) k = nth_error l (n + k).
Proof. induction n; intros [|x l] k; cbn; auto. destruct k; auto. Qed.

(* Byte j of a byte array written to flash is byte (j mod word size) of word
   (j / word size) from the address returned. *)
Theorem const_array_reads_back : forall c bytes c' ix, const_ready c -> op_ok (length (c_mem c)) (OArray bytes) ->
  write_const_array_padded c bytes = Ok (c', WRITE_OK, ix) ->
  forall j b, nth_error bytes j = Some b ->
  exists w, rd (c_mem c') (ix + Z.of_nat j / WB) = Ok w /\ (w / 256 ^ (Z.of_nat j mod WB)) mod 256 = b.
Proof.
  intros c d c' ix R [OK BY] E j b J. destruct (ready_inv c R) as [I SZ]. destruct (array_ok c d I OK) as (c1&s&r&E1&I1&G1&O1&N1&T1).
  rewrite E in E1. injection E1 as <- <- <-. destruct (T1 eq_refl) as (->&_&T). destruct I as (B&_).
  pose proof WB_pos as WP. assert (WN : WB <> 0) by lia. assert (WQ : 0 < WB) by lia. assert (JL : (j < length d)%nat) by (apply nth_error_Some; congruence).
  pose proof (Z.div_mod (Z.of_nat j) WB WN) as DM. pose proof (Z.mod_pos_bound (Z.of_nat j) WB WQ) as MB.
  assert (Q0 : 0 <= Z.of_nat j / WB) by (apply Z.div_pos; lia).
  set (q := Z.of_nat j / WB) in *. set (m := Z.of_nat j mod WB) in *.
  assert (QL : q < array_words d).
  { unfold array_words. apply Z.lt_le_trans with (q + 1); [lia|]. apply Z.div_le_lower_bound; [lia|].
    clearbody q m. nia. }
  destruct (nth_error (words_of (Z.to_nat (array_words d)) d) (Z.to_nat q)) as [w|] eqn:EW.
  2:{ apply nth_error_None in EW. rewrite words_len in EW. lia. }
  exists w. split.
  - apply rd_nth; [lia|]. rewrite <- (T _ _ EW). f_equal. lia.
  - rewrite (words_nth _ _ _ _ EW). rewrite <- (Z2Nat.id m) by lia. apply word_byte.
    + apply Forall_forall. intros x IN. eapply Forall_forall in BY; [exact BY|].
      rewrite <- (firstn_skipn (Z.to_nat q * Z.to_nat WB) d). apply in_or_app. right.
      rewrite <- (firstn_skipn (Z.to_nat WB) (skipn _ d)). apply in_or_app. auto.
    + rewrite nth_firstn by lia. rewrite nth_skipn. rewrite <- J. f_equal.
      apply Nat2Z.inj. rewrite Nat2Z.inj_add, Nat2Z.inj_mul, !Z2Nat.id by lia. lia.
Qed.

(* A constant cell whose car and cdr are written is read back by car and cdr. *)
Theorem const_cell_reads_back : forall c c1 p x y c2 c3, const_ready c ->
  allocate_const_cell c = (c1, WRITE_OK, p) ->
  write_const_car c1 p x = Ok (c2, WRITE_OK) -> write_const_cdr c2 p y = Ok (c3, WRITE_OK) ->
  const_car c3 p = Ok x /\ const_cdr c3 p = Ok y.
Proof.
  intros c c1 p x y c2 c3 R EA EX EY. destruct (ready_inv c R) as [I SZ]. pose proof (cell_ok c I SZ) as H.
  rewrite EA in H. destruct H as (I1&M1&N1&T). destruct (T eq_refl) as (T1&T2&T3&T4&T5). destruct I as (B&B2&_).
  assert (P0 : 0 <= dec_ptr p) by lia. assert (P1 : 0 <= dec_ptr p + 1) by lia.
  unfold write_const_car in EX. destruct (dev_ok c1 _ x P0) as (c2'&ok&E&G&NX&O&TT&F).
  rewrite E in EX. cbn [bind] in EX. destruct ok; [|discriminate]. injection EX as <-.
  unfold write_const_cdr in EY. rewrite wrap_small in EY by lia.
  destruct (dev_ok c2' _ y P1) as (c3'&ok&E3&G3&NX3&O3&TT3&F3).
  rewrite E3 in EY. cbn [bind] in EY. destruct ok; [|discriminate]. injection EY as <-.
  unfold const_car, const_cdr. rewrite T4. split.
  - apply rd_nth; [lia|]. rewrite O3 by lia. apply TT. auto.
  - apply rd_nth; [lia|]. apply TT3. auto.
Qed.
End Arch.

(* A request for exactly the words that are left is refused, for any size: the
   test is next + n < size. *)
Theorem const_last_word_refuted : forall (A : Arch) c, const_ready c ->
  snd (fst (allocate_const_raw c (c_size c - c_next c))) = FLASH_FULL.
Proof.
  intros A c R. destruct (ready_inv c R) as [(B&S&_) _]. unfold allocate_const_raw.
  replace (c_next c + (c_size c - c_next c)) with (c_size c) by lia. rewrite wrap_small by lia.
  rewrite Z.ltb_irrefl. reflexivity.
Qed.

(* In a 64-bit REPL nothing can ever be written: erased words are all ones, 64
   of them, and the write function compares with 32 ones. *)
Theorem repl64_flash_refuted : forall n h c, const_ready (A := A64) (const_heap_init (A := A64) n) ->
  steps (A := A64) (const_heap_init (A := A64) n) h c -> c_mem c = c_mem (const_heap_init (A := A64) n).
Proof.
  intros n h c R ST. destruct (ready_inv (A := A64) _ R) as [I SZ].
  destruct (steps_all (A := A64) _ _ _ ST I SZ) as (_&[L G]&_).
  cbn [const_heap_init c_mem] in *. rewrite repeat_length in L. rewrite <- L.
  assert (AL : Forall (eq (2 ^ W (A := A64) - 1)) (c_mem c)).
  { apply Forall_forall. intros x IN. apply In_nth_error in IN. destruct IN as [i E].
    assert (LT : (i < n)%nat) by (rewrite <- L; apply nth_error_Some; congruence).
    specialize (G i (2 ^ W (A := A64) - 1) (nth_error_repeat _ LT) ltac:(discriminate)). congruence. }
  clear - AL. induction AL; cbn [length repeat]; congruence.
Qed.

(* Non-vacuity: a 32-bit heap of 16 words; a cell after an odd number of words,
   an array of five bytes, and a refused overwrite. *)
Definition ex_c : cheap := const_heap_init (A := A32) 16.
Definition ex_ops : list op := [OWrite [7]; OCell; OCar 0x14000009 11; OCdr 0x14000009 12; OArray [1; 2; 3; 4; 5]; OWord 0 8; ORaw 9; ORaw 10].
Fixpoint runs (c : cheap) (os : list op) : res (cheap * list ans) :=
  match os with
  | [] => Ok (c, [])
  | o :: t => let! (c1, a) := step (A := A32) c o in let! (c2, l) := runs c1 t in Ok (c2, a :: l)
  end.
Example const_case : const_ready (A := A32) ex_c /\
  runs ex_c ex_ops = Ok (mkch ([7; 0xffffffff; 11; 12; 0x04030201; 5] ++ repeat 0xffffffff 10) 15,
   [Ans WRITE_OK 0; Ans WRITE_OK 2; Ans WRITE_OK 0; Ans WRITE_OK 0; Ans WRITE_OK 4; Ans WRITE_ERROR 0; Ans WRITE_OK 6; Ans FLASH_FULL 0]).
Proof. split; [|vm_compute; reflexivity]. unfold const_ready. vm_compute. repeat split; discriminate. Qed.
Example const_case64 : const_ready (A := A64) (const_heap_init (A := A64) 16) /\
  write_const_raw (A := A64) (const_heap_init (A := A64) 16) [7] = Ok (const_heap_init (A := A64) 16, WRITE_ERROR, 0).
Proof. split; [|vm_compute; reflexivity]. unfold const_ready. vm_compute. repeat split; discriminate. Qed.

Print Assumptions const_safe.
Print Assumptions const_append_only.
Print Assumptions const_alloc_keeps.
Print Assumptions const_write_reads_back.
Print Assumptions const_array_reads_back.
Print Assumptions const_cell_reads_back.
Print Assumptions const_last_word_refuted.
Print Assumptions repl64_flash_refuted.
