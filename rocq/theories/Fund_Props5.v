(* C84: the conversions between the types of integers. *)
From Verif Require Import Base Value_Model Heap_Model Value_Proofs Value_Proofs2 Value_Props Heap_Spec Heap_Proofs Heap_Proofs2 List_Proofs GC_Model.
From Verif Require Import Eq_Model Eq_Spec Eval_Proofs Flat_Model Flat_Spec Flat_Proofs Flat_Proofs2 Flat_Proofs3 Read_Model Read_Proofs2.
From Verif Require Import ArrExt_Model ArrExt_Spec ArrExt_Proofs StrExt_Spec StrExt_Proofs Fund_Model Fund_Spec Fund_Proofs Fund_Props.
Local Open Scope Z_scope.

Section Arch.
Context {A : Arch} {L : Libc} {C : Conv}.

(* the type of the result and the number of its bits *)
Definition target (c : conversion) : kind :=
  match c with ToI => KI | ToU => KU | ToI32 => KI32 | ToU32 => KU32 | ToI64 => KI64 | ToU64 => KU64 | ToByte => KChar end.
Definition bits_of (c : conversion) : Z :=
  match c with ToI | ToU => payload A | ToI32 | ToU32 => 32 | ToI64 | ToU64 => 64 | ToByte => 8 end.
(* [m] is the number of that type which agrees with [n] in these bits *)
Definition reduced (c : conversion) (n m : Z) : Prop := in_range (target c) m /\ exists j, m = n + j * 2 ^ bits_of c.

Lemma dec_as_ok w fl h v n : integer fl h v n -> dec_as w h v = Ok (w n).
Proof.
  intros (k&IK&D). inversion D as [v' k' n' Hd Sy T R| | |]; subst. unfold dec_as. rewrite T. destruct IK as (N1&N2&N3).
  destruct k; try congruence; cbn [kind_tag reads] in *.
  - subst n. rewrite Z.eqb_refl. auto.
  - subst n. replace (TYPE_I =? TYPE_CHAR) with false by (arch; reflexivity). rewrite Z.eqb_refl. auto.
  - subst n. replace (TYPE_U =? TYPE_CHAR) with false by (arch; reflexivity). replace (TYPE_U =? TYPE_I) with false by (arch; reflexivity). rewrite Z.eqb_refl. auto.
  - destruct R as (x&P&->). rewrite P.
    replace (TYPE_I32 =? TYPE_CHAR) with false by (arch; reflexivity). replace (TYPE_I32 =? TYPE_I) with false by (arch; reflexivity).
    replace (TYPE_I32 =? TYPE_U) with false by (arch; reflexivity). rewrite Z.eqb_refl. auto.
  - destruct R as (x&P&->). rewrite P.
    replace (TYPE_U32 =? TYPE_CHAR) with false by (arch; reflexivity). replace (TYPE_U32 =? TYPE_I) with false by (arch; reflexivity).
    replace (TYPE_U32 =? TYPE_U) with false by (arch; reflexivity). replace (TYPE_U32 =? TYPE_I32) with false by (arch; reflexivity). rewrite Z.eqb_refl. auto.
  - destruct R as (x&P&->). rewrite P.
    replace (TYPE_I64 =? TYPE_CHAR) with false by (arch; reflexivity). replace (TYPE_I64 =? TYPE_I) with false by (arch; reflexivity).
    replace (TYPE_I64 =? TYPE_U) with false by (arch; reflexivity). replace (TYPE_I64 =? TYPE_I32) with false by (arch; reflexivity).
    replace (TYPE_I64 =? TYPE_U32) with false by (arch; reflexivity). rewrite Z.eqb_refl. auto.
  - destruct R as (x&P&->). rewrite P.
    replace (TYPE_U64 =? TYPE_CHAR) with false by (arch; reflexivity). replace (TYPE_U64 =? TYPE_I) with false by (arch; reflexivity).
    replace (TYPE_U64 =? TYPE_U) with false by (arch; reflexivity). replace (TYPE_U64 =? TYPE_I32) with false by (arch; reflexivity).
    replace (TYPE_U64 =? TYPE_U32) with false by (arch; reflexivity). replace (TYPE_U64 =? TYPE_I64) with false by (arch; reflexivity). rewrite Z.eqb_refl. auto.
Qed.

(* ---- what the encoders do ---- *)
Lemma gives_outcome t u u' v ads rest fl fl' : ready u fl -> gives t u u' v ads rest fl fl' -> up u = ads ++ rest -> Forall (fun a => a <> 0) ads ->
  outcome (cells_of t) (length ads) u fl t u' v.
Proof.
  intros R G U NZ. destruct R as [OK N0 (ND&FR)].
  assert (AV : avail (up u) = (length ads + avail rest)%nat).
  { rewrite U. clear - NZ. induction NZ as [|a ads N NZ IH]; auto. cbn [app avail length]. destruct (Z.eqb_spec a 0); [congruence|]. lia. }
  assert (FS : firstn (avail (up u)) (up u) = ads ++ firstn (avail rest) rest).
  { rewrite AV, U. rewrite firstn_app. rewrite firstn_all2 by lia. do 2 f_equal. lia. }
  rewrite FS in ND, FR. apply Forall_app in FR as (F1&F2).
  exists fl'. split; [apply G|]. split; [apply G|]. split.
  - intros w s D. eapply den_grows; [|apply G|exact D]. split; [apply G|]. split; [apply G|]. intros a o M. rewrite (g_mem _ _ _ _ _ _ _ _ G); auto.
    intros I. rewrite Forall_forall in F1. specialize (F1 _ I). congruence.
  - left. split; [pose proof (g_len _ _ _ _ _ _ _ _ G); lia|]. split; [lia|]. split; [|apply hide_none, (g_den _ _ _ _ _ _ _ _ G); auto].
    constructor; [apply G| |].
    + rewrite (g_mem _ _ _ _ _ _ _ _ G); auto. intros I. rewrite Forall_forall in NZ. apply (NZ _ I). auto.
    + rewrite (g_pool _ _ _ _ _ _ _ _ G). split.
      * clear - ND. induction ads; auto. inversion ND; auto.
      * rewrite Forall_forall in *. intros x X. rewrite (g_mem _ _ _ _ _ _ _ _ G); auto. intros I.
        clear - ND I X. induction ads as [|a ads IH]; [destruct I|]. inversion ND as [|? ? NI ND']; subst. destruct I as [->|I]; auto. apply NI, in_or_app. auto.
Qed.
Lemma imm_outcome u fl k n v : ready u fl -> is_ptr v = false -> type_of v = kind_tag k -> k <> KSym -> (forall h, reads h v k n) -> cells_of (Leaf k n) = 0%nat ->
  outcome 0 0 u fl (Leaf k n) u v.
Proof.
  intros R P T NS Rd C0. exists fl. split; [apply incl_refl|]. split; [apply R|]. split; [auto|]. left. split; [lia|]. split; [lia|]. split; auto.
  constructor; [intros X; congruence|congruence|rewrite functional_nonptr; auto|auto].
Qed.
Lemma raw_outcome u fl x q ty k n : ready u fl -> good_tag ty -> ty = kind_tag k -> k <> KSym -> cells_of (Leaf k n) = 1%nat ->
  (forall h w, car h w = Ok x -> reads h w k n) -> exists u' r, enc_raw u x q ty = Ok (u', r) /\ outcome 1 0 u fl (Leaf k n) u' r.
Proof.
  intros R G T NS C1 Rd. destruct fl as [|i fl].
  - unfold enc_raw. rewrite cons_fail by apply R. cbn [bind]. rewrite MERROR_type. do 2 eexists. split; [reflexivity|].
    exists []. split; [apply incl_refl|]. split; [apply R|]. split; [auto|]. right. split; [cbn; lia|auto].
  - destruct (enc_raw_ok u i fl x q ty k n (r_heap _ _ R) G T NS C1 Rd) as (u'&v&E&_&Gv). exists u', v. split; auto.
    pose proof (gives_outcome _ _ _ _ _ _ _ _ R Gv eq_refl ltac:(constructor)) as O. rewrite C1 in O. exact O.
Qed.
Lemma box_outcome u fl x q ty k n : b64 = false -> ready u fl -> good_tag ty -> ty = kind_tag k -> k <> KSym -> cells_of (Leaf k n) = 1%nat ->
  (forall h w, payload64 h w = Ok x -> reads h w k n) -> exists u' r, enc_64_on_32 u x q ty = Ok (u', r) /\ outcome 1 1 u fl (Leaf k n) u' r.
Proof.
  intros B R G T NS C1 Rd. destruct fl as [|i fl].
  - unfold enc_64_on_32. rewrite cons_fail by apply R. cbn [bind]. rewrite MERROR_type. cbn [negb]. do 2 eexists. split; [reflexivity|].
    exists []. split; [apply incl_refl|]. split; [apply R|]. split; [auto|]. right. split; [cbn; lia|auto].
  - assert (Dry : avail (up u) = 0%nat -> snd (malloc u) = 0 -> exists u' r, enc_64_on_32 u x q ty = Ok (u', r) /\ outcome 1 1 u (i :: fl) (Leaf k n) u' r).
    { intros Av M0. unfold enc_64_on_32. destruct (cons_ok _ i fl NIL NIL (r_heap _ _ R)) as (h1&E&OK1&Ci&S&Sz&Cc&M&Fr&Ri). rewrite E. cbn [bind].
      rewrite enc_type_not_sym by auto. cbn [negb]. unfold malloc in *. cbn [up set_h]. 
      assert (EM : exists u2, (match up u with [] => (set_h u h1, 0) | a :: rest => (mkU (uh (set_h u h1)) rest (us (set_h u h1)) (uk (set_h u h1)), a) end) = (u2, 0) /\ uh u2 = h1).
      { destruct (up u) as [|a rest]; [eexists; split; reflexivity|]. cbn [snd] in M0. subst a. eexists. split; reflexivity. }
      destruct EM as (u2&EM&E2). rewrite EM. cbn [Z.eqb negb]. do 2 eexists. split; [reflexivity|].
      exists fl. rewrite E2. split; [apply incl_tl, incl_refl|]. split; [auto|]. split.
      - intros w s D. eapply den_grows; [|apply incl_tl, incl_refl|exact D]. split; [|split; [exact Cc|intros; rewrite M; auto]]. intros j J. apply S. intros [->|[]]. apply J. left. auto.
      - right. split; [lia|auto]. }
    destruct (up u) as [|a rest] eqn:U; [apply Dry; auto; unfold malloc; rewrite U; auto|]. destruct (Z.eqb_spec a 0) as [->|NA]; [apply Dry; auto; unfold malloc; rewrite U; auto|].
    destruct (enc_64_on_32_ok u i fl a rest x q ty k n B (r_heap _ _ R) U NA G T NS C1 Rd) as (u'&v&E&_&Gv). exists u', v. split; auto.
    pose proof (gives_outcome _ _ _ _ _ _ _ _ R Gv U ltac:(repeat constructor; auto)) as O. rewrite C1 in O. exact O.
Qed.

Lemma pow_bits a b : 0 <= a <= b -> 2 ^ b = 2 ^ (b - a) * 2 ^ a.
Proof. intros H. rewrite <- Z.pow_add_r by lia. f_equal. lia. Qed.
Lemma reduce_wrap w n : 0 < w -> exists j, n mod 2 ^ w = n + j * 2 ^ w.
Proof. intros H. exists (- (n / 2 ^ w)). pose proof (Z.div_mod n (2 ^ w) ltac:(apply Z.pow_nonzero; lia)). lia. Qed.
Lemma payload_W : 0 < payload A /\ payload A <= W /\ W <= 64. Proof. clear. arch; cbn; lia. Qed.

(* C84: the result is the number reduced to the bits of the type, with room for
   the box of a boxed type *)
Theorem convert_correct c u fl v n : ready u fl -> integer fl (uh u) v n ->
  exists u' r m, convert c u [v] = Ok (u', r) /\ reduced c n m /\
    outcome (if boxed (target c) then 1 else 0) (if blocked (target c) then 1 else 0) u fl (Leaf (target c) m) u' r.
Proof.
  intros R I. pose proof payload_W as (P1&P2&P3). assert (P0 : 0 < W) by lia. destruct (integer_arg _ _ _ _ I) as (_&DU&DI).
  destruct c; cbn [convert target]; unfold reduced; cbn [target in_range bits_of boxed blocked].
  - (* to-i *) unfold dec_as_i64. rewrite (dec_as_ok _ _ _ _ _ I). cbn [bind]. exists u. eexists. exists (dec_i (enc_i (sgn W (sgn 64 n)))). split; [reflexivity|].
    destruct (enc_i_wraps (sgn W (sgn 64 n))) as (k1&E1&B1). destruct (sgn_spec W (sgn 64 n) P0) as (_&k2&E2). destruct (sgn_spec 64 n ltac:(lia)) as (_&k3&E3).
    split.
    + split; auto. exists (k3 * 2 ^ (64 - payload A) + k2 * 2 ^ (W - payload A) + k1). rewrite E1, E2, E3.
      rewrite (pow_bits (payload A) 64), (pow_bits (payload A) W) by lia. ring.
    + pose proof (enc_kinds (sgn W (sgn 64 n))) as (T1&T2&T3&T4&Q1&Q2&Q3&Q4&_). apply imm_outcome; auto; try discriminate. intros h. reflexivity.
  - (* to-u *) unfold dec_as_u64. rewrite (dec_as_ok _ _ _ _ _ I). cbn [bind]. exists u. eexists. exists (dec_u (enc_u (wrap W (wrap 64 n)))). split; [reflexivity|].
    split.
    + rewrite enc_u_roundtrip. split; [apply Z.mod_pos_bound, Z.pow_pos_nonneg; lia|]. unfold wrap.
      destruct (reduce_wrap (payload A) ((n mod 2 ^ 64) mod 2 ^ W) P1) as (k1&->). destruct (reduce_wrap W (n mod 2 ^ 64) P0) as (k2&->). destruct (reduce_wrap 64 n ltac:(lia)) as (k3&->).
      exists (k3 * 2 ^ (64 - payload A) + k2 * 2 ^ (W - payload A) + k1). rewrite (pow_bits (payload A) 64), (pow_bits (payload A) W) by lia. ring.
    + pose proof (enc_kinds (wrap W (wrap 64 n))) as (T1&T2&T3&T4&Q1&Q2&Q3&Q4&_). apply imm_outcome; auto; try discriminate. intros h. reflexivity.
  - (* to-i32 *) rewrite DI. cbn [bind]. destruct (sgn_spec 32 n ltac:(lia)) as (Bn&k3&E3). change (32 - 1) with 31 in Bn. set (m := sgn 32 n) in *. unfold enc_i32.
    assert (Rd : (-2 ^ 31 <= m < 2 ^ 31) /\ exists j, m = n + j * 2 ^ 32) by eauto. destruct b64 eqn:B.
    + replace (sgn 32 (wrap 32 m)) with m by (unfold wrap; rewrite sgn_mod_id; auto; lia). do 2 eexists. exists m. split; [reflexivity|]. split; auto. cbn [negb].
      destruct (i32_imm B m Bn) as (IP&IT&IR). apply imm_outcome; auto; try discriminate. cbn. rewrite B. auto.
    + destruct (raw_outcome u fl (wrap 32 m) SYM_RAW_I_TYPE TYPE_I32 KI32 m R) as (u'&r&E&O); auto using good_i32; try discriminate.
      * cbn. rewrite B. auto.
      * intros h w Ec. cbn. unfold payload32. rewrite B. eexists. split; [eauto|]. unfold wrap. rewrite sgn_mod_id; lia.
      * exists u', r, m. auto.
  - (* to-u32 *) rewrite DU. cbn [bind]. destruct (reduce_wrap 32 n ltac:(lia)) as (k3&E3). fold (wrap 32 n) in E3.
    assert (Bn : 0 <= wrap 32 n < 2 ^ 32) by (unfold wrap; apply Z.mod_pos_bound; lia). set (m := wrap 32 n) in *. unfold enc_u32.
    assert (Rd : (0 <= m < 2 ^ 32) /\ exists j, m = n + j * 2 ^ 32) by eauto. destruct b64 eqn:B.
    + do 2 eexists. exists m. split; [reflexivity|]. split; auto. cbn [negb].
      destruct (u32_imm B m Bn) as (IP&IT&IR&_). apply imm_outcome; auto; try discriminate. cbn. rewrite B. auto.
    + destruct (raw_outcome u fl m SYM_RAW_U_TYPE TYPE_U32 KU32 m R) as (u'&r&E&O); auto using good_u32; try discriminate.
      * cbn. rewrite B. auto.
      * intros h w Ec. cbn. unfold payload32. rewrite B. eexists. split; [eauto|]. rewrite wrap_small; auto.
      * exists u', r, m. auto.
  - (* to-i64 *) unfold dec_as_i64. rewrite (dec_as_ok _ _ _ _ _ I). cbn [bind]. destruct (sgn_spec 64 n ltac:(lia)) as (Bn&k3&E3). change (64 - 1) with 63 in Bn. set (m := sgn 64 n) in *. unfold enc_i64.
    assert (Rd : (-2 ^ 63 <= m < 2 ^ 63) /\ exists j, m = n + j * 2 ^ 64) by eauto. destruct b64 eqn:B.
    + destruct (raw_outcome u fl (wrap 64 m) SYM_RAW_I_TYPE TYPE_I64 KI64 m R) as (u'&r&E&O); auto using good_i64; try discriminate.
      * intros h w Ec. cbn. unfold payload64. rewrite Ec, B. cbn. eexists. split; [eauto|]. unfold wrap. rewrite sgn_mod_id; lia.
      * exists u', r, m. auto.
    + destruct (box_outcome u fl (wrap 64 m) SYM_IND_I_TYPE TYPE_I64 KI64 m B R) as (u'&r&E&O); auto using good_i64; try discriminate.
      * intros h w Ec. cbn. eexists. split; [eauto|]. unfold wrap. rewrite sgn_mod_id; lia.
      * exists u', r, m. auto.
  - (* to-u64 *) unfold dec_as_u64. rewrite (dec_as_ok _ _ _ _ _ I). cbn [bind]. destruct (reduce_wrap 64 n ltac:(lia)) as (k3&E3). fold (wrap 64 n) in E3.
    assert (Bn : 0 <= wrap 64 n < 2 ^ 64) by (unfold wrap; apply Z.mod_pos_bound; lia). set (m := wrap 64 n) in *. unfold enc_u64.
    assert (Rd : (0 <= m < 2 ^ 64) /\ exists j, m = n + j * 2 ^ 64) by eauto. destruct b64 eqn:B.
    + destruct (raw_outcome u fl m SYM_RAW_U_TYPE TYPE_U64 KU64 m R) as (u'&r&E&O); auto using good_u64; try discriminate.
      * intros h w Ec. cbn. unfold payload64. rewrite Ec, B. cbn. eexists. split; [eauto|]. rewrite wrap_small; auto.
      * exists u', r, m. auto.
    + destruct (box_outcome u fl m SYM_IND_U_TYPE TYPE_U64 KU64 m B R) as (u'&r&E&O); auto using good_u64; try discriminate.
      * intros h w Ec. cbn. eexists. split; [eauto|]. rewrite wrap_small; auto.
      * exists u', r, m. auto.
  - (* to-byte *) unfold dec_as_char. rewrite (dec_as_ok _ _ _ _ _ I). cbn [bind]. destruct (reduce_wrap 8 n ltac:(lia)) as (k3&E3). fold (wrap 8 n) in E3.
    assert (Bn : 0 <= wrap 8 n < 256) by (unfold wrap; apply Z.mod_pos_bound; lia). exists u. eexists. exists (wrap 8 n). split; [reflexivity|]. split; [eauto|].
    pose proof (enc_kinds (wrap 8 n)) as (T1&T2&T3&T4&Q1&Q2&Q3&Q4&_). apply imm_outcome; auto; try discriminate. intros h. cbn. rewrite enc_char_roundtrip; auto.
Qed.

(* C84: a number of the type stays the same *)
Theorem convert_same c n m : reduced c n m -> in_range (target c) n -> m = n.
Proof.
  intros (R&j&E) Rn. pose proof payload_W as (P1&_).
  assert (PW : 2 ^ payload A = 2 * 2 ^ (payload A - 1)) by (rewrite <- Z.pow_succ_r by lia; f_equal; lia).
  assert (PP : 0 < 2 ^ (payload A - 1)) by (apply Z.pow_pos_nonneg; lia).
  assert (j = 0); [|subst; lia]. destruct c; cbn [target in_range bits_of] in *; nia.
Qed.

End Arch.
Print Assumptions convert_correct.
Print Assumptions convert_same.
