(* The functions of Prim_Model compute what Prim_Spec says. *)
From Verif Require Import Base Value_Model Heap_Model Arith_Model Env_Model Match_Model QQ_Model Eval_Model Prim_Model Eval_Spec Prim_Spec
  Value_Proofs Value_Proofs2 Value_Props Heap_Spec Heap_Proofs Heap_Proofs2 List_Proofs Env_Proofs Env_Props QQ_Proofs Arith_Props Eval_Rel Eval_Proofs Eval_GC Eval_Proofs2 Eval_Proofs3.
Local Open Scope Z_scope.

Section Arch.
Context {A : Arch} {HO : Host}.

Ltac sp := repeat match goal with |- _ /\ _ => split end.

Lemma VS_facts : 0 < VAL_SHIFT /\ 28 <= W - VAL_SHIFT.
Proof. arch; lia. Qed.

Lemma enc_i_sgn x : enc_i (sgn (W - VAL_SHIFT) x) = enc_i x.
Proof.
  unfold enc_i. f_equal. pose proof VS_facts as (V1&V2).
  rewrite !Z.shiftl_mul_pow2 by lia. unfold wrap.
  assert (V3 : 0 < W - VAL_SHIFT) by lia. pose proof (sgn_cong (W - VAL_SHIFT) x V3) as C.
  assert (E : forall y, (y mod 2 ^ W * 2 ^ VAL_SHIFT) mod 2 ^ W = (y mod 2 ^ (W - VAL_SHIFT)) * 2 ^ VAL_SHIFT).
  { intros y. rewrite Z.mul_mod_idemp_l by (apply Z.pow_nonzero; lia).
    replace (2 ^ W) with (2 ^ (W - VAL_SHIFT) * 2 ^ VAL_SHIFT) by (rewrite <- Z.pow_add_r by lia; f_equal; lia).
    apply Z.mul_mod_distr_r; apply Z.pow_nonzero; lia. }
  rewrite !E, C. reflexivity.
Qed.

Lemma dec_i_range x : - 2 ^ (W - VAL_SHIFT - 1) <= dec_i x < 2 ^ (W - VAL_SHIFT - 1).
Proof.
  pose proof VS_facts as (V1&V2). unfold dec_i. rewrite Z.shiftr_div_pow2 by lia.
  assert (V3 : 0 < W) by lia. pose proof (sgn_range W x V3) as R.
  replace (2 ^ (W - 1)) with (2 ^ (W - VAL_SHIFT - 1) * 2 ^ VAL_SHIFT) in R by (rewrite <- Z.pow_add_r by lia; f_equal; lia).
  assert (0 < 2 ^ VAL_SHIFT) by (apply Z.pow_pos_nonneg; lia). split.
  - apply Z.div_le_lower_bound; lia.
  - apply Z.div_lt_upper_bound; lia.
Qed.

Lemma vint_rel w n : vrel w (VInt n) (enc_i n).
Proof.
  unfold VInt. destruct (enc_kinds n) as (_&_&_&_&P&_&_&_&_&S1&_). constructor; auto.
  - unfold enc_i. rewrite imm_f by (arch; lia). unfold word. pose proof VS_facts as (V1&V2).
    assert (T : 0 <= TYPE_I < 2 ^ VAL_SHIFT) by (arch; vm_compute; split; congruence).
    unfold wrap. assert (PP : 0 < 2 ^ (W - VAL_SHIFT)) by (apply Z.pow_pos_nonneg; lia). pose proof (Z.mod_pos_bound (n mod 2 ^ W) (2 ^ (W - VAL_SHIFT)) PP) as B.
    assert (EW : 2 ^ W = 2 ^ (W - VAL_SHIFT) * 2 ^ VAL_SHIFT) by (rewrite <- Z.pow_add_r by lia; f_equal; lia).
    set (q := (n mod 2 ^ W) mod 2 ^ (W - VAL_SHIFT)) in *. clearbody q. rewrite EW. nia.
  - destruct (is_cons (enc_i n)) eqn:C; auto. apply cons_is_ptr in C. congruence.
  - unfold enc_i. rewrite imm_f by (arch; lia). unfold f_gc. pose proof VS_facts as (V1&_).
    replace VAL_SHIFT with (2 + (VAL_SHIFT - 2)) at 2 by lia. rewrite Z.pow_add_r by (arch; lia). change (2 ^ 2) with (2 * 2).
    replace TYPE_I with (TYPE_I / 4 * 2 * 2) by (arch; reflexivity).
    match goal with |- ((?a * (2 * 2 * ?b) + ?c * 2 * 2) / 2) mod 2 = 0 => replace (a * (2 * 2 * b) + c * 2 * 2) with ((a * b + c) * 2 * 2) by lia end.
    rewrite Z.div_mul by lia. apply Z.mod_mul. lia.
  - intros (X&_). congruence.
Qed.

Lemma int_word w v x n : vrel w v x -> int_of v = Some n -> num_of x = Some (TI, n) /\ - 2 ^ (W - VAL_SHIFT - 1) <= n < 2 ^ (W - VAL_SHIFT - 1).
Proof.
  intros V E. destruct V; try discriminate. cbn [int_of] in E. destruct (Z.eqb_spec (type_of x) TYPE_I) as [T|]; [|discriminate].
  injection E as <-. split; [|apply dec_i_range]. unfold num_of. rewrite T, Z.eqb_refl.
  replace (TYPE_I =? TYPE_CHAR) with false by (arch; reflexivity). reflexivity.
Qed.

Lemma error_word w v x : vrel w v x -> is_error x = error_symbol v.
Proof.
  intros V. unfold is_error. destruct V; cbn [error_symbol].
  - rewrite sym_is_symbol, sym_dec by auto. cbn [andb].
    assert (E : Z.land id (2 ^ W - 16) = id / 16 * 16).
    { replace (2 ^ W - 16) with (Z.shiftl (Z.ones (W - 4)) 4) by (arch; reflexivity).
      apply Z.bits_inj'. intros i Hi. rewrite Z.land_spec. change 16 with (2 ^ 4).
      destruct (Z.lt_ge_cases i 4).
      - rewrite Z.shiftl_spec_low, andb_false_r, Z.mul_pow2_bits_low by auto. auto.
      - rewrite Z.shiftl_spec, Z.mul_pow2_bits, Z.div_pow2_bits by lia. replace (i - 4 + 4) with i by lia.
        destruct (Z.lt_ge_cases (i - 4) (W - 4)).
        + rewrite Z.ones_spec_low by lia. apply andb_true_r.
        + rewrite Z.ones_spec_high by (assert (4 <= W) by (clear; arch; lia); lia). rewrite andb_false_r. symmetry.
          destruct (Z.eq_dec id 0) as [->|]; [apply Z.bits_0|]. apply Z.bits_above_log2; [lia|]. apply Z.log2_lt_pow2; [lia|].
          eapply Z.lt_le_trans; [apply H|]. apply Z.pow_le_mono_r; [lia|]. assert (28 <= W) by (clear; arch; lia). lia. }
    rewrite E. pose proof (Z.div_mod id 16 ltac:(lia)). pose proof (Z.mod_pos_bound id 16 ltac:(lia)).
    destruct (Z.eqb_spec (id / 16 * 16) 32), (Z.leb_spec 32 id), (Z.ltb_spec id 48); auto; exfalso; lia.
  - rewrite H0. auto.
  - rewrite cons_not_symbol; auto. eapply pair_cons; eauto.
  - rewrite cons_not_symbol; auto. eapply pair_cons; eauto.
Qed.

Lemma bool_rel w b : vrel w (VBool b) (if b then TRUE else NIL).
Proof. destruct b; [apply (vr_sym w 2); unfold type_sym; lia|]. rewrite NIL_0. apply vrel_nil_0. Qed.

Lemma cmp_ints n m : - 2 ^ (W - VAL_SHIFT - 1) <= n < 2 ^ (W - VAL_SHIFT - 1) -> - 2 ^ (W - VAL_SHIFT - 1) <= m < 2 ^ (W - VAL_SHIFT - 1) ->
  compare_num (TI, n) (TI, m) = CMP n m.
Proof.
  intros Rn Rm. unfold compare_num, Arith_Model.promote. cbn [fst]. rewrite Z.ltb_irrefl. unfold as_i, as_i64, as_i32. cbn [snd].
  assert (L : 2 ^ (W - VAL_SHIFT - 1) <= 2 ^ (W - 1)) by (apply Z.pow_le_mono_r; pose proof VS_facts; lia).
  assert (RR : forall k, - 2 ^ (W - VAL_SHIFT - 1) <= k < 2 ^ (W - VAL_SHIFT - 1) -> - 2 ^ (W - 1) <= k < 2 ^ (W - 1)) by (intros; lia).
  apply RR in Rn, Rm. clear RR L. destruct A; cbn [b64]; rewrite !sgn_id; auto; reflexivity.
Qed.

Theorem fundamental_basic : implements fundamental_table basic.
Proof.
  intros f vs v Rf E.
  assert (NOALLOC : (forall w g s xs, srel w g s -> Forall2 (vrel w) vs xs -> exists x, fundamental_table f (wh w) xs = Ok (wh w, x) /\ vrel w v x /\ error_symbol v = false) ->
    exists N, forall w g s xs, srel w g s -> Forall2 (vrel w) vs xs ->
    exists h' fl' x, fundamental_table f (wh w) xs = Ok (h', x) /\
      hext w (mkW h' fl' (wL w) (wR w)) /\ srel (mkW h' fl' (wL w) (wR w)) g s /\ (length (wfl w) <= length fl' + N)%nat /\
      (is_error x = false /\ vrel (mkW h' fl' (wL w) (wR w)) v x \/ x = MERROR /\ (length (wfl w) < N)%nat)).
  { intros H. exists 0%nat. intros w g s xs SR F. destruct (H w g s xs SR F) as (x&E1&V&NE).
    exists (wh w), (wfl w), x. replace (mkW (wh w) (wfl w) (wL w) (wR w)) with w by (destruct w; reflexivity).
    sp; auto using hext_refl; [lia|]. left. rewrite (error_word _ _ _ V). auto. }
  destruct vs as [|a [|b [|]]]; try discriminate; cbn [basic] in E.
  - destruct (Z.eqb_spec f 0x2000D) as [->|].
    { injection E as <-. apply NOALLOC. intros w g s xs SR F. inversion F as [|? x ? ? V F']; subst. inversion F'; subst.
      exists (if nilp a then TRUE else NIL). sp; [|apply bool_rel|destruct (nilp a); reflexivity].
      unfold fundamental_table, fundamental_not. cbn [Z.eqb Pos.eqb]. change (x =? 0) with (is_symbol_nil x). rewrite (vrel_nil _ _ _ V). reflexivity. }
    destruct (Z.eqb_spec f 0x20012) as [->|].
    { apply NOALLOC. intros w g s xs SR F. inversion F as [|? x ? ? V F']; subst. inversion F'; subst.
      destruct a as [k|z|y z|ps bd ce]; try discriminate.
      - destruct (nilp (VSym k)) eqn:NK; [|discriminate]. injection E as <-. exists NIL. sp; auto; [|rewrite NIL_0; apply vrel_nil_0].
        unfold fundamental_table, fundamental_car. cbn [Z.eqb Pos.eqb]. rewrite (vrel_word _ _ _ V), (vrel_nil _ _ _ V), NK. reflexivity.
      - unfold unless_error in E. destruct (error_symbol y) eqn:NE; [discriminate|]. injection E as <-.
        apply vrel_cons_inv in V. destruct V as (xy&xz&P&Vy&_). exists xy. sp; auto.
        unfold fundamental_table, fundamental_car. cbn [Z.eqb Pos.eqb]. rewrite (pair_cons _ _ _ _ P), (pair_ref _ _ _ _ P). reflexivity. }
    destruct (Z.eqb_spec f 0x20013) as [->|]; [|discriminate].
    apply NOALLOC. intros w g s xs SR F. inversion F as [|? x ? ? V F']; subst. inversion F'; subst.
    destruct a as [k|z|y z|ps bd ce]; try discriminate.
    + destruct (nilp (VSym k)) eqn:NK; [|discriminate]. injection E as <-. exists NIL. sp; auto; [|rewrite NIL_0; apply vrel_nil_0].
      unfold fundamental_table, fundamental_cdr. cbn [Z.eqb Pos.eqb]. rewrite (vrel_word _ _ _ V), (vrel_nil _ _ _ V), NK. reflexivity.
    + unfold unless_error in E. destruct (error_symbol z) eqn:NE; [discriminate|]. injection E as <-.
      apply vrel_cons_inv in V. destruct V as (xy&xz&P&_&Vz). exists xz. sp; auto.
      unfold fundamental_table, fundamental_cdr. cbn [Z.eqb Pos.eqb]. rewrite (pair_cons _ _ _ _ P), (pair_ref _ _ _ _ P). reflexivity.
  - destruct (Z.eqb_spec f 0x20011) as [->|].
    { injection E as <-. exists 1%nat. intros w g s xs SR F. inversion F as [|? x ? ? V F']; subst. inversion F' as [|? y ? ? V2 F'']; subst. inversion F''; subst.
      unfold fundamental_table, fundamental_cons. cbn [Z.eqb Pos.eqb].
      destruct (wfl w) as [|i fl] eqn:EF.
      { exists (wh w), [], MERROR. pose proof (sr_heap _ _ _ SR) as OK. rewrite EF in OK. rewrite cons_fail by auto.
        replace (mkW (wh w) [] (wL w) (wR w)) with w by (destruct w; cbn in *; congruence). sp; auto using hext_refl; cbn; auto. }
      assert (Ga : good w x) by gd. assert (Gb : good w y) by gd.
      destruct (take w g s i fl x y SR EF Ga Gb) as (h2&EC&Ri&SR2&HX2&C2&N2&NL&G2&_).
      destruct (publish _ g s (wR w) SR2) as [SR3 AG]; [cbn; auto|]. cbn [wh wfl wL] in *.
      set (w2 := mkW h2 fl (wL w) (fun j => j = i \/ wR w j)) in *. set (w3 := mkW h2 fl (wL w) (wR w)) in *.
      assert (NR : ~ wR w i). { intros X. apply (sr_priv _ _ _ SR) in X. apply X. rewrite EF. left; auto. }
      assert (HX3 : hext w w3).
      { pose proof HX2 as [x1 x2 x3 x4 x5 x6 x7]. constructor; cbn in *; auto. }
      exists h2, fl, (enc_cons_ptr i). sp; auto.
      - cbn. lia.
      - left. split; [unfold is_error; rewrite cons_not_symbol; auto using enc_cons|]. fold w3.
        pose proof (hext_agree _ _ HX3) as G3.
        apply vr_cons with (x := x) (y := y); eauto using vrel_mono. apply enc_pair; auto. split; [|split]; cbn; auto. }
    destruct (int_of a) as [na|] eqn:Ea; [|discriminate]. destruct (int_of b) as [nb|] eqn:Eb; [|discriminate].
    apply NOALLOC. intros w g s xs SR F. inversion F as [|? x ? ? V F']; subst. inversion F' as [|? y ? ? V2 F'']; subst. inversion F''; subst.
    destruct (int_word _ _ _ _ V Ea) as (Na&Ra). destruct (int_word _ _ _ _ V2 Eb) as (Nb&Rb). clear NOALLOC F F' F''.
    pose proof VS_facts as (V1&V3).
    assert (L : 2 ^ (W - 1) = 2 ^ (W - VAL_SHIFT - 1) * 2 ^ VAL_SHIFT) by (rewrite <- Z.pow_add_r by lia; f_equal; lia).
    assert (L2 : 2 <= 2 ^ VAL_SHIFT) by (change 2 with (2 ^ 1) at 1; apply Z.pow_le_mono_r; lia).
    assert (P : 0 < 2 ^ (W - VAL_SHIFT - 1)) by (apply Z.pow_pos_nonneg; lia).
    assert (L3 : 2 * 2 ^ (W - VAL_SHIFT - 1) <= 2 ^ (W - 1)) by nia.
    assert (AS : forall t n, - 2 ^ (W - 1) <= n < 2 ^ (W - 1) -> as_i (t, n) = n).
    { intros t n0 Rn. unfold as_i, as_i64, as_i32. cbn [snd]. destruct A; cbn [b64]; apply sgn_id; lia || exact Rn. }
    assert (DI : forall t n, - 2 ^ (W - VAL_SHIFT - 1) <= n < 2 ^ (W - VAL_SHIFT - 1) -> d_i (t, n) = n).
    { intros t n0 Rn. unfold d_i. cbn [snd]. apply sgn_id; lia. }
    assert (SI : forall z, - 2 ^ (W - 1) <= z < 2 ^ (W - 1) -> sint false W z = Ok z).
    { intros z Rz. unfold sint. destruct (Z.leb_spec (- 2 ^ (W - 1)) z); [|lia]. destruct (Z.ltb_spec z (2 ^ (W - 1))); [|lia]. reflexivity. }
    assert (SG : forall n, - 2 ^ (W - VAL_SHIFT - 1) <= n < 2 ^ (W - VAL_SHIFT - 1) -> sgn (W - VAL_SHIFT) n = n) by (intros; apply sgn_id; lia).
    assert (NU : nums_of [x; y] = Some [(TI, na); (TI, nb)]) by (cbn [nums_of]; rewrite Na, Nb; reflexivity).
    assert (TG : (tag TChar <? tag TI) = true /\ (tag TI <? tag TChar) = false /\ (tag TI <? tag TI) = false) by (arch; sp; reflexivity).
    destruct TG as (TG1&TG2&TG3).
    destruct (Z.eqb_spec f 0x20000) as [->|].
    { injection E as <-. exists (enc_i (na + nb)). sp; auto using vint_rel. unfold fundamental_table, arith. cbn [Z.eqb Pos.eqb].
      rewrite NU. unfold fundamental_add. cbn [add_loop]. unfold add2 at 1, promote_swap. cbn [fst]. rewrite TG1.
      rewrite DI, AS, SI by lia. cbn [bind e_i]. rewrite Z.add_0_r, SG by lia. unfold add2, promote_swap. cbn [fst]. rewrite TG3.
      rewrite DI, AS, SI by lia. cbn [bind e_i num_word]. rewrite enc_i_sgn. reflexivity. }
    destruct (Z.eqb_spec f 0x20001) as [->|].
    { injection E as <-. exists (enc_i (na - nb)). sp; auto using vint_rel. unfold fundamental_table, arith. cbn [Z.eqb Pos.eqb].
      rewrite NU. unfold fundamental_sub. cbn [sub_loop]. unfold sub2, Arith_Model.promote. cbn [fst]. rewrite TG3.
      rewrite !AS, SI by lia. cbn [bind e_i num_word]. rewrite enc_i_sgn. reflexivity. }
    destruct (Z.eqb_spec f 0x20002) as [->|].
    { destruct ((- 2 ^ (W - 1) <=? na * nb) && (na * nb <? 2 ^ (W - 1))) eqn:RM; [|discriminate]. injection E as <-.
      apply andb_true_iff in RM. rewrite Z.leb_le, Z.ltb_lt in RM.
      exists (enc_i (na * nb)). sp; auto using vint_rel. unfold fundamental_table, arith. cbn [Z.eqb Pos.eqb].
      rewrite NU. unfold fundamental_mul. cbn [mul_loop]. unfold mul2 at 1, promote_swap. cbn [fst]. rewrite TG1.
      rewrite DI, AS, SI by lia. cbn [bind e_i]. rewrite Z.mul_1_r, SG by lia. unfold mul2, promote_swap. cbn [fst]. rewrite TG3.
      rewrite DI, AS, SI by lia. cbn [bind e_i num_word]. rewrite enc_i_sgn. reflexivity. }
    assert (MP : map num_of [x; y] = [Some (TI, na); Some (TI, nb)]) by (cbn [map]; rewrite Na, Nb; reflexivity).
    assert (CB : forall b, error_symbol (VBool b) = false) by (intros []; reflexivity).
    destruct (Z.eqb_spec f 0x20007) as [->|].
    { injection E as <-. exists (if na =? nb then TRUE else NIL). sp; auto using bool_rel. unfold fundamental_table, compare. cbn [Z.eqb Pos.eqb].
      rewrite MP. cbn [fundamental_numeq numeq_loop]. rewrite cmp_ints by auto. unfold CMP.
      destruct (Z.gtb_spec na nb), (Z.ltb_spec na nb), (Z.eqb_spec na nb); try lia; reflexivity. }
    destruct (Z.eqb_spec f 0x20009) as [->|].
    { injection E as <-. exists (if na <? nb then TRUE else NIL). sp; auto using bool_rel. unfold fundamental_table, compare. cbn [Z.eqb Pos.eqb].
      rewrite MP. unfold fundamental_lt. cbn [fundamental_geq ord_loop]. rewrite cmp_ints by auto. unfold CMP.
      destruct (Z.gtb_spec na nb), (Z.ltb_spec na nb); try lia; reflexivity. }
    destruct (Z.eqb_spec f 0x2000A) as [->|]; [|discriminate].
    injection E as <-. exists (if nb <? na then TRUE else NIL). sp; auto using bool_rel. unfold fundamental_table, compare. cbn [Z.eqb Pos.eqb].
    rewrite MP. unfold fundamental_gt. cbn [fundamental_leq ord_loop]. rewrite cmp_ints by auto. unfold CMP.
    destruct (Z.gtb_spec na nb), (Z.ltb_spec na nb), (Z.ltb_spec nb na); try lia; reflexivity.
Qed.

End Arch.
