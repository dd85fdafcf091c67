(* The evaluator does what the reference interpreter says: applications, special forms, and all
   of it. *)
From Verif Require Import Base Value_Model Heap_Model Env_Model Match_Model QQ_Model GC_Model Eval_Model Eval_Spec
  Value_Proofs Value_Proofs2 Heap_Spec Heap_Proofs Heap_Proofs2 List_Proofs Env_Proofs Env_Props QQ_Proofs GC_Spec Eval_Rel Eval_Proofs Eval_GC
  Eval_Proofs2 Eval_Proofs3 Eval_Proofs4.
Local Open Scope Z_scope.

Section Arch.
Context {A : Arch} {HO : Host}.

Ltac sp := repeat match goal with |- _ /\ _ => split end.

Lemma sf_symbol k : 0 <= k < 2 ^ 28 -> (Z.land (enc_sym k) SF_MASK =? SF_BIT) = ((0x100 <=? k) && (k <? 0x200)).
Proof.
  intros R. rewrite enc_sym_f, Z.mod_small by (apply tag_range; lia).
  assert (VS : 0 <= VAL_SHIFT) by (arch; lia). pose proof (Z.pow_pos_nonneg 2 VAL_SHIFT ltac:(lia) VS) as P.
  assert (M : SF_MASK = Z.shiftl (Z.ones (W - (8 + VAL_SHIFT))) (8 + VAL_SHIFT)) by (arch; reflexivity).
  assert (Bt : SF_BIT = 1 * 2 ^ (8 + VAL_SHIFT)) by (arch; reflexivity).
  assert (E : Z.land (k * 2 ^ VAL_SHIFT) SF_MASK = (k / 2 ^ 8) * 2 ^ (8 + VAL_SHIFT)).
  { rewrite M. apply Z.bits_inj'. intros i Hi. rewrite Z.land_spec.
    destruct (Z.lt_ge_cases i (8 + VAL_SHIFT)) as [L|G].
    - rewrite Z.shiftl_spec_low, andb_false_r, Z.mul_pow2_bits_low by auto. auto.
    - rewrite Z.shiftl_spec by auto. rewrite Z.mul_pow2_bits by lia. rewrite (Z.mul_pow2_bits _ (8 + VAL_SHIFT)) by lia.
      rewrite Z.div_pow2_bits by lia. replace (i - (8 + VAL_SHIFT) + 8) with (i - VAL_SHIFT) by lia.
      destruct (Z.lt_ge_cases (i - (8 + VAL_SHIFT)) (W - (8 + VAL_SHIFT))) as [L2|G2].
      + rewrite Z.ones_spec_low by lia. apply andb_true_r.
      + rewrite Z.ones_spec_high by (assert (8 + VAL_SHIFT <= W) by (clear; arch; lia); lia). rewrite andb_false_r. symmetry.
        destruct (Z.eq_dec k 0) as [->|]; [apply Z.bits_0|]. apply Z.bits_above_log2; [lia|].
        apply Z.log2_lt_pow2; [lia|]. eapply Z.lt_le_trans; [apply R|]. apply Z.pow_le_mono_r; [lia|].
        assert (28 + VAL_SHIFT <= W) by (arch; lia). lia. }
  rewrite E, Bt. assert (P2 : 0 < 2 ^ (8 + VAL_SHIFT)) by (apply Z.pow_pos_nonneg; lia).
  destruct (Z.eqb_spec (k / 2 ^ 8 * 2 ^ (8 + VAL_SHIFT)) (1 * 2 ^ (8 + VAL_SHIFT))) as [X|X];
    destruct (Z.leb_spec 0x100 k), (Z.ltb_spec k 0x200); auto; exfalso;
    pose proof (Z.div_mod k (2 ^ 8) ltac:(lia)); pose proof (Z.mod_pos_bound k (2 ^ 8) ltac:(lia)); change (2 ^ 8) with 256 in *.
  - apply Z.mul_cancel_r in X; lia.
  - apply Z.mul_cancel_r in X; lia.
  - apply Z.mul_cancel_r in X; lia.
  - apply X. f_equal. lia.
Qed.

Lemma MERROR_error : is_error MERROR = true.
Proof. arch; vm_compute; reflexivity. Qed.

Lemma no_error_MERROR x : is_error x = false -> (x =? MERROR) = false.
Proof. intros H. apply Z.eqb_neq. intros ->. rewrite MERROR_error in H. discriminate. Qed.

Lemma vrel_not_MERROR w v x : vrel w v x -> out_of_memory v = false -> (x =? MERROR) = false.
Proof.
  intros V O. destruct (Z.eqb_spec x MERROR) as [->|]; auto. exfalso.
  destruct v as [k|z|a d|ps b ce].
  - apply vrel_sym_inv in V. destruct V as (E&Rk&_). cbn in O.
    assert (X : (enc_sym 0x23 =? enc_sym k) = (0x23 =? k)) by (apply sym_eq; lia).
    change (enc_sym 0x23) with MERROR in X. rewrite E, Z.eqb_refl, Z.eqb_sym, O in X. discriminate.
  - inversion V as [|? ? NS| |]; subst. rewrite MERROR_sym in NS. discriminate.
  - pose proof (vrel_word _ _ _ V) as X. cbn in X. unfold MERROR in X. rewrite sym_not_cons in X. discriminate.
  - pose proof (vrel_word _ _ _ V) as X. cbn in X. unfold MERROR in X. rewrite sym_not_cons in X. discriminate.
Qed.

Lemma setvar_gc_ok w g s e env k v x f s' c : srel w g s -> erel w e env -> 0 <= k < 2 ^ 28 -> vrel w v x ->
  (length e + length (glo s) <= f)%nat -> setvar s e k v = Some s' ->
  exists h', setvar_gc f (wh w) g c (enc_sym k) x env = Ok (Val (h', g)) /\
    let w' := mkW h' (wfl w) (wL w) (wR w) in srel w' g s' /\ hext w w'.
Proof.
  intros SR ER Rk V F E. destruct (setvar_ok w g s e env k v x f s' SR ER Rk V F E) as (h'&E'&H). exists h'. split; auto.
  unfold setvar_gc. rewrite E'. cbn [bind]. rewrite (vrel_not_MERROR _ _ _ V); auto.
  unfold setvar in E. destruct (variable k); [|discriminate]. destruct (out_of_memory v); auto. discriminate.
Qed.

Lemma vrels_kgood w g s vs xs : srel w g s -> Forall2 (vrel w) vs xs -> Forall (kgood w) (rev xs).
Proof.
  intros SR F. apply Forall_rev. induction F as [|v x vs xs V F IH]; constructor; auto.
  apply good_kgood. eapply vrel_good; eauto. apply (sr_size _ _ _ SR).
Qed.

Lemma unref_kgood w x : ~ stack_ref (wh w) x -> kgood w x.
Proof. intros N S. contradiction. Qed.

(* a pair that anyone may see *)
Lemma cons_new w g s c va vb a b : srel w g s -> vrel w va a -> vrel w vb b -> ctx_ok w c ->
  (cons_gc (wh w) g [a; b; NIL] c a b = Ok NoMem /\ (length (wfl w) < 1)%nat) \/
  exists w' p, cons_gc (wh w) g [a; b; NIL] c a b = Ok (Val (wh w', p)) /\ srel w' g s /\ keeps (cw c) w w' /\
    vrel w' (VC va vb) p /\ (length (wfl w) <= length (wfl w') + 1)%nat.
Proof.
  intros SR Va Vb CX. unfold cons_gc. pose proof (sr_size _ _ _ SR) as SZ.
  assert (GP : Forall (good w) [a; b; NIL]).
  { repeat apply Forall_cons; eauto using vrel_good. rewrite NIL_0. apply nil_good. }
  destruct (need1_ok w g s [a; b; NIL] c SR GP CX) as [(E&L)|(w1&E&SR1&K1&L1&L2)]; cbv zeta in E; rewrite E; cbn [bind]; auto.
  right. carry SR K1.
  destruct (wfl w1) as [|i fl] eqn:EF; [cbn in L2; lia|].
  assert (Ga : good w1 a) by gd. assert (Gb : good w1 b) by gd.
  destruct (take w1 g s i fl a b SR1 EF Ga Gb) as (h2&EC&Ri&SR2&HX2&C2&N2&NL&G2&_).
  rewrite EC. cbn [bind].
  destruct (publish _ g s (wR w1) SR2) as [SR3 AG]; [cbn; auto|]. cbn [wh wfl wL] in *.
  set (w2 := mkW h2 fl (wL w1) (fun j => j = i \/ wR w1 j)) in *. set (w3 := mkW h2 fl (wL w1) (wR w1)) in *.
  assert (NR : ~ wR w1 i). { intros X. apply (sr_priv _ _ _ SR1) in X. apply X. rewrite EF. left; auto. }
  assert (HX3 : hext w1 w3).
  { pose proof HX2 as [x1 x2 x3 x4 x5 x6 x7]. constructor; cbn in *; auto. }
  exists w3, (enc_cons_ptr i). sp; auto.
  - eapply keeps_trans; [eapply keeps_incl; [exact K1|]; intros y Y; right; right; right; auto|]. apply hext_keeps_same; auto.
  - carryx HX3. apply vr_cons with (x := a) (y := b); auto. apply enc_pair; auto.
    split; [|split]; cbn; auto.
  - cbn in *. lia.
Qed.

(* the words that eval_cond makes: (e (cond . rest)) *)
Lemma cond_list w g s c ve vrest e rest (k : heap * Z -> res (out est)) : srel w g s -> vrel w ve e -> vrel w vrest rest -> ctx_ok w c ->
  rooted w (cw c) e -> rooted w (cw c) rest ->
  let m := (let* '(h1, more) := cons_gc (wh w) g [S_COND; rest; NIL] c S_COND rest in
            let! (h2, rest1) := alloc_list_init h1 [e; more] in
            let* x :=
              (if rest1 =? MERROR then
                 let* h3 := collect h2 g [] c in
                 let* '(h4, more2) := cons_gc h3 g [S_COND; rest; NIL] c S_COND rest in
                 let! r5 := alloc_list_init h4 [e; more2] in
                 if snd r5 =? MERROR then Ok NoMem else Ok (Val r5)
               else Ok (Val (h2, rest1))) in k x) in
  (m = Ok NoMem /\ (length (wfl w) < 3)%nat) \/
  exists w' l, m = k (wh w', l) /\ srel w' g s /\ keeps (cw c) w w' /\ (length (wfl w) <= length (wfl w') + 3)%nat /\
    vrel w' (VC ve (VC (VC (VSym 0x110) vrest) VNil)) l.
Proof.
  intros SR Ve Vr CX Re Rr m.
  assert (VS : forall w, vrel w (VSym 0x110) S_COND) by (intros w0; apply (vr_sym w0 0x110); unfold type_sym; lia).
  (* the list of two, if there are cells for it *)
  assert (TWO : forall w1 p, srel w1 g s -> vrel w1 ve e -> vrel w1 (VC (VSym 0x110) vrest) p -> (2 <= length (wfl w1))%nat ->
    exists w2 l, alloc_list_init (wh w1) [e; p] = Ok (wh w2, l) /\ (l =? MERROR) = false /\ srel w2 g s /\ keeps (cw c) w1 w2 /\
      (length (wfl w1) <= length (wfl w2) + 2)%nat /\ vrel w2 (VC ve (VC (VC (VSym 0x110) vrest) VNil)) l).
  { intros w1 p SR1 V1 V2 L.
    destruct (list_new w1 g s [e; p] SR1) as (w2&l&EL&SR2&HX2&R2&L2&CO&FF&LO&LV2);
      [repeat (apply Forall_cons; [gd|]); auto|discriminate|exact L|].
    destruct FF as [|f1 FF]; [exfalso; inversion LO|]. cbn [map] in LO.
    destruct (LV2 f1 ltac:(left; auto)) as (LV21&LV22).
    destruct (list_on_head w2 l _ _ _ _ f1 LO eq_refl LV22 LV21) as (l2&El&PL&LO2).
    destruct FF as [|f2 FF]; [exfalso; inversion LO2|]. cbn [map] in LO2.
    destruct (LV2 f2 ltac:(right; left; auto)) as (LV23&LV24).
    destruct (list_on_head w2 l2 _ _ _ _ f2 LO2 eq_refl LV24 LV23) as (l3&El2&PL2&LO3).
    assert (l3 = 0) by (inversion LO3; auto). subst l3.
    exists w2, l. sp; auto using hext_keeps_same; [subst l; apply enc_not_MERROR; auto|cbn in L2; lia|].
    carryx HX2. apply vr_cons with (x := e) (y := l2); auto.
    apply vr_cons with (x := p) (y := 0); auto. apply vrel_nil_0. }
  destruct (cons_new w g s c _ _ _ _ SR (VS w) Vr CX) as [(E1&L1)|(w1&p&E1&SR1&K1&V1&L1)]; subst m; rewrite E1; cbn [bind].
  { left. split; [auto|lia]. }
  assert (Ve1 : vrel w1 ve e) by (apply (vrel_k _ _ _ _ _ SR K1); auto).
  assert (Vr1 : vrel w1 vrest rest) by (apply (vrel_k _ _ _ _ _ SR K1); auto).
  destruct (Nat.le_gt_cases 2 (length (wfl w1))) as [L2|L2].
  - destruct (TWO w1 p SR1 Ve1 V1 L2) as (w2&l&E2&NM&SR2&K2&L3&V2). rewrite E2. cbn [bind]. rewrite NM. cbn [bind].
    right. exists w2, l. sp; auto; [eapply keeps_trans; eauto|lia].
  - rewrite (alloc_list_init_fail _ _ [e; p] (sr_heap _ _ _ SR1)) by exact L2. cbn [bind]. rewrite Z.eqb_refl.
    pose proof (ctx_k _ _ _ _ _ SR K1 CX) as CX1.
    assert (Re1 : rooted w1 (cw c) e) by (apply (rooted_k _ _ _ _ _ SR K1); auto; gd).
    assert (Rr1 : rooted w1 (cw c) rest) by (apply (rooted_k _ _ _ _ _ SR K1); auto; gd).
    destruct (collect_cw w1 g s [] c SR1 (Forall_nil _) CX1) as [E2|(w2&E2&SR2&K2&L3)]; rewrite E2; cbn [bind]; [left; split; auto; lia|].
    cbn [app] in K2. pose proof (ctx_k _ _ _ _ _ SR1 K2 CX1) as CX2.
    assert (Ve2 : vrel w2 ve e) by (apply (vrel_k _ _ _ _ _ SR1 K2); auto).
    assert (Vr2 : vrel w2 vrest rest) by (apply (vrel_k _ _ _ _ _ SR1 K2); auto).
    assert (Re2 : rooted w2 (cw c) e) by (apply (rooted_k _ _ _ _ _ SR1 K2); auto; gd).
    destruct (cons_new w2 g s c _ _ _ _ SR2 (VS w2) Vr2 CX2) as [(E3&L4)|(w3&p3&E3&SR3&K3&V3&L4)]; rewrite E3; cbn [bind].
    { left. split; [auto|lia]. }
    assert (Ve3 : vrel w3 ve e) by (apply (vrel_k _ _ _ _ _ SR2 K3); auto).
    destruct (Nat.le_gt_cases 2 (length (wfl w3))) as [L5|L5].
    + destruct (TWO w3 p3 SR3 Ve3 V3 L5) as (w4&l&E4&NM&SR4&K4&L6&V4). rewrite E4. cbn [bind snd]. rewrite NM. cbn [bind].
      right. exists w4, l. sp; auto; [|lia]. eapply keeps_trans; [exact K1|]. eapply keeps_trans; [exact K2|]. eapply keeps_trans; eauto.
    + rewrite (alloc_list_init_fail _ _ [e; p3] (sr_heap _ _ _ SR3)) by exact L5. cbn [bind snd]. rewrite Z.eqb_refl. left. split; [auto|lia].
Qed.

End Arch.

Section Sound.
Context {A : Arch} {HO : Host}.
Variable prim : Z -> heap -> list Z -> res (heap * Z).
Variable prims : Z -> list val -> option val.
Hypothesis IMP : implements prim prims.
(* what the stack held before is not taken for a reference *)
Hypothesis UNS : forall h K i, ~ stack_ref h (unset K i).

Ltac sp := repeat match goal with |- _ /\ _ => split end.
Notation reach := (reach prim).
Notation sound := (sound prim).
Notation finishes := (finishes prim).
Notation leads := (leads prim).

(* ---- functions of the runtime system ---- *)

Lemma app_stack (ys : list Z) fn K n : length ys = n ->
  nth_error (rev ys ++ fn :: K) n = Some fn /\ rev (firstn n (rev ys ++ fn :: K)) = ys /\ skipn (S n) (rev ys ++ fn :: K) = K.
Proof.
  intros <-. rewrite <- (rev_length ys). sp.
  - rewrite nth_error_app2, Nat.sub_diag by lia. reflexivity.
  - rewrite firstn_app, Nat.sub_diag, firstn_all. cbn [firstn]. rewrite app_nil_r. apply rev_involutive.
  - replace (S (length (rev ys))) with (length (rev ys ++ [fn])) by (rewrite app_length; cbn; lia).
    replace (rev ys ++ fn :: K) with ((rev ys ++ [fn]) ++ K) by (rewrite <- app_assoc; reflexivity).
    rewrite skipn_app, skipn_all, Nat.sub_diag. reflexivity.
Qed.

Lemma builtin_ok ev x s e vs v s' d : sound ev -> builtin prims ev x s e vs = Some (v, s', d) ->
  exists N, forall f w g K sz exp aenv r ys st, srel w g s -> erel w e aenv -> Forall2 (vrel w) vs ys ->
    good w exp -> good w r -> Forall (kgood w) K -> 0 <= x < 2 ^ 28 -> ~ type_sym x ->
    (N <= f)%nat -> Z.of_nat (length K + d) < sz -> sz <= 2 ^ 28 ->
    step prim f st = application prim f (mkE (wh w) g (rev ys ++ enc_sym x :: K) sz exp aenv r false) (length vs) ->
    finishes f w s' v K sz N st.
Proof.
  intros SD E. unfold builtin in E.
  destruct (Z.leb_spec 0x10000 x); [destruct (Z.ltb_spec x 0x30000)|]; cbn [andb] in E.
  - destruct (prims x vs) as [u|] eqn:EP; [|discriminate]. apply some3 in E. destruct E as (->&->&<-).
    destruct (IMP x vs v ltac:(lia) EP) as (N&H1). exists N. intros f w g K sz exp aenv r ys st SR ER F2 GE GR GK Rx TX F D SZ ST.
    destruct (app_stack ys (enc_sym x) K (length vs)) as (A1&A2&A3); [clear - F2; induction F2; cbn; congruence|].
    assert (KD : (Z.shiftr x 16 =? 1) || (Z.shiftr x 16 =? 2) = true).
    { rewrite Z.shiftr_div_pow2 by lia. change (2 ^ 16) with 65536. apply orb_true_iff. rewrite !Z.eqb_eq.
      pose proof (Z.div_mod x 65536 ltac:(lia)). pose proof (Z.mod_pos_bound x 65536 ltac:(lia)). lia. }
    unfold application in ST. rewrite A1, A2, A3, sym_dec, KD in ST by auto.
    destruct (H1 w g s' ys SR F2) as (h'&fl'&y&Ep&HX&SR'&L&AL). rewrite Ep in ST. cbn [bind] in ST.
    set (w1 := mkW h' fl' (wL w) (wR w)) in *.
    pose proof (hext_keeps_same K _ _ HX eq_refl) as K1.
    destruct AL as [(NE&V)|(->&LN)].
    + rewrite (no_error_MERROR _ NE) in ST. cbn [bind] in ST. rewrite NE in ST. unfold ret in ST. carryx HX.
      eapply (leads_alloc prim f w w1 K K N 0); [exact ST|exact K1|apply incl_refl|exact L|lia|].
      change h' with (wh w1). eapply fin_val; eauto.
    + rewrite Z.eqb_refl in ST. assert (FS : kgood w (enc_sym x)) by (apply good_kgood, sym_good; auto).
      carryx HX. pose (c := regs aenv exp r (rev ys ++ enc_sym x :: K)).
      assert (CX : ctx_ok w1 c).
      { eapply ctx_regs; eauto. apply Forall_app. split; [eapply vrels_kgood; eauto|constructor; auto]. }
      destruct (collect_cw w1 g s' [] c SR' (Forall_nil _) CX) as [EC|(w2&EC&SR2&K2&L2)];
        unfold c in EC; change h' with (wh w1) in ST; rewrite EC in ST; cbn [bind] in ST.
      { eapply leads_nomem; eauto. }
      cbn [app] in K2.
      assert (F2' : Forall2 (vrel w2) vs ys).
      { apply (vrels_k _ _ _ _ _ _ _ SR' K2 F2). apply rooted_incl. intros z Z. unfold c, cw, regs. cbn. right. right. right.
        apply in_or_app. left. apply -> in_rev. exact Z. }
      assert (GE2 : good w2 exp) by (apply (good_k _ _ _ _ _ SR' K2); auto; unfold c; rt).
      assert (ER2 : erel w2 e aenv) by (apply (erel_k _ _ _ _ _ SR' K2); auto; unfold c; rt).
      assert (K02 : keeps K w w2).
      { eapply keeps_trans; [exact K1|]. eapply keeps_incl; [exact K2|]. unfold c. inc. }
      destruct (H1 w2 g s' ys SR2 F2') as (h3&fl3&y&Ep3&HX3&SR3&L3&AL). rewrite Ep3 in ST. cbn [bind snd] in ST.
      destruct AL as [(NE&V)|(->&LN3)].
      * rewrite (no_error_MERROR _ NE) in ST. cbn [bind] in ST. rewrite NE in ST. unfold ret in ST.
        set (w3 := mkW h3 fl3 (wL w2) (wR w2)) in *.
        pose proof (hext_keeps_same K _ _ HX3 eq_refl) as K3. carryx HX3.
        eapply (leads_alloc prim f w w3 K K N 0); [exact ST|eapply keeps_trans; [exact K02|exact K3]|apply incl_refl|lia|lia|].
        change h3 with (wh w3). eapply fin_val; eauto.
      * rewrite Z.eqb_refl in ST. eapply leads_nomem; eauto.
  - assert (KD : forall z, x = 0x30000 + z -> 0 <= z < 0x10000 -> (Z.shiftr x 16 =? 1) || (Z.shiftr x 16 =? 2) = false /\ (Z.shiftr x 16 =? 3) = true).
    { intros z -> Rz. rewrite Z.shiftr_div_pow2 by lia. change (2 ^ 16) with 65536.
      replace ((0x30000 + z) / 65536) with 3; auto. apply (Z.div_unique _ _ _ z); lia. }
    destruct (Z.eqb_spec x 0x30008) as [->|].
    { (* eval *)
      destruct vs as [|y [|]]; try discriminate. destruct (SD _ _ _ _ _ _ E) as (N&H1). exists N.
      intros f w g K sz exp aenv r ys st SR ER F2 GE GR GK Rx TX F D SZ ST. inversion F2 as [|? xy ? ? V F3]; subst. inversion F3; subst.
      destruct (app_stack [xy] (enc_sym 0x30008) K 1 eq_refl) as (A1&A2&A3).
      destruct (KD 8 eq_refl ltac:(lia)) as (K1&K2).
      unfold application in ST. cbn [length] in ST. rewrite A1, A2, A3, sym_dec, K1, K2, Z.eqb_refl in ST by auto. unfold go in ST.
      eapply leads_step; [exact ST|]. apply H1; auto. }
    destruct (Z.eqb_spec x 0x30000) as [->|].
    { (* setvar *)
      destruct vs as [|y [|u [|]]]; try discriminate; destruct y as [k| | |]; try discriminate.
      destruct (setvar s e k u) as [s1|] eqn:E1; [|discriminate]. apply some3 in E. destruct E as (->&->&<-).
      exists (length e + length (glo s))%nat.
      intros f w g K sz exp aenv r ys st SR ER F2 GE GR GK Rx TX F D SZ ST. inversion F2 as [|? xy ? ? V F3]; subst. inversion F3 as [|? xu ? ? Vu F4]; subst. inversion F4; subst.
      destruct (app_stack [xy; xu] (enc_sym 0x30000) K 2 eq_refl) as (A1&A2&A3).
      destruct (KD 0 eq_refl ltac:(lia)) as (K1&K2).
      apply vrel_sym_inv in V. destruct V as (->&Rk&_).
      destruct (setvar_gc_ok w g s e aenv k v xu f s' (regs aenv exp r (rev [enc_sym k; xu] ++ enc_sym 0x30000 :: K)) SR ER Rk Vu F E1) as (h'&E2&SR'&HX).
      unfold application in ST. cbn [length] in ST. rewrite A1, A2, A3, sym_dec, K1, K2 in ST by auto. change (0x30000 =? 0x30008) with false in ST.
      rewrite Z.eqb_refl in ST. rewrite sym_is_symbol, E2 in ST. cbn [bind] in ST. unfold ret in ST.
      set (w1 := mkW h' (wfl w) (wL w) (wR w)) in *. pose proof (hext_keeps_same K _ _ HX eq_refl) as K3. carryx HX.
      eapply (leads_alloc prim f w w1 K K 0 0); [exact ST|exact K3|apply incl_refl|cbn; lia|lia|].
      change h' with (wh w1). eapply fin_val; eauto. }
    destruct (Z.eqb_spec x 0x30015) as [->|]; [|discriminate].
    (* rest-args *)
    destruct vs; try discriminate. apply some3 in E. destruct E as (<-&<-&<-). exists (length e).
    intros f w g K sz exp aenv r ys st SR ER F2 GE GR GK Rx TX F D SZ ST. inversion F2; subst.
    destruct (app_stack [] (enc_sym 0x30015) K 0 eq_refl) as (A1&A2&A3).
    destruct (KD 0x15 eq_refl ltac:(lia)) as (K1&K2).
    destruct (lookup_local w g s e aenv 0x30015 f SR ER ltac:(lia) F) as (o&Eo&Ho).
    unfold application in ST. cbn [length] in ST. rewrite A1, A2, A3, sym_dec, K1, K2 in ST by auto.
    change (0x30015 =? 0x30008) with false in ST. change (0x30015 =? 0x30000) with false in ST.
    rewrite Z.eqb_refl in ST. unfold S_REST_ARGS in ST. rewrite Eo in ST. cbn [bind] in ST. unfold ret in ST.
    eapply leads_step; [exact ST|]. eapply fin_val; eauto. destruct (local s 0x30015 e) as [u|].
    + destruct Ho as (y&->&Vy). auto.
    + subst o. rewrite NIL_0. apply vrel_nil_0.
  - destruct (Z.eqb_spec x 0x30008); [lia|]. destruct (Z.eqb_spec x 0x30000); [lia|]. destruct (Z.eqb_spec x 0x30015); [lia|]. discriminate.
Qed.

(* ---- application ---- *)

Lemma apply_ok ev : sound ev -> forall fn tl s e v s' d, apply prims ev s e fn tl = Some (v, s', d) ->
  exists N, forall f w g K sz xfn xtl env r, srel w g s -> erel w e env -> vrel w fn xfn -> vrel w tl xtl ->
    good w r -> Forall (kgood w) K ->
    (N <= f)%nat -> Z.of_nat (length K + d) < sz -> sz <= 2 ^ 28 ->
    Z.of_nat (length K + 3) < sz /\
    finishes f w s' v K sz N (mkE (wh w) g (APPLICATION_START :: xtl :: env :: K) sz xfn env r false).
Proof.
  intros SD fn tl s e v s' d E. unfold apply in E.
  destruct (ev s e fn) as [[[fv s1] d1]|] eqn:E1; [|discriminate]. destruct (SD _ _ _ _ _ _ E1) as (N1&H1).
  assert (ST : forall f h g K sz exp env r, step prim f (mkE h g (APPLICATION_START :: K) sz exp env r true) =
    cont_application_start prim f (mkE h g K sz exp env r false)).
  { intros. unfold APPLICATION_START. rewrite st_cont by knum. reflexivity. }
  destruct fv as [x|z|fa fd|ps body ce].
  - (* a function of the runtime system *)
    destruct (args ev 0 s1 e tl) as [[[vs s2] d2]|] eqn:E2; [|discriminate].
    destruct (builtin prims ev x s2 e vs) as [[[u s3] d3]|] eqn:E3; [|discriminate]. apply some3 in E. destruct E as (->&->&<-).
    destruct (args_ok prim ev SD _ _ _ _ _ _ _ E2) as (N2&H2). destruct (builtin_ok _ _ _ _ _ _ _ _ SD E3) as (N3&H3).
    exists (N1 + N2 + N3)%nat. intros f w g K sz xfn xtl env r SR ER Vf Vt GR GK F D SZ. split; [lia|].
    eapply fin_bind with (N1 := N1) (N2 := (N2 + N3)%nat).
    { eapply (H1 f w g); eauto; [unfold APPLICATION_START; kg|lia|cbn [length]; lia]. } { inc. } { lia. }
    intros w1 g1 x1 n1 r1 e1 K1 SR1 V1 G1 ER1. carry SR K1.
    apply vrel_sym_inv in V1. destruct V1 as (->&Rx&_&TX).
    assert (SS : step prim f (mkE (wh w1) g1 (APPLICATION_START :: xtl :: env :: K) sz x1 n1 (enc_sym x) true) =
      cont_application_args prim f (mkE (wh w1) g1 (enc_u (Z.of_nat 0) :: xtl :: env :: K) sz x1 n1 (enc_sym x) false)).
    { rewrite ST. unfold cont_application_start. rewrite sym_is_symbol, res_ok by (cbn [length]; lia). reflexivity. }
    assert (GS : good w1 (enc_sym x)) by (apply sym_good; auto).
    eapply leads_bind with (R1 := env :: enc_sym x :: K) (N1 := N2) (N2 := N3).
    { eapply (H2 f w1 g1 K sz xtl env (enc_sym x) x1 n1); eauto; lia. } { inc. } { lia. }
    intros w2 st2 K2 (g2&ys&x2&r2&LY&ST2&SR2&F2&GE2&GR2). carry SR1 K2.
    apply (H3 f w2 g2 K sz x2 env r2 ys st2); auto; lia.
  - discriminate.
  - (* a macro *)
    destruct (macro_form (VC fa fd)) as [[ps body]|] eqn:EM; [|discriminate].
    destruct (macro_params s1 e ps tl) as [[s2 e2]|] eqn:E2; [|discriminate].
    destruct (ev s2 e2 body) as [[[x s3] d2]|] eqn:E3; [|discriminate].
    destruct (ev s3 e x) as [[[u s4] d3]|] eqn:E4; [|discriminate]. apply some3 in E. destruct E as (->&->&<-).
    destruct (macro_bind_ok _ _ _ _ _ _ E2) as (N2&H2). destruct (SD _ _ _ _ _ _ E3) as (N3&H3). destruct (SD _ _ _ _ _ _ E4) as (N4&H4).
    exists (N1 + N2 + N3 + N4)%nat. intros f w g K sz xfn xtl env r SR ER Vf Vt GR GK F D SZ. split; [lia|].
    eapply fin_bind with (N1 := N1) (N2 := (N2 + N3 + N4)%nat).
    { eapply (H1 f w g); eauto; [unfold APPLICATION_START; kg|lia|cbn [length]; lia]. } { inc. } { lia. }
    intros w1 g1 x1 n1 r1 e1 K1 SR1 V1 G1 ER1. carry SR K1.
    unfold macro_form in EM. destruct fa as [k| | |]; try discriminate. destruct fd as [| |ps' fd2|]; try discriminate.
    destruct fd2 as [| |body' fd3|]; try discriminate. destruct (Z.eqb_spec k 0x10D) as [->|]; [|discriminate]. injection EM as -> ->.
    apply vrel_cons_inv in V1. destruct V1 as (xm&xm2&P1&Vm&V2). apply vrel_sym_inv in Vm. destruct Vm as (->&_).
    apply vrel_cons_inv in V2. destruct V2 as (xps&xm3&P2&Vps&V3). apply vrel_cons_inv in V3. destruct V3 as (xb&xm4&P3&Vb&_).
    pose (c := regs n1 x1 r1 (xtl :: env :: K)). assert (Gr1 : good w1 r1) by gd.
    assert (CX : ctx_ok w1 c) by ctxr.
    assert (EQ : step prim f (mkE (wh w1) g1 (APPLICATION_START :: xtl :: env :: K) sz x1 n1 r1 true) =
      let* '(h1, expand_env) := macro_bind f (wh w1) g1 c xps xtl env in
      let% d := get_cdr h1 r1 in let% body := get_cadr h1 d in go h1 g1 (EVAL_R :: env :: K) sz body expand_env r1).
    { rewrite ST. unfold cont_application_start. rewrite (cons_not_symbol r1), (pair_cons _ _ _ _ P1), (pair_car _ _ _ _ P1) by (eapply pair_cons; eauto).
      cbn [bind]. replace (enc_sym 0x10D =? S_CLOSURE) with false by (symmetry; apply (sym_eq 0x10D 0x10F); lia).
      replace (enc_sym 0x10D =? S_MACRO) with true by (symmetry; apply Z.eqb_refl).
      rewrite (pair_cadr _ _ _ _ _ _ P1 P2). cbn [bind]. reflexivity. }
    destruct (H2 f w1 g1 c env xps xtl SR1) as [(EB&L2)|(w2&env2&EB&SR2&K2&ER2&L2)]; auto; try lia; [unfold c; rt|unfold c; rt| |];
      rewrite EB in EQ; cbn [bind] in EQ.
    { eapply leads_nomem; [exact EQ|lia]. }
    unfold c in K2. carry SR1 K2.
    rewrite (pair_cdr _ _ _ _ P1) in EQ. cbn [bind] in EQ. rewrite (pair_cadr _ _ _ _ _ _ P2 P3) in EQ. cbn [bind] in EQ. unfold go in EQ.
    eapply (leads_alloc prim f w1 w2 K _ N2 (N3 + N4)); [exact EQ|exact K2|inc|lia|lia|].
    eapply fin_bind with (N1 := N3) (N2 := N4).
    { eapply (H3 f w2 g1); eauto; [unfold EVAL_R; kg|lia|cbn [length]; lia]. } { inc. } { lia. }
    intros w3 g3 x3 n3 r3 e3 K3 SR3 V3 G3 ER3. carry SR2 K3.
    eapply leads_step; [unfold EVAL_R; rewrite st_cont by knum; reflexivity|].
    apply H4; auto; try lia. gd.
  - (* a closure *)
    destruct (params ev s1 e ce ps tl) as [[[ce' s2] d2]|] eqn:E2; [|discriminate].
    destruct (ev s2 ce' body) as [[[u s3] d3]|] eqn:E3; [|discriminate]. apply some3 in E. destruct E as (->&->&<-).
    destruct (params_ok prim ev SD _ _ _ _ _ _ _ _ E2) as (N2&H2). destruct (SD _ _ _ _ _ _ E3) as (N3&H3).
    destruct (params_d prim _ _ _ _ _ _ _ _ _ E2) as (D6&CASES).
    exists (N1 + N2 + N3)%nat. intros f w g K sz xfn xtl env r SR ER Vf Vt GR GK F D SZ. split; [lia|].
    eapply fin_bind with (N1 := N1) (N2 := (N2 + N3)%nat).
    { eapply (H1 f w g); eauto; [unfold APPLICATION_START; kg|lia|cbn [length]; lia]. } { inc. } { lia. }
    intros w1 g1 x1 n1 r1 e1 K1 SR1 V1 G1 ER1. carry SR K1. assert (Gr1 : good w1 r1) by gd.
    inversion V1 as [| | |? ? ? p1 p2 p3 p4 xps xb xce P1 P2 P3 P4 Vps Vb Ec]; subst.
    assert (AR : exists arg0 arg_rest, get_car_and_cdr (wh w1) xtl = Ok (Some (arg0, arg_rest)) /\ good w1 arg0 /\ good w1 arg_rest /\
      (forall xa xd, pair_at w1 xtl xa xd -> xa = arg0 /\ xd = arg_rest)).
    { destruct CASES as [NE|(a&t&->)].
      - exists NIL, NIL. assert (NG : good w1 NIL) by (rewrite NIL_0; apply nil_good). sp; auto.
        + rewrite (vrel_nil_word _ _ _ Vt NE). unfold get_car_and_cdr. destruct nil_fields as (_&_&_&Np&_). rewrite Np. reflexivity.
        + intros xa xd P. apply pair_cons in P. rewrite (vrel_nil_word _ _ _ Vt NE) in P. rewrite zero_not_cons in P. discriminate.
      - apply vrel_cons_inv in Vt. destruct Vt as (xa&xd&P&Va&Vd). exists xa, xd. sp; try gd; [apply (pair_both _ _ _ _ P)|].
        intros ya yd P'. pose proof (pair_both _ _ _ _ P) as Q. rewrite (pair_both _ _ _ _ P') in Q. injection Q as -> ->. auto. }
    destruct AR as (arg0&arg_rest&EA&Ga&Gd&PA).
    pose (K2 := unset (xtl :: env :: K) 3 :: unset (xtl :: env :: K) 2 :: arg_rest :: unset (xtl :: env :: K) 0 :: xb :: env :: K).
    pose (c := regs env arg0 r1 K2).
    assert (GB : good w1 xb) by gd.
    assert (CX : ctx_ok w1 c).
    { eapply ctx_regs; eauto. unfold K2. repeat (apply Forall_cons; [first [apply unref_kgood, UNS|apply good_kgood; gd]|]). auto. }
    eapply leads_bind with (R1 := xb :: K) (N1 := N2) (N2 := N3).
    { eapply (H2 f w1 g1 c K sz xtl xps xce xb env r1); eauto; try lia.
      - unfold c, K2. rts.
      - intros xa xd P. destruct (PA _ _ P) as [-> ->]. split; unfold c, K2; rt.
      - rewrite ST. unfold cont_application_start. rewrite (cons_not_symbol r1), (pair_cons _ _ _ _ P1), (pair_car _ _ _ _ P1) by (eapply pair_cons; eauto).
        cbn [bind]. replace (S_CLOSURE =? S_CLOSURE) with true by (symmetry; apply Z.eqb_refl).
        rewrite (pair_cdr _ _ _ _ P1). cbn [bind]. unfold extract_3.
        rewrite (pair_extract _ _ _ _ P2). cbn [bind]. rewrite (pair_extract _ _ _ _ P3). cbn [bind]. rewrite (pair_extract _ _ _ _ P4). cbn [bind].
        rewrite EA. cbn [bind].
        destruct (Z.ltb_spec (Z.of_nat (length (xtl :: env :: K)) + 4) sz) as [_|X]; [|cbn [length] in X; lia].
        unfold disp. rewrite EA. cbn [bind]. fold K2. fold c. reflexivity. }
    { inc. } { lia. }
    intros w2 st2 KP2 (g2&cenv2&r2&->&SR2&ER2&GR2).
    assert (Vb2 : vrel w2 body xb) by (apply (vrel_k _ _ _ _ _ SR1 KP2); auto; rt).
    assert (GK2 : Forall (kgood w2) K) by (apply (kgoods_k _ _ _ _ _ _ SR1 KP2); auto; apply rooted_incl; inc).
    apply H3; auto; lia.
Qed.

(* ---- special forms ---- *)

Lemma len2 w f c a q b r : pair_at w c a q -> pair_at w q b r -> is_cons r = false -> (2 <= f)%nat -> list_length f (wh w) c = Ok 2.
Proof.
  clear IMP UNS prims prim HO. intros P1 P2 N F. destruct f as [|[|f]]; try lia. unfold list_length.
  assert (CD : forall p x y, pair_at w p x y -> cdr (wh w) p = Ok y).
  { intros p x y P. unfold cdr. rewrite (pair_ptr _ _ _ _ P), (pair_ref _ _ _ _ P). reflexivity. }
  cbn [list_length_loop]. rewrite (pair_cons _ _ _ _ P1), (CD _ _ _ P1). cbn [bind].
  rewrite (pair_cons _ _ _ _ P2), (CD _ _ _ P2). cbn [bind].
  destruct f; cbn [list_length_loop]; rewrite N; f_equal; arch; reflexivity.
Qed.

Lemma if_ok ev : sound ev -> forall c s e v1 s1 d1 v s' d x1 x2,
  ev s e c = Some (v1, s1, d1) ->
  (if nilp v1 then match x2 with VC y _ => ev s1 e y | _ => if nilp x2 then ev s1 e VNil else None end else ev s1 e x1) = Some (v, s', d) ->
  exists N, forall f w g K sz xc p env r, srel w g s -> erel w e env -> vrel w c xc -> vrel w (VC x1 x2) p ->
    good w r -> Forall (kgood w) K ->
    (N <= f)%nat -> Z.of_nat (length K + max (3 + d1) d) < sz -> sz <= 2 ^ 28 ->
    finishes f w s' v K sz N (mkE (wh w) g (IF :: env :: p :: K) sz xc env r false).
Proof.
  intros SD c s e v1 s1 d1 v s' d x1 x2 E1 E2. destruct (SD _ _ _ _ _ _ E1) as (N1&H1).
  assert (B : exists y, ev s1 e y = Some (v, s', d) /\ forall w p rv, vrel w (VC x1 x2) p -> vrel w v1 rv ->
    exists xy, vrel w y xy /\ (if is_symbol_nil rv then get_cadr (wh w) p else get_car (wh w) p) = Ok (Some xy)).
  { destruct (nilp v1) eqn:NV.
    - destruct x2 as [k|z|y x3|ps body ce].
      + destruct (nilp (VSym k)) eqn:NK; [|discriminate]. exists VNil. split; auto. intros w p rv V Vr.
        rewrite (vrel_nil _ _ _ Vr), NV. apply vrel_cons_inv in V. destruct V as (xx&q&P&_&Vq).
        exists 0. split; [apply vrel_nil_0|]. unfold get_cadr. rewrite (pair_ptr _ _ _ _ P), (pair_ref _ _ _ _ P). cbn [bind snd].
        rewrite (vrel_nil_word _ _ _ Vq NK). destruct nil_fields as (_&_&_&Np&_). rewrite Np. reflexivity.
      + discriminate.
      + exists y. split; auto. intros w p rv V Vr. rewrite (vrel_nil _ _ _ Vr), NV.
        apply vrel_cons_inv in V. destruct V as (xx&q&P&_&Vq). apply vrel_cons_inv in Vq. destruct Vq as (xy&q2&P2&Vy&_).
        exists xy. split; auto. eapply pair_cadr; eauto.
      + discriminate.
    - exists x1. split; auto. intros w p rv V Vr. rewrite (vrel_nil _ _ _ Vr), NV.
      apply vrel_cons_inv in V. destruct V as (xx&q&P&Vx&_). exists xx. split; auto. eapply pair_car; eauto. }
  destruct B as (y&Ey&B). destruct (SD _ _ _ _ _ _ Ey) as (N2&H2). exists (N1 + N2)%nat.
  intros f w g K sz xc p env r SR ER Vc Vp GR GK F D SZ.
  eapply fin_bind with (N1 := N1) (N2 := N2).
  { eapply (H1 f w g); eauto; [unfold IF; kg|lia|cbn [length]; lia]. } { inc. } { lia. }
  intros w1 g1 y1 n1 r1 e1 K1 SR1 V1 G1 ER1. carry SR K1.
  destruct (B w1 p r1 Vp V1) as (xy&Vy&EG).
  eapply leads_step.
  { unfold IF. rewrite st_cont by knum. change (cont prim f 3 ?s) with (cont_if s). unfold cont_if. rewrite EG. cbn [bind]. unfold go. reflexivity. }
  apply H2; auto; try lia. gd.
Qed.

Lemma form_ok ev : sound ev -> forall k tl s e v s' d, 0x100 <= k < 0x200 -> form ev false k s e tl = Some (v, s', d) ->
  exists N, forall f w g K sz p env r, srel w g s -> erel w e env -> vrel w (VC (VSym k) tl) p -> good w r -> Forall (kgood w) K ->
    (N <= f)%nat -> Z.of_nat (length K + d) < sz -> sz <= 2 ^ 28 ->
    finishes f w s' v K sz N (mkE (wh w) g K sz p env r false).
Proof.
  intros SD k tl s e v s' d Rk E. unfold form in E.
  destruct (Z.eqb_spec k 0x100) as [->|_].
  { (* quote *)
    destruct tl as [| |x tl2|]; try discriminate. apply some3 in E. destruct E as (->&->&<-).
    exists 0%nat. intros f w g K sz p env r SR ER V GR GK F D SZ.
    destruct (st_form prim f w g K sz _ _ p env r V Rk) as (q&P&Vq&ST). apply vrel_cons_inv in Vq. destruct Vq as (x1&q2&P2&V2&_).
    eapply leads_step; [|eapply (fin_val prim f w g _ _ K sz _ p env); eauto; gd].
    rewrite ST. change (eval_form f (0x100 - 0x100) ?s) with (eval_quote s). unfold eval_quote. rewrite (pair_cadr _ _ _ _ _ _ P P2). reflexivity. }
  destruct (Z.eqb_spec k 0x101) as [->|_].
  { (* define *)
    destruct tl as [| |kv tl2|]; try discriminate. destruct kv as [x| | |]; try discriminate. destruct tl2 as [| |x1 tl3|]; try discriminate.
    destruct (variable x) eqn:VX; [|discriminate]. destruct (nilp tl3) eqn:N3; [|discriminate]. cbn [andb] in E. apply variable_iff in VX.
    destruct (ev s e x1) as [[[u s1] d1]|] eqn:E1; [|discriminate]. apply some3 in E. destruct E as (->&<-&<-).
    destruct (SD _ _ _ _ _ _ E1) as (N1&H1). exists (S (S (N1 + length (glo s1)))). intros f w g K sz p env r SR ER V GR GK F D SZ.
    destruct (st_form prim f w g K sz _ _ p env r V Rk) as (q&P&Vq&ST). apply vrel_cons_inv in Vq. destruct Vq as (xk&q2&P2&Vk&V2).
    apply vrel_sym_inv in Vk. destruct Vk as (->&Rx&_&TX). apply vrel_cons_inv in V2. destruct V2 as (xx&q3&P3&Vx&V3).
    eapply leads_step.
    { rewrite ST. change (eval_form f (0x101 - 0x100) ?s) with (eval_define s). unfold eval_define, extract_3.
      rewrite (pair_extract _ _ _ _ P). cbn [bind]. rewrite (pair_extract _ _ _ _ P2). cbn [bind]. rewrite (pair_extract _ _ _ _ P3). cbn [bind].
      rewrite sym_is_symbol, (vrel_nil _ _ _ V3), N3, sym_dec by auto. unfold RUNTIME_START.
      destruct (Z.geb_spec x 0x40000) as [_|]; [|lia]. cbn [andb]. rewrite res_ok by (cbn [length]; lia). cbn [rev app]. unfold go. reflexivity. }
    assert (GX : good w (enc_sym x)) by (apply sym_good; auto).
    eapply fin_bind with (N1 := N1) (N2 := 2%nat).
    { eapply (H1 f w g); eauto; [unfold SET_GLOBAL_ENV; kg|lia|cbn [length]; lia]. } { inc. } { lia. }
    clear ST. intros w1 g1 y1 n1 r1 e1 K1 SR1 V1 G1 ER1. carry SR K1.
    assert (ST : step prim f (mkE (wh w1) g1 (SET_GLOBAL_ENV :: enc_sym x :: K) sz y1 n1 r1 true) =
      cont_set_global_env f (mkE (wh w1) g1 (enc_sym x :: K) sz y1 n1 r1 false)).
    { unfold SET_GLOBAL_ENV. rewrite st_cont by knum. reflexivity. }
    unfold cont_set_global_env in ST. assert (Gr1 : good w1 r1) by gd.
    destruct (define_ok w1 g1 s1 x v r1 f SR1 ltac:(lia) V1 ltac:(lia)) as [(w2&g2&E2&SR2&HX2&R2&L2)|(L2&w2&g2&E2&SR2&HX2&R2)];
      rewrite E2 in ST; cbn [bind gheap groots] in ST.
    - pose proof (hext_keeps_same K _ _ HX2 R2) as K2. carryx HX2.
      eapply (leads_alloc prim f w1 w2 K K 2 0); [exact ST|exact K2|apply incl_refl|lia|lia|]. eapply fin_val; eauto.
    - pose proof (hext_keeps_same K _ _ HX2 R2) as K2. carryx HX2.
      pose (c := regs n1 y1 r1 K). assert (CX : ctx_ok w2 c) by ctxr.
      destruct (collect_cw w2 g1 s1 [] c SR2 (Forall_nil _) CX) as [EC|(w3&EC&SR3&K3&L3)]; unfold c in EC; rewrite EC in ST; cbn [bind] in ST.
      { eapply leads_nomem; eauto. }
      cbn [app] in K3. unfold c in K3. carry SR2 K3.
      assert (K13 : keeps K w1 w3) by (eapply keeps_trans; [exact K2|]; eapply keeps_incl; [exact K3|inc]).
      destruct (define_ok w3 g1 s1 x v r1 f SR3 ltac:(lia) V1 ltac:(lia)) as [(w4&g4&E4&SR4&HX4&R4&L4)|(L4&w4&g4&E4&_)];
        rewrite E4 in ST; cbn [bind gheap groots] in ST.
      + pose proof (hext_keeps_same K _ _ HX4 R4) as K4. carryx HX4.
        eapply (leads_alloc prim f w1 w4 K K 2 0); [exact ST|eapply keeps_trans; [exact K13|exact K4]|apply incl_refl|lia|lia|]. eapply fin_val; eauto.
      + eapply leads_nomem; eauto. }
  destruct (Z.eqb_spec k 0x102) as [->|_].
  { (* progn *)
    pose proof (progn_ok prim ev SD _ _ _ _ _ _ E) as PO.
    assert (STEP : forall f w g K sz p env r q, pair_at w p (enc_sym 0x102) q -> eval_form f (0x102 - 0x100) (mkE (wh w) g K sz p env r false) =
      if is_cons q then
        let! (a, d) := ref_cell (wh w) q in
        if is_cons d then match reserve sz K [env; enc_u 0; d; PROGN_REST] with Some K1 => go (wh w) g K1 sz a env r | None => Ok Err end
        else go (wh w) g K sz a env r
      else if is_symbol_nil q then ret (wh w) g K sz p env NIL else Ok Err).
    { intros f w g K sz p env r q P. change (eval_form f (0x102 - 0x100) ?s) with (eval_progn s). unfold eval_progn. rewrite (pair_cdr _ _ _ _ P). reflexivity. }
    destruct tl as [x|z|a rest|ps body ce]; try discriminate.
    - cbn [progn] in E. destruct (x =? 0) eqn:X0; [|discriminate]. apply some3 in E. destruct E as (<-&<-&<-).
      exists 0%nat. intros f w g K sz p env r SR ER V GR GK F D SZ.
      destruct (st_form prim f w g K sz _ _ p env r V Rk) as (q&P&Vq&ST).
      eapply leads_step; [|eapply (fin_val prim f w g _ _ K sz _ p env); [eauto|apply vrel_nil_0|gd|eauto]].
      rewrite ST, (STEP _ _ _ _ _ _ _ _ _ P), (vrel_word _ _ _ Vq), (vrel_nil _ _ _ Vq). cbn [nilp]. rewrite X0, <- NIL_0. reflexivity.
    - destruct PO as (N&H). exists N. intros f w g K sz p env r SR ER V GR GK F D SZ.
      destruct (st_form prim f w g K sz _ _ p env r V Rk) as (q&P&Vq&ST).
      apply vrel_cons_inv in Vq. destruct Vq as (xa&q2&P2&Va&Vr).
      destruct (H f w g K sz xa q2 env r (enc_u 0) SR ER Va Vr (or_introl eq_refl) GR GK F D SZ) as (D4&FIN).
      eapply leads_step; [|exact FIN].
      rewrite ST, (STEP _ _ _ _ _ _ _ _ _ P), (pair_cons _ _ _ _ P2), (pair_ref _ _ _ _ P2). cbn [bind]. rewrite (vrel_word _ _ _ Vr).
      unfold progn_state. destruct rest; cbn [is_pair] in *; auto.
      + rewrite res_ok; [reflexivity|]. specialize (D4 eq_refl). cbn [length]. lia.
      + cbn [progn] in E. discriminate. }
  destruct (Z.eqb_spec k 0x103) as [->|_].
  { (* lambda *)
    destruct tl as [| |ps tl2|]; try discriminate. destruct tl2 as [| |body tl3|]; try discriminate. apply some3 in E. destruct E as (<-&<-&<-).
    exists 4%nat. intros f w g K sz p env r SR ER V GR GK F D SZ.
    destruct (st_form prim f w g K sz _ _ p env r V Rk) as (q&P&Vq&ST). apply vrel_cons_inv in Vq. destruct Vq as (xps&q2&P2&Vps&V2).
    apply vrel_cons_inv in V2. destruct V2 as (xb&q3&P3&Vb&_).
    assert (GP : good w p) by gd.
    pose (c := regs env p r K). assert (CX : ctx_ok w c) by ctxr.
    change (eval_form f (0x103 - 0x100) ?s) with (eval_lambda s) in ST. unfold eval_lambda, extract_3 in ST.
    rewrite (pair_extract _ _ _ _ P) in ST. cbn [bind] in ST. rewrite (pair_extract _ _ _ _ P2) in ST. cbn [bind] in ST. rewrite (pair_extract _ _ _ _ P3) in ST. cbn [bind] in ST.
    destruct (closure_ok w g s c ps body e xps xb env SR Vps Vb ER CX) as [(w'&cl&EC&SR'&K1&L&VC')|(EC&L)]; try (unfold c; rt);
      unfold c in EC; rewrite EC in ST; cbn [bind] in ST.
    - unfold c in K1. carry SR K1. eapply (leads_alloc prim f w w' K _ 4 0); [exact ST|exact K1|inc|exact L|lia|]. eapply fin_val; eauto.
    - eapply leads_nomem; eauto. }
  destruct (Z.eqb_spec k 0x104) as [->|_].
  { (* if *)
    destruct tl as [| |c tl2|]; try discriminate. destruct tl2 as [| |x1 x2|]; try discriminate.
    destruct (ev s e c) as [[[v1 s1] d1]|] eqn:E1; [|discriminate].
    destruct (if nilp v1 then match x2 with VC y _ => ev s1 e y | _ => if nilp x2 then ev s1 e VNil else None end else ev s1 e x1)
      as [[[u s2] d2]|] eqn:E2; [|discriminate]. apply some3 in E. destruct E as (->&->&<-).
    destruct (if_ok ev SD _ _ _ _ _ _ _ _ _ _ _ E1 E2) as (N&H). exists N. intros f w g K sz p env r SR ER V GR GK F D SZ.
    destruct (st_form prim f w g K sz _ _ p env r V Rk) as (q&P&Vq&ST). apply vrel_cons_inv in Vq. destruct Vq as (xc&q2&P2&Vc&V2).
    eapply leads_step; [|apply H; eauto].
    rewrite ST. change (eval_form f (0x104 - 0x100) ?s) with (eval_if s). unfold eval_if.
    rewrite (pair_cdr _ _ _ _ P). cbn [bind]. rewrite (pair_cdr _ _ _ _ P2). cbn [bind].
    rewrite res_ok by (cbn [length]; lia). rewrite (pair_car _ _ _ _ P2). reflexivity. }
  destruct (Z.eqb_spec k 0x105) as [->|_].
  { (* let *)
    destruct tl as [| |bs tl2|]; try discriminate. destruct tl2 as [| |body tl3|]; try discriminate.
    destruct (let_alloc s e bs) as [[s1 e1]|] eqn:E1; [|discriminate]. destruct (let_fill ev s1 e1 bs) as [[s2 d1]|] eqn:E2; [|discriminate].
    destruct (ev s2 e1 body) as [[[u s3] d2]|] eqn:E3; [|discriminate]. apply some3 in E. destruct E as (->&->&<-).
    destruct (create_all_ok prim _ _ _ _ _ E1) as (N1&H1). pose proof (let_fill_ok prim ev SD _ _ _ _ _ E2) as LF. destruct (SD _ _ _ _ _ _ E3) as (N3&H3).
    assert (EQ : forall f w g K sz p env r q b q2 bd q3, pair_at w p (enc_sym 0x105) q -> pair_at w q b q2 -> pair_at w q2 bd q3 ->
      eval_form f (0x105 - 0x100) (mkE (wh w) g K sz p env r false) = let_bind f (wh w) g K sz p b bd env r).
    { intros f w g K sz p env r q b q2 bd q3 P P2 P3. change (eval_form f (0x105 - 0x100) ?s) with (eval_let f s). unfold eval_let, extract_3.
      rewrite (pair_extract _ _ _ _ P). cbn [bind]. rewrite (pair_extract _ _ _ _ P2). cbn [bind]. rewrite (pair_extract _ _ _ _ P3). reflexivity. }
    destruct bs as [x|z|b rest|ps0 b0 c0].
    1,2: cbn in E1; injection E1 as <- <-; subst s2; exists N3; intros f w g K sz p env r SR ER V GR GK F D SZ;
      destruct (st_form prim f w g K sz _ _ p env r V Rk) as (q&P&Vq&ST); apply vrel_cons_inv in Vq; destruct Vq as (xbs&q2&P2&Vbs&V2);
      apply vrel_cons_inv in V2; destruct V2 as (xb&q3&P3&Vb&_);
      (eapply leads_step; [rewrite ST, (EQ _ _ _ _ _ _ _ _ _ _ _ _ _ P P2 P3); unfold let_bind; rewrite (vrel_word _ _ _ Vbs); unfold go; reflexivity|]);
      apply H3; auto; lia.
    - pose proof E1 as E1'. cbn [let_alloc] in E1'. destruct b as [| |pt b2|]; try discriminate. destruct b2 as [| |y b3|]; try discriminate. clear E1'.
      destruct LF as (N2&H2). exists (N1 + N2 + N3)%nat. intros f w g K sz p env r SR ER V GR GK F D SZ.
      destruct (st_form prim f w g K sz _ _ p env r V Rk) as (q&P&Vq&ST). apply vrel_cons_inv in Vq. destruct Vq as (xbs&q2&P2&Vbs&V2).
      apply vrel_cons_inv in V2. destruct V2 as (xb&q3&P3&Vb&_).
      assert (GP : good w p) by gd.
      pose (c := regs env p r K). assert (CX : ctx_ok w c) by ctxr.
      rewrite (EQ _ _ _ _ _ _ _ _ _ _ _ _ _ P P2 P3) in ST. unfold let_bind in ST. rewrite (vrel_word _ _ _ Vbs) in ST.
      destruct (H1 f f w g c env xbs SR ER Vbs CX) as [(w1&env1&EC&SR1&K1&ER1&L1)|(EC&L1)]; try lia; [unfold c; rt| |];
        unfold c in EC; rewrite EC in ST; cbn [bind] in ST.
      2:{ eapply leads_nomem; [exact ST|lia]. }
      unfold c in K1. carry SR K1.
      pose proof Vbs as Vbs1. apply vrel_cons_inv in Vbs1. destruct Vbs1 as (xf&xr&Pf&Vf&Vr). apply vrel_cons_inv in Vf. destruct Vf as (xp&xf2&Pp&Vp&Vf2).
      apply vrel_cons_inv in Vf2. destruct Vf2 as (xy&xf3&Py&Vy&_). assert (GB : good w1 xb) by gd.
      destruct (H2 f w1 g K sz xp xy xr env1 r xb SR1 ER1 Vp Vy Vr GR GB GK) as (D5&LD); try lia.
      rewrite (pair_ref _ _ _ _ Pf) in ST. cbn [bind] in ST. unfold extract_2 in ST. rewrite (pair_extract _ _ _ _ Pp) in ST. cbn [bind] in ST.
      rewrite (pair_extract _ _ _ _ Py) in ST. cbn [bind] in ST. rewrite res_ok in ST by (cbn [length]; lia). cbn [rev app] in ST. unfold go in ST.
      eapply (leads_alloc prim f w w1 K _ N1 (N2 + N3)); [exact ST|exact K1|inc|exact L1|lia|].
      eapply leads_bind with (N1 := N2) (N2 := N3); [exact LD|inc|lia|].
      intros w2 st2 K2 (g2&r2&->&SR2&GR2).
      assert (Vb2 : vrel w2 body xb) by (apply (vrel_k _ _ _ _ _ SR1 K2); auto; rt).
      assert (ER2 : erel w2 e1 env1) by (apply (erel_k _ _ _ _ _ SR1 K2); auto; rt).
      assert (GK2 : Forall (kgood w2) K) by (apply (kgoods_k _ _ _ _ _ _ SR1 K2); auto; apply rooted_incl; inc).
      apply H3; auto; lia.
    - discriminate. }
  destruct (Z.eqb_spec k 0x106) as [->|_].
  { (* and *)
    destruct (nilp tl) eqn:NT.
    - apply some3 in E. destruct E as (<-&<-&<-). exists 0%nat. intros f w g K sz p env r SR ER V GR GK F D SZ.
      destruct (st_form prim f w g K sz _ _ p env r V Rk) as (q&P&Vq&ST).
      eapply leads_step; [|eapply (fin_val prim f w g _ _ K sz _ p env); [eauto|apply (vr_sym w 2); unfold type_sym; lia|gd|eauto]].
      rewrite ST. change (eval_form f (0x106 - 0x100) ?s) with (eval_andor AND TRUE s). unfold eval_andor. rewrite (pair_cdr _ _ _ _ P). cbn [bind].
      rewrite (vrel_nil _ _ _ Vq), NT. reflexivity.
    - destruct (andor_ok prim ev 6 nilp (fun r => is_symbol_nil r) SD (or_introl (conj eq_refl (conj eq_refl eq_refl))) _ _ _ _ _ _ E) as (N&H).
      exists N. intros f w g K sz p env r SR ER V GR GK F D SZ.
      destruct (st_form prim f w g K sz _ _ p env r V Rk) as (q&P&Vq&ST).
      destruct (H f w g K sz q env r SR ER Vq GR GK F D SZ) as (x&q2&P2&D3&FIN).
      eapply leads_step; [|exact FIN].
      rewrite ST. change (eval_form f (0x106 - 0x100) ?s) with (eval_andor AND TRUE s). unfold eval_andor. rewrite (pair_cdr _ _ _ _ P). cbn [bind].
      rewrite (vrel_nil _ _ _ Vq), NT, (pair_cdr _ _ _ _ P2). cbn [bind]. rewrite res_ok by (cbn [length]; lia). rewrite (pair_car _ _ _ _ P2). reflexivity. }
  destruct (Z.eqb_spec k 0x107) as [->|_].
  { (* or *)
    destruct (nilp tl) eqn:NT.
    - apply some3 in E. destruct E as (<-&<-&<-). exists 0%nat. intros f w g K sz p env r SR ER V GR GK F D SZ.
      destruct (st_form prim f w g K sz _ _ p env r V Rk) as (q&P&Vq&ST).
      eapply leads_step; [|eapply (fin_val prim f w g _ _ K sz _ p env); [eauto|apply vrel_nil_0|gd|eauto]].
      rewrite ST. change (eval_form f (0x107 - 0x100) ?s) with (eval_andor OR NIL s). unfold eval_andor. rewrite (pair_cdr _ _ _ _ P). cbn [bind].
      rewrite (vrel_nil _ _ _ Vq), NT, <- NIL_0. reflexivity.
    - destruct (andor_ok prim ev 7 (fun v => negb (nilp v)) (fun r => negb (is_symbol_nil r)) SD (or_intror (conj eq_refl (conj eq_refl eq_refl))) _ _ _ _ _ _ E) as (N&H).
      exists N. intros f w g K sz p env r SR ER V GR GK F D SZ.
      destruct (st_form prim f w g K sz _ _ p env r V Rk) as (q&P&Vq&ST).
      destruct (H f w g K sz q env r SR ER Vq GR GK F D SZ) as (x&q2&P2&D3&FIN).
      eapply leads_step; [|exact FIN].
      rewrite ST. change (eval_form f (0x107 - 0x100) ?s) with (eval_andor OR NIL s). unfold eval_andor. rewrite (pair_cdr _ _ _ _ P). cbn [bind].
      rewrite (vrel_nil _ _ _ Vq), NT, (pair_cdr _ _ _ _ P2). cbn [bind]. rewrite res_ok by (cbn [length]; lia). rewrite (pair_car _ _ _ _ P2). reflexivity. }
  assert (SELF : (k = 0x10D \/ k = 0x10F) -> Some (VC (VSym k) tl, s, 0%nat) = Some (v, s', d) -> exists N, forall f w g K sz p env r, srel w g s -> erel w e env -> vrel w (VC (VSym k) tl) p ->
    good w r -> Forall (kgood w) K ->
    (N <= f)%nat -> Z.of_nat (length K + d) < sz -> sz <= 2 ^ 28 ->
    finishes f w s' v K sz N (mkE (wh w) g K sz p env r false)).
  { intros HK E'. apply some3 in E'. destruct E' as (<-&<-&<-). exists 0%nat. intros f w g K sz p env r SR ER V GR GK F D SZ.
    destruct (st_form prim f w g K sz _ _ p env r V Rk) as (q&P&Vq&ST).
    eapply leads_step; [|eapply (fin_val prim f w g _ _ K sz _ p env); eauto; gd]. rewrite ST. destruct HK as [->| ->]; reflexivity. }
  destruct (Z.eqb_spec k 0x10D) as [->|_]; [apply SELF; auto|].
  destruct (Z.eqb_spec k 0x10F) as [->|_]; [apply SELF; auto|]. clear SELF.
  destruct (Z.eqb_spec k 0x110) as [->|_].
  { (* cond *)
    destruct tl as [x|z|cl rest|ps0 b0 c0]; try discriminate.
    - destruct (nilp (VSym x)) eqn:NT; [|discriminate]. apply some3 in E. destruct E as (<-&<-&<-).
      exists 0%nat. intros f w g K sz p env r SR ER V GR GK F D SZ.
      destruct (st_form prim f w g K sz _ _ p env r V Rk) as (q&P&Vq&ST).
      eapply leads_step; [|eapply (fin_val prim f w g _ _ K sz _ p env); [eauto|apply vrel_nil_0|gd|eauto]].
      rewrite ST. change (eval_form f (0x110 - 0x100) ?s) with (eval_cond f s). unfold eval_cond, extract_2.
      rewrite (pair_extract _ _ _ _ P). cbn [bind]. rewrite (vrel_nil_word _ _ _ Vq NT). unfold extract_1.
      destruct nil_fields as (_&_&_&Np&_). rewrite Np. cbn [bind]. rewrite NIL_0. reflexivity.
    - destruct cl as [| |c cl2|]; try discriminate. destruct cl2 as [| |x1 cl3|]; try discriminate.
      destruct (nilp cl3) eqn:NC; [|discriminate].
      destruct (ev s e c) as [[[v1 s1] d1]|] eqn:E1; [|discriminate].
      destruct (if nilp v1 then ev s1 e (VC (VSym 0x110) rest) else ev s1 e x1) as [[[u s2] d2]|] eqn:E2; [|discriminate].
      apply some3 in E. destruct E as (->&->&<-).
      destruct (if_ok ev SD c s e v1 s1 d1 v s' d2 x1 (VC (VC (VSym 0x110) rest) VNil) E1 E2) as (N&H).
      exists (N + 3)%nat. intros f w g K sz p env r SR ER V GR GK F D SZ.
      destruct (st_form prim f w g K sz _ _ p env r V Rk) as (q&P&Vq&ST). apply vrel_cons_inv in Vq. destruct Vq as (xcl&xrest&P2&Vcl&Vrest).
      apply vrel_cons_inv in Vcl. destruct Vcl as (xc&xcl2&P3&Vc&Vcl2). apply vrel_cons_inv in Vcl2. destruct Vcl2 as (xx&xcl3&P4&Vx&Vcl3).
      change (eval_form f (0x110 - 0x100) ?s) with (eval_cond f s) in ST. unfold eval_cond, extract_2 in ST.
      rewrite (pair_extract _ _ _ _ P) in ST. cbn [bind] in ST. rewrite (pair_extract _ _ _ _ P2) in ST. cbn [bind] in ST.
      rewrite (cons_not_nil xcl) in ST by (eapply pair_cons; eauto).
      rewrite (len2 w f _ _ _ _ _ P3 P4) in ST by (first [lia|rewrite (vrel_word _ _ _ Vcl3); apply nilp_inv in NC; rewrite NC; reflexivity]).
      cbn [bind Z.eqb Pos.eqb negb] in ST. rewrite (pair_extract _ _ _ _ P3) in ST. cbn [bind] in ST. rewrite (pair_extract _ _ _ _ P4) in ST. cbn [bind] in ST.
      assert (GP : good w p) by gd.
      pose (c0 := regs env p r K). assert (CX : ctx_ok w c0) by ctxr.
      match type of ST with _ = ?m =>
        assert (CL : (m = Ok NoMem /\ (length (wfl w) < 3)%nat) \/
          exists w' l, m = Ok (Val (mkE (wh w') g (IF :: env :: l :: K) sz xc env r false)) /\ srel w' g s /\ keeps (cw c0) w w' /\
            (length (wfl w) <= length (wfl w') + 3)%nat /\ vrel w' (VC x1 (VC (VC (VSym 0x110) rest) VNil)) l)
      end.
      { destruct (cond_list w g s c0 x1 rest xx xrest
          (fun y => let '(h3, rest1) := y in match reserve sz K [rest1; env; IF] with Some K1 => go h3 g K1 sz xc env r | None => Ok Err end)
          SR Vx Vrest CX) as [(EL&L)|(w'&l&EL&SR'&K'&L&V')]; [unfold c0; rt|unfold c0; rt| |].
        - left. split; [|exact L]. exact EL.
        - right. exists w', l. sp; auto. rewrite res_ok in EL by (cbn [length]; lia). exact EL. }
      destruct CL as [(EL&L)|(w'&l&EL&SR'&K1&L&V')]; rewrite EL in ST.
      { eapply leads_nomem; [exact ST|lia]. }
      unfold c0 in K1. carry SR K1.
      eapply (leads_alloc prim f w w' K _ 3 N); [exact ST|exact K1|inc|exact L|lia|].
      apply H; auto; lia. }
  destruct (Z.eqb_spec k 0x113) as [->|_].
  { (* setq *)
    destruct tl as [| |kv tl2|]; try discriminate. destruct kv as [x| | |]; try discriminate. destruct tl2 as [| |x1 tl3|]; try discriminate.
    destruct (ev s e x1) as [[[u s1] d1]|] eqn:E1; [|discriminate]. destruct (setvar s1 e x u) as [s2|] eqn:E2; [|discriminate].
    apply some3 in E. destruct E as (->&->&<-).
    destruct (SD _ _ _ _ _ _ E1) as (N1&H1). exists (N1 + length e + length (glo s1))%nat. intros f w g K sz p env r SR ER V GR GK F D SZ.
    destruct (st_form prim f w g K sz _ _ p env r V Rk) as (q&P&Vq&ST). apply vrel_cons_inv in Vq. destruct Vq as (xk&q2&P2&Vk&V2).
    apply vrel_sym_inv in Vk. destruct Vk as (->&Rx&_&TX). apply vrel_cons_inv in V2. destruct V2 as (xx&q3&P3&Vx&V3).
    eapply leads_step.
    { rewrite ST. change (eval_form f (0x113 - 0x100) ?s) with (eval_setq s). unfold eval_setq, extract_3.
      rewrite (pair_extract _ _ _ _ P). cbn [bind]. rewrite (pair_extract _ _ _ _ P2). cbn [bind]. rewrite (pair_extract _ _ _ _ P3). cbn [bind].
      rewrite res_ok by (cbn [length]; lia). cbn [rev app]. unfold go. reflexivity. }
    assert (GX : good w (enc_sym x)) by (apply sym_good; auto).
    eapply fin_bind with (N1 := N1) (N2 := 0%nat).
    { eapply (H1 f w g); eauto; [unfold SETQ; kg|lia|cbn [length]; lia]. } { inc. } { lia. }
    clear ST. intros w1 g1 y1 n1 r1 e1 K1 SR1 V1 G1 ER1. carry SR K1.
    destruct (setvar_gc_ok w1 g1 s1 e env x v r1 f s' (regs n1 y1 r1 K) SR1 ER Rx V1 ltac:(lia) E2) as (h2&E3&SR2&HX2).
    set (w2 := mkW h2 (wfl w1) (wL w1) (wR w1)) in *. pose proof (hext_keeps_same K _ _ HX2 eq_refl) as K2. carryx HX2.
    eapply (leads_alloc prim f w1 w2 K K 0 0); [|exact K2|apply incl_refl|cbn; lia|lia|].
    { unfold SETQ. rewrite st_cont by knum. change (cont prim f 27 ?s) with (cont_setq f s).
      unfold cont_setq. rewrite E3. cbn [bind]. unfold ret. reflexivity. }
    change h2 with (wh w2). eapply fin_val; eauto. }
  destruct (Z.eqb_spec k 0x115); discriminate.
Qed.

(* ---- all of it ---- *)

Lemma eval1_ok ev : sound ev -> sound (eval1 prims ev false).
Proof.
  intros SD s e x v s' d E. unfold eval1 in E.
  assert (APP : forall fn tl, x = VC fn tl -> (forall k, fn = VSym k -> (0x100 <=? k) && (k <? 0x200) = false) ->
    apply prims ev s e fn tl = Some (v, s', d) -> exists N, forall f w g K sz exp env r,
    srel w g s -> erel w e env -> vrel w x exp -> good w r -> Forall (kgood w) K -> (N <= f)%nat ->
    Z.of_nat (length K + d) < sz -> sz <= 2 ^ 28 ->
    finishes f w s' v K sz N (mkE (wh w) g K sz exp env r false)).
  { intros fn tl -> NS E'. destruct (apply_ok ev SD _ _ _ _ _ _ _ E') as (N&H). exists N. intros f w g K sz p env r SR ER V GR GK F D SZ.
    apply vrel_cons_inv in V. destruct V as (xf&xt&P&Vf&Vt).
    destruct (H f w g K sz xf xt env r SR ER Vf Vt GR GK F D SZ) as (D3&FIN).
    eapply leads_step; [|exact FIN]. unfold step. rewrite (cons_not_symbol p), (pair_cons _ _ _ _ P), (pair_ref _ _ _ _ P) by (eapply pair_cons; eauto).
    cbn [bind].
    assert (SF : is_symbol xf && (Z.land xf SF_MASK =? SF_BIT) = false).
    { destruct fn as [k|z|a d0|ps b ce].
      - apply vrel_sym_inv in Vf. destruct Vf as (->&Rk&_). rewrite sym_is_symbol, sf_symbol by auto. cbn [andb]. apply NS; auto.
      - inversion Vf as [|? ? NS1 ?| |]; subst. rewrite NS1. auto.
      - rewrite cons_not_symbol; auto. rewrite (vrel_word _ _ _ Vf). auto.
      - rewrite cons_not_symbol; auto. rewrite (vrel_word _ _ _ Vf). auto. }
    rewrite SF, res_ok by (cbn [length]; lia). reflexivity. }
  destruct x as [k|z|fn tl|ps body ce].
  - destruct (variable k) eqn:VK.
    + exists (length e + length (glo s))%nat. intros f w g K sz exp env r SR ER V GR GK F D SZ. assert (GE : good w exp) by gd.
      apply vrel_sym_inv in V. destruct V as (->&Rk&_). apply variable_iff in VK.
      destruct (lookup_local w g s e env k f SR ER Rk ltac:(lia)) as (o&Eo&Ho).
      destruct (lookup_global w g s k f SR Rk ltac:(lia)) as (o2&Eo2&Ho2).
      assert (ST : step prim f (mkE (wh w) g K sz (enc_sym k) env r false) = eval_symbol f (mkE (wh w) g K sz (enc_sym k) env r false)).
      { unfold step. rewrite sym_is_symbol. reflexivity. }
      unfold eval_symbol in ST. rewrite sym_dec in ST by auto. unfold RUNTIME_START in ST. destruct (Z.geb_spec k 0x40000) as [_|]; [|lia].
      rewrite Eo in ST. cbn [bind] in ST.
      destruct (local s k e) as [u|].
      * apply some3 in E. destruct E as (->&->&<-). destruct Ho as (y&->&Vy). eapply leads_step; [exact ST|]. eapply (fin_val prim f w g _ _ K sz _ (enc_sym k) env); eauto.
      * subst o. rewrite Eo2 in ST. cbn [bind] in ST. destruct (global s k) as [u|]; [|discriminate].
        apply some3 in E. destruct E as (->&->&<-). destruct Ho2 as (y&->&Vy). eapply leads_step; [exact ST|]. eapply (fin_val prim f w g _ _ K sz _ (enc_sym k) env); eauto.
    + apply some3 in E. destruct E as (<-&<-&<-). exists 0%nat. intros f w g K sz exp env r SR ER V GR GK F D SZ.
      eapply leads_step; [|eapply (fin_val prim f w g _ _ K sz _ exp env); eauto; gd]. apply vrel_sym_inv in V. destruct V as (->&Rk&_).
      unfold step. rewrite sym_is_symbol. unfold eval_symbol. rewrite sym_dec by auto. unfold RUNTIME_START.
      unfold variable in VK. apply Z.leb_gt in VK. destruct (Z.geb_spec k 0x40000); [lia|]. reflexivity.
  - apply some3 in E. destruct E as (<-&<-&<-). exists 0%nat. intros f w g K sz exp env r SR ER V GR GK F D SZ.
    eapply leads_step; [|eapply (fin_val prim f w g _ _ K sz _ exp env); eauto; gd]. inversion V as [|? ? N1 N2| |]; subst. unfold step. rewrite N1, N2. reflexivity.
  - destruct fn as [k|z|fa fd|ps body ce]; [|eapply APP; eauto; discriminate..].
    destruct ((0x100 <=? k) && (k <? 0x200)) eqn:RK.
    + apply andb_true_iff in RK. rewrite Z.leb_le, Z.ltb_lt in RK. clear APP.
      destruct (form_ok ev SD _ _ _ _ _ _ _ RK E) as (N&H). exists N. intros; apply H; auto.
    + eapply APP; eauto. intros k' [= <-]. auto.
  - apply some3 in E. destruct E as (<-&<-&<-). exists 0%nat. intros f w g K sz exp env r SR ER V GR GK F D SZ.
    eapply leads_step; [|eapply (fin_val prim f w g _ _ K sz _ exp env); eauto; gd].
    assert (exists q, pair_at w exp (enc_sym 0x10F) q) as (q&P) by (inversion V; subst; eauto).
    unfold step. rewrite (cons_not_symbol exp), (pair_cons _ _ _ _ P), (pair_ref _ _ _ _ P) by (eapply pair_cons; eauto).
    cbn [bind]. rewrite sym_is_symbol, sf_symbol, sym_dec by lia. reflexivity.
Qed.

Theorem eval_sound n : sound (eval prims false n).
Proof.
  induction n as [|n IH]; [intros s e x v s' d E; discriminate|]. apply eval1_ok; auto.
Qed.

End Sound.
