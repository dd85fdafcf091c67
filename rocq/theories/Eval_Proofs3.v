(* The evaluator does what the reference interpreter says: the loops over lists of
   expressions. *)
From Verif Require Import Base Value_Model Heap_Model Env_Model Match_Model QQ_Model GC_Model Eval_Model Eval_Spec
  Value_Proofs Value_Proofs2 Heap_Spec Heap_Proofs Heap_Proofs2 List_Proofs Env_Proofs Env_Props QQ_Proofs GC_Spec Eval_Rel Eval_Proofs
  Eval_GC Eval_Proofs2.
Local Open Scope Z_scope.

Section Arch.
Context {A : Arch} {HO : Host}.

(* ---- the words on the stack ---- *)

Lemma dec_cont n : In n [1; 2; 3; 4; 5; 6; 7; 10; 11; 13; 26; 27; 38; 39; 42] -> DEC_CONT (CONT n) = n.
Proof. intros H. repeat (destruct H as [<-|H]; [destruct A; vm_compute; reflexivity|]). destruct H. Qed.

Lemma dec_u_enc n : 0 <= n < 2 ^ 28 -> dec_u (enc_u n) = n.
Proof.
  intros H. pose proof (tag_range n H) as R. unfold dec_u, enc_u.
  assert (E : wrap W (Z.shiftl n VAL_SHIFT) = n * 2 ^ VAL_SHIFT).
  { rewrite Z.shiftl_mul_pow2 by (arch; lia). apply wrap_small. rewrite <- (Z.sub_add VAL_SHIFT W), Z.pow_add_r by (arch; lia).
    pose proof (Z.pow_pos_nonneg 2 VAL_SHIFT ltac:(lia) ltac:(arch; lia)). nia. }
  rewrite E, Z.shiftr_lor, Z.shiftr_div_pow2, Z.div_mul by (arch; lia).
  replace (Z.shiftr TYPE_U VAL_SHIFT) with 0 by (arch; reflexivity). apply Z.lor_0_r.
Qed.

Lemma enc_u_val m : 0 <= m < 2 ^ 28 -> enc_u m = m * 2 ^ VAL_SHIFT + TYPE_U /\ 0 <= m * 2 ^ VAL_SHIFT + TYPE_U < 2 ^ W.
Proof.
  intros Hm. pose proof (tag_range m Hm) as R. unfold enc_u.
  assert (E : wrap W (Z.shiftl m VAL_SHIFT) = m * 2 ^ VAL_SHIFT).
  { rewrite Z.shiftl_mul_pow2 by (arch; lia). apply wrap_small. rewrite <- (Z.sub_add VAL_SHIFT W), Z.pow_add_r by (arch; lia).
    pose proof (Z.pow_pos_nonneg 2 VAL_SHIFT ltac:(lia) ltac:(arch; lia)). nia. }
  assert (T : 0 <= TYPE_U < 2 ^ VAL_SHIFT) by (arch; vm_compute; split; congruence).
  rewrite E. split; [apply lor_add; [arch; lia|auto]|].
  replace (2 ^ W) with (2 ^ (W - VAL_SHIFT) * 2 ^ VAL_SHIFT) by (rewrite <- Z.pow_add_r by (arch; lia); f_equal; lia). nia.
Qed.

Lemma enc_u_next n : 0 <= n < 2 ^ 28 - 1 -> wrap W (enc_u n + Z.shiftl 1 VAL_SHIFT) = enc_u (n + 1).
Proof.
  intros H. pose proof enc_u_val as U.
  destruct (U n ltac:(lia)) as [-> B1]. destruct (U (n + 1) ltac:(lia)) as [E2 B2]. rewrite E2.
  rewrite Z.shiftl_mul_pow2, Z.mul_1_l by (arch; lia).
  replace (n * 2 ^ VAL_SHIFT + TYPE_U + 2 ^ VAL_SHIFT) with ((n + 1) * 2 ^ VAL_SHIFT + TYPE_U) by ring.
  apply wrap_small; auto.
Qed.

Lemma res_ok sz K ws : Z.of_nat (length K + length ws) < sz -> reserve sz K ws = Some (rev ws ++ K).
Proof. intros H. unfold reserve. destruct (Z.ltb_spec (Z.of_nat (length K) + Z.of_nat (length ws)) sz); auto. lia. Qed.

Lemma erel_sym w e x : erel w e x -> is_symbol x && negb (x =? NIL) = false.
Proof.
  destruct 1.
  - rewrite NIL_0. reflexivity.
  - rewrite cons_not_symbol; auto using enc_cons.
Qed.

(* numbers are not references *)
Lemma kgood_u w n : 0 <= n < 2 ^ 28 -> kgood w (enc_u n).
Proof.
  intros R (X&_). exfalso. destruct (enc_u_val n R) as [E _]. rewrite E in X. clear E R. unfold is_ptr in X.
  replace PTR_BIT with (Z.ones 1) in X by (arch; reflexivity). rewrite Z.land_ones in X by lia.
  revert X. replace ((n * 2 ^ VAL_SHIFT + TYPE_U) mod 2 ^ 1) with 0; [discriminate|].
  symmetry. apply Z.mod_divide; [lia|]. apply Z.divide_add_r.
  - apply Z.divide_mul_r. exists (2 ^ (VAL_SHIFT - 1)). rewrite <- Z.pow_add_r by (arch; lia). f_equal. lia.
  - exists (TYPE_U / 2). arch; reflexivity.
Qed.

End Arch.

Ltac knum := cbn; repeat (first [left; reflexivity|right]).
(* words that may be kept *)
Ltac gd :=
  match goal with
  | SR : srel ?w _ _ |- good ?w ?x =>
    first [ assumption
          | match goal with
            | H : vrel w _ x |- _ => exact (vrel_good _ _ _ (sr_size _ _ _ SR) H)
            | H : erel w _ x |- _ => exact (erel_good _ _ _ (sr_size _ _ _ SR) H)
            | H : pair_at w x _ _ |- _ => exact (pair_good _ _ _ _ (sr_size _ _ _ SR) H)
            end ]
  end.
Ltac kg := repeat (apply Forall_cons; [first [apply kgood_cont; first [assumption|knum] | apply kgood_u; lia | apply good_kgood; gd | assumption]|]); try assumption.
Ltac inc := let x := fresh in let X := fresh in intros x X; unfold cw, regs in *; cbn [c_env c_roots c_stack app] in *; rewrite ?in_app_iff in *; cbn [In] in *; intuition.
Ltac ctxr := eapply ctx_regs; [eassumption|gd|gd|kg].

Section Sound.
Context {A : Arch} {HO : Host}.
Variable prim : Z -> heap -> list Z -> res (heap * Z).

Ltac sp := repeat match goal with |- _ /\ _ => split end.

(* ---- runs ---- *)

Definition reach (f : nat) (s1 s2 : est) : Prop := exists m, run prim f m s1 = Ok (Val s2).

Lemma run_add f m n s : run prim f (m + n) s = let* s1 := run prim f m s in run prim f n s1.
Proof.
  revert s. induction m as [|m IH]; intros s; [reflexivity|]. cbn [Nat.add run].
  destruct (step prim f s) as [[s1| |]| |]; cbn [bind]; auto.
Qed.

Lemma reach_refl f s : reach f s s. Proof. exists 0%nat. reflexivity. Qed.
Lemma reach_trans f s1 s2 s3 : reach f s1 s2 -> reach f s2 s3 -> reach f s1 s3.
Proof. intros (m&Hm) (n&Hn). exists (m + n)%nat. rewrite run_add, Hm. exact Hn. Qed.
Lemma reach_step f s1 s2 s3 : step prim f s1 = Ok (Val s2) -> reach f s2 s3 -> reach f s1 s3.
Proof. intros H (n&Hn). exists (S n). cbn [run]. rewrite H. exact Hn. Qed.

Lemma some2 {X Y} (a a' : X) (b b' : Y) : Some (a, b) = Some (a', b') -> a = a' /\ b = b'.
Proof. intros E. injection E. auto. Qed.
Lemma some3 {X Y Z} (a a' : X) (b b' : Y) (c c' : Z) : Some (a, b, c) = Some (a', b', c') -> a = a' /\ b = b' /\ c = c'.
Proof. intros E. injection E. auto. Qed.

(* memory runs out, and there were less than [N] free cells at the start *)
Definition starves (f : nat) (w : world) (N : nat) (st : est) : Prop :=
  (length (wfl w) < N)%nat /\ exists m, run prim f m st = Ok NoMem.

(* the evaluator gets from [st] to a state such that [Q], with what can be reached
   from [R] still there and [N] free cells less at most; or memory runs out *)
Definition leads (f : nat) (w : world) (R : list Z) (N : nat) (st : est) (Q : world -> est -> Prop) : Prop :=
  (exists w' st', reach f st st' /\ keeps R w w' /\ (length (wfl w) <= length (wfl w') + N)%nat /\ Q w' st') \/
  starves f w N st.

(* the value [v] is returned to the continuation [K] *)
Definition returns (s' : rstate) (v : val) (K : list Z) (sz : Z) (w : world) (st : est) : Prop :=
  exists g exp env r, st = mkE (wh w) g K sz exp env r true /\
    srel w g s' /\ vrel w v r /\ good w exp /\ exists e, erel w e env.

Definition finishes f w s' v K sz N st : Prop := leads f w K N st (returns s' v K sz).

Lemma leads_reach f w w1 R R1 N1 N2 N st st1 Q : reach f st st1 -> keeps R1 w w1 -> incl R R1 ->
  (length (wfl w) <= length (wfl w1) + N1)%nat -> (N1 + N2 <= N)%nat -> leads f w1 R N2 st1 Q -> leads f w R N st Q.
Proof.
  intros RE KP I L LN [(w'&st'&R'&K'&L'&H)|(L'&m&H)].
  - left. exists w', st'. sp; auto; [eapply reach_trans; eauto| |lia]. eapply keeps_trans; eauto. eapply keeps_incl; eauto.
  - right. split; [lia|]. destruct RE as (n&RE). exists (n + m)%nat. rewrite run_add, RE. exact H.
Qed.

Lemma leads_incl f w R R1 N N1 st Q : leads f w R1 N1 st Q -> incl R R1 -> (N1 <= N)%nat -> leads f w R N st Q.
Proof.
  intros [(w'&st'&R'&K'&L'&H)|(L'&m&H)] I LN.
  - left. exists w', st'. sp; auto; [eapply keeps_incl; eauto|lia].
  - right. split; [lia|eauto].
Qed.

Lemma leads_now f w R N st (Q : world -> est -> Prop) : Q w st -> leads f w R N st Q.
Proof. intros H. left. exists w, st. sp; auto using reach_refl, keeps_refl. lia. Qed.

(* a step, with and without a change of the heap, and one that fails *)
Lemma leads_step f w R N st st1 Q : step prim f st = Ok (Val st1) -> leads f w R N st1 Q -> leads f w R N st Q.
Proof.
  intros H L. eapply (leads_reach f w w R R 0 N); eauto using keeps_refl, incl_refl; try lia.
  eapply reach_step; eauto using reach_refl.
Qed.
Lemma leads_alloc f w w1 R R1 N1 N2 N st st1 Q : step prim f st = Ok (Val st1) -> keeps R1 w w1 -> incl R R1 ->
  (length (wfl w) <= length (wfl w1) + N1)%nat -> (N1 + N2 <= N)%nat -> leads f w1 R N2 st1 Q -> leads f w R N st Q.
Proof. intros H. eapply leads_reach. eapply reach_step; eauto using reach_refl. Qed.
Lemma leads_nomem f w R N st Q : step prim f st = Ok NoMem -> (length (wfl w) < N)%nat -> leads f w R N st Q.
Proof. intros H L. right. split; auto. exists 1%nat. cbn [run]. rewrite H. reflexivity. Qed.

Lemma leads_bind f w R R1 N1 N2 N st Q1 Q : leads f w R1 N1 st Q1 -> incl R R1 -> (N1 + N2 <= N)%nat ->
  (forall w1 st1, keeps R1 w w1 -> Q1 w1 st1 -> leads f w1 R N2 st1 Q) -> leads f w R N st Q.
Proof.
  intros [(w1&st1&R'&K'&L'&H)|(L'&m&H)] I LN C.
  - eapply leads_reach; eauto.
  - right. split; [lia|eauto].
Qed.

Lemma fin_bind f w R K1 sz s1 u N1 N2 N st Q : finishes f w s1 u K1 sz N1 st -> incl R K1 -> (N1 + N2 <= N)%nat ->
  (forall w1 g1 exp1 env1 r1 e1, keeps K1 w w1 -> srel w1 g1 s1 -> vrel w1 u r1 -> good w1 exp1 -> erel w1 e1 env1 ->
    leads f w1 R N2 (mkE (wh w1) g1 K1 sz exp1 env1 r1 true) Q) -> leads f w R N st Q.
Proof.
  intros H I LN C. eapply leads_bind; eauto. intros w1 st1 KP (g1&exp1&env1&r1&->&SR&V&G&e1&E). eapply C; eauto.
Qed.

Lemma fin_val f w g s' v K sz N exp env r e : srel w g s' -> vrel w v r -> good w exp -> erel w e env ->
  finishes f w s' v K sz N (mkE (wh w) g K sz exp env r true).
Proof. intros SR V G E. apply leads_now. exists g, exp, env, r. sp; eauto. Qed.

(* [ev] says what the evaluator does *)
Definition sound (ev : rstate -> list (Z * nat) -> val -> option (val * rstate * nat)) : Prop :=
  forall s e x v s' d, ev s e x = Some (v, s', d) -> exists N, forall f w g K sz exp env r,
    srel w g s -> erel w e env -> vrel w x exp -> good w r -> Forall (kgood w) K -> (N <= f)%nat ->
    Z.of_nat (length K + d) < sz -> sz <= 2 ^ 28 ->
    finishes f w s' v K sz N (mkE (wh w) g K sz exp env r false).

Lemma st_cont f n h g K sz exp env r : In n [1; 2; 3; 4; 5; 6; 7; 10; 11; 13; 26; 27; 38; 39; 42] ->
  step prim f (mkE h g (CONT n :: K) sz exp env r true) = cont prim f n (mkE h g K sz exp env r false).
Proof. intros H. unfold step. rewrite dec_cont by auto. reflexivity. Qed.

Lemma st_form f w g K sz k tl p env r : vrel w (VC (VSym k) tl) p -> 0x100 <= k < 0x200 ->
  exists q, pair_at w p (enc_sym k) q /\ vrel w tl q /\
    step prim f (mkE (wh w) g K sz p env r false) = eval_form f (k - 0x100) (mkE (wh w) g K sz p env r false).
Proof.
  intros V Rk. apply vrel_cons_inv in V. destruct V as (x&q&P&V1&V2). apply vrel_sym_inv in V1. destruct V1 as (->&_).
  exists q. sp; auto. unfold step. rewrite (cons_not_symbol p), (pair_cons _ _ _ _ P), (pair_ref _ _ _ _ P) by (eapply pair_cons; eauto).
  cbn [bind]. rewrite sym_is_symbol. cbn [andb].
  assert (E : (Z.land (enc_sym k) SF_MASK =? SF_BIT) = true /\ Z.land (dec_sym (enc_sym k)) 0xFF = k - 0x100).
  { rewrite sym_dec by lia. split.
    - apply Z.eqb_eq. rewrite enc_sym_f, Z.mod_small by (apply tag_range; lia).
      replace k with (0x100 + (k - 0x100)) by lia. generalize (k - 0x100) (ltac:(lia) : 0 <= k - 0x100 < 0x100). intros j Hj.
      assert (M : SF_MASK = 2 ^ W - 2 ^ (8 + VAL_SHIFT)) by (arch; reflexivity).
      assert (Bt : SF_BIT = 2 ^ (8 + VAL_SHIFT)) by (arch; reflexivity).
      rewrite M, Bt. replace (2 ^ W - 2 ^ (8 + VAL_SHIFT)) with ((2 ^ (W - (8 + VAL_SHIFT)) - 1) * 2 ^ (8 + VAL_SHIFT))
        by (rewrite Z.mul_sub_distr_r, <- Z.pow_add_r by (arch; lia); f_equal; [f_equal; lia|lia]).
      apply Z.bits_inj'. intros i Hi. rewrite Z.land_spec. 
      destruct (Z.lt_ge_cases i (8 + VAL_SHIFT)).
      + rewrite (Z.mul_pow2_bits_low _ (8 + VAL_SHIFT)), andb_false_r by auto. rewrite Z.pow2_bits_false; auto. lia.
      + assert (D : Z.testbit ((256 + j) * 2 ^ VAL_SHIFT) i = Z.testbit 1 (i - (8 + VAL_SHIFT))).
        { replace 1 with ((256 + j) * 2 ^ VAL_SHIFT / 2 ^ (8 + VAL_SHIFT)).
          - rewrite Z.div_pow2_bits by (lia || (arch; lia)). f_equal. lia.
          - rewrite Z.pow_add_r by (arch; lia). change (2 ^ 8) with 256.
            pose proof (Z.pow_pos_nonneg 2 VAL_SHIFT ltac:(lia) ltac:(arch; lia)).
            rewrite Z.div_mul_cancel_r by lia. symmetry. apply (Z.div_unique _ _ _ j); lia. }
        rewrite D. rewrite Z.mul_pow2_bits by (lia || (arch; lia)).
        replace (2 ^ (W - (8 + VAL_SHIFT)) - 1) with (Z.ones (W - (8 + VAL_SHIFT))) by (rewrite Z.ones_equiv; lia).
        destruct (Z.eq_dec i (8 + VAL_SHIFT)) as [->|Ne].
        * rewrite Z.sub_diag, Z.pow2_bits_true by (arch; lia). rewrite Z.ones_spec_low by (arch; lia). reflexivity.
        * rewrite Z.pow2_bits_false by lia. change 1 with (2 ^ 0). rewrite Z.pow2_bits_false by lia. reflexivity.
    - change 0xFF with (Z.ones 8). rewrite Z.land_ones by lia. symmetry. apply (Z.mod_unique _ _ 1); change (2 ^ 8) with 256; lia. }
  destruct E as [-> ->]. reflexivity.
Qed.

(* ---- progn ---- *)

Definition is_pair (v : val) : bool := match v with VC _ _ => true | _ => false end.

Definition progn_state h g (K : list Z) sz (x flag env r : Z) (more : bool) (q : Z) : est :=
  mkE h g (if more then PROGN_REST :: q :: flag :: env :: K else K) sz x env r false.

Lemma erel_word_cases w e x : erel w e x -> x = 0 \/ is_symbol x = false.
Proof. destruct 1; auto. right. apply cons_not_symbol, enc_cons; auto. Qed.

(* the copy of the environment that var makes *)
Lemma copy_ok w g s e env f c : srel w g s -> erel w e env -> (length e <= f)%nat -> ctx_ok w c -> rooted w (cw c) env ->
  let m := (let! (h1, e1) := env_copy_spine f (wh w) env in
            if e1 =? MERROR then
              let* h2 := collect h1 g [] c in
              let! (h3, e3) := env_copy_spine f h2 env in
              if e3 =? MERROR then Ok NoMem else Ok (Val (h3, e3, enc_u 1))
            else Ok (Val (h1, e1, enc_u 1))) in
  (exists w1 env1, m = Ok (Val (wh w1, env1, enc_u 1)) /\ srel w1 g s /\ keeps (cw c) w w1 /\ erel w1 e env1 /\
    (length (wfl w) <= length (wfl w1) + length e)%nat) \/
  (m = Ok NoMem /\ (length (wfl w) < length e)%nat).
Proof.
  intros SR ER F C RT m. destruct (Nat.le_gt_cases (length e) (length (wfl w))) as [L|L].
  - left. destruct (copy_spine_new w g s e env f SR ER F L) as (w1&env1&E&SR1&HX&R&ER1&L1). exists w1, env1.
    subst m. rewrite E. cbn [bind]. rewrite (erel_not_MERROR _ _ _ ER1). sp; auto using hext_keeps_same. lia.
  - subst m. rewrite (copy_spine_fail w g s e env f SR ER F L). cbn [bind]. rewrite Z.eqb_refl.
    destruct (collect_cw w g s [] c SR (Forall_nil _) C) as [->|(w2&->&SR2&K2&L2)]; cbn [bind]; auto. cbn [app] in K2.
    pose proof (erel_k _ _ _ _ _ SR K2 _ _ ER RT) as ER2.
    destruct (Nat.le_gt_cases (length e) (length (wfl w2))) as [L'|L'].
    + left. destruct (copy_spine_new w2 g s e env f SR2 ER2 F L') as (w1&env1&E&SR1&HX&R&ER1&L1). exists w1, env1.
      rewrite E. cbn [bind]. rewrite (erel_not_MERROR _ _ _ ER1). sp; auto; [|lia].
      eapply keeps_trans; eauto using hext_keeps_same.
    + right. rewrite (copy_spine_fail w2 g s e env f SR2 ER2 F L'). cbn [bind]. rewrite Z.eqb_refl. auto.
Qed.

Lemma progn_ok ev : sound ev -> forall es s e v s' d, progn ev s e es = Some (v, s', d) ->
  match es with
  | VC a rest => exists N, forall f w g K sz x q env r flag,
      srel w g s -> erel w e env -> vrel w a x -> vrel w rest q -> flag = enc_u 0 \/ flag = enc_u 1 ->
      good w r -> Forall (kgood w) K -> (N <= f)%nat -> Z.of_nat (length K + d) < sz -> sz <= 2 ^ 28 ->
      (is_pair rest = true -> Z.of_nat (length K + 4) < sz) /\
      finishes f w s' v K sz N (progn_state (wh w) g K sz x flag env r (is_pair rest) q)
  | _ => True
  end.
Proof.
  intros SD. induction es as [k|z|a IHa rest IHr|ps ? body ? ce]; intros s e v s' d E; auto. clear IHa.
  cbn [progn] in E.
  assert (LASTC : ev s e a = Some (v, s', d) -> is_pair rest = false -> exists N, forall f w g K sz x q env r flag,
      srel w g s -> erel w e env -> vrel w a x -> vrel w rest q -> flag = enc_u 0 \/ flag = enc_u 1 ->
      good w r -> Forall (kgood w) K -> (N <= f)%nat -> Z.of_nat (length K + d) < sz -> sz <= 2 ^ 28 ->
      (is_pair rest = true -> Z.of_nat (length K + 4) < sz) /\
      finishes f w s' v K sz N (progn_state (wh w) g K sz x flag env r (is_pair rest) q)).
  { intros Ev Ep. destruct (SD _ _ _ _ _ _ Ev) as (N&H). exists N. intros f w g K sz x q env r flag SR ER V1 V2 _ GR GK F D SZ.
    rewrite Ep. split; [discriminate|]. unfold progn_state. apply H; auto. }
  destruct rest as [k|z|a2 rest2|ps2 body2 ce2]; [apply LASTC; auto..| |discriminate]. clear LASTC.
  (* what follows in any case *)
  assert (CONTQ : forall s1 e1 d', progn ev s1 e1 (VC a2 rest2) = Some (v, s', d') -> exists N, forall f w g K sz q env exp env0 e0 r flag,
      srel w g s1 -> erel w e1 env -> good w exp -> erel w e0 env0 -> good w r -> vrel w (VC a2 rest2) q -> flag = enc_u 0 \/ flag = enc_u 1 ->
      Forall (kgood w) K -> (N <= f)%nat -> Z.of_nat (length K + d') < sz -> sz <= 2 ^ 28 ->
      finishes f w s' v K sz N (mkE (wh w) g (PROGN_REST :: q :: flag :: env :: K) sz exp env0 r true)).
  { intros s1 e1 d' E1. specialize (IHr _ _ _ _ _ E1). cbn in IHr. destruct IHr as (N&H). exists N.
    intros f w g K sz q env exp env0 e0 r flag SR ER GE ER0 GR V FG GK F D SZ.
    apply vrel_cons_inv in V. destruct V as (x2&q2&P&V1&V2).
    destruct (H f w g K sz x2 q2 env r flag SR ER V1 V2 FG GR GK F D SZ) as (ST&FIN).
    eapply leads_step; [|exact FIN]. unfold PROGN_REST. rewrite st_cont by knum. change (cont prim f 4 ?s) with (cont_progn_rest s).
    unfold cont_progn_rest. rewrite (pair_ref _ _ _ _ P). cbn [bind]. rewrite (vrel_word _ _ _ V2).
    unfold progn_state. destruct rest2; cbn [is_pair] in *; auto.
    - rewrite res_ok; [reflexivity|]. cbn [length]. specialize (ST eq_refl). lia.
    - cbn [progn] in E1. discriminate. }
  destruct (var_form a) as [[p x1]|] eqn:VF.
  - (* var *)
    destruct (pat_alloc s e p) as [[s1 e1]|] eqn:E1; [|discriminate].
    destruct (ev s1 e1 x1) as [[[u s2] d1]|] eqn:E2; [|discriminate].
    destruct (pat_fill s2 e1 p u) as [s3|] eqn:E3; [|discriminate].
    destruct (progn ev s3 e1 (VC a2 rest2)) as [[[v' s4] d']|] eqn:E4; [|discriminate].
    apply some3 in E; destruct E as (->&->&<-).
    destruct (location_ok _ _ _ _ _ E1) as (N1&H1). destruct (SD _ _ _ _ _ _ E2) as (N2&H2).
    destruct (pat_fill_ok _ _ _ _ _ E3) as (N3&H3). destruct (CONTQ _ _ _ E4) as (N4&H4).
    exists (length e + N1 + N2 + N3 + N4)%nat. intros f w g K sz x q env r flag SR ER V Vq FG GR GK F D SZ.
    cbn [is_pair]. split; [intros _; lia|].
    destruct a as [| |a1 tl|]; try discriminate. destruct a1 as [k| | |]; try discriminate.
    destruct tl as [| |p' tl2|]; try discriminate. destruct tl2 as [| |x1' tl3|]; try discriminate.
    cbn in VF. destruct (Z.eqb_spec k 0x112) as [->|]; [|discriminate]. injection VF as -> ->.
    unfold progn_state. cbn [is_pair].
    destruct (st_form f w g (PROGN_REST :: q :: flag :: env :: K) sz _ _ x env r V ltac:(lia)) as (xt&P0&Vt&ST).
    apply vrel_cons_inv in Vt. destruct Vt as (xp&xt2&P1&Vp&Vt2).
    apply vrel_cons_inv in Vt2. destruct Vt2 as (xe&xt3&P2&Ve&_).
    change (0x112 - 0x100) with 0x12 in ST.
    change (eval_form f 18 ?s) with (eval_var f s) in ST. unfold eval_var in ST. rewrite Z.eqb_refl in ST.
    assert (GF : kgood w flag) by (destruct FG as [->| ->]; apply kgood_u; lia).
    (* the copy of the environment *)
    pose (c0 := regs env x r (PROGN_REST :: q :: flag :: env :: K)).
    assert (C0 : ctx_ok w c0) by (unfold PROGN_REST; ctxr).
    match type of ST with _ = (let! o := ?m in _) =>
      assert (CP : (exists w1 env1, m = Ok (Val (wh w1, env1, enc_u 1)) /\ srel w1 g s /\ keeps (cw c0) w w1 /\ erel w1 e env1 /\
                      (length (wfl w) <= length (wfl w1) + length e)%nat) \/
                   (m = Ok NoMem /\ (length (wfl w) < length e)%nat))
    end.
    { destruct FG as [->| ->]; rewrite dec_u_enc by lia; cbn [Z.eqb].
      - apply (copy_ok w g s e env f c0 SR ER); auto; [lia|]. unfold c0. rt.
      - left. exists w, env. sp; auto using keeps_refl. lia. }
    destruct CP as [(w1&env1&CP&SR1&K1&ER1&L1)|(CP&L1)]; rewrite CP in ST; clear CP; cbn [bind] in ST.
    2:{ eapply leads_nomem; [exact ST|lia]. }
    unfold c0 in K1. carry SR K1.
    rewrite (pair_cdr _ _ _ _ P0) in ST. cbn [bind] in ST. rewrite (pair_car _ _ _ _ P1) in ST. cbn [bind] in ST.
    pose (c1 := regs env x r (PROGN_REST :: q :: enc_u 1 :: env1 :: K)).
    assert (C1 : ctx_ok w1 c1) by (unfold PROGN_REST; ctxr).
    change (regs env x r (PROGN_REST :: q :: enc_u 1 :: env1 :: K)) with c1 in ST.
    destruct (H1 f w1 g c1 env1 xp SR1 ER1 Vp C1) as [(w2&env2&E5&SR2&K2&ER2&L2)|(E5&L2)]; [unfold c1; rt|lia| |];
      rewrite E5 in ST; cbn [bind] in ST.
    2:{ eapply leads_nomem; [exact ST|lia]. }
    unfold c1 in K2. carry SR1 K2.
    rewrite (pair_cadr _ _ _ _ _ _ P1 P2) in ST. cbn [bind] in ST.
    rewrite res_ok in ST by (cbn [length]; lia). cbn [rev app] in ST.
    assert (K12 : keeps K w w2).
    { eapply keeps_trans; [eapply keeps_incl; [exact K1|inc]|eapply keeps_incl; [exact K2|inc]]. }
    eapply (leads_alloc f w w2 K K (length e + N1) (N2 + N3 + N4)); [exact ST|exact K12|apply incl_refl|lia|lia|]. clear ST.
    eapply fin_bind with (N1 := N2) (N2 := (N3 + N4)%nat).
    { eapply (H2 f w2 g); eauto; [unfold PROGN_VAR, PROGN_REST; kg|lia|cbn [length]; lia]. }
    { inc. } { lia. }
    intros w3 g3 exp3 env3 r3 e3 K3 SR3 V3 G3 ER3. carry SR2 K3.
    destruct (H3 f w3 g3 env2 xp r3 SR3 ER2 Vp V3) as (h4&E6&SR4&HX4); [lia|].
    set (w4 := mkW h4 (wfl w3) (wL w3) (wR w3)) in *.
    pose proof (hext_keeps_same K _ _ HX4 eq_refl) as K4. assert (GR3 : good w3 r3) by gd. carryx HX4.
    eapply (leads_alloc f w3 w4 K K 0 N4); [|exact K4|apply incl_refl|cbn; lia|lia|].
    { unfold PROGN_VAR. rewrite st_cont by knum. change (cont prim f 26 ?s) with (cont_progn_var f s).
      unfold cont_progn_var. rewrite E6. cbn [bind]. reflexivity. }
    change h4 with (wh w4). eapply H4; eauto; lia.
  - (* another expression *)
    destruct (ev s e a) as [[[u s1] d1]|] eqn:E2; [|discriminate].
    destruct (progn ev s1 e (VC a2 rest2)) as [[[v' s4] d']|] eqn:E4; [|discriminate].
    apply some3 in E; destruct E as (->&->&<-).
    destruct (SD _ _ _ _ _ _ E2) as (N2&H2). destruct (CONTQ _ _ _ E4) as (N4&H4).
    exists (N2 + N4)%nat. intros f w g K sz x q env r flag SR ER V Vq FG GR GK F D SZ.
    cbn [is_pair]. split; [intros _; lia|]. unfold progn_state.
    assert (GF : kgood w flag) by (destruct FG as [->| ->]; apply kgood_u; lia).
    eapply fin_bind with (N1 := N2) (N2 := N4).
    { eapply (H2 f w g); eauto; [unfold PROGN_REST; kg|lia|cbn [length]; lia]. }
    { inc. } { lia. }
    intros w3 g3 exp3 env3 r3 e3 K3 SR3 V3 G3 ER3. carry SR K3. eapply H4; eauto; try lia. gd.
Qed.

(* ---- and, or ---- *)

Lemma andor_ok ev n (stop : val -> bool) (stopw : Z -> bool) : sound ev ->
  n = 6 /\ stop = nilp /\ stopw = (fun r => is_symbol_nil r) \/
  n = 7 /\ stop = (fun v => negb (nilp v)) /\ stopw = (fun r => negb (is_symbol_nil r)) ->
  forall es s e v s' d, andor ev stop s e es = Some (v, s', d) ->
  exists N, forall f w g K sz p env r, srel w g s -> erel w e env -> vrel w es p -> good w r -> Forall (kgood w) K ->
      (N <= f)%nat -> Z.of_nat (length K + d) < sz -> sz <= 2 ^ 28 ->
      exists x q, pair_at w p x q /\ Z.of_nat (length K + 3) < sz /\
      finishes f w s' v K sz N (mkE (wh w) g (CONT n :: q :: env :: K) sz x env r false).
Proof.
  intros SD HN.
  assert (SW : forall w v x, vrel w v x -> stopw x = stop v).
  { intros w v x V. destruct HN as [(_&->&->)|(_&->&->)]; [|f_equal]; eapply vrel_nil; eauto. }
  induction es as [k|z|a IHa rest IHr|ps ? body ? ce]; intros s e v s' d E; cbn [andor] in E; try discriminate. clear IHa.
  destruct (ev s e a) as [[[u s1] d1]|] eqn:E1; [|discriminate].
  destruct (SD _ _ _ _ _ _ E1) as (N1&H1).
  assert (CO : forall f s, cont prim f n s = cont_andor (CONT n) stopw s).
  { intros f s0. destruct HN as [(->&->&->)|(->&->&->)]; reflexivity. }
  assert (KN : In n [1; 2; 3; 4; 5; 6; 7; 10; 11; 13; 26; 27; 38; 39; 42]).
  { destruct HN as [(->&_)|(->&_)]; knum. }
  destruct (stop u || nilp rest) eqn:ST.
  - apply some3 in E; destruct E as (->&->&<-). exists N1. intros f w g K sz p env r SR ER V GR GK F D SZ.
    apply vrel_cons_inv in V. destruct V as (x&q&P&Va&Vr). exists x, q. split; auto. split; [lia|].
    eapply fin_bind with (N1 := N1) (N2 := 0%nat).
    { eapply (H1 f w g); eauto; [kg|cbn [length]; lia]. } { inc. } { lia. }
    intros w1 g1 exp1 env1 r1 e1 K1 SR1 V1 G1 ER1. carry SR K1.
    eapply leads_step; [|apply (fin_val f w1 g1 s' v K sz _ exp1 env1 r1 e1); auto]. rewrite st_cont, CO by auto. unfold cont_andor.
    rewrite (SW _ _ _ V1). destruct (stop v); [reflexivity|]. cbn [orb] in ST.
    rewrite (vrel_nil _ _ _ Vr), ST. reflexivity.
  - apply orb_false_iff in ST. destruct ST as [ST1 ST2].
    destruct (andor ev stop s1 e rest) as [[[v' s2] d2]|] eqn:E2; [|discriminate]. apply some3 in E; destruct E as (->&->&<-).
    destruct (IHr _ _ _ _ _ E2) as (N2&H2).
    exists (N1 + N2)%nat. intros f w g K sz p env r SR ER V GR GK F D SZ.
    apply vrel_cons_inv in V. destruct V as (x&q&P&Va&Vr). exists x, q. split; auto. split; [lia|].
    eapply fin_bind with (N1 := N1) (N2 := N2).
    { eapply (H1 f w g); eauto; [kg|lia|cbn [length]; lia]. } { inc. } { lia. }
    intros w1 g1 exp1 env1 r1 e1 K1 SR1 V1 G1 ER1. carry SR K1.
    destruct (H2 f w1 g1 K sz q env r1 SR1 ER Vr) as (x2&q2&P2&_&FIN); try lia; auto; [gd|].
    eapply leads_step; [|exact FIN]. rewrite st_cont, CO by auto. unfold cont_andor.
    rewrite (SW _ _ _ V1), ST1, (vrel_nil _ _ _ Vr), ST2.
    rewrite (pair_cdr _ _ _ _ P2). cbn [bind]. rewrite res_ok by (cbn [length]; lia). rewrite (pair_car _ _ _ _ P2). reflexivity.
Qed.

(* ---- let ---- *)

(* the binding locations of a let; [R]: what may be collected must not be among them *)
Lemma create_all_ok bs : forall s e s' e', let_alloc s e bs = Some (s', e') -> exists N, forall f n w g c env x,
  srel w g s -> erel w e env -> vrel w bs x -> ctx_ok w c -> rooted w (cw c) x -> (N <= f)%nat -> (N <= n)%nat ->
  (exists w' env', create_all f n (wh w) g c x env = Ok (Val (wh w', env')) /\
    srel w' g s' /\ keeps (cw c) w w' /\ erel w' e' env' /\ (length (wfl w) <= length (wfl w') + N)%nat) \/
  (create_all f n (wh w) g c x env = Ok NoMem /\ (length (wfl w) < N)%nat).
Proof.
  induction bs as [k|z|b IHb rest IHr|ps ? body ? ce]; intros s e s' e' E.
  - cbn in E. injection E as <- <-. exists 0%nat. intros f n w g c env x SR ER V C RX F Fn. left. exists w, env.
    sp; auto using keeps_refl; [|lia]. destruct n; cbn [create_all]; rewrite (vrel_word _ _ _ V); auto.
  - cbn in E. injection E as <- <-. exists 0%nat. intros f n w g c env x SR ER V C RX F Fn. left. exists w, env.
    sp; auto using keeps_refl; [|lia]. destruct n; cbn [create_all]; rewrite (vrel_word _ _ _ V); auto.
  - clear IHb. destruct b as [| |p b2|]; try discriminate. destruct b2 as [| |y b3|]; try discriminate. cbn [let_alloc] in E.
    destruct (pat_alloc s e p) as [[s1 e1]|] eqn:E1; [|discriminate].
    destruct (location_ok _ _ _ _ _ E1) as (N1&H1). destruct (IHr _ _ _ _ E) as (N2&H2).
    exists (S (N1 + N2)). intros f n w g c env x SR ER V C RX F Fn. destruct n as [|n]; [lia|].
    apply vrel_cons_inv in V. destruct V as (xb&xr&P&Vb&Vr). apply vrel_cons_inv in Vb. destruct Vb as (xp&xb2&Pb&Vp&_).
    cbn [create_all]. rewrite (pair_cons _ _ _ _ P), (pair_ref _ _ _ _ P). cbn [bind]. rewrite (pair_car _ _ _ _ Pb). cbn [bind].
    assert (RR : rooted w (cw c) xr) by (eapply rooted_cdr; eauto).
    assert (RP : rooted w (cw c) xp) by (eapply rooted_car; [eauto|exact Pb|]; eapply rooted_car; eauto).
    destruct (H1 f w g c env xp SR ER Vp C) as [(w1&env1&->&SR1&K1&ER1&L1)|(->&L1)]; try lia; cbn [bind].
    { eapply rooted_mono; [|exact RP]. apply rooted_incl. intros y' Y. right; auto. }
    2:{ right. split; auto. lia. }
    apply keeps_incl with (R' := cw c) in K1; [|intros y' Y; right; auto].
    pose proof (ctx_k _ _ _ _ _ SR K1 C) as C1.
    assert (Vr1 : vrel w1 rest xr) by (apply (vrel_k _ _ _ _ _ SR K1); auto).
    assert (RR1 : rooted w1 (cw c) xr) by (apply (rooted_k _ _ _ _ _ SR K1); auto; gd).
    destruct (H2 f n w1 g c env1 xr SR1 ER1 Vr1 C1 RR1) as [(w2&env2&->&SR2&K2&ER2&L2)|(->&L2)]; try lia.
    + left. exists w2, env2. sp; auto; [eapply keeps_trans; eauto|lia].
    + right. split; auto. lia.
  - discriminate.
Qed.

(* the bindings of a let, from the first *)
Lemma let_fill_ok ev : sound ev -> forall bs s e s' d, let_fill ev s e bs = Some (s', d) ->
  match bs with
  | VC (VC p (VC y _)) rest => exists N, forall f w g K sz xp xy xr env r xbody,
      srel w g s -> erel w e env -> vrel w p xp -> vrel w y xy -> vrel w rest xr -> good w r -> good w xbody -> Forall (kgood w) K ->
      (N <= f)%nat -> Z.of_nat (length K + d) < sz -> sz <= 2 ^ 28 ->
      Z.of_nat (length K + 5) < sz /\
      leads f w (env :: xbody :: K) N (mkE (wh w) g (BIND_TO_KEY_REST :: xp :: env :: xr :: xbody :: K) sz xy env r false)
        (fun w' st' => exists g' r', st' = mkE (wh w') g' K sz xbody env r' false /\ srel w' g' s' /\ good w' r')
  | _ => s' = s
  end.
Proof.
  intros SD. induction bs as [k|z|b IHb rest IHr|ps ? body ? ce]; intros s e s' d E; [cbn in E; congruence..| |discriminate].
  clear IHb. destruct b as [| |p b2|]; try discriminate. destruct b2 as [| |y b3|]; try discriminate. cbn [let_fill] in E.
  destruct (ev s e y) as [[[u s1] d1]|] eqn:E1; [|discriminate].
  destruct (pat_fill s1 e p u) as [s2|] eqn:E2; [|discriminate].
  destruct (let_fill ev s2 e rest) as [[s3 d2]|] eqn:E3; [|discriminate]. apply some2 in E; destruct E as (<-&<-).
  destruct (SD _ _ _ _ _ _ E1) as (N1&H1). destruct (pat_fill_ok _ _ _ _ _ E2) as (N2&H2).
  specialize (IHr _ _ _ _ E3).
  (* the value of the first *)
  assert (HEAD : forall f w g K sz xp xy xr env r xbody N3 Q,
      srel w g s -> erel w e env -> vrel w p xp -> vrel w y xy -> vrel w rest xr -> good w r -> good w xbody -> Forall (kgood w) K ->
      (N1 + N2 <= f)%nat -> Z.of_nat (length K + max (5 + d1) d2) < sz -> sz <= 2 ^ 28 ->
      (forall w1 g1 exp1 env1 r1 h2, let w2 := mkW h2 (wfl w1) (wL w1) (wR w1) in
        fill_binding f (wh w1) xp r1 env = Ok (Some h2) ->
        srel w2 g1 s2 -> erel w2 e env -> vrel w2 rest xr -> good w2 xbody -> good w2 r1 -> Forall (kgood w2) K ->
        exists st', step prim f (mkE (wh w1) g1 (BIND_TO_KEY_REST :: xp :: env :: xr :: xbody :: K) sz exp1 env1 r1 true) = Ok (Val st') /\
        leads f w2 (env :: xbody :: K) N3 st' Q) ->
      leads f w (env :: xbody :: K) (N1 + N3) (mkE (wh w) g (BIND_TO_KEY_REST :: xp :: env :: xr :: xbody :: K) sz xy env r false) Q).
  { intros f w g K sz xp xy xr env r xbody N3 Q SR ER Vp Vy Vr GR GB GK F D SZ C.
    eapply fin_bind with (N1 := N1) (N2 := N3).
    { eapply (H1 f w g); eauto; [unfold BIND_TO_KEY_REST; kg|lia|cbn [length]; lia]. } { inc. } { lia. }
    intros w1 g1 exp1 env1 r1 e1 K1 SR1 V1 G1 ER1. carry SR K1.
    destruct (H2 f w1 g1 env xp r1 SR1 ER Vp V1 ltac:(lia)) as (h2&E5&SR2&HX2). set (w2 := mkW h2 (wfl w1) (wL w1) (wR w1)) in *.
    pose proof (hext_keeps_same (env :: xbody :: K) _ _ HX2 eq_refl) as K2. assert (GR1 : good w1 r1) by gd. carryx HX2.
    destruct (C w1 g1 exp1 env1 r1 h2) as (st'&ST&LD); auto.
    eapply (leads_alloc f w1 w2 _ _ 0 N3); [exact ST|exact K2|apply incl_refl|cbn; lia|lia|exact LD]. }
  assert (LASTC : s3 = s2 -> is_pair rest = false -> (forall w x, vrel w rest x -> is_cons x = false) -> exists N, forall f w g K sz xp xy xr env r xbody,
      srel w g s -> erel w e env -> vrel w p xp -> vrel w y xy -> vrel w rest xr -> good w r -> good w xbody -> Forall (kgood w) K ->
      (N <= f)%nat -> Z.of_nat (length K + max (5 + d1) d2) < sz -> sz <= 2 ^ 28 ->
      Z.of_nat (length K + 5) < sz /\
      leads f w (env :: xbody :: K) N (mkE (wh w) g (BIND_TO_KEY_REST :: xp :: env :: xr :: xbody :: K) sz xy env r false)
        (fun w' st' => exists g' r', st' = mkE (wh w') g' K sz xbody env r' false /\ srel w' g' s3 /\ good w' r')).
  { intros -> _ NC. exists (N1 + N2)%nat. intros f w g K sz xp xy xr env r xbody SR ER Vp Vy Vr GR GB GK F D SZ. split; [lia|].
    apply (HEAD f w g K sz xp xy xr env r xbody N2); auto.
    intros w1 g1 exp1 env1 r1 h2 w2 E5 SR2 ER2 Vr2 GB2 GR2 GK2. eexists. split.
    { unfold BIND_TO_KEY_REST. rewrite st_cont by knum. change (cont prim f 2 ?s) with (cont_bind_to_key_rest f s).
      unfold cont_bind_to_key_rest. rewrite E5. cbn [bind]. rewrite (NC w xr Vr). reflexivity. }
    apply leads_now. exists g1, r1. auto. }
  destruct rest as [k|z|b' rest'|ps2 body2 ce2].
  - apply LASTC; auto. intros w x V. apply vrel_word in V. auto.
  - apply LASTC; auto. intros w x V. apply vrel_word in V. auto.
  - clear LASTC. cbn [let_fill] in E3. destruct b' as [| |p' b2'|]; try discriminate. destruct b2' as [| |y' b3'|]; try discriminate.
    destruct IHr as (N3&H3). exists (N1 + (N2 + N3))%nat. intros f w g K sz xp xy xr env r xbody SR ER Vp Vy Vr GR GB GK F D SZ. split; [lia|].
    apply (HEAD f w g K sz xp xy xr env r xbody (N2 + N3)%nat); auto; [lia|]. clear SR ER Vp Vy Vr GR GB GK.
    intros w1 g1 exp1 env1 r1 h2 w2 E5 SR2 ER Vr GB2 GR2 GK2.
    apply vrel_cons_inv in Vr. destruct Vr as (xb'&xr'&P&Vb&Vr'). apply vrel_cons_inv in Vb. destruct Vb as (xp'&xb2&Pb&Vp'&Vb2).
    apply vrel_cons_inv in Vb2. destruct Vb2 as (xy'&xb3&Pb2&Vy'&_).
    destruct (H3 f w2 g1 K sz xp' xy' xr' env r1 xbody SR2 ER) as (_&LD); auto; try lia.
    eexists. split; [|eapply leads_incl; [exact LD|apply incl_refl|lia]].
    unfold BIND_TO_KEY_REST. rewrite st_cont by knum. change (cont prim f 2 ?s) with (cont_bind_to_key_rest f s).
    unfold cont_bind_to_key_rest. rewrite E5. cbn [bind].
    change h2 with (wh w2). rewrite (pair_cons _ _ _ _ P), (pair_car _ _ _ _ P). cbn [bind]. unfold extract_2.
    rewrite (pair_extract _ _ _ _ Pb). cbn [bind]. rewrite (pair_extract _ _ _ _ Pb2). cbn [bind].
    rewrite (pair_cdr _ _ _ _ P). cbn [bind]. rewrite res_ok by (cbn [length]; lia). reflexivity.
  - discriminate.
Qed.

End Sound.
