(* Each step of the evaluator works on the topmost frame. *)
From Verif Require Import Base Value_Model Heap_Model Env_Model Match_Model QQ_Model GC_Model Eval_Model Value_Proofs Value_Props Eval_Proofs3 Ctl_Spec.
Local Open Scope Z_scope.

Section Arch.
Context {A : Arch} {HO : Host}.
Lemma dec_u_enc n : 0 <= n < 2 ^ 28 -> dec_u (enc_u n) = n.
Proof. intros R. rewrite enc_u_roundtrip. apply Z.mod_small. assert (28 <= payload A) by (clear; arch; vm_compute; congruence). assert (2 ^ 28 <= 2 ^ payload A) by (apply Z.pow_le_mono_r; lia). lia. Qed.
Variable E : Prop.
Variable Q : Z -> Prop.
Variable P : list Z.

Definition on (K : list Z) : Prop := exists X, K = X ++ P /\ frames E Q X.
Lemma on_nil : on P.
Proof. exists []. split; [reflexivity|constructor]. Qed.
Lemma on_fixed k ws K : In (k, length ws) frame_sizes -> (k = 14 -> E) -> on K -> on (CONT k :: ws ++ K).
Proof. intros I HE (X&->&F). exists (CONT k :: ws ++ X). split; [cbn; rewrite app_assoc; auto|]. econstructor; eauto. Qed.
Lemma on_1 k a K : In (k, 1%nat) frame_sizes -> (k = 14 -> E) -> on K -> on (CONT k :: a :: K).
Proof. intros I HE O. exact (on_fixed k [a] K I HE O). Qed.
Lemma on_2 k a b K : In (k, 2%nat) frame_sizes -> (k = 14 -> E) -> on K -> on (CONT k :: a :: b :: K).
Proof. intros I HE O. exact (on_fixed k [a; b] K I HE O). Qed.
Lemma on_3 k a b c K : In (k, 3%nat) frame_sizes -> (k = 14 -> E) -> on K -> on (CONT k :: a :: b :: c :: K).
Proof. intros I HE O. exact (on_fixed k [a; b; c] K I HE O). Qed.
Lemma on_4 k a b c d K : In (k, 4%nat) frame_sizes -> (k = 14 -> E) -> on K -> on (CONT k :: a :: b :: c :: d :: K).
Proof. intros I HE O. exact (on_fixed k [a; b; c; d] K I HE O). Qed.
Lemma on_5 k a b c d e K : In (k, 5%nat) frame_sizes -> (k = 14 -> E) -> on K -> on (CONT k :: a :: b :: c :: d :: e :: K).
Proof. intros I HE O. exact (on_fixed k [a; b; c; d; e] K I HE O). Qed.
Lemma on_args rest env ws K : on K -> Z.of_nat (length ws) < 2 ^ 28 - 1 -> on (CONT 5 :: enc_u (Z.of_nat (length ws)) :: rest :: env :: ws ++ K).
Proof. intros (X&->&F) L. exists (CONT 5 :: enc_u (Z.of_nat (length ws)) :: rest :: env :: ws ++ X). split; [cbn; rewrite app_assoc; auto|]. constructor; auto. Qed.

(* the outcome of a step that leaves [P] alone *)
Definition kb (sz : Z) (o : res (out est)) : Prop := match o with Ok (Val s) => on (e_K s) /\ e_size s = sz | _ => True end.
Lemma kb_bind {T} sz (m : res T) k : (forall x, kb sz (k x)) -> kb sz (bind m k).
Proof. intros H. destruct m; cbn; auto. Qed.
Lemma kb_go sz h g K exp env r : on K -> kb sz (go h g K sz exp env r).
Proof. cbn. auto. Qed.
Lemma kb_ret sz h g K exp env r : on K -> kb sz (ret h g K sz exp env r).
Proof. cbn. auto. Qed.
Lemma reserve_some sz K ws K1 : reserve sz K ws = Some K1 -> K1 = rev ws ++ K /\ Z.of_nat (length K) + Z.of_nat (length ws) < sz.
Proof. unfold reserve. destruct (Z.ltb_spec (Z.of_nat (length K) + Z.of_nat (length ws)) sz); intros E0; inversion E0; auto. Qed.

Ltac intable := cbn [frame_sizes In]; tauto.
Ltac fr := cbn [rev app]; repeat first [assumption | apply on_nil | apply on_1; [intable|lia|] | apply on_2; [intable|lia|] | apply on_3; [intable|lia|] | apply on_4; [intable|lia|] | apply on_5; [intable|lia|]].
Ltac kbs :=
  repeat match goal with
  | |- kb _ (bind _ _) => apply kb_bind; intros ?
  | |- kb _ (Ok Err) => exact I
  | |- kb _ (Ok NoMem) => exact I
  | |- kb _ UB => exact I
  | |- kb _ Fuel => exact I
  | |- kb _ (match reserve ?sz ?K ?ws with _ => _ end) => let E1 := fresh "E1" in destruct (reserve sz K ws) eqn:E1; [apply reserve_some in E1 as (-> & E1)|]
  | |- kb _ (go _ _ _ _ _ _ _) => apply kb_go; fr
  | |- kb _ (ret _ _ _ _ _ _ _) => apply kb_ret; fr
  | |- kb _ (match ?x with _ => _ end) => destruct x
  end.

Variable prim : Z -> heap -> list Z -> res (heap * Z).

Lemma application_on f n ws K h g sz exp env r r0 : on K -> length ws = n ->
  kb sz (application prim f (mkE h g (r0 :: ws ++ K) sz exp env r false) n).
Proof.
  intros O L. unfold application. assert (SK : skipn (S n) (r0 :: ws ++ K) = K).
  { cbn [skipn]. rewrite skipn_app, skipn_all2 by lia. replace (n - length ws)%nat with 0%nat by lia. reflexivity. }
  rewrite SK. kbs.
Qed.
Lemma application_args_on f ws rest env K h g sz exp env0 r : on K -> sz <= 2 ^ 28 -> Z.of_nat (length ws) < 2 ^ 28 - 1 ->
  kb sz (cont_application_args prim f (mkE h g (enc_u (Z.of_nat (length ws)) :: rest :: env :: ws ++ K) sz exp env0 r false)).
Proof.
  intros O SZ L. unfold cont_application_args. rewrite dec_u_enc by lia. rewrite Nat2Z.id.
  destruct (is_cons rest); [|apply application_on; auto].
  kbs. cbn [rev app]. rewrite enc_u_next by lia. replace (Z.of_nat (length ws) + 1) with (Z.of_nat (length (r :: ws))) by (cbn [length]; lia).
  apply (on_args z0 env (r :: ws) K O). cbn [length] in E1 |- *. rewrite app_length in E1. lia.
Qed.

(* the frame on top *)
Lemma on_top K : on K -> K = P \/ (exists fl rv K0, K = CONT 45 :: fl :: rv :: K0 /\ on K0) \/
  (exists k ws K0, K = CONT k :: ws ++ K0 /\ In (k, length ws) frame_sizes /\ (k = 14 -> E) /\ on K0) \/
  (exists rest env ws K0, K = CONT 5 :: enc_u (Z.of_nat (length ws)) :: rest :: env :: ws ++ K0 /\ on K0).
Proof.
  intros (X&->&F). destruct F as [|k n ws X I HE L F|rest env ws X F _|fl rv X QF F]; [left; reflexivity| | |right; left; exists fl, rv, (X ++ P); split; [reflexivity|exists X; auto]].
  - right. right. left. exists k, ws, (X ++ P). subst n. split; [cbn; rewrite app_assoc; auto|]. split; [auto|split; auto]. exists X. auto.
  - right. right. right. exists rest, env, ws, (X ++ P). split; [cbn; rewrite app_assoc; auto|]. exists X. auto.
Qed.
Lemma dec_cont k n : In (k, n) frame_sizes \/ k = 5 -> DEC_CONT (CONT k) = k.
Proof. intros [I| ->]; [|arch; reflexivity]. cbn [frame_sizes In] in I. repeat (destruct I as [I|I]; [injection I as <- <-; arch; reflexivity|]). destruct I. Qed.
Lemma cont_neq k n : In (k, n) frame_sizes \/ k = 5 -> k <> 4 -> CONT k <> PROGN_REST.
Proof. intros I N E0. apply N. rewrite <- (dec_cont k n I), E0. apply (dec_cont 4 3). left. intable. Qed.

Hypothesis NOT_PROGN : hd_error P <> Some PROGN_REST.

Lemma eval_var_on f h g K sz exp env r : on K -> kb sz (eval_var f (mkE h g K sz exp env r false)).
Proof.
  intros O. unfold eval_var. destruct K as [|k K]; [exact I|]. destruct K as [|rest [|copied [|penv K0]]]; try exact I.
  destruct (Z.eqb_spec k PROGN_REST) as [->|]; [|exact I].
  assert (O0 : on K0).
  { destruct (on_top _ O) as [E0|[(fl&rv&K1&E0&O1)|[(k&ws&K1&E0&I&HE&O1)|(rest'&env'&ws&K1&E0&O1)]]].
    2: { exfalso. injection E0 as E1 _ _ _. revert E1. clear. arch; discriminate. }
    - exfalso. apply NOT_PROGN. rewrite <- E0. reflexivity.
    - injection E0 as E1 E2. destruct (Z.eq_dec k 4) as [->|N]; [|symmetry in E1; apply (cont_neq k _ (or_introl I)) in E1; auto; tauto].
      assert (L : length ws = 3%nat) by (cbn [frame_sizes In] in I; repeat (destruct I as [I|I]; [congruence|]); destruct I).
      destruct ws as [|? [|? [|? [|? ?]]]]; try discriminate L. cbn in E2. injection E2 as -> -> -> ->. auto.
    - injection E0 as E1 _. symmetry in E1. apply (cont_neq 5 0 (or_intror eq_refl)) in E1; [tauto|lia]. }
  change PROGN_REST with (CONT 4). kbs.
Qed.
Lemma let_bind_on f h g K sz exp0 binds exp env r : on K -> kb sz (let_bind f h g K sz exp0 binds exp env r).
Proof. intros O. unfold let_bind. kbs. Qed.
Lemma eval_form_on f ix h g K sz exp env r : on K -> kb sz (eval_form f ix (mkE h g K sz exp env r false)).
Proof.
  intros O. unfold eval_form. repeat match goal with |- kb _ (if ?b then _ else _) => destruct b end; try exact I.
  all: try (apply eval_var_on; assumption).
  all: unfold eval_quote, eval_define, eval_progn, eval_lambda, eval_if, eval_let, eval_andor, eval_self, eval_cond, eval_setq, eval_loop.
  all: kbs. all: apply let_bind_on; fr.
Qed.
Lemma cont_on f k ws K h g sz exp env r : In (k, length ws) frame_sizes -> on K -> sz <= 2 ^ 28 ->
  kb sz (cont prim f k (mkE h g (ws ++ K) sz exp env r false)).
Proof.
  intros I O SZ. cbn [frame_sizes In] in I.
  repeat (destruct I as [I|I]; [injection I as <- L; (destruct ws as [|? [|? [|? [|? [|? [|? ?]]]]]]; try discriminate L); clear L; unfold cont; cbn [Z.eqb Pos.eqb app]; try exact Logic.I|]).
  all: try solve [destruct I].
  all: unfold cont_set_global_env, cont_bind_to_key_rest, cont_if, cont_progn_rest, cont_andor, cont_application_start, cont_eval_r, cont_closure_args, cont_progn_var, cont_setq, cont_loop, cont_loop_condition, cont_closure_args_rest.
  all: kbs.
  apply (application_args_on f [] z z0 K); auto. cbn. lia.
Qed.
Lemma cont_args_on f rest env ws K h g sz exp env0 r : on K -> sz <= 2 ^ 28 -> Z.of_nat (length ws) < 2 ^ 28 - 1 ->
  kb sz (cont prim f 5 (mkE h g (enc_u (Z.of_nat (length ws)) :: rest :: env :: ws ++ K) sz exp env0 r false)).
Proof. intros O SZ L. apply application_args_on; auto. Qed.

Lemma step_on f s : going_on E Q P s -> e_size s <= 2 ^ 28 -> kb (e_size s) (step prim f s).
Proof.
  intros (X&E0&F&N) SZ. destruct s as [h g K sz exp env r app]. cbn [e_K e_app e_size] in *. subst K. unfold step. destruct app.
  - specialize (N eq_refl). destruct F as [|k n ws X I HE Lw F|rest ev ws X F L|fl rv X QF F]; [congruence| | |]; cbn [app].
    + rewrite (dec_cont k n) by auto. rewrite <- app_assoc. apply cont_on; auto; [congruence|exists X; auto].
    + rewrite (dec_cont 5 0) by auto. rewrite <- app_assoc. apply cont_args_on; auto. exists X; auto.
    + replace (DEC_CONT (CONT 45)) with 45 by (clear; arch; reflexivity). exact I.
  - assert (O : on (X ++ P)) by (exists X; auto). destruct (is_symbol exp).
    { unfold eval_symbol. kbs. }
    destruct (is_cons exp); [|unfold eval_self; kbs].
    apply kb_bind. intros (hd&tl). destruct (is_symbol hd && (Z.land hd SF_MASK =? SF_BIT)); [apply eval_form_on; auto|]. kbs.
Qed.
End Arch.
