(* Every scheduler operation refines its abstract counterpart. *)
From Coq Require Import Permutation.
From Verif Require Import Base Sched_Model Sched_Spec Sched_Proofs Sched_Proofs2.
Local Open Scope Z_scope.

Lemma finish_refines w s a : R w s a ->
  exists s', finish s = Ok s' /\ R w s' (a_finish a) /\ length (s_st s') = length (s_st s).
Proof.
  intros [H RUN AT WK]. unfold finish, a_finish. rewrite RUN.
  destruct (a_run a) as [p|] eqn:AR.
  - destruct (R3_at _ _ _ _ _ _ _ p H) as (c&A&_); [rewrite !in_app_iff; simpl; auto|].
    rewrite (get_ok _ _ _ A). cbn [bind]. eexists; split; [reflexivity|]. split.
    + constructor; simpl; auto.
      * pose proof (move_free _ _ _ _ _ _ _ p H (or_introl eq_refl)) as H1.
        simpl runl in H1. rewrite runl_remove in H1. exact H1.
      * intros q t. unfold tset. destruct (Nat.eqb q p); [discriminate|apply WK].
    + simpl. apply length_upd.
  - exists s. split; auto. split; auto. constructor; rewrite ?AR; auto.
Qed.

Lemma exit_refines w s a note : R w s a -> s_running s <> None ->
  exists s', exit_ctx s note = Ok s' /\ R w s' (a_exit a note) /\ length (s_st s') = length (s_st s).
Proof.
  intros HR NR. pose proof HR as [H RUN AT WK]. unfold exit_ctx, a_exit.
  destruct (s_running s) as [p|] eqn:SR; [|tauto]. rewrite <- RUN in *.
  destruct (R3_at _ _ _ _ _ _ _ p H) as (c&A&M&_); [rewrite !in_app_iff; simpl; auto|].
  rewrite (get_ok _ _ _ A). cbn [bind]. rewrite M. simpl t_trap. simpl t_parent.
  destruct (c_trap c).
  - destruct note as [msg|].
    + destruct (send_refines w s a (c_parent c) msg HR) as (s1&E1&R1&L1). rewrite E1. cbn [bind].
      destruct (finish_refines w _ _ R1) as (s2&E2&R2&L2). exists s2. split; auto. split; auto. lia.
    + apply finish_refines; auto.
  - destruct (finish_refines w s a HR) as (s2&E2&R2&L2). exists s2. destruct note; auto.
Qed.

Lemma noatomic_R w s a b : R w s a ->
  R w (mksched (s_st s) (s_queue s) (s_blocked s) (s_running s) b)
      (mkast (a_ready a) (a_blocked a) (a_run a) b (a_th a)).
Proof. intros []. constructor; auto. Qed.

Lemma block_refines w s a state now us note : R w s a -> s_running s <> None ->
  st_ok state -> is_word w now -> is_word w us ->
  exists s', block s state now us note = Ok s' /\ R w s' (a_block a state now us note) /\
    length (s_st s') = length (s_st s).
Proof.
  intros HR NR OK W1 W2. pose proof HR as [H RUN AT WK]. unfold block, a_block. rewrite <- AT.
  destruct (s_atomic s) eqn:SA.
  - unfold atomic_error.
    destruct (exit_refines w _ _ note (noatomic_R w s a false HR) NR) as (s'&E&R'&L). eauto.
  - rewrite <- RUN. destruct (s_running s) as [p|] eqn:SR; [|tauto]. rewrite <- RUN in H.
    destruct (move_modify _ _ _ _ _ _ _ p
      (fun c => if state =? ST_SLEEPING then set_r V_TRUE (set_wait state now us c) else set_wait state now us c)
      (fun t => if state =? ST_SLEEPING then with_r V_TRUE (with_wait state now us t) else with_wait state now us t) H)
      as (st1&E1&H1&L1).
    { rewrite !in_app_iff; simpl; auto. }
    { intros c Wc. destruct (state =? ST_SLEEPING); repeat split; auto; apply Wc. }
    rewrite E1. cbn [bind].
    destruct (move_enq_b _ _ _ _ _ _ _ p H1) as (st2&b2&E2&H2&L2); [simpl; auto|].
    rewrite E2. cbn [bind]. eexists; split; [reflexivity|]. split; [|simpl; lia].
    simpl runl in H2. rewrite runl_remove in H2. constructor; simpl; auto.
    apply words_tmod; auto. intros t _ _ _. destruct (state =? ST_SLEEPING); simpl; auto.
Qed.

Lemma unblock_refines w s a cid v err : R w s a ->
  exists s', unblock s cid v err = Ok (s', snd (a_unblock a cid v err)) /\
    R w s' (fst (a_unblock a cid v err)) /\ length (s_st s') = length (s_st s).
Proof.
  intros HR. pose proof HR as [H RUN AT WK]. destruct (R3_disj_q _ _ _ _ _ _ _ H) as (D1&D2&ND).
  unfold unblock, a_unblock.
  rewrite (lookup_spec _ _ _ cid (r_ids _ _ _ _ _ _ _ H) (r_b _ _ _ _ _ _ _ H)). cbn [bind].
  destruct (find (is_me cid) (a_blocked a)) as [p|] eqn:F1; [|eauto].
  apply find_me in F1. destruct F1 as (I&->).
  destruct (R3_at _ _ _ _ _ _ _ p H) as (c&A&M&WF&Id); [rewrite !in_app_iff; auto|].
  rewrite (get_ok _ _ _ A). cbn [bind]. rewrite M. simpl t_state.
  destruct (st_kinds _ (proj1 (WK _ _ M))) as (_&_&_&K). simpl in K. rewrite K.
  destruct (unblock_kind (c_state c)); [|eauto].
  destruct (move_drop_b _ _ _ _ _ _ _ p H I) as (st1&b1&E1&H1&L1). rewrite E1. cbn [bind].
  destruct (move_modify _ _ _ _ _ _ _ p
      (fun c => set_state ST_READY
         (if match v with Some _ => err | None => false end
          then set_tos TosTerminate (match v with Some x => set_r x c | None => c end)
          else match v with Some x => set_r x c | None => c end))
      (fun t => let t1 := match v with Some x => with_r x t | None => t end in
           with_state ST_READY
             (match v with
              | Some _ => if err then with_tos TosTerminate t1 else t1
              | None => t1 end)) H1) as (st2&E2&H2&L2).
  { rewrite !in_app_iff. simpl. auto. }
  { intros cc Wc. destruct v as [x|]; [destruct err|]; repeat split; auto; apply Wc. }
  rewrite E2. cbn [bind].
  destruct (move_enq_q _ _ _ _ _ _ _ p H2) as (st3&q3&E3&H3&L3); [simpl; auto|].
  rewrite E3. cbn [bind].
  assert (RO : remove Nat.eq_dec p (p :: runl (a_run a)) = runl (a_run a)).
  { simpl. destruct (Nat.eq_dec p p); [|tauto]. apply notin_remove. intros J. apply (D2 p J); auto. }
  rewrite RO in H3. eexists; split; [reflexivity|]. split; [|simpl; lia].
  constructor; simpl; auto. apply words_tmod; auto. intros t _ B C. split; [apply st_ok_ready|].
  destruct v as [x|]; [destruct err|]; auto.
Qed.

Lemma kill_refines w s a cid v : R w s a -> s_running s <> None ->
  exists s', kill s cid v = Ok s' /\ R w s' (a_kill a cid v) /\ length (s_st s') = length (s_st s).
Proof.
  intros HR NR. pose proof HR as [H RUN AT WK]. destruct (R3_disj_q _ _ _ _ _ _ _ H) as (D1&D2&ND).
  unfold kill, a_kill. rewrite <- RUN in *. destruct (s_running s) as [me|] eqn:SR; [|tauto].
  destruct (R3_at _ _ _ _ _ _ _ me H) as (cm&A&M&WF&Id); [rewrite !in_app_iff; simpl; auto|].
  rewrite (get_ok _ _ _ A). cbn [bind]. rewrite Id. unfold is_me at 1.
  destruct (Z.eqb_spec (Z.of_nat me) cid) as [<-|NE]; [apply finish_refines; auto|].
  rewrite (lookup_spec _ _ _ cid (r_ids _ _ _ _ _ _ _ H) (r_b _ _ _ _ _ _ _ H)). cbn [bind].
  rewrite find_me_app.
  assert (FIN : forall st1 q1 b1 lq lb p, R3 st1 q1 b1 lq lb (p :: [me]) (a_th a) ->
    length st1 = length (s_st s) -> p <> me ->
    exists s',
     (let! st3 := modify st1 p (fun c => set_state ST_READY (set_r v (set_tos TosKill c))) in
      let! (st4, q2) := enqueue st3 q1 p in
      let! st5 := modify st4 me (set_r V_TRUE) in
      Ok (mksched st5 q2 b1 (Some me) (s_atomic s))) = Ok s' /\
     R w s' (mkast (lq ++ [p]) lb (Some me) (a_atomic a)
            (tmod (tmod (a_th a) p (fun t => with_state ST_READY (with_r v (with_tos TosKill t))))
                  me (with_r V_TRUE))) /\
     length (s_st s') = length (s_st s)).
  { intros st1 q1 b1 lq lb p H1 LN PM.
    destruct (move_modify _ _ _ _ _ _ _ p (fun c => set_state ST_READY (set_r v (set_tos TosKill c)))
      (fun t => with_state ST_READY (with_r v (with_tos TosKill t))) H1) as (st3&E3&H3&L3).
    { rewrite !in_app_iff; simpl; auto. }
    { intros cc Wc. repeat split; auto; apply Wc. }
    rewrite E3. cbn [bind].
    destruct (move_enq_q _ _ _ _ _ _ _ p H3) as (st4&q4&E4&H4&L4); [simpl; auto|].
    rewrite E4. cbn [bind].
    assert (RO : remove Nat.eq_dec p [p; me] = [me]).
    { simpl. destruct (Nat.eq_dec p p); [|tauto]. destruct (Nat.eq_dec p me); tauto. }
    rewrite RO in H4.
    destruct (move_modify _ _ _ _ _ _ _ me (set_r V_TRUE) (with_r V_TRUE) H4) as (st5&E5&H5&L5).
    { rewrite !in_app_iff; simpl; auto. }
    { intros cc Wc. repeat split; auto; apply Wc. }
    rewrite E5. cbn [bind]. eexists; split; [reflexivity|]. split; [|simpl; lia].
    constructor; simpl; auto. apply words_tmod; auto. apply words_tmod; auto.
    intros t _ B C. split; [apply st_ok_ready|]. auto. }
  assert (NM : forall p, In p (a_blocked a) \/ In p (a_ready a) -> p <> me).
  { intros p Hp ->. destruct (D2 me); [simpl; auto|]. tauto. }
  destruct (find (is_me cid) (a_blocked a)) as [p|] eqn:F1.
  - apply find_me in F1. destruct F1 as (I&->).
    destruct (move_drop_b _ _ _ _ _ _ _ p H I) as (st1&b1&E1&H1&L1). rewrite E1. cbn [bind].
    rewrite (drop_q_absent _ _ _ _ _ _ _ p H1) by (simpl; auto). cbn [bind].
    rewrite (notin_remove _ (a_ready a)) by (intros J; eapply D1; eauto).
    apply FIN; auto.
  - rewrite (lookup_spec _ _ _ cid (r_ids _ _ _ _ _ _ _ H) (r_q _ _ _ _ _ _ _ H)). cbn [bind].
    destruct (find (is_me cid) (a_ready a)) as [p|] eqn:F2.
    + apply find_me in F2. destruct F2 as (I&->).
      destruct (move_drop_q _ _ _ _ _ _ _ p H I) as (st1&q1&E1&H1&L1). rewrite E1. cbn [bind].
      rewrite (notin_remove _ (a_blocked a)) by (intros J; eapply D1; eauto).
      apply FIN; auto.
    + destruct (move_modify _ _ _ _ _ _ _ me (set_r V_NIL) (with_r V_NIL) H) as (st5&E5&H5&L5).
      { rewrite !in_app_iff; simpl; auto. }
      { intros cc Wc. repeat split; auto; apply Wc. }
      rewrite E5. cbn [bind]. eexists; split; [reflexivity|]. split; [|simpl; lia].
      constructor; simpl; auto. apply words_tmod; auto.
Qed.

Lemma new_mwf x trap parent : mwf (new_ctx x trap parent).
Proof. unfold mwf; simpl. lia. Qed.

Lemma create_refines w s a x trap parent : 0 < w -> R w s a -> free_slot s x ->
  exists s', create_ctx s x trap parent = Ok s' /\ R w s' (a_create a x trap parent) /\
    length (s_st s') = length (s_st s).
Proof.
  intros W HR (F1&F2). pose proof HR as [H RUN AT WK]. unfold create_ctx, a_create.
  pose proof (move_alloc _ _ _ _ _ _ _ x (new_ctx x trap parent) H F1 F2 eq_refl (new_mwf x trap parent)) as H1.
  destruct (move_enq_q _ _ _ _ _ _ _ x H1) as (st2&q2&E2&H2&L2); [simpl; auto|].
  rewrite E2. cbn [bind]. eexists; split; [reflexivity|].
  assert (RO : remove Nat.eq_dec x (x :: runl (a_run a)) = runl (a_run a)).
  { destruct (R3_disj_q _ _ _ _ _ _ _ H1) as (_&_&ND). inversion ND; subst.
    simpl. destruct (Nat.eq_dec x x); [|tauto]. apply notin_remove. auto. }
  rewrite RO in H2. split.
  - constructor; simpl; auto. intros q t. unfold tset. destruct (Nat.eqb q x); [|apply WK].
    intros [= <-]. simpl. split; [apply st_ok_ready|]. unfold is_word.
    assert (0 < 2 ^ w) by (apply Z.pow_pos_nonneg; lia). lia.
  - simpl. rewrite L2. apply length_put.
Qed.

Lemma dispatch_refines w now s a : 0 < w -> R w s a -> is_word w now ->
  exists s', dispatch w now s = Ok s' /\ R w s' (a_dispatch w now a) /\
    length (s_st s') = length (s_st s).
Proof.
  intros W HR NW. pose proof HR as [H RUN AT WK]. unfold dispatch, a_dispatch. rewrite <- AT.
  destruct (s_atomic s) eqn:SA; [eauto|].
  assert (exists st1 q1, (match s_running s with
     | Some p => enqueue (s_st s) (s_queue s) p
     | None => Ok (s_st s, s_queue s) end) = Ok (st1, q1) /\
     R3 st1 q1 (s_blocked s) (a_ready a ++ runl (a_run a)) (a_blocked a) [] (a_th a) /\
     length st1 = length (s_st s)) as (st1&q1&E1&H1&L1).
  { rewrite RUN. destruct (a_run a) as [p|] eqn:AR.
    - destruct (move_enq_q _ _ _ _ _ _ _ p H) as (st1&q1&E1&H1&L1); [simpl; auto|].
      simpl runl in *. rewrite runl_remove in H1. eauto.
    - simpl in *. rewrite app_nil_r. eauto. }
  rewrite E1. cbn [bind]. unfold wake_up.
  replace (q_first (s_blocked s)) with (hdor (a_blocked a) None)
    by (symmetry; apply (r_b _ _ _ _ _ _ _ H1)).
  destruct (wake_from_spec w now W NW (a_blocked a) [] _ _ _ _ _ _ (S (length st1)) H1 WK)
    as (st2&b2&q2&E2&H2&L2).
  { pose proof (isq_length _ _ _ (r_b _ _ _ _ _ _ _ H1)). lia. }
  rewrite E2. cbn [bind].
  destruct (move_dequeue _ _ _ _ _ _ _ H2) as (st3&q3&E3&H3&L3).
  rewrite E3. cbn [bind]. eexists; split; [reflexivity|]. split; [|simpl; lia].
  change (match a_run a with Some p => [p] | None => [] end) with (runl (a_run a)).
  unfold a_wake. simpl a_ready. simpl a_blocked. simpl a_th.
  constructor; simpl; auto.
  intros p t. destruct (memb p (a_blocked a) && due_in w now (a_th a) p); [|apply WK].
    destruct (a_th a p) as [u|] eqn:U; simpl; [|discriminate]. intros [= <-].
    destruct (WK _ _ U) as (_&B&C). split; [apply st_ok_ready|]. unfold wake_thr.
    destruct (timeout_kind (t_state u)); auto.
Qed.

Lemma self_put w s a p c c' g : R w s a -> s_running s = Some p -> at_ (s_st s) p = Some c ->
  c_prev c' = c_prev c -> c_next c' = c_next c -> c_id c' = c_id c -> mwf c' ->
  view c' = g (view c) ->
  (forall t, t_state (g t) = t_state t /\ t_ts (g t) = t_ts t /\ t_sleep (g t) = t_sleep t) ->
  R w (mksched (put (s_st s) p c') (s_queue s) (s_blocked s) (s_running s) (s_atomic s))
      (mkast (a_ready a) (a_blocked a) (a_run a) (a_atomic a) (tmod (a_th a) p g)).
Proof.
  intros [H RUN AT WK] SR A P1 P2 P3 P4 V G. constructor; simpl; auto.
  - eapply R3_ext; [|eapply move_put; eauto]. intros q. unfold tmod, tset.
    destruct (Nat.eqb_spec q p); auto. rewrite <- (r_th _ _ _ _ _ _ _ H p), A. simpl. congruence.
  - apply words_tmod; auto. intros t B1 B2 B3. destruct (G t) as (G1&G2&G3). rewrite G1, G2, G3. auto.
Qed.

Theorem sstep_refines w s a o : 0 < w -> R w s a -> svalid w s o ->
  exists s', sstep w s o = Ok s' /\ R w s' (a_step w a o) /\ length (s_st s') = length (s_st s).
Proof.
  intros W HR V. pose proof HR as [H RUN AT WK]. destruct o; simpl in V; unfold sstep, a_step.
  - destruct V as (NR&F). rewrite <- RUN. destruct (s_running s) as [p|] eqn:SR; [|tauto].
    rewrite <- RUN in H.
    destruct (R3_at _ _ _ _ _ _ _ p H) as (c&A&M&WF&Id); [rewrite !in_app_iff; simpl; auto|].
    rewrite (get_ok _ _ _ A). cbn [bind]. rewrite Id. apply create_refines; auto.
  - apply create_refines; auto.
  - destruct V as (NR&W1&W2). apply block_refines; auto. unfold st_ok; simpl; auto.
  - destruct V as (NR&W1&W2&I). apply block_refines; auto. unfold st_ok. simpl in *. tauto.
  - apply exit_refines; auto.
  - destruct (send_refines w s a cid msg HR) as (s'&E&R'&L). rewrite E. cbn [bind]. eauto.
  - apply kill_refines; auto.
  - unfold enter_atomic. rewrite <- AT. destruct (s_atomic s) eqn:SA.
    + unfold atomic_error.
      destruct (exit_refines w _ _ note (noatomic_R w s a false HR) V) as (s'&E&R'&L). eauto.
    + eexists; split; [reflexivity|]. split; auto. apply (noatomic_R w s a true HR).
  - eexists; split; [reflexivity|]. split; auto. apply (noatomic_R w s a false HR).
  - destruct V as (NR&I). unfold take_mail, my_mail in *. rewrite <- RUN.
    destruct (s_running s) as [p|] eqn:SR; [|tauto].
    rewrite <- RUN in H.
    destruct (R3_at _ _ _ _ _ _ _ p H) as (c&A&M&WF&Id); [rewrite !in_app_iff; simpl; auto|].
    rewrite A in I. rewrite (get_ok _ _ _ A). cbn [bind].
    destruct (remove_mail_spec c ix WF I) as (c'&E&W'&EC&ML). rewrite E. cbn [bind].
    eexists; split; [reflexivity|]. split; [|apply length_put].
    rewrite <- SR. rewrite SR, RUN. rewrite <- RUN at 1. rewrite <- SR.
    apply (self_put w s a p c c'); auto; try (rewrite EC; reflexivity).
    unfold view, with_mail. simpl. rewrite <- ML. rewrite EC. reflexivity.
  - destruct V as (NR&I&J). unfold resize_mail, my_mail in *. rewrite <- RUN.
    destruct (s_running s) as [p|] eqn:SR; [|tauto].
    rewrite <- RUN in H.
    destruct (R3_at _ _ _ _ _ _ _ p H) as (c&A&M&WF&Id); [rewrite !in_app_iff; simpl; auto|].
    rewrite A in I. rewrite (get_ok _ _ _ A). cbn [bind].
    destruct (change_size_spec c fresh WF I J) as (c'&E&W'&EC&ML). rewrite E. cbn [bind].
    eexists; split; [reflexivity|]. split; [|apply length_put].
    rewrite RUN. rewrite <- RUN at 1. rewrite <- SR.
    apply (self_put w s a p c c'); auto; try (rewrite EC; reflexivity).
    unfold view, with_mail. simpl. rewrite ML. rewrite EC. reflexivity.
  - destruct (unblock_refines w s a cid v err HR) as (s'&E&R'&L). rewrite E. cbn [bind]. eauto.
  - destruct (send_refines w s a cid msg HR) as (s'&E&R'&L). rewrite E. cbn [bind]. eauto.
  - apply dispatch_refines; auto.
Qed.

Definition a_init : ast := mkast [] [] None false (fun _ => None).

Lemma at_repeat n p : at_ (repeat None n) p = None.
Proof.
  unfold at_. destruct (nth_error (repeat None n) p) eqn:E; auto.
  apply nth_error_In, repeat_spec in E. auto.
Qed.

Lemma R_init w n : R w (sinit n) a_init.
Proof.
  constructor; simpl; auto.
  - constructor; simpl; auto.
    + apply isq_nil.
    + apply isq_nil.
    + intros p c. rewrite at_repeat. discriminate.
    + intros p c. rewrite at_repeat. discriminate.
    + intros p. rewrite at_repeat. reflexivity.
    + constructor.
    + intros p. rewrite at_repeat. tauto.
  - intros p t; discriminate.
Qed.

Inductive AReach (w : Z) : ast -> Prop :=
| areach_init : AReach w a_init
| areach_step a o : AReach w a -> AReach w (a_step w a o).

Lemma sreach_R w n s : 0 < w -> SReach w n s -> exists a, R w s a /\ AReach w a /\ length (s_st s) = n.
Proof.
  intros W. induction 1 as [|s o s' HS (a&HA&HR&HL) V E].
  - exists a_init. split; [apply R_init|]. split; [constructor|]. simpl. apply repeat_length.
  - destruct (sstep_refines w s a o W HA V) as (s1&E1&R1&L1).
    assert (s1 = s') by congruence. subst s1. exists (a_step w a o). 
    split; auto. split; [constructor; auto|congruence].
Qed.
