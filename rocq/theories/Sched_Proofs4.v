(* Facts about the abstract scheduler, and walks. *)
From Coq Require Import Permutation.
From Verif Require Import Base Sched_Model Sched_Spec Sched_Proofs Sched_Proofs2 Sched_Proofs3.
Local Open Scope Z_scope.

Lemma walk_next_fun st o l : walk_next st o l -> forall l', walk_next st o l' -> l = l'.
Proof.
  induction 1 as [|p c l A W IH]; intros l' W'; inversion W'; subst; auto.
  f_equal. apply IH. congruence.
Qed.

(* ---- ready list only grows at the end, except by dispatch and kill ---- *)
Lemma a_send_ready a cid msg : exists l, a_ready (fst (a_send a cid msg)) = a_ready a ++ l.
Proof.
  unfold a_send. destruct (find _ _) as [p|]; [|exists []; simpl; rewrite app_nil_r; auto].
  destruct (memb p (a_blocked a) && _); [exists [p]|exists []]; simpl; rewrite ?app_nil_r; auto.
Qed.

Lemma a_finish_ready a : a_ready (a_finish a) = a_ready a.
Proof. unfold a_finish. destruct (a_run a); auto. Qed.

Lemma a_exit_ready a note : exists l, a_ready (a_exit a note) = a_ready a ++ l.
Proof.
  assert (N : exists l, a_ready (a_finish a) = a_ready a ++ l)
    by (exists []; rewrite app_nil_r; apply a_finish_ready).
  unfold a_exit. destruct (a_run a) as [p|]; [|exists []; rewrite app_nil_r; auto].
  destruct (a_th a p) as [t|]; auto. destruct note as [msg|]; auto. destruct (t_trap t); auto.
  rewrite a_finish_ready. apply a_send_ready.
Qed.

Definition kills (o : op) (l : list nat) : Prop :=
  match o with OKill cid _ => exists p, In p l /\ cid = Z.of_nat p | _ => False end.

Lemma remove_app_tail p (l1 : list nat) x l2 : ~ In p (l1 ++ [x]) ->
  remove Nat.eq_dec p (l1 ++ x :: l2) = l1 ++ x :: remove Nat.eq_dec p l2.
Proof.
  intros N. rewrite in_app_iff in N. simpl in N. rewrite remove_app, notin_remove by tauto.
  f_equal. simpl. destruct (Nat.eq_dec p x); auto. subst. tauto.
Qed.

Lemma fifo_step w a o l1 x l2 : a_ready a = l1 ++ x :: l2 -> ~ kills o (l1 ++ [x]) ->
  (match o with ODispatch _ => a_atomic a = true | _ => True end) ->
  exists l2', a_ready (a_step w a o) = l1 ++ x :: l2'.
Proof.
  intros E NK ND.
  assert (AP : forall l, (exists t, l = a_ready a ++ t) -> exists l2', l = l1 ++ x :: l2').
  { intros l (t&->). rewrite E, <- app_assoc. simpl. eauto. }
  destruct o; simpl in *; try (apply AP; exists []; rewrite app_nil_r; reflexivity).
  - destruct (a_run a); apply AP; [eexists; reflexivity|exists []; rewrite app_nil_r; auto].
  - apply AP; eexists; reflexivity.
  - apply AP. unfold a_block. destruct (a_atomic a); [apply (a_exit_ready (mkast _ _ _ _ _))|].
    exists []. rewrite app_nil_r. destruct (a_run a); auto.
  - apply AP. unfold a_block. destruct (a_atomic a); [apply (a_exit_ready (mkast _ _ _ _ _))|].
    exists []. rewrite app_nil_r. destruct (a_run a); auto.
  - apply AP. apply a_exit_ready.
  - apply AP. apply a_send_ready.
  - unfold a_kill. destruct (a_run a) as [me|]; [|eauto].
    destruct (is_me cid me); [rewrite a_finish_ready; eauto|].
    destruct (find (is_me cid) (a_blocked a ++ a_ready a)) as [p|] eqn:F; [|simpl; eauto].
    simpl. apply find_me in F. destruct F as (_&->). rewrite E, remove_app_tail.
    + rewrite <- app_assoc. simpl. eauto.
    + intros I. apply NK. eauto.
  - destruct (a_atomic a); [apply AP; apply (a_exit_ready (mkast _ _ _ _ _))|]. simpl. eauto.
  - destruct (a_run a); simpl; eauto.
  - destruct (a_run a); simpl; eauto.
  - unfold a_unblock. destruct (find _ _) as [p|]; [|simpl; eauto].
    destruct (match a_th a p with Some t => unblock_kind (t_state t) | None => false end); simpl.
    + apply AP; eexists; reflexivity.
    + eauto.
  - apply AP. apply a_send_ready.
  - unfold a_dispatch. rewrite ND. eauto.
Qed.

Lemma fifo_dispatch w a now l1 x l2 : a_ready a = l1 ++ x :: l2 -> a_atomic a = false ->
  match l1 with
  | [] => a_run (a_dispatch w now a) = Some x
  | y :: t => exists l2', a_ready (a_dispatch w now a) = t ++ x :: l2'
  end.
Proof.
  intros E NA. unfold a_dispatch. rewrite NA. unfold a_wake. simpl. rewrite E.
  destruct l1 as [|y t]; simpl; auto. rewrite <- !app_assoc. simpl. eauto.
Qed.

(* ---- threads stay alive ---- *)
Lemma tmod_alive m x g p : m p <> None -> tmod m x g p <> None.
Proof.
  unfold tmod, tset. destruct (Nat.eqb_spec p x) as [->|]; auto. destruct (m x); simpl; congruence.
Qed.

Lemma a_send_alive a cid msg p : a_th a p <> None -> a_th (fst (a_send a cid msg)) p <> None.
Proof.
  intros H. unfold a_send. destruct (find _ _) as [q|]; auto.
  destruct (memb q _ && _); simpl; apply tmod_alive; auto.
Qed.

Lemma a_send_run a cid msg : a_run (fst (a_send a cid msg)) = a_run a.
Proof. unfold a_send. destruct (find _ _) as [q|]; auto. destruct (memb q _ && _); auto. Qed.

Lemma a_send_atomic a cid msg : a_atomic (fst (a_send a cid msg)) = a_atomic a.
Proof. unfold a_send. destruct (find _ _) as [q|]; auto. destruct (memb q _ && _); auto. Qed.

Lemma a_finish_alive a p : a_th a p <> None -> a_run a <> Some p -> a_th (a_finish a) p <> None.
Proof.
  intros H N. unfold a_finish. destruct (a_run a) as [q|]; auto. simpl. unfold tset.
  destruct (Nat.eqb_spec p q); congruence.
Qed.

Lemma a_exit_alive a note p : a_th a p <> None -> a_run a <> Some p -> a_th (a_exit a note) p <> None.
Proof.
  intros H N. unfold a_exit. destruct (a_run a) as [q|] eqn:E; auto.
  assert (a_run a <> Some p) by congruence.
  destruct (a_th a q) as [t|]; [|apply a_finish_alive; auto].
  destruct note; [|apply a_finish_alive; auto]. destruct (t_trap t); [|apply a_finish_alive; auto].
  apply a_finish_alive; [apply a_send_alive; auto|rewrite a_send_run; auto].
Qed.

Definition a_ends (a : ast) (o : op) (p : nat) : Prop :=
  a_run a = Some p /\
  match o with
  | OExit _ => True
  | OKill cid _ => cid = Z.of_nat p
  | OYield _ _ _ | OBlock _ _ _ _ | OEnter _ => a_atomic a = true
  | _ => False
  end.

Lemma a_step_alive w a o p : a_th a p <> None -> ~ a_ends a o p -> a_th (a_step w a o) p <> None.
Proof.
  intros H NE. unfold a_ends in NE.
  assert (BL : forall st now us note, (a_run a = Some p -> a_atomic a = false) ->
    a_th (a_block a st now us note) p <> None).
  { intros st now us note G. unfold a_block. destruct (a_atomic a).
    - apply a_exit_alive; auto. simpl. intros E. specialize (G E). discriminate.
    - destruct (a_run a) as [q|]; auto. simpl. apply tmod_alive; auto. }
  destruct o; simpl in *.
  - destruct (a_run a); auto. simpl. unfold tset. destruct (Nat.eqb p x); [discriminate|auto].
  - unfold tset. destruct (Nat.eqb p x); [discriminate|auto].
  - apply BL. destruct (a_atomic a); tauto.
  - apply BL. destruct (a_atomic a); tauto.
  - apply a_exit_alive; tauto.
  - apply a_send_alive; auto.
  - unfold a_kill. destruct (a_run a) as [me|] eqn:ER; auto.
    destruct (is_me cid me) eqn:EM.
    + apply a_finish_alive; auto. rewrite ER. intros [= ->]. apply NE. split; auto.
      unfold is_me in EM. lia.
    + destruct (find _ _); simpl; repeat apply tmod_alive; auto.
  - destruct (a_atomic a) eqn:EA; auto. apply a_exit_alive; simpl; auto.
  - auto.
  - destruct (a_run a); auto. apply tmod_alive; auto.
  - destruct (a_run a); auto. apply tmod_alive; auto.
  - unfold a_unblock. destruct (find _ _) as [q|]; auto.
    destruct (match a_th a q with Some t => unblock_kind (t_state t) | None => false end); simpl; auto.
    apply tmod_alive; auto.
  - apply a_send_alive; auto.
  - unfold a_dispatch. destruct (a_atomic a); auto. unfold a_wake. simpl.
    destruct (memb p _ && _); auto. destruct (a_th a p); simpl; congruence.
Qed.

(* ---- stuck in atomic ---- *)
Lemma a_step_stuck w s a o : R w s a -> svalid w s o -> a_atomic a = true -> a_run a = None ->
  a_atomic (a_step w a o) = true /\ a_run (a_step w a o) = None.
Proof.
  intros [H RUN AT WK] V EA ER. rewrite ER in RUN.
  destruct o; simpl in V; try (exfalso; tauto); simpl.
  - auto.
  - unfold a_unblock. destruct (find _ _) as [q|]; auto.
    destruct (match a_th a q with Some t => unblock_kind (t_state t) | None => false end); simpl; auto.
  - rewrite a_send_atomic, a_send_run. auto.
  - unfold a_dispatch. rewrite EA. auto.
Qed.

(* ---- where a thread is, by its state ---- *)
Definition where_ok (a : ast) : Prop :=
  (forall p t, In p (a_blocked a) -> a_th a p = Some t -> t_state t <> ST_READY) /\
  (forall p t, In p (a_ready a ++ runl (a_run a)) -> a_th a p = Some t -> t_state t = ST_READY).

(* ---- sleepers ---- *)
(* [p] is asleep since [ts] for [us] *)
Definition asleep (a : ast) (p : nat) (st ts us : Z) : Prop :=
  In p (a_blocked a) /\
  exists t, a_th a p = Some t /\ t_state t = st /\ t_ts t = ts /\ t_sleep t = us.

Lemma tmod_asleep m x g p st ts us :
  (forall t, t_state (g t) = t_state t /\ t_ts (g t) = t_ts t /\ t_sleep (g t) = t_sleep t) \/ x <> p ->
  (exists t, m p = Some t /\ t_state t = st /\ t_ts t = ts /\ t_sleep t = us) ->
  exists t, tmod m x g p = Some t /\ t_state t = st /\ t_ts t = ts /\ t_sleep t = us.
Proof.
  intros G (t&A&B&C&D). unfold tmod, tset. destruct (Nat.eqb_spec p x) as [->|].
  - destruct G as [G|G]; [|tauto]. rewrite A. simpl. eexists; split; [reflexivity|].
    destruct (G t) as (G1&G2&G3). rewrite G1, G2, G3. auto.
  - eauto.
Qed.

Lemma a_send_asleep a cid msg p ts us : asleep a p ST_SLEEPING ts us -> asleep (fst (a_send a cid msg)) p ST_SLEEPING ts us.
Proof.
  intros (I&E). unfold a_send. destruct (find _ _) as [q|]; [|split; auto].
  destruct (Nat.eq_dec q p) as [->|NQ].
  - rewrite (proj2 (memb_In _ _) I). destruct E as (t&A&B&C&D). rewrite A, B. simpl.
    split; [exact I|]. simpl. apply tmod_asleep; eauto 10.
  - destruct (memb q _ && _); simpl; split; simpl.
    + apply in_in_remove; auto.
    + apply tmod_asleep; auto.
    + auto.
    + apply tmod_asleep; auto.
Qed.

Lemma a_finish_asleep a p st ts us : asleep a p st ts us -> a_run a <> Some p -> asleep (a_finish a) p st ts us.
Proof.
  intros (I&t&A&B) N. unfold a_finish. destruct (a_run a) as [q|] eqn:E; [|split; eauto].
  split; simpl; auto. exists t. unfold tset. destruct (Nat.eqb_spec p q); [congruence|]. auto.
Qed.

Lemma a_exit_asleep a note p ts us : asleep a p ST_SLEEPING ts us -> a_run a <> Some p ->
  asleep (a_exit a note) p ST_SLEEPING ts us.
Proof.
  intros H N. unfold a_exit. destruct (a_run a) as [q|] eqn:E; auto.
  assert (a_run a <> Some p) by congruence.
  destruct (a_th a q) as [t|]; [|apply a_finish_asleep; auto].
  destruct note; [|apply a_finish_asleep; auto]. destruct (t_trap t); [|apply a_finish_asleep; auto].
  apply a_finish_asleep; [apply a_send_asleep; auto|rewrite a_send_run; auto].
Qed.

Lemma asleep_step w s a o p ts us : R w s a -> svalid w s o ->
  asleep a p ST_SLEEPING ts us ->
  (forall v, o <> OKill (Z.of_nat p) v) ->
  (forall now, o = ODispatch now -> elapsed w ts now < us) ->
  asleep (a_step w a o) p ST_SLEEPING ts us.
Proof.
  intros HR V H NK ND. pose proof HR as [H3 RUN AT WK].
  destruct (R3_disj_q _ _ _ _ _ _ _ H3) as (D1&D2&NDp).
  assert (NR : a_run a <> Some p).
  { intros E. destruct H as (I&_). destruct (D2 p) as (_&N); [rewrite E; simpl; auto|]. auto. }
  assert (NX : forall x, free_slot s x -> x <> p).
  { intros x (F1&F2) ->. destruct H as (I&_). apply (r_dom _ _ _ _ _ _ _ H3 p); auto.
    rewrite !in_app_iff; auto. }
  assert (AT2 : forall b, asleep (mkast (a_ready a) (a_blocked a) (a_run a) b (a_th a)) p ST_SLEEPING ts us)
    by (intros b; exact H).
  assert (CR : forall x tr pa, free_slot s x -> asleep (a_create a x tr pa) p ST_SLEEPING ts us).
  { intros x tr pa F. destruct H as (I&t&A&B). split; simpl; auto. exists t. unfold tset.
    destruct (Nat.eqb_spec p x); auto. subst. exfalso. eapply NX; eauto. }
  assert (BL : forall st now us' note, asleep (a_block a st now us' note) p ST_SLEEPING ts us).
  { intros. unfold a_block. destruct (a_atomic a); [apply a_exit_asleep; auto|].
    destruct (a_run a) as [q|] eqn:E; auto. destruct H as (I&H). split; simpl.
    - apply in_or_app; auto.
    - apply tmod_asleep; [right; congruence|auto]. }
  destruct o; simpl in *.
  - destruct (a_run a) eqn:E; auto. apply CR. tauto.
  - apply CR; auto.
  - apply BL.
  - apply BL.
  - apply a_exit_asleep; auto.
  - apply a_send_asleep; auto.
  - unfold a_kill. destruct (a_run a) as [me|] eqn:ER; auto.
    destruct (is_me cid me); [apply a_finish_asleep; congruence|].
    destruct (find _ _) as [q|] eqn:F.
    + apply find_me in F. destruct F as (_&->).
      assert (q <> p) by (intros ->; eapply NK; eauto).
      destruct H as (I&H). split; simpl.
      * apply in_in_remove; auto.
      * apply tmod_asleep; [right; congruence|]. apply tmod_asleep; auto.
    + destruct H as (I&H). split; simpl; auto. apply tmod_asleep; auto. 
  - destruct (a_atomic a) eqn:EA; auto. apply a_exit_asleep; auto.
  - apply AT2.
  - destruct (a_run a) as [me|] eqn:ER; auto. destruct H as (I&H). split; simpl; auto.
    apply tmod_asleep; auto.
  - destruct (a_run a) as [me|] eqn:ER; auto. destruct H as (I&H). split; simpl; auto.
    apply tmod_asleep; auto.
  - unfold a_unblock. destruct (find _ _) as [q|]; auto.
    destruct (Nat.eq_dec q p) as [->|NQ].
    + destruct H as (I&t&A&B&C). rewrite A, B. simpl. split; eauto.
    + destruct H as (I&H).
      destruct (match a_th a q with Some t => unblock_kind (t_state t) | None => false end); simpl.
      * split; simpl; [apply in_in_remove; auto|apply tmod_asleep; auto].
      * split; auto.
  - apply a_send_asleep; auto.
  - unfold a_dispatch. destruct (a_atomic a); auto. unfold a_wake.
    specialize (ND now eq_refl). destruct H as (I&t&A&B&C&D).
    assert (DU : due_in w now (a_th a) p = false).
    { unfold due_in. rewrite A. unfold due. rewrite C, D. 
      destruct (sleeping_kind (t_state t)); auto. simpl.
      destruct (now <? ts); lia. }
    split; simpl.
    + apply filter_In. rewrite DU. auto.
    + rewrite DU, andb_false_r. eauto.
Qed.
