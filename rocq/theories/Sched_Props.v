(* Properties of threads, queues, mailboxes and the dispatch loop:
   C19 C20 C21 C22 C23 C26 C28. *)
From Coq Require Import Permutation.
From Verif Require Import Base Sched_Model Sched_Spec Sched_Proofs Sched_Proofs2 Sched_Proofs3 Sched_Proofs4 Sched_Ex.
Local Open Scope Z_scope.

(* ================================================================ *)
(* C19: any sequence of enqueue, dequeue and drop on the doubly linked queue
   behaves as on a list: same results, and at the end the forward links spell
   the list and the backward links its reverse. *)

Lemma qrun_lrun ops : forall st q l,
  ids_ok st -> isq st q l -> qvalid_all st l ops ->
  exists st' q', qrun st q ops = Ok (st', q', snd (lrun l ops)) /\ isq st' q' (fst (lrun l ops)).
Proof.
  induction ops as [|o t IH]; intros st q l I H V; simpl.
  - eauto.
  - destruct V as (V1&V2). simpl in V2.
    assert (exists st1 q1, qstep st q o = Ok (st1, q1, snd (lstep l o)) /\
       isq st1 q1 (fst (lstep l o)) /\ (exists S, chg st st1 S)) as (st1&q1&E1&H1&S&C1).
    { destruct o as [x| |x]; simpl in *.
      - destruct V1 as (A&N). destruct (at_ st x) as [c|] eqn:AX; [|tauto].
        destruct (enqueue_spec st q l x c H AX N) as (st1&q1&E&Q&C). rewrite E. simpl. eauto 10.
      - destruct (dequeue_spec st q l H) as (st1&q1&E&Q&C). eauto 10.
      - destruct (at_ st x) as [c|] eqn:AX; [|tauto].
        destruct (drop_spec st q l x c I H AX) as (st1&q1&E&Q&C&_). rewrite E. simpl. eauto 10. }
    rewrite E1. cbn [bind].
    destruct (lstep l o) as (l1&r) eqn:EL. simpl in *.
    destruct (IH st1 q1 l1) as (st2&q2&E2&H2); auto.
    + eapply ids_chg; eauto.
    + assert (AL : forall x, at_ st x <> None -> at_ st1 x <> None).
      { intros x Hx. destruct (at_ st x) as [c|] eqn:AX; [|tauto].
        destruct (chg_at _ _ _ _ _ C1 AX) as (c'&A'&_). congruence. }
      clear - V2 AL. revert l1 V2. induction t as [|o t IH]; intros l1 V; simpl in *; auto.
      destruct V as (V1&V2). split; [|apply IH; auto].
      destruct o; simpl in *; intuition.
    + rewrite E2. cbn [bind]. destruct (lrun l1 t) as (l2&rs). simpl in *. eauto.
Qed.

Theorem queue_behaves_as_list : forall st ops,
  (forall p c, at_ st p = Some c -> c_id c = Z.of_nat p) ->
  qvalid_all st [] ops ->
  exists st' q',
    qrun st q_empty ops = Ok (st', q', snd (lrun [] ops)) /\
    walk_next st' (q_first q') (fst (lrun [] ops)) /\
    walk_prev st' (q_last q') (rev (fst (lrun [] ops))).
Proof.
  intros st ops I V. destruct (qrun_lrun ops st q_empty [] I (isq_nil st) V) as (st'&q'&E&H).
  exists st', q'. split; auto. split; [apply isq_walk_next|apply isq_walk_prev]; auto.
Qed.

(* five contexts; enqueue four, drop a middle, the first, the last *)
Definition five : store := map (fun i => Some (new_ctx i false 0)) [0;1;2;3;4]%nat.
Definition five_ops : list qop :=
  [QEnq 0; QEnq 1; QEnq 2; QEnq 3; QEnq 4; QDrop 2; QDrop 0; QDrop 4; QDrop 4; QDeq; QDeq; QDeq; QEnq 2]%nat.
Example five_valid :
  (forall p c, at_ five p = Some c -> c_id c = Z.of_nat p) /\ qvalid_all five [] five_ops.
Proof.
  split.
  - intros p c. do 5 (destruct p as [|p]; [intros [= <-]; reflexivity|]). 
    unfold at_. destruct p; discriminate.
  - simpl. repeat split; try discriminate; intuition discriminate.
Qed.
Example five_result : lrun [] five_ops =
  ([2%nat], [None;None;None;None;None; Some 2%nat; Some 0%nat; Some 4%nat; None; Some 1%nat; Some 3%nat; None; None]).
Proof. reflexivity. Qed.

(* ================================================================ *)
(* C20 *)

(* No operation of a running system goes wrong: no NULL or freed context is
   touched, no mailbox is overrun, every loop ends. *)
Theorem sched_ops_defined : forall w n s o, 0 < w ->
  SReach w n s -> svalid w s o -> exists s', sstep w s o = Ok s'.
Proof.
  intros w n s o W H V. destruct (sreach_R w n s W H) as (a&HR&_).
  destruct (sstep_refines w s a o W HR V) as (s'&E&_). eauto.
Qed.

(* Every thread that exists is in exactly one place, and nothing else is in
   the queues; the links of both queues agree in both directions. *)
Theorem sched_one_place : forall w n s, 0 < w -> SReach w n s ->
  exists ready blocked,
    walk_next (s_st s) (q_first (s_queue s)) ready /\
    walk_prev (s_st s) (q_last (s_queue s)) (rev ready) /\
    walk_next (s_st s) (q_first (s_blocked s)) blocked /\
    walk_prev (s_st s) (q_last (s_blocked s)) (rev blocked) /\
    NoDup (blocked ++ ready ++ match s_running s with Some p => [p] | None => [] end) /\
    forall p, at_ (s_st s) p <> None <->
      In p (blocked ++ ready ++ match s_running s with Some p => [p] | None => [] end).
Proof.
  intros w n s W H. destruct (sreach_R w n s W H) as (a&[H3 RUN AT WK]&_).
  exists (a_ready a), (a_blocked a). rewrite RUN.
  change (match a_run a with Some p => [p] | None => [] end) with (runl (a_run a)).
  split; [apply isq_walk_next, H3|]. split; [apply isq_walk_prev, H3|].
  split; [apply isq_walk_next, H3|]. split; [apply isq_walk_prev, H3|].
  split; apply H3.
Qed.

(* A thread disappears only by ending itself. *)
Theorem sched_threads_survive : forall w n s o s' p, 0 < w ->
  SReach w n s -> svalid w s o -> sstep w s o = Ok s' ->
  at_ (s_st s) p <> None -> ~ ends s o p -> at_ (s_st s') p <> None.
Proof.
  intros w n s o s' p W H V E A NE. destruct (sreach_R w n s W H) as (a&HR&_).
  destruct (sstep_refines w s a o W HR V) as (s1&E1&R1&_).
  assert (s1 = s') by congruence. subst s1.
  pose proof HR as [H3 RUN AT WK]. pose proof R1 as [H3' _ _ _].
  assert (AL : a_th a p <> None).
  { rewrite <- (r_th _ _ _ _ _ _ _ H3 p). destruct (at_ (s_st s) p); simpl; congruence. }
  apply (a_step_alive w a o p) in AL.
  - rewrite <- (r_th _ _ _ _ _ _ _ H3' p) in AL. destruct (at_ (s_st s') p); simpl in *; congruence.
  - unfold a_ends. rewrite <- RUN, <- AT. exact NE.
Qed.

(* and it is gone when it does end *)
Theorem sched_exit_ends : forall w n s note p s', 0 < w ->
  SReach w n s -> s_running s = Some p -> sstep w s (OExit note) = Ok s' ->
  at_ (s_st s') p = None /\ s_running s' = None.
Proof.
  intros w n s note p s' W H RN E. destruct (sreach_R w n s W H) as (a&HR&_).
  destruct (sstep_refines w s a (OExit note) W HR) as (s1&E1&R1&_); [simpl; congruence|].
  assert (s1 = s') by congruence. subst s1.
  pose proof HR as [H3 RUN AT WK]. destruct R1 as [H3' RUN' _ _].
  assert (FA : forall b, a_run b = Some p -> a_th (a_finish b) p = None /\ a_run (a_finish b) = None).
  { intros b Eb. unfold a_finish. rewrite Eb. simpl. unfold tset. rewrite Nat.eqb_refl. auto. }
  assert (G : a_th (a_exit a note) p = None /\ a_run (a_exit a note) = None).
  { unfold a_exit. assert (a_run a = Some p) as AR by congruence. rewrite AR.
    destruct (a_th a p) as [t|]; [|apply FA; auto]. destruct note; [|apply FA; auto].
    destruct (t_trap t); [|apply FA; auto]. apply FA. rewrite a_send_run. auto. }
  destruct G as (G1&G2). split.
  - simpl in H3'. pose proof (r_th _ _ _ _ _ _ _ H3' p) as T. rewrite G1 in T.
    destruct (at_ (s_st s') p); [discriminate|auto].
  - rewrite RUN'. exact G2.
Qed.

(* ================================================================ *)
(* C21 *)
Lemma fifo_run w n s ops d s' : SRun w s ops d s' -> 0 < w -> SReach w n s -> forall a l1 x l2,
  R w s a -> a_ready a = l1 ++ x :: l2 ->
  (forall o, In o ops -> ~ kills o (l1 ++ [x])) -> (d <= length l1)%nat ->
  SReach w n s' /\ exists a' l2', R w s' a' /\ a_ready a' = skipn d l1 ++ x :: l2'.
Proof.
  intros H W. induction H as [s|s o s1 l d s2 V E HR IH]; intros RS a l1 x l2 RA E1 NK LE.
  - split; auto. exists a, l2. auto.
  - destruct (sstep_refines w s a o W RA V) as (s1'&E1'&R1&_).
    assert (s1' = s1) by congruence. subst s1'.
    assert (RS1 : SReach w n s1) by (econstructor; eauto).
    pose proof RA as [_ _ AT _].
    assert (NKo : ~ kills o (l1 ++ [x])) by (apply NK; simpl; auto).
    destruct (Nat.eq_dec (reschedules s o) 0) as [Z0|NZ].
    + rewrite Z0 in *. destruct (fifo_step w a o l1 x l2 E1 NKo) as (l2'&E2).
      { unfold reschedules in Z0. destruct o; auto. rewrite <- AT. destruct (s_atomic s); auto. discriminate. }
      simpl. eapply IH; eauto. intros; apply NK; simpl; auto.
    + unfold reschedules in *. destruct o; try (exfalso; apply NZ; reflexivity).
      destruct (s_atomic s) eqn:SA; [tauto|]. 
      pose proof (fifo_dispatch w a now l1 x l2 E1 (eq_sym AT)) as F.
      destruct l1 as [|y t]; [simpl in LE; lia|].
      destruct F as (l2'&F). simpl in LE. 
      change (skipn (1 + d) (y :: t)) with (skipn d t).
      eapply IH; eauto; [|lia]. intros o Ho K. apply (NK o); [simpl; auto|].
      destruct o; simpl in *; auto. destruct K as (p&P1&P2). eauto.
Qed.

(* A ready thread with [length l1] threads ahead of it gets the processor at
   the very next reschedule after [length l1] of them, whatever the running
   threads and the outside world do meanwhile (short of killing a thread that
   is still ahead or the thread itself). *)
Theorem sched_fifo : forall w n s l1 x l2 ops s1 now s2, 0 < w ->
  SReach w n s ->
  walk_next (s_st s) (q_first (s_queue s)) (l1 ++ x :: l2) ->
  SRun w s ops (length l1) s1 ->
  (forall cid v p, In (OKill cid v) ops -> In p (l1 ++ [x]) -> cid <> Z.of_nat p) ->
  is_word w now -> s_atomic s1 = false -> sstep w s1 (ODispatch now) = Ok s2 ->
  s_running s2 = Some x.
Proof.
  intros w n s l1 x l2 ops s1 now s2 W RS WN RUN NK NW NA E.
  destruct (sreach_R w n s W RS) as (a&HR&_).
  assert (AR : a_ready a = l1 ++ x :: l2).
  { eapply walk_next_fun; [apply isq_walk_next; apply HR|]. auto. }
  destruct (fifo_run w n s ops (length l1) s1 RUN W RS a l1 x l2 HR AR) as (RS1&a1&l2'&R1&E1); auto.
  { intros o Ho K. destruct o; simpl in K; auto. destruct K as (p&P1&P2). eapply NK; eauto. }
  rewrite skipn_all in E1. simpl in E1.
  destruct (sstep_refines w s1 a1 (ODispatch now) W R1 NW) as (s2'&E2&R2&_).
  assert (s2' = s2) by congruence. subst s2'.
  pose proof R1 as [_ _ AT1 _]. rewrite (R_run _ _ _ R2).
  apply (fifo_dispatch w a1 now [] x l2'); auto. congruence.
Qed.

(* Three threads: thread 0 spawns 1 and 2 and sleeps; 1 sends a message and
   sleeps; two reschedules later thread 2 runs. *)
Definition sample_state (ops : list op) : sched :=
  match replay 32 (sinit 4) ops with Some (_, s) => s | None => sinit 4 end.
Definition three := [OCreate 0%nat; ODispatch 5; OSpawn 1%nat false; OSpawn 2%nat true].
Example sched_fifo_case :
  let s := sample_state three in
  SReach 32 4 s /\ walk_next (s_st s) (q_first (s_queue s)) ([1%nat] ++ 2%nat :: []) /\
  exists s1, SRun 32 s [OYield 10 100 None; ODispatch 20; OSend 2 77; OYield 25 30 None] 1 s1 /\
    s_atomic s1 = false /\ exists s2, sstep 32 s1 (ODispatch 30) = Ok s2 /\ s_running s2 = Some 2%nat.
Proof.
  cbv zeta. split; [apply (replay_reach 32 4 three 1); vm_compute; reflexivity|]. split.
  - repeat (econstructor; [vm_compute; reflexivity|]). constructor.
  - eexists. split; [apply replay_run; vm_compute; reflexivity|]. split; [reflexivity|].
    eexists. split; vm_compute; reflexivity.
Qed.

(* ================================================================ *)
(* C22 *)

(* A mailbox of capacity [cap] is the list that [push_mail] and [remove_nth]
   describe, for any history of deliveries and removals. *)
Theorem mailbox_is_bounded_list : forall ops c l,
  Z.of_nat (length (c_mbox c)) = c_mbsize c -> 1 <= c_mbsize c < 2 ^ 32 ->
  0 <= c_nmail c <= c_mbsize c ->
  lmrun (c_mbsize c) (mail_of c) ops = Some l ->
  exists c', mrun c ops = Ok c' /\ mail_of c' = l /\ Z.of_nat (length l) <= c_mbsize c /\
    c_mbsize c' = c_mbsize c.
Proof.
  intros ops c l L1 L2 L3. assert (W : mwf c) by (split; auto). clear L1 L2 L3. revert c l W.
  induction ops as [|o t IH]; intros c l W H; simpl in *.
  - injection H as <-. exists c. repeat split; auto. rewrite mail_of_length; auto. apply W.
  - destruct o as [m|ix]; simpl in *.
    + destruct (add_mail_spec c m W) as (c1&E&W1&EC&ML). rewrite E. cbn [bind].
      assert (c_mbsize c1 = c_mbsize c) as SZ by (rewrite EC; reflexivity).
      destruct (IH c1 l W1) as (c'&E'&ML'&LE&SZ'). { rewrite SZ, ML; auto. }
      exists c'. rewrite SZ in *. auto.
    + destruct (_ && _) eqn:RNG; [|discriminate]. rewrite mail_of_length in RNG by auto.
      destruct (remove_mail_spec c ix W) as (c1&E&W1&EC&ML); [lia|]. rewrite E. cbn [bind].
      assert (c_mbsize c1 = c_mbsize c) as SZ by (rewrite EC; reflexivity).
      destruct (IH c1 l W1) as (c'&E'&ML'&LE&SZ'). { rewrite SZ, ML; auto. }
      exists c'. rewrite SZ in *. auto.
Qed.

Lemma skipn_app_le {A} n (l1 l2 : list A) : (n <= length l1)%nat -> skipn n (l1 ++ l2) = skipn n l1 ++ l2.
Proof. intros H. rewrite skipn_app. replace (n - length l1)%nat with 0%nat by lia. reflexivity. Qed.

(* Deliveries alone: the box holds the most recent [cap] messages, in order. *)
Theorem mailbox_keeps_newest : forall msgs c,
  Z.of_nat (length (c_mbox c)) = c_mbsize c -> 1 <= c_mbsize c < 2 ^ 32 -> c_nmail c = 0 ->
  exists c', mrun c (map MAdd msgs) = Ok c' /\
    mail_of c' = lastn (Z.to_nat (c_mbsize c)) msgs.
Proof.
  intros msgs c L1 L2 L3.
  assert (G : forall cap msgs seen, 1 <= cap ->
    lmrun cap (lastn (Z.to_nat cap) seen) (map MAdd msgs) = Some (lastn (Z.to_nat cap) (seen ++ msgs))).
  { clear. intros cap msgs. induction msgs as [|m t IH]; intros seen C; simpl.
    - rewrite app_nil_r. auto.
    - replace (seen ++ m :: t) with ((seen ++ [m]) ++ t) by (rewrite <- app_assoc; auto).
      rewrite <- IH by auto. f_equal. unfold push_mail, lastn. rewrite app_length. simpl.
      rewrite skipn_length.
      destruct (Z.leb_spec cap (Z.of_nat (length seen - (length seen - Z.to_nat cap)))).
      + replace (length seen + 1 - Z.to_nat cap)%nat with (S (length seen - Z.to_nat cap)) by lia.
        rewrite (skipn_app_le _ seen) by lia. f_equal.
        assert (K : (length seen - Z.to_nat cap < length seen)%nat) by lia. revert K.
        generalize (length seen - Z.to_nat cap)%nat. clear. intros k. revert seen.
        induction k; intros [|h t] K; simpl in *; try lia; auto.
        rewrite <- IHk by lia. reflexivity.
      + replace (length seen + 1 - Z.to_nat cap)%nat with 0%nat by lia.
        replace (length seen - Z.to_nat cap)%nat with 0%nat by lia. reflexivity. }
  destruct (mailbox_is_bounded_list (map MAdd msgs) c (lastn (Z.to_nat (c_mbsize c)) msgs)) as (c'&E&M&_);
    auto; try lia.
  { unfold mail_of. rewrite L3. simpl firstn. apply (G (c_mbsize c) msgs []). lia. }
  eauto.
Qed.

Example mailbox_overflow :
  lmrun 3 [] [MAdd 1; MAdd 2; MAdd 3; MTake 1; MAdd 4; MAdd 5; MAdd 6] = Some [4; 5; 6] /\
  lmrun 3 [] (map MAdd [1;2;3;4;5]) = Some [3;4;5].
Proof. split; reflexivity. Qed.

(* Sending: a live thread gets the message last in its box, everybody else's
   box is unchanged; sending to an id that no thread has changes nothing. *)
Theorem send_delivers : forall w n s p c msg, 0 < w -> SReach w n s ->
  at_ (s_st s) p = Some c ->
  exists s' c', send s (Z.of_nat p) msg = Ok (s', true) /\ at_ (s_st s') p = Some c' /\
    mail_of c' = push_mail (c_mbsize c) (mail_of c) msg /\
    forall q d, q <> p -> at_ (s_st s) q = Some d ->
      exists d', at_ (s_st s') q = Some d' /\ mail_of d' = mail_of d.
Proof.
  intros w n s p c msg W H A. destruct (sreach_R w n s W H) as (a&HR&_).
  pose proof HR as [H3 RUN AT WK].
  destruct (send_refines w s a (Z.of_nat p) msg HR) as (s'&E&R'&_).
  assert (IN : In p (a_blocked a ++ a_ready a ++ runl (a_run a))).
  { apply (r_dom _ _ _ _ _ _ _ H3). congruence. }
  assert (FD : find (is_me (Z.of_nat p)) (a_blocked a ++ a_ready a ++ runl (a_run a)) = Some p).
  { destruct (find _ _) as [q|] eqn:F.
    - apply find_me in F. destruct F as (_&F). apply Nat2Z.inj in F. congruence.
    - exfalso. apply (find_none _ _ F p) in IN. unfold is_me in IN. lia. }
  unfold a_send in *. change (match a_run a with Some p => [p] | None => [] end) with (runl (a_run a)) in *.
  rewrite FD in *.
  pose proof (r_th _ _ _ _ _ _ _ H3) as T.
  pose proof (r_th _ _ _ _ _ _ _ (R_3 _ _ _ R')) as T'.
  assert (M : forall q, option_map (fun t => (t_mail t, t_cap t)) (option_map view (at_ (s_st s') q)) =
     option_map (fun t => (t_mail t, t_cap t)) (tmod (a_th a) p (add_mail msg) q)).
  { intros q. rewrite T'. destruct (memb p (a_blocked a) && _); simpl; auto.
    unfold tmod, tset. destruct (Nat.eqb q p); auto. destruct (a_th a p); auto. }
  assert (SN : snd (if memb p (a_blocked a) &&
             match a_th a p with Some t => recv_kind (t_state t) | None => false end
       then (mkast (a_ready a ++ [p]) (remove Nat.eq_dec p (a_blocked a)) (a_run a) (a_atomic a)
          (tmod (a_th a) p (fun t => add_mail msg (with_state ST_READY t))), true)
       else (mkast (a_ready a) (a_blocked a) (a_run a) (a_atomic a) (tmod (a_th a) p (add_mail msg)), true)) = true)
    by (destruct (memb p (a_blocked a) && _); reflexivity).
  rewrite SN in E.
  pose proof (M p) as MP. unfold tmod, tset in MP. rewrite Nat.eqb_refl in MP.
  rewrite <- T, A in MP. simpl in MP.
  destruct (at_ (s_st s') p) as [c'|] eqn:A'; [|discriminate]. simpl in MP.
  exists s', c'. split; auto. split; auto. split; [congruence|].
  intros q d NQ D. pose proof (M q) as MQ. unfold tmod, tset in MQ.
  destruct (Nat.eqb_spec q p); [tauto|]. rewrite <- T, D in MQ. simpl in MQ.
  destruct (at_ (s_st s') q) as [d'|]; [|discriminate]. simpl in MQ. exists d'. split; auto. congruence.
Qed.

Theorem send_to_nobody : forall w n s cid msg, 0 < w -> SReach w n s ->
  (forall p, at_ (s_st s) p <> None -> Z.of_nat p <> cid) ->
  send s cid msg = Ok (s, false).
Proof.
  intros w n s cid msg W H N. destruct (sreach_R w n s W H) as (a&HR&_).
  pose proof HR as [H3 RUN AT WK]. unfold send.
  assert (F : forall l, (forall p, In p l -> In p (a_blocked a ++ a_ready a ++ runl (a_run a))) ->
    find (is_me cid) l = None).
  { intros l I. destruct (find (is_me cid) l) as [q|] eqn:F; auto. apply find_me in F.
    destruct F as (F1&F2). exfalso. apply (N q); auto. apply (r_dom _ _ _ _ _ _ _ H3). auto. }
  rewrite (lookup_spec _ _ _ cid (r_ids _ _ _ _ _ _ _ H3) (r_b _ _ _ _ _ _ _ H3)). cbn [bind].
  rewrite F by (intros; rewrite !in_app_iff; auto).
  rewrite (lookup_spec _ _ _ cid (r_ids _ _ _ _ _ _ _ H3) (r_q _ _ _ _ _ _ _ H3)). cbn [bind].
  rewrite F by (intros; rewrite !in_app_iff; auto).
  destruct (s_running s) as [p|] eqn:SR; auto.
  destruct (R3_at _ _ _ _ _ _ _ p H3) as (c&A&_&_&Id).
  { rewrite !in_app_iff, <- RUN. simpl; auto. }
  rewrite (get_ok _ _ _ A). cbn [bind]. rewrite Id.
  destruct (Z.eqb_spec (Z.of_nat p) cid); auto. exfalso. apply (N p); auto. congruence.
Qed.

(* A receiver that waits is made ready by a message. *)
Theorem send_wakes_receiver : forall w n s p c msg s', 0 < w -> SReach w n s ->
  at_ (s_st s) p = Some c ->
  (exists l, walk_next (s_st s) (q_first (s_blocked s)) l /\ In p l) ->
  c_state c = ST_RECV_BL \/ c_state c = ST_RECV_TO ->
  send s (Z.of_nat p) msg = Ok (s', true) ->
  exists l, walk_next (s_st s') (q_first (s_queue s')) (l ++ [p]).
Proof.
  intros w n s p c msg s' W H A (lb&WB&IB) ST E. destruct (sreach_R w n s W H) as (a&HR&_).
  pose proof HR as [H3 RUN AT WK].
  assert (lb = a_blocked a) by (eapply walk_next_fun; [eauto|]; apply isq_walk_next; apply H3). subst lb.
  destruct (send_refines w s a (Z.of_nat p) msg HR) as (s1&E1&R1&_).
  assert (s1 = s') by congruence. subst s1.
  unfold a_send in R1. change (match a_run a with Some p => [p] | None => [] end) with (runl (a_run a)) in R1.
  rewrite find_me_app in R1.
  assert (FD : find (is_me (Z.of_nat p)) (a_blocked a) = Some p).
  { destruct (find _ _) as [q|] eqn:F.
    - apply find_me in F. destruct F as (_&F). apply Nat2Z.inj in F. congruence.
    - exfalso. apply (find_none _ _ F p) in IB. unfold is_me in IB. lia. }
  rewrite FD in R1. rewrite (proj2 (memb_In _ _) IB) in R1.
  rewrite <- (r_th _ _ _ _ _ _ _ H3 p), A in R1. simpl in R1.
  assert (recv_kind (c_state c) = true) as RK by (destruct ST as [->| ->]; reflexivity).
  rewrite RK in R1. exists (a_ready a). apply isq_walk_next. apply (R_3 _ _ _ R1).
Qed.

(* ================================================================ *)
(* C23: keeps the messages when the new box is big enough ... *)
Theorem mailbox_resize_keeps : forall c fresh,
  Z.of_nat (length (c_mbox c)) = c_mbsize c -> 1 <= c_mbsize c < 2 ^ 32 ->
  0 <= c_nmail c <= c_mbsize c ->
  c_nmail c <= Z.of_nat (length fresh) -> 1 <= Z.of_nat (length fresh) < 2 ^ 32 ->
  exists c', mailbox_change_size c fresh = Ok c' /\ mail_of c' = mail_of c /\
    c_mbsize c' = Z.of_nat (length fresh).
Proof.
  intros c fresh L1 L2 L3 F1 F2.
  destruct (change_size_spec c fresh) as (c'&E&W'&EC&ML); auto; [split; auto|].
  exists c'. repeat split; auto. rewrite EC. reflexivity.
Qed.

(* ... and always writes past the end of the new box when it is not. *)
Lemma copy_mail_ub src n : forall k fuel dst i,
  Z.of_nat i + Z.of_nat k = Z.of_nat (length dst) -> Z.of_nat (length dst) < n ->
  n <= Z.of_nat (length src) -> (k < fuel)%nat ->
  copy_mail fuel dst src (Z.of_nat i) n = UB.
Proof.
  induction k as [|k IH]; intros fuel dst i HI HN HS HF; destruct fuel as [|fuel]; try lia; cbn [copy_mail].
  - destruct (Z.ltb_spec (Z.of_nat i) n); [|lia]. rewrite (rd_ok src (Z.of_nat i) 0) by lia. cbn [bind].
    unfold wr. destruct (Z.ltb_spec (Z.of_nat i) 0); [lia|]. rewrite Nat2Z.id.
    destruct (Nat.ltb_spec i (length dst)); [lia|]. reflexivity.
  - destruct (Z.ltb_spec (Z.of_nat i) n); [|lia]. rewrite (rd_ok src (Z.of_nat i) 0) by lia. cbn [bind].
    rewrite wr_ok by lia. cbn [bind]. replace (Z.of_nat i + 1) with (Z.of_nat (S i)) by lia.
    apply IH; rewrite ?length_upd; lia.
Qed.

Theorem mailbox_resize_overflows : forall c fresh,
  Z.of_nat (length (c_mbox c)) = c_mbsize c -> 1 <= c_mbsize c < 2 ^ 32 ->
  0 <= c_nmail c <= c_mbsize c ->
  Z.of_nat (length fresh) < c_nmail c ->
  mailbox_change_size c fresh = UB.
Proof.
  intros c fresh L1 L2 L3 F. unfold mailbox_change_size.
  change 0 with (Z.of_nat 0). rewrite (copy_mail_ub _ _ (length fresh)); auto; lia.
Qed.

(* The stated property is false: a thread with two messages sets its mailbox
   size to one.  (set-mailbox-size 1) is accepted by the interpreter. *)
Definition shrink_ops : list op :=
  [OCreate 0%nat; ODispatch 5; OSend 0 7; OSend 0 8].
Theorem mailbox_resize_safe_refuted : exists s fresh,
  SReach 32 4 s /\ s_running s <> None /\ 1 <= Z.of_nat (length fresh) < 2 ^ 32 /\
  sstep 32 s (OResize fresh) = UB.
Proof.
  destruct (srun 32 (sinit 4) shrink_ops) as [s| |] eqn:E; [|discriminate E|discriminate E].
  exists s, [0]. split; [|split; [|split]].
  - vm_compute in E. injection E as <-.
    pose proof (sreach_init 32 4) as H0.
    unshelve epose proof (sreach_step 32 4 _ (OCreate 0) _ H0 _ eq_refl) as H1.
    { vm_compute. split; [lia|reflexivity]. }
    unshelve epose proof (sreach_step 32 4 _ (ODispatch 5) _ H1 _ eq_refl) as H2.
    { vm_compute. split; congruence. }
    unshelve epose proof (sreach_step 32 4 _ (OSend 0 7) _ H2 _ eq_refl) as H3.
    { vm_compute. discriminate. }
    unshelve epose proof (sreach_step 32 4 _ (OSend 0 8) _ H3 _ eq_refl) as H4.
    { vm_compute. discriminate. }
    exact H4.
  - vm_compute in E. injection E as <-. vm_compute. discriminate.
  - simpl; lia.
  - vm_compute in E. injection E as <-. reflexivity.
Qed.

(* ================================================================ *)
(* C26 *)
Lemma t_diff_le w ts now : 0 < w -> is_word w ts -> is_word w now ->
  elapsed w ts now - 1 <= t_diff w ts now <= elapsed w ts now.
Proof. intros. rewrite t_diff_spec by auto. destruct (now <? ts); lia. Qed.

(* A thread that went to sleep with clock reading [ts] for [us] microseconds
   stays blocked through anything that happens, until the loop reschedules at
   a clock reading [now] with at least [us] microseconds elapsed (modulo the
   clock's wrap-around), or someone kills it. *)
Theorem sleep_not_early : forall w n s l p c ops d s' l', 0 < w -> SReach w n s ->
  walk_next (s_st s) (q_first (s_blocked s)) l -> In p l ->
  at_ (s_st s) p = Some c -> c_state c = ST_SLEEPING ->
  SRun w s ops d s' ->
  (forall v, ~ In (OKill (Z.of_nat p) v) ops) ->
  (forall now, In (ODispatch now) ops -> elapsed w (c_ts c) now < c_sleep c) ->
  walk_next (s_st s') (q_first (s_blocked s')) l' ->
  In p l'.
Proof.
  intros w n s l p c ops d s' l' W RS WN IN A ST RUN NK ND WN'.
  destruct (sreach_R w n s W RS) as (a&HR&_).
  assert (l = a_blocked a) by (eapply walk_next_fun; [eauto|]; apply isq_walk_next; apply HR). subst l.
  assert (SL : asleep a p ST_SLEEPING (c_ts c) (c_sleep c)).
  { split; auto. exists (view c). rewrite <- (r_th _ _ _ _ _ _ _ (R_3 _ _ _ HR) p), A. auto. }
  assert (G : exists a', R w s' a' /\ asleep a' p ST_SLEEPING (c_ts c) (c_sleep c)).
  { clear - RUN W HR SL NK ND. revert a HR SL.
    induction RUN as [s|s o s1 l d s2 V E HRn IH]; intros a HR SL; [eauto|].
    destruct (sstep_refines w s a o W HR V) as (s1'&E1'&R1&_).
    assert (s1' = s1) by congruence. subst s1'.
    apply (IH (fun v H => NK v (or_intror H)) (fun v H => ND v (or_intror H)) _ R1).
    eapply asleep_step; eauto.
    - intros v ->. eapply NK. left; reflexivity.
    - intros now ->. apply ND. left; reflexivity. }
  destruct G as (a'&R'&(I'&_)).
  assert (l' = a_blocked a') by (eapply walk_next_fun; [eauto|]; apply isq_walk_next; apply R').
  congruence.
Qed.

(* And it is woken by the first reschedule after that time: at the latest one
   microsecond late, and then only if the clock wrapped. *)
Theorem sleep_wakes : forall w n s l p c now s', 0 < w -> SReach w n s ->
  walk_next (s_st s) (q_first (s_blocked s)) l -> In p l ->
  at_ (s_st s) p = Some c -> sleeping_kind (c_state c) = true ->
  is_word w now -> s_atomic s = false ->
  c_sleep c + (if now <? c_ts c then 1 else 0) <= elapsed w (c_ts c) now ->
  sstep w s (ODispatch now) = Ok s' ->
  s_running s' = Some p \/
  exists l', walk_next (s_st s') (q_first (s_queue s')) l' /\ In p l'.
Proof.
  intros w n s l p c now s' W RS WN IN A ST NW NA EL E.
  destruct (sreach_R w n s W RS) as (a&HR&_). pose proof HR as [H3 RUN AT WK].
  assert (l = a_blocked a) by (eapply walk_next_fun; [eauto|]; apply isq_walk_next; apply HR). subst l.
  destruct (sstep_refines w s a (ODispatch now) W HR NW) as (s1'&E1'&R1&_).
  assert (s1' = s') by congruence. subst s1'. simpl in R1.
  assert (DU : due_in w now (a_th a) p = true).
  { unfold due_in. rewrite <- (r_th _ _ _ _ _ _ _ H3 p), A. simpl. unfold due. simpl. rewrite ST. simpl. lia. }
  set (rl := (a_ready a ++ runl (a_run a)) ++ filter (due_in w now (a_th a)) (a_blocked a)) in *.
  assert (I : In p rl) by (unfold rl; rewrite in_app_iff, filter_In; auto).
  assert (AD : a_run (a_dispatch w now a) = hd_error rl /\ a_ready (a_dispatch w now a) = tl rl).
  { unfold a_dispatch. rewrite <- AT, NA. split; reflexivity. }
  destruct AD as (AD1&AD2). destruct rl as [|y t]; [destruct I|].
  destruct I as [->|I].
  - left. rewrite (R_run _ _ _ R1). auto.
  - right. exists t. split; auto. simpl in AD2. rewrite <- AD2. apply isq_walk_next. apply (R_3 _ _ _ R1).
Qed.

(* The clock arithmetic on its own, wrapping or not (here on 32 bits: sleep
   started 1000 us before the wrap). *)
Example sleep_wraps :
  elapsed 32 (2 ^ 32 - 1000) 500 = 1500 /\ t_diff 32 (2 ^ 32 - 1000) 500 = 1499 /\
  elapsed 32 700 500 = 2 ^ 32 - 200.
Proof. repeat split. Qed.

(* Two sleepers and a running thread: hypotheses of both theorems. *)
Definition sleepers := three ++ [OYield 10 100 None; ODispatch 20; OYield 25 1000 None; ODispatch 30].
Example sleep_case :
  let s := sample_state sleepers in
  SReach 32 4 s /\
  walk_next (s_st s) (q_first (s_blocked s)) [0%nat; 1%nat] /\
  (exists c, at_ (s_st s) 1 = Some c /\ c_state c = ST_SLEEPING /\ c_ts c = 25 /\ c_sleep c = 1000) /\
  (exists s', SRun 32 s [OYield 40 5 None; ODispatch 50; ODispatch 200; OExit None; ODispatch 1024] 3 s' /\
     walk_next (s_st s') (q_first (s_blocked s')) [1%nat]) /\
  (exists s', sstep 32 s (ODispatch 1025) = Ok s' /\ walk_next (s_st s') (q_first (s_queue s')) [0%nat; 1%nat]).
Proof.
  cbv zeta. split; [apply (replay_reach 32 4 sleepers 3); vm_compute; reflexivity|].
  split; [repeat (econstructor; [vm_compute; reflexivity|]); constructor|].
  split; [eexists; split; [vm_compute; reflexivity|repeat split]|].
  split.
  - eexists. split; [apply replay_run; vm_compute; reflexivity|].
    repeat (econstructor; [vm_compute; reflexivity|]); constructor.
  - eexists. split; [vm_compute; reflexivity|].
    repeat (econstructor; [vm_compute; reflexivity|]); constructor.
Qed.

(* ================================================================ *)
(* C28: false.  From every state in which a thread ends inside an atomic block
   nothing ever runs again. *)
Theorem atomic_exit_hangs : forall w n s note p s1 ops d s2, 0 < w ->
  SReach w n s -> s_running s = Some p -> s_atomic s = true ->
  sstep w s (OExit note) = Ok s1 -> SRun w s1 ops d s2 ->
  s_running s2 = None /\ s_atomic s2 = true /\ d = 0%nat.
Proof.
  intros w n s note p s1 ops d s2 W RS RN NA E RUN.
  destruct (sreach_R w n s W RS) as (a&HR&_). pose proof HR as [H3 RUNa AT WK].
  destruct (sstep_refines w s a (OExit note) W HR) as (s1'&E1'&R1&_); [simpl; congruence|].
  assert (s1' = s1) by congruence. subst s1'. simpl in R1.
  assert (FA : forall b, a_run b = Some p -> a_atomic b = true ->
     a_atomic (a_finish b) = true /\ a_run (a_finish b) = None).
  { intros b Eb Ab. unfold a_finish. rewrite Eb. simpl. auto. }
  assert (G : a_atomic (a_exit a note) = true /\ a_run (a_exit a note) = None).
  { unfold a_exit. assert (a_run a = Some p) as AR by congruence. rewrite AR.
    assert (a_atomic a = true) by congruence.
    destruct (a_th a p) as [t|]; [|apply FA; auto]. destruct note; [|apply FA; auto].
    destruct (t_trap t); [|apply FA; auto]. apply FA; [rewrite a_send_run|rewrite a_send_atomic]; auto. }
  revert G R1. generalize (a_exit a note). clear - W RUN.
  induction RUN as [s|s o s1 l d s2 V E HRn IH]; intros a (G1&G2) HR.
  - destruct HR as [_ R2 R3 _]. rewrite R2, R3. auto.
  - destruct (sstep_refines w s a o W HR V) as (s1'&E1'&R1&_).
    assert (s1' = s1) by congruence. subst s1'.
    pose proof (a_step_stuck w s a o HR V G1 G2) as G.
    destruct (IH (a_step w a o) G R1) as (A&B&->). repeat split; auto.
    unfold reschedules. destruct o; auto. rewrite (R_atomic _ _ _ HR), G1. auto.
Qed.

(* A reachable instance, with another thread ready the whole time. *)
Theorem atomic_error_isolated_refuted : exists s p,
  SReach 32 4 s /\ walk_next (s_st s) (q_first (s_queue s)) [p] /\
  forall ops d s', SRun 32 s ops d s' -> s_running s' = None.
Proof.
  pose proof (sreach_init 32 4) as H0.
  unshelve epose proof (sreach_step 32 4 _ (OCreate 0) _ H0 _ eq_refl) as H1.
  { vm_compute. split; [lia|reflexivity]. }
  unshelve epose proof (sreach_step 32 4 _ (OCreate 1) _ H1 _ eq_refl) as H2.
  { vm_compute. split; [lia|reflexivity]. }
  unshelve epose proof (sreach_step 32 4 _ (ODispatch 5) _ H2 _ eq_refl) as H3.
  { vm_compute. split; congruence. }
  unshelve epose proof (sreach_step 32 4 _ (OEnter None) _ H3 _ eq_refl) as H4.
  { vm_compute. discriminate. }
  unshelve epose proof (sreach_step 32 4 _ (OExit None) _ H4 _ eq_refl) as H5.
  { vm_compute. discriminate. }
  match type of H5 with SReach _ _ ?s => exists s, 1%nat end.
  split; [exact H5|]. split.
  - cbn. econstructor; [reflexivity|]. constructor.
  - intros ops d s' RUN.
    match type of H4 with SReach _ _ ?s =>
      destruct (atomic_exit_hangs 32 4 s None 0%nat _ ops d s' ltac:(lia) H4 eq_refl eq_refl eq_refl RUN) end.
    auto.
Qed.

(* What does hold: outside an atomic block, a thread that ends leaves every
   other thread where it was, or better (its parent may become ready). *)
Theorem exit_outside_atomic : forall w n s note p s1 now s2 x l, 0 < w ->
  SReach w n s -> s_running s = Some p -> s_atomic s = false ->
  sstep w s (OExit note) = Ok s1 -> walk_next (s_st s) (q_first (s_queue s)) (x :: l) ->
  is_word w now -> sstep w s1 (ODispatch now) = Ok s2 ->
  s_running s2 = Some x.
Proof.
  intros w n s note p s1 now s2 x l W RS RN NA E WN NW E2.
  apply (sched_fifo w n s [] x l [OExit note] s1 now s2); auto.
  - change (length (@nil nat)) with (reschedules s (OExit note) + 0)%nat.
    econstructor; eauto; [simpl; congruence|constructor].
  - intros cid v q [C|[]]; discriminate.
  - destruct (sreach_R w n s W RS) as (a&HR&_). pose proof HR as [H3 RUNa AT WK].
    destruct (sstep_refines w s a (OExit note) W HR) as (s1'&E1'&R1&_); [simpl; congruence|].
    assert (s1' = s1) by congruence. subst s1'. rewrite (R_atomic _ _ _ R1). simpl.
    assert (FA : forall b, a_atomic (a_finish b) = a_atomic b)
      by (intros b; unfold a_finish; destruct (a_run b); auto).
    unfold a_exit. assert (a_run a = Some p) as AR by congruence. rewrite AR.
    destruct (a_th a p) as [t|]; [|rewrite FA; congruence]. destruct note; [|rewrite FA; congruence].
    destruct (t_trap t); [|rewrite FA; congruence]. rewrite FA, a_send_atomic. congruence.
Qed.

Print Assumptions queue_behaves_as_list.
Print Assumptions sched_ops_defined.
Print Assumptions sched_one_place.
Print Assumptions sched_threads_survive.
Print Assumptions sched_exit_ends.
Print Assumptions sched_fifo.
Print Assumptions mailbox_is_bounded_list.
Print Assumptions mailbox_keeps_newest.
Print Assumptions send_delivers.
Print Assumptions send_to_nobody.
Print Assumptions send_wakes_receiver.
Print Assumptions mailbox_resize_keeps.
Print Assumptions mailbox_resize_overflows.
Print Assumptions mailbox_resize_safe_refuted.
Print Assumptions sleep_not_early.
Print Assumptions sleep_wakes.
Print Assumptions atomic_exit_hangs.
Print Assumptions atomic_error_isolated_refuted.
Print Assumptions exit_outside_atomic.
