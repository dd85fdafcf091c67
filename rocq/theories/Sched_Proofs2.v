(* The linked scheduler refines the abstract one. *)
From Coq Require Import Permutation.
From Verif Require Import Base Sched_Model Sched_Spec Sched_Proofs.
Local Open Scope nat_scope.

Lemma perm_in (l l' : list nat) p : Permutation l l' -> In p l <-> In p l'.
Proof. intros H. split; apply Permutation_in; auto. apply Permutation_sym; auto. Qed.

Lemma perm_remove x o : NoDup o -> In x o -> Permutation o (x :: remove Nat.eq_dec x o).
Proof.
  intros N I. apply in_split in I. destruct I as (l1&l2&->). rewrite remove_mid by auto.
  apply Permutation_sym, Permutation_middle.
Qed.

Lemma NoDup_app_remove_l {A} (l l' : list A) : NoDup (l ++ l') -> NoDup l'.
Proof. induction l; simpl; auto. inversion 1; auto. Qed.

Definition view (c : ctx) : thr :=
  mkthr (c_state c) (c_ts c) (c_sleep c) (mail_of c) (c_mbsize c) (c_r c) (c_tos c)
        (c_trap c) (c_parent c).

Lemma view_core c c' : core c' = core c -> view c' = view c.
Proof. intros H. change (view (core c') = view (core c)). congruence. Qed.
Lemma mwf_core c c' : core c' = core c -> mwf c -> mwf c'.
Proof.
  intros H W. change (mwf (core c)) in W. change (mwf (core c')). congruence.
Qed.

(* Threads in the ready list [lq], in the blocked list [lb], and elsewhere [o]
   (running, or in the middle of being moved). *)
Record R3 (st : store) (q b : queue) (lq lb o : list nat) (m : nat -> option thr) : Prop := {
  r_q : isq st q lq;
  r_b : isq st b lb;
  r_ids : ids_ok st;
  r_wf : forall p c, at_ st p = Some c -> mwf c;
  r_th : forall p, option_map view (at_ st p) = m p;
  r_nd : NoDup (lb ++ lq ++ o);
  r_dom : forall p, at_ st p <> None <-> In p (lb ++ lq ++ o)
}.

Lemma R3_ext st q b lq lb o m m' :
  (forall p, m p = m' p) -> R3 st q b lq lb o m -> R3 st q b lq lb o m'.
Proof. intros E []. constructor; auto. intros p. rewrite <- E. auto. Qed.

(* only links changed *)
Lemma R3_links st st' S q b lq lb o q' b' lq' lb' o' m :
  R3 st q b lq lb o m -> chg st st' S ->
  isq st' q' lq' -> isq st' b' lb' ->
  Permutation (lb ++ lq ++ o) (lb' ++ lq' ++ o') ->
  R3 st' q' b' lq' lb' o' m.
Proof.
  intros [] C Q B P. constructor; auto.
  - eapply ids_chg; eauto.
  - intros p c H. destruct (chg_at_inv _ _ _ _ _ C H) as (c0&A&E). eapply mwf_core; eauto.
  - intros p. rewrite <- r_th0. destruct C as (_&C&_). specialize (C p).
    destruct (at_ st' p) as [c1|], (at_ st p) as [c2|]; simpl in *; try discriminate; auto.
    f_equal. apply view_core. congruence.
  - eapply Permutation_NoDup; eauto.
  - intros p. rewrite <- (perm_in _ _ _ P). rewrite <- r_dom0.
    destruct C as (_&C&_). specialize (C p).
    destruct (at_ st' p) as [c1|], (at_ st p) as [c2|]; simpl in *; try discriminate; split; congruence.
Qed.

Lemma R3_disj_q st q b lq lb o m : R3 st q b lq lb o m ->
  (forall x, In x lb -> ~ In x lq) /\ (forall x, In x o -> ~ In x lq /\ ~ In x lb) /\ NoDup o.
Proof.
  intros []. pose proof r_nd0 as N. 
  assert (D : forall (l1 l2 : list nat), NoDup (l1 ++ l2) -> forall x, In x l1 -> ~ In x l2).
  { clear. induction l1 as [|y t IH]; intros l2 H x I; simpl in *; [easy|].
    inversion H; subst. destruct I as [->|I]; [|eauto]. intros J. apply H2. apply in_or_app; auto. }
  pose proof (D _ _ N) as D1. 
  assert (N2 : NoDup (lq ++ o)) by (eapply NoDup_app_remove_l; eauto).
  pose proof (D _ _ N2) as D2. split; [|split].
  - intros x I J. apply (D1 x I). apply in_or_app; auto.
  - intros x I. split; intros J.
    + apply (D2 x J I).
    + apply (D1 x J). apply in_or_app; auto.
  - eapply NoDup_app_remove_l; eauto.
Qed.

Lemma R3_at st q b lq lb o m x : R3 st q b lq lb o m -> In x (lb ++ lq ++ o) ->
  exists c, at_ st x = Some c /\ m x = Some (view c) /\ mwf c /\ c_id c = Z.of_nat x.
Proof.
  intros [] I. apply r_dom0 in I. destruct (at_ st x) as [c|] eqn:E; [|tauto].
  exists c. rewrite <- r_th0, E. split; [|split; [|split]]; eauto.
Qed.

Lemma move_enq_q st q b lq lb o m x : R3 st q b lq lb o m -> In x o ->
  exists st' q', enqueue st q x = Ok (st', q') /\
    R3 st' q' b (lq ++ [x]) lb (remove Nat.eq_dec x o) m /\ length st' = length st.
Proof.
  intros H I. destruct (R3_disj_q _ _ _ _ _ _ _ H) as (D1&D2&ND).
  destruct (R3_at _ _ _ _ _ _ _ x H) as (c&A&_).
  { rewrite !in_app_iff; auto. }
  destruct (D2 x I) as (N1&N2).
  destruct (enqueue_spec st q lq x c) as (st'&q'&E&Q&C); auto; [apply H|].
  exists st', q'. split; auto. split; [|apply C].
  eapply R3_links; eauto.
  - eapply isq_chg; [|exact C|apply H]. intros y Hy [->|J]; auto. eapply D1; eauto.
  - apply Permutation_app_head. rewrite <- app_assoc. apply Permutation_app_head.
    apply perm_remove; auto.
Qed.

Lemma move_enq_b st q b lq lb o m x : R3 st q b lq lb o m -> In x o ->
  exists st' b', enqueue st b x = Ok (st', b') /\
    R3 st' q b' lq (lb ++ [x]) (remove Nat.eq_dec x o) m /\ length st' = length st.
Proof.
  intros H I. destruct (R3_disj_q _ _ _ _ _ _ _ H) as (D1&D2&ND).
  destruct (R3_at _ _ _ _ _ _ _ x H) as (c&A&_).
  { rewrite !in_app_iff; auto. }
  destruct (D2 x I) as (N1&N2).
  destruct (enqueue_spec st b lb x c) as (st'&q'&E&Q&C); auto; [apply H|].
  exists st', q'. split; auto. split; [|apply C].
  eapply R3_links; eauto.
  - eapply isq_chg; [|exact C|apply H]. intros y Hy [->|J]; auto. eapply D1; eauto.
  - rewrite <- app_assoc. apply Permutation_app_head. 
    transitivity (lq ++ x :: remove Nat.eq_dec x o).
    + apply Permutation_app_head. apply perm_remove; auto.
    + apply Permutation_sym. apply (Permutation_middle lq).
Qed.

Lemma memb_In x l : memb x l = true <-> In x l.
Proof.
  unfold memb. rewrite existsb_exists. split.
  - intros (y&A&B). apply Nat.eqb_eq in B. congruence.
  - intros I. exists x. rewrite Nat.eqb_refl. auto.
Qed.

Lemma memb_notIn x l : memb x l = false <-> ~ In x l.
Proof. rewrite <- memb_In. destruct (memb x l); split; congruence. Qed.

Lemma move_drop_b st q b lq lb o m x : R3 st q b lq lb o m -> In x lb ->
  exists st' b', drop st b x = Ok (st', b', true) /\
    R3 st' q b' lq (remove Nat.eq_dec x lb) (x :: o) m /\ length st' = length st.
Proof.
  intros H I. destruct (R3_disj_q _ _ _ _ _ _ _ H) as (D1&D2&ND).
  destruct (R3_at _ _ _ _ _ _ _ x H) as (c&A&_).
  { rewrite !in_app_iff; auto. }
  destruct (drop_spec st b lb x c) as (st'&q'&E&Q&C&_); auto; [apply H|apply H|].
  rewrite (proj2 (memb_In x lb) I) in E.
  exists st', q'. split; auto. split; [|apply C].
  eapply R3_links; eauto.
  - eapply isq_chg; [|exact C|apply H]. intros y Hy J. eapply D1; eauto.
  - rewrite (perm_remove x lb) at 1; [|apply H|auto].
    rewrite !app_assoc. apply (Permutation_middle (_ ++ _)).
Qed.

Lemma move_drop_q st q b lq lb o m x : R3 st q b lq lb o m -> In x lq ->
  exists st' q', drop st q x = Ok (st', q', true) /\
    R3 st' q' b (remove Nat.eq_dec x lq) lb (x :: o) m /\ length st' = length st.
Proof.
  intros H I. destruct (R3_disj_q _ _ _ _ _ _ _ H) as (D1&D2&ND).
  destruct (R3_at _ _ _ _ _ _ _ x H) as (c&A&_).
  { rewrite !in_app_iff; auto. }
  destruct (drop_spec st q lq x c) as (st'&q'&E&Q&C&_); auto; [apply H|apply H|].
  rewrite (proj2 (memb_In x lq) I) in E.
  exists st', q'. split; auto. split; [|apply C].
  eapply R3_links; eauto.
  - eapply isq_chg; [|exact C|apply H]. intros y Hy J. eapply D1; eauto.
  - apply Permutation_app_head. rewrite (perm_remove x lq) at 1; [|apply H|auto].
    apply Permutation_middle.
Qed.

Lemma drop_q_absent st q b lq lb o m x : R3 st q b lq lb o m -> In x o ->
  drop st q x = Ok (st, q, false).
Proof.
  intros H I. destruct (R3_disj_q _ _ _ _ _ _ _ H) as (D1&D2&ND).
  destruct (R3_at _ _ _ _ _ _ _ x H) as (c&A&_).
  { rewrite !in_app_iff; auto. }
  destruct (D2 x I) as (N1&N2).
  destruct (drop_spec st q lq x c) as (st'&q'&E&Q&C&G&_); auto; [apply H|apply H|].
  rewrite (proj2 (memb_notIn x lq) N1) in E. destruct (G N1) as (->&->). auto.
Qed.

Lemma move_dequeue st q b lq lb o m : R3 st q b lq lb o m ->
  exists st' q', dequeue st q = Ok (st', q', hd_error lq) /\
    R3 st' q' b (tl lq) lb (match hd_error lq with Some x => x :: o | None => o end) m /\
    length st' = length st.
Proof.
  intros H. destruct (R3_disj_q _ _ _ _ _ _ _ H) as (D1&D2&ND).
  destruct (dequeue_spec st q lq) as (st'&q'&E&Q&C); [apply H|].
  exists st', q'. split; auto. split; [|apply C].
  eapply R3_links; eauto.
  - eapply isq_chg; [|exact C|apply H]. intros y Hy J. eapply D1; eauto.
  - apply Permutation_app_head. destruct lq as [|x t]; simpl; auto. apply Permutation_middle.
Qed.

(* change the contents of one context *)
Lemma move_put st q b lq lb o m x c c' : R3 st q b lq lb o m ->
  at_ st x = Some c -> c_prev c' = c_prev c -> c_next c' = c_next c -> c_id c' = c_id c ->
  mwf c' -> R3 (put st x c') q b lq lb o (tset m x (Some (view c'))).
Proof.
  intros H A P Nx Id W.
  assert (DS : forall p l n, dseg st p l n -> dseg (put st x c') p l n).
  { intros p l n. revert p. induction l as [|y t IH]; simpl; intros p D; auto.
    destruct D as ((cy&AY&PY&NY)&D). split; [|auto].
    destruct (Nat.eq_dec x y) as [->|NE].
    - exists c'. rewrite (at_put_eq _ _ _ _ A). rewrite A in AY. injection AY as <-. 
      repeat split; congruence.
    - exists cy. rewrite at_put_neq; auto. }
  destruct H. constructor.
  - destruct r_q0 as (F&L&D&N). repeat split; auto.
  - destruct r_b0 as (F&L&D&N). repeat split; auto.
  - intros p cp. destruct (Nat.eq_dec x p) as [->|NE].
    + rewrite (at_put_eq _ _ _ _ A). intros [= <-]. rewrite Id. auto.
    + rewrite at_put_neq; auto.
  - intros p cp. destruct (Nat.eq_dec x p) as [->|NE].
    + rewrite (at_put_eq _ _ _ _ A). intros [= <-]. auto.
    + rewrite at_put_neq; eauto.
  - intros p. unfold tset. destruct (Nat.eqb_spec p x) as [->|NE].
    + rewrite (at_put_eq _ _ _ _ A). auto.
    + rewrite at_put_neq; auto.
  - auto.
  - intros p. rewrite <- r_dom0. destruct (Nat.eq_dec x p) as [->|NE].
    + rewrite (at_put_eq _ _ _ _ A), A. split; congruence.
    + rewrite at_put_neq by auto. tauto.
Qed.

Lemma move_modify st q b lq lb o m x f g : R3 st q b lq lb o m -> In x (lb ++ lq ++ o) ->
  (forall c, mwf c -> c_prev (f c) = c_prev c /\ c_next (f c) = c_next c /\ c_id (f c) = c_id c /\
             mwf (f c) /\ view (f c) = g (view c)) ->
  exists st', modify st x f = Ok st' /\ R3 st' q b lq lb o (tmod m x g) /\ length st' = length st.
Proof.
  intros H I F. destruct (R3_at _ _ _ _ _ _ _ x H I) as (c&A&M&W&Id).
  exists (put st x (f c)). rewrite (modify_ok _ _ _ _ A). split; auto.
  destruct (F c W) as (F1&F2&F3&F4&F5). split; [|apply length_put].
  eapply R3_ext; [|eapply move_put; eauto]. intros p. unfold tmod, tset.
  destruct (Nat.eqb_spec p x); auto. rewrite M. simpl. congruence.
Qed.

(* relinking a context that is in no queue *)
Lemma move_float st q b lq lb o m x c pr nx : R3 st q b lq lb o m -> In x o -> at_ st x = Some c ->
  R3 (put st x (set_links pr nx c)) q b lq lb o m.
Proof.
  intros H I A. destruct (R3_disj_q _ _ _ _ _ _ _ H) as (D1&D2&ND). destruct (D2 x I) as (N1&N2).
  assert (C : chg st (put st x (set_links pr nx c)) [x]).
  { eapply chg_put; [exact A|apply core_links|simpl; auto]. }
  eapply R3_links; eauto.
  - eapply isq_chg; [|exact C|apply H]. intros y Hy [->|[]]; auto.
  - eapply isq_chg; [|exact C|apply H]. intros y Hy [->|[]]; auto.
Qed.

Lemma move_alloc st q b lq lb o m x c : R3 st q b lq lb o m -> x < length st -> at_ st x = None ->
  c_id c = Z.of_nat x -> mwf c ->
  R3 (put st x c) q b lq lb (x :: o) (tset m x (Some (view c))).
Proof.
  intros H L A Id W.
  assert (NI : ~ In x (lb ++ lq ++ o)) by (rewrite <- (r_dom _ _ _ _ _ _ _ H); congruence).
  assert (FR : forall l, (forall y, In y l -> In y (lb ++ lq ++ o)) -> forall y, In y l -> at_ (put st x c) y = at_ st y).
  { intros l G y Iy. apply at_put_neq. intros ->. apply NI. auto. }
  assert (AX : at_ (put st x c) x = Some c) by (apply at_upd_eq; auto).
  destruct H. constructor.
  - eapply isq_frame; [|eauto]. apply FR. intros y; rewrite !in_app_iff; auto.
  - eapply isq_frame; [|eauto]. apply FR. intros y; rewrite !in_app_iff; auto.
  - intros p cp. destruct (Nat.eq_dec x p) as [->|NE]; [rewrite AX; congruence|].
    rewrite at_put_neq; auto.
  - intros p cp. destruct (Nat.eq_dec x p) as [->|NE]; [rewrite AX; congruence|].
    rewrite at_put_neq; eauto.
  - intros p. unfold tset. destruct (Nat.eqb_spec p x) as [->|NE]; [rewrite AX; auto|].
    rewrite at_put_neq; auto.
  - rewrite app_assoc. apply (Permutation_NoDup (l := x :: (lb ++ lq) ++ o)).
    + apply Permutation_middle.
    + constructor; auto; rewrite <- app_assoc; auto.
  - intros p. rewrite !in_app_iff. simpl. destruct (Nat.eq_dec x p) as [->|NE].
    + rewrite AX. split; [tauto|congruence].
    + rewrite at_put_neq by auto. rewrite r_dom0, !in_app_iff. 
      assert (x = p <-> False) by tauto. tauto.
Qed.

Lemma move_free st q b lq lb o m x : R3 st q b lq lb o m -> In x o ->
  R3 (upd st x None) q b lq lb (remove Nat.eq_dec x o) (tset m x None).
Proof.
  intros H I. destruct (R3_disj_q _ _ _ _ _ _ _ H) as (D1&D2&ND). destruct (D2 x I) as (N1&N2).
  destruct (R3_at _ _ _ _ _ _ _ x H) as (c&A&_).
  { rewrite !in_app_iff; auto. }
  assert (AX : at_ (upd st x None) x = None) by (apply at_upd_eq; eapply at_lt; eauto).
  assert (NX : forall y, y <> x -> at_ (upd st x None) y = at_ st y) by (intros; apply at_upd_neq; auto).
  pose proof (perm_remove x o ND I) as P.
  destruct H. constructor.
  - eapply isq_frame; [|eauto]. intros y Hy. apply NX. intros ->; auto.
  - eapply isq_frame; [|eauto]. intros y Hy. apply NX. intros ->; auto.
  - intros p cp. destruct (Nat.eq_dec p x) as [->|NE]; [rewrite AX; discriminate|].
    rewrite NX; auto.
  - intros p cp. destruct (Nat.eq_dec p x) as [->|NE]; [rewrite AX; discriminate|].
    rewrite NX; eauto.
  - intros p. unfold tset. destruct (Nat.eqb_spec p x) as [->|NE]; [rewrite AX; auto|].
    rewrite NX; auto.
  - apply (Permutation_app_head (lb ++ lq)) in P. rewrite <- !app_assoc in P.
    eapply Permutation_NoDup in P; [|eauto]. rewrite app_assoc in *. apply NoDup_remove_1 in P. auto.
  - intros p. destruct (Nat.eq_dec p x) as [->|NE].
    + rewrite AX. split; [congruence|]. rewrite !in_app_iff. intros [J|[J|J]]; try tauto.
      apply remove_In in J. tauto.
    + rewrite NX, r_dom0, !in_app_iff, (perm_in _ _ p P) by auto. simpl.
      assert (x = p <-> False) by (split; [congruence|tauto]). tauto.
Qed.

(* delivering a message *)
Lemma move_mail st q b lq lb o m x msg : R3 st q b lq lb o m -> In x (lb ++ lq ++ o) ->
  exists c c', get st x = Ok c /\ mailbox_add_mail c msg = Ok c' /\
    R3 (put st x c') q b lq lb o (tmod m x (add_mail msg)).
Proof.
  intros H I. destruct (R3_at _ _ _ _ _ _ _ x H I) as (c&A&M&W&Id).
  destruct (add_mail_spec c msg W) as (c'&E&W'&EC&ML).
  exists c, c'. rewrite (get_ok _ _ _ A). split; auto. split; auto.
  eapply R3_ext; [|eapply (move_put _ _ _ _ _ _ _ x c c'); eauto; rewrite EC; reflexivity].
  intros p. unfold tmod, tset. destruct (Nat.eqb_spec p x); auto. rewrite M. simpl. f_equal.
  unfold add_mail. simpl. rewrite <- ML. rewrite EC. reflexivity.
Qed.

(* ---------------------------------------------------------------- *)
(* Thread states *)
Local Open Scope Z_scope.

Definition st_ok (s : Z) : Prop :=
  In s [ST_READY; ST_BLOCKED; ST_TIMEOUT; ST_SLEEPING; ST_RECV_BL; ST_RECV_TO].

Lemma st_ok_ready : st_ok ST_READY. Proof. left; reflexivity. Qed.

Lemma st_kinds s : st_ok s ->
  is_wakable s = sleeping_kind s /\ is_timeout s = timeout_kind s /\
  is_recv s = recv_kind s /\ is_unblockable s = unblock_kind s.
Proof.
  intros H. cbn [In] in H. unfold st_ok in H. cbn [In] in H.
  destruct H as [<-|[<-|[<-|[<-|[<-|[<-|[]]]]]]]; repeat split; reflexivity.
Qed.

Definition words_ok (w : Z) (m : nat -> option thr) : Prop :=
  forall p t, m p = Some t -> st_ok (t_state t) /\ is_word w (t_ts t) /\ is_word w (t_sleep t).

Lemma t_diff_spec w ts now : 0 < w -> is_word w ts -> is_word w now ->
  t_diff w ts now = elapsed w ts now - (if now <? ts then 1 else 0).
Proof.
  unfold is_word, t_diff, elapsed, wrap. intros W H1 H2.
  assert (0 < 2 ^ w) by (apply Z.pow_pos_nonneg; lia).
  destruct (Z.ltb_spec now ts).
  - rewrite (Z.mod_small (2 ^ w - 1 - ts)) by lia.
    rewrite (Z.mod_small (2 ^ w - 1 - ts + now)) by lia.
    replace (now - ts) with (now - ts + 2 ^ w + (-1) * 2 ^ w) by ring.
    rewrite Z.mod_add by lia. rewrite Z.mod_small by lia. lia.
  - rewrite Z.mod_small by lia. lia.
Qed.

(* ---------------------------------------------------------------- *)
(* Waking *)

Definition wake_map (w now : Z) (m : nat -> option thr) (l : list nat) : nat -> option thr :=
  fun p => if memb p l && due_in w now m p then option_map wake_thr (m p) else m p.

Lemma wake_from_spec w now : 0 < w -> is_word w now -> forall l2 l1 lq o m st q b fuel,
  R3 st q b lq (l1 ++ l2) o m -> words_ok w m -> (length l2 < fuel)%nat ->
  exists st' b' q', wake_from fuel w now st b q (hdor l2 None) = Ok (st', b', q') /\
    R3 st' q' b' (lq ++ filter (due_in w now m) l2)
       (l1 ++ filter (fun p => negb (due_in w now m p)) l2) o (wake_map w now m l2) /\
    length st' = length st.
Proof.
  intros W NW. induction l2 as [|x t IH]; intros l1 lq o m st q b fuel H OK LT;
    destruct fuel as [|fuel]; simpl in LT; try lia.
  - exists st, b, q. simpl. rewrite !app_nil_r in *. auto.
  - destruct (R3_at _ _ _ _ _ _ _ x H) as (c&A&M&WF&Id).
    { rewrite !in_app_iff. simpl. auto. }
    destruct (isq_mid _ _ _ _ _ (r_b _ _ _ _ _ _ _ H)) as ((c'&A'&P&Nx)&_). 
    assert (c' = c) by congruence. subst c'.
    cbn [wake_from hdor]. rewrite (get_ok _ _ _ A). cbn [bind]. rewrite Nx.
    destruct (OK _ _ M) as (OK1&OK2&OK3). simpl in OK1, OK2, OK3.
    destruct (st_kinds _ OK1) as (K1&K2&K3&K4).
    assert (DUE : due_in w now m x = is_wakable (c_state c) && (c_sleep c <=? t_diff w (c_ts c) now)).
    { unfold due_in. rewrite M. unfold due. simpl. rewrite K1, t_diff_spec; auto. }
    assert (NDb : NoDup (l1 ++ x :: t)) by apply (r_b _ _ _ _ _ _ _ H).
    destruct (NoDup_mid _ _ _ NDb) as (NX1&NX2&NDt).
    unfold wake_one.
    destruct (due_in w now m x) eqn:ED.
    + symmetry in DUE. apply andb_true_iff in DUE. destruct DUE as (E1&E2). rewrite E1, E2.
      destruct (unlink_wake_spec _ _ _ _ _ _ (r_b _ _ _ _ _ _ _ H) A) as (st1&b1&U&B1&C1).
      rewrite U. cbn [bind].
      destruct (R3_disj_q _ _ _ _ _ _ _ H) as (D1&D2&ND).
      assert (H1 : R3 st1 q b1 lq (l1 ++ t) (x :: o) m).
      { eapply R3_links; eauto.
        - eapply isq_chg; [|exact C1|apply H]. intros y Hy J. apply (D1 y); auto.
          rewrite in_app_iff in *. simpl. tauto.
        - rewrite <- !app_assoc. simpl. 
          apply Permutation_sym. rewrite (app_assoc t). rewrite (app_assoc l1).
          transitivity (x :: (l1 ++ t ++ lq) ++ o).
          + apply Permutation_sym, Permutation_middle.
          + rewrite <- !app_assoc. apply Permutation_middle. }
      assert (IX : In x (x :: o)) by (simpl; auto).
      assert (A1 : at_ st1 x = Some c).
      { rewrite <- A. apply C1. rewrite in_app_iff. tauto. }
      rewrite (modify_ok _ _ _ _ A1). cbn [bind].
      pose proof (move_float _ _ _ _ _ _ _ x c None None H1 IX A1) as H2.
      set (st2 := put st1 x (set_links None None c)) in *.
      assert (A2 : at_ st2 x = Some (set_links None None c)) by (apply (at_put_eq _ _ _ _ A1)).
      assert (exists st3, (if is_timeout (c_state c)
           then let! c2 := get st2 x in let! c3 := mailbox_add_mail c2 V_TIMEOUT in Ok (put st2 x (set_r V_TIMEOUT c3))
           else Ok st2) = Ok st3 /\ length st3 = length st2 /\
         R3 st3 q b1 lq (l1 ++ t) (x :: o)
           (tmod m x (fun u => if timeout_kind (t_state u) then with_r V_TIMEOUT (add_mail V_TIMEOUT u) else u)))
        as (st3&E3&L3&H3).
      { rewrite K2. destruct (timeout_kind (c_state c)) eqn:TK.
        - rewrite (get_ok _ _ _ A2). cbn [bind].
          destruct (add_mail_spec (set_links None None c) V_TIMEOUT) as (c3&E&W3&EC&ML); [exact WF|].
          rewrite E. cbn [bind]. eexists; split; [reflexivity|]. split; [apply length_put|].
          eapply R3_ext; [|eapply (move_put _ _ _ _ _ _ _ x _ (set_r V_TIMEOUT c3) H2 A2);
             try (rewrite EC; reflexivity); exact W3].
          intros p. unfold tmod, tset. destruct (Nat.eqb_spec p x); auto. rewrite M. simpl. rewrite TK.
          f_equal. unfold with_r, add_mail. simpl. 
          change (mail_of (set_links None None c)) with (mail_of c) in ML. simpl in ML.
          rewrite <- ML. unfold view, mail_of. rewrite EC. reflexivity.
        - exists st2. split; auto. split; auto. eapply R3_ext; [|exact H2].
          intros p. unfold tmod, tset. destruct (Nat.eqb_spec p x); auto. subst. rewrite M. simpl.
          rewrite TK. reflexivity. }
      rewrite E3. cbn [bind].
      destruct (move_modify _ _ _ _ _ _ _ x (set_state ST_READY) (with_state ST_READY) H3)
        as (st4&E4&H4&L4).
      { rewrite !in_app_iff. auto. }
      { intros cc Wc. repeat split; auto; apply Wc. }
      rewrite E4. cbn [bind].
      destruct (move_enq_q _ _ _ _ _ _ _ x H4 IX) as (st5&q5&E5&H5&L5).
      rewrite E5. cbn [bind].
      assert (RO : remove Nat.eq_dec x (x :: o) = o).
      { simpl. destruct (Nat.eq_dec x x); [|tauto]. apply notin_remove.
        intros J. apply (D2 x J). rewrite in_app_iff. simpl. auto. }
      rewrite RO in H5.
      set (m5 := tmod (tmod m x (fun u => if timeout_kind (t_state u) then with_r V_TIMEOUT (add_mail V_TIMEOUT u) else u)) x (with_state ST_READY)) in *.
      assert (M5 : forall p, m5 p = if Nat.eqb p x then option_map wake_thr (m p) else m p).
      { intros p. unfold m5, tmod, tset. rewrite Nat.eqb_refl. destruct (Nat.eqb_spec p x); auto.
        subst. rewrite M. reflexivity. }
      destruct (IH l1 (lq ++ [x]) o m5 st5 q5 b1 fuel) as (st6&b6&q6&E6&H6&L6);
        [exact H5| |clear - LT; lia|].
      { intros p u Hu. rewrite M5 in Hu. destruct (Nat.eqb_spec p x) as [->|]; [|eauto].
        rewrite M in Hu. injection Hu as <-.
        split; [apply st_ok_ready|]. unfold wake_thr. simpl t_state.
        destruct (timeout_kind (c_state c)); split; assumption. }
      exists st6, b6, q6. split; [exact E6|].
      split.
      2:{ rewrite L6, L5, L4, L3. unfold st2. rewrite length_put. apply C1. }
      assert (DI : forall p, p <> x -> due_in w now m5 p = due_in w now m p).
      { intros p Np. unfold due_in. rewrite M5. destruct (Nat.eqb_spec p x); [tauto|]. auto. }
      assert (FE : forall l, ~ In x l -> filter (due_in w now m5) l = filter (due_in w now m) l /\
         filter (fun p => negb (due_in w now m5 p)) l = filter (fun p => negb (due_in w now m p)) l).
      { intros l Nl. split; apply filter_ext_in; intros p Hp; rewrite DI; auto; intros ->; auto. }
      destruct (FE t NX2) as (FE1&FE2). rewrite FE1, FE2 in H6.
      simpl filter. rewrite ED. simpl negb. cbn iota.
      rewrite <- app_assoc in H6. simpl in H6.
      eapply R3_ext; [|exact H6]. intros p. unfold wake_map. simpl memb.
      change (existsb (Nat.eqb p) t) with (memb p t).
      destruct (Nat.eqb_spec p x) as [->|Np].
      * rewrite (proj2 (memb_notIn x t) NX2). simpl. rewrite ED. rewrite M5, Nat.eqb_refl. auto.
      * simpl. rewrite DI by auto. rewrite M5. destruct (Nat.eqb_spec p x); [tauto|]. auto.
    + assert (EE : (if is_wakable (c_state c) then
               if c_sleep c <=? t_diff w (c_ts c) now then
                 let! (st1, b1) := unlink_wake st b x c in
                 let! st2 := modify st1 x (set_links None None) in
                 let! st3 := (if is_timeout (c_state c)
                   then let! c2 := get st2 x in let! c3 := mailbox_add_mail c2 V_TIMEOUT in Ok (put st2 x (set_r V_TIMEOUT c3))
                   else Ok st2) in
                 let! st4 := modify st3 x (set_state ST_READY) in
                 let! (st5, q1) := enqueue st4 q x in Ok (st5, b1, q1)
               else Ok (st, b, q)
             else Ok (st, b, q)) = Ok (st, b, q)).
      { destruct (is_wakable (c_state c)); auto. simpl in DUE. rewrite <- DUE. auto. }
      rewrite EE. cbn [bind].
      destruct (IH (l1 ++ [x]) lq o m st q b fuel) as (st6&b6&q6&E6&H6&L6);
        [rewrite <- app_assoc; exact H|exact OK|clear - LT; lia|].
      exists st6, b6, q6. split; [exact E6|]. split; [|exact L6].
      simpl filter. rewrite ED. simpl negb. cbn iota. rewrite <- app_assoc in H6. simpl in H6.
      eapply R3_ext; [|exact H6]. intros p. unfold wake_map. simpl memb.
      change (existsb (Nat.eqb p) t) with (memb p t).
      destruct (Nat.eqb_spec p x) as [->|Np]; auto. rewrite ED, !andb_false_r. auto.
Qed.

(* ---------------------------------------------------------------- *)
(* Whole scheduler *)

Definition runl (r : option nat) : list nat := match r with Some p => [p] | None => [] end.

Record R (w : Z) (s : sched) (a : ast) : Prop := {
  R_3 : R3 (s_st s) (s_queue s) (s_blocked s) (a_ready a) (a_blocked a) (runl (a_run a)) (a_th a);
  R_run : s_running s = a_run a;
  R_atomic : s_atomic s = a_atomic a;
  R_words : words_ok w (a_th a)
}.

Lemma find_me cid l x : find (is_me cid) l = Some x -> In x l /\ cid = Z.of_nat x.
Proof. intros H. apply find_some in H. unfold is_me in H. destruct H. split; auto. lia. Qed.

Lemma find_me_app cid l1 l2 : find (is_me cid) (l1 ++ l2) =
  match find (is_me cid) l1 with Some x => Some x | None => find (is_me cid) l2 end.
Proof. induction l1 as [|y t IH]; simpl; auto. destruct (is_me cid y); auto. Qed.

Lemma runl_remove p : remove Nat.eq_dec p [p] = [].
Proof. simpl. destruct (Nat.eq_dec p p); tauto. Qed.

Lemma words_tmod w m x g : words_ok w m ->
  (forall t, st_ok (t_state t) -> is_word w (t_ts t) -> is_word w (t_sleep t) ->
     st_ok (t_state (g t)) /\ is_word w (t_ts (g t)) /\ is_word w (t_sleep (g t))) ->
  words_ok w (tmod m x g).
Proof.
  intros H G p t. unfold tmod, tset. destruct (Nat.eqb_spec p x) as [->|]; [|apply H].
  destruct (m x) as [u|] eqn:E; simpl; [|discriminate]. intros [= <-].
  destruct (H _ _ E) as (A&B&C). apply G; auto.
Qed.


Lemma in_of_find l1 l2 l3 cid x (H : find (is_me cid) (l1 ++ l2 ++ l3) = Some x) : In x (l1 ++ l2 ++ l3).
Proof. apply find_me in H. tauto. Qed.

Lemma tmod_tmod m x f g p : tmod (tmod m x f) x g p = tmod m x (fun t => g (f t)) p.
Proof.
  unfold tmod, tset. rewrite Nat.eqb_refl. destruct (Nat.eqb p x); auto. destruct (m x); auto.
Qed.

Lemma send_refines w s a cid msg : R w s a ->
  exists s', send s cid msg = Ok (s', snd (a_send a cid msg)) /\ R w s' (fst (a_send a cid msg)) /\
    length (s_st s') = length (s_st s).
Proof.
  intros [H RUN AT WK]. destruct (R3_disj_q _ _ _ _ _ _ _ H) as (D1&D2&ND).
  assert (DL : forall s0 a0 p, R w s0 a0 -> In p (a_blocked a0 ++ a_ready a0 ++ runl (a_run a0)) ->
     exists s', deliver s0 p msg = Ok (s', true) /\
       R w s' (mkast (a_ready a0) (a_blocked a0) (a_run a0) (a_atomic a0) (tmod (a_th a0) p (add_mail msg))) /\
       length (s_st s') = length (s_st s0)).
  { intros s0 a0 p [H0 RUN0 AT0 WK0] I0.
    destruct (move_mail _ _ _ _ _ _ _ p msg H0 I0) as (c&c'&E1&E2&H1).
    unfold deliver. rewrite E1. cbn [bind]. rewrite E2. cbn [bind]. eexists; split; [reflexivity|]. split.
    - constructor; simpl; auto. apply words_tmod; auto.
    - apply length_put. }
  unfold send, a_send. change (match a_run a with Some p => [p] | None => [] end) with (runl (a_run a)).
  rewrite (lookup_spec _ _ _ cid (r_ids _ _ _ _ _ _ _ H) (r_b _ _ _ _ _ _ _ H)). cbn [bind].
  rewrite !find_me_app.
  destruct (find (is_me cid) (a_blocked a)) as [p|] eqn:F1.
  - apply find_me in F1. destruct F1 as (I&->).
    rewrite (proj2 (memb_In _ _) I). simpl andb.
    destruct (R3_at _ _ _ _ _ _ _ p H) as (c&A&M&WF&Id); [rewrite !in_app_iff; auto|].
    rewrite (get_ok _ _ _ A). cbn [bind]. rewrite M. simpl t_state.
    destruct (st_kinds _ (proj1 (WK _ _ M))) as (_&_&K&_). simpl in K. rewrite K.
    destruct (recv_kind (c_state c)).
    + destruct (move_drop_b _ _ _ _ _ _ _ p H I) as (st1&b1&E1&H1&L1). rewrite E1. cbn [bind].
      destruct (move_modify _ _ _ _ _ _ _ p (set_state ST_READY) (with_state ST_READY) H1)
        as (st2&E2&H2&L2).
      { rewrite !in_app_iff. simpl. auto. }
      { intros cc Wc. repeat split; auto; apply Wc. }
      rewrite E2. cbn [bind].
      destruct (move_enq_q _ _ _ _ _ _ _ p H2) as (st3&q3&E3&H3&L3); [simpl; auto|].
      rewrite E3. cbn [bind].
      assert (RO : remove Nat.eq_dec p (p :: runl (a_run a)) = runl (a_run a)).
      { simpl. destruct (Nat.eq_dec p p); [|tauto]. apply notin_remove. intros J. apply (D2 p J); auto. }
      rewrite RO in H3.
      destruct (DL (mksched st3 q3 b1 (s_running s) (s_atomic s))
         (mkast (a_ready a ++ [p]) (remove Nat.eq_dec p (a_blocked a)) (a_run a) (a_atomic a)
            (tmod (a_th a) p (with_state ST_READY))) p) as (s'&E4&R4&L4).
      { constructor; simpl; auto. apply words_tmod; auto.
        intros; split; [apply st_ok_ready|auto]. }
      { simpl. rewrite !in_app_iff. simpl. auto. }
      rewrite E4. exists s'. split; [reflexivity|]. simpl fst. split.
      * destruct R4 as [H4 RUN4 AT4 WK4]. simpl in *. constructor; simpl; auto.
        -- eapply R3_ext; [|exact H4]. intros; apply tmod_tmod.
        -- intros q t. rewrite <- tmod_tmod. apply WK4.
      * simpl in L4. lia.
    + destruct (DL s a p) as (s'&E4&R4&L4); [constructor; auto|rewrite !in_app_iff; auto|].
      rewrite E4. exists s'. auto.
  - rewrite (lookup_spec _ _ _ cid (r_ids _ _ _ _ _ _ _ H) (r_q _ _ _ _ _ _ _ H)). cbn [bind].
    destruct (find (is_me cid) (a_ready a)) as [p|] eqn:F2.
    + apply find_me in F2. destruct F2 as (I&->).
      assert (~ In p (a_blocked a)) as NB by (intros J; eapply D1; eauto).
      rewrite (proj2 (memb_notIn _ _) NB). simpl andb.
      destruct (DL s a p) as (s'&E4&R4&L4); [constructor; auto|rewrite !in_app_iff; auto|].
      cbv iota. rewrite E4. exists s'. auto.
    + rewrite RUN. destruct (a_run a) as [p|] eqn:AR; simpl.
      * destruct (R3_at _ _ _ _ _ _ _ p H) as (c&A&M&WF&Id); [rewrite !in_app_iff; simpl; auto|].
        rewrite (get_ok _ _ _ A). cbn [bind]. rewrite Id. unfold is_me.
        destruct (Z.eqb_spec (Z.of_nat p) cid) as [<-|NE].
        -- destruct (D2 p) as (N1&N2); [simpl; auto|].
           rewrite (proj2 (memb_notIn _ _) N2). simpl.
           destruct (DL s a p) as (s'&E4&R4&L4).
           { constructor; auto; rewrite AR; auto. }
           { rewrite !in_app_iff, AR. simpl; auto. }
           rewrite E4.
           exists s'. rewrite AR in R4. auto.
        -- exists s. split; auto. split; auto. constructor; simpl; auto; rewrite AR; auto.
      * exists s. split; auto. split; auto. constructor; simpl; auto; rewrite AR; auto.
Qed.
