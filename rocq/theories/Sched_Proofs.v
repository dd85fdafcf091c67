(* Doubly linked queues represent lists; mailboxes represent lists. *)
From Verif Require Import Base Sched_Model Sched_Spec.
Local Open Scope nat_scope.

(* ---------------------------------------------------------------- *)
(* Store *)

Lemma at_lt st p c : at_ st p = Some c -> p < length st.
Proof.
  unfold at_. destruct (nth_error st p) eqn:E; [|discriminate]. intros _.
  apply nth_error_Some. congruence.
Qed.

Lemma at_upd_eq st p o : p < length st -> at_ (upd st p o) p = o.
Proof. intros H. unfold at_. rewrite nth_error_upd_eq; auto. Qed.

Lemma at_upd_neq st p q o : p <> q -> at_ (upd st p o) q = at_ st q.
Proof. intros H. unfold at_. rewrite nth_error_upd_neq; auto. Qed.

Lemma at_put_eq st p c0 c : at_ st p = Some c0 -> at_ (put st p c) p = Some c.
Proof. intros H. apply at_upd_eq. eapply at_lt; eauto. Qed.

Lemma at_put_neq st p q c : p <> q -> at_ (put st p c) q = at_ st q.
Proof. apply at_upd_neq. Qed.

Lemma length_put st p c : length (put st p c) = length st.
Proof. apply length_upd. Qed.

Lemma get_ok st p c : at_ st p = Some c -> get st p = Ok c.
Proof. unfold get. intros ->. reflexivity. Qed.

Lemma modify_ok st p c f : at_ st p = Some c -> modify st p f = Ok (put st p (f c)).
Proof. unfold modify. intros H. rewrite (get_ok _ _ _ H). reflexivity. Qed.

(* ---------------------------------------------------------------- *)
(* Links *)

Definition core (c : ctx) : ctx := set_links None None c.

Lemma core_links p n c : core (set_links p n c) = core c. Proof. reflexivity. Qed.
Lemma core_next n c : core (set_next n c) = core c. Proof. reflexivity. Qed.
Lemma core_prev n c : core (set_prev n c) = core c. Proof. reflexivity. Qed.

(* [st'] differs from [st] only in links, and only of contexts in [S] *)
Definition chg (st st' : store) (S : list nat) : Prop :=
  length st' = length st /\
  (forall p, option_map core (at_ st' p) = option_map core (at_ st p)) /\
  (forall p, ~ In p S -> at_ st' p = at_ st p).

Lemma chg_refl st S : chg st st S.
Proof. repeat split; auto. Qed.

Lemma chg_trans st1 st2 st3 S : chg st1 st2 S -> chg st2 st3 S -> chg st1 st3 S.
Proof.
  intros (A&B&C) (A'&B'&C'). split; [|split].
  - congruence.
  - intros p. rewrite B', B; auto.
  - intros p H. rewrite C', C; auto.
Qed.

Lemma chg_mono st st' S S' : (forall p, In p S -> In p S') -> chg st st' S -> chg st st' S'.
Proof. intros I (A&B&C). repeat split; auto. Qed.

Lemma chg_put st p c c' S :
  at_ st p = Some c -> core c' = core c -> In p S -> chg st (put st p c') S.
Proof.
  intros H E I. repeat split; intros.
  - apply length_put.
  - destruct (Nat.eq_dec p p0) as [->|N].
    + rewrite (at_put_eq _ _ _ _ H), H. simpl. congruence.
    + rewrite at_put_neq; auto.
  - rewrite at_put_neq; auto. intros ->; auto.
Qed.

Lemma chg_at st st' S p c : chg st st' S -> at_ st p = Some c ->
  exists c', at_ st' p = Some c' /\ core c' = core c.
Proof.
  intros (A&B&C) H. specialize (B p). rewrite H in B. simpl in B.
  destruct (at_ st' p) as [c'|]; simpl in B; [|discriminate].
  exists c'; split; auto. congruence.
Qed.

Lemma chg_at_inv st st' S p c' : chg st st' S -> at_ st' p = Some c' ->
  exists c, at_ st p = Some c /\ core c' = core c.
Proof.
  intros (A&B&C) H. specialize (B p). rewrite H in B. simpl in B.
  destruct (at_ st p) as [c|]; simpl in B; [|discriminate].
  exists c; split; auto. congruence.
Qed.

Definition hdor (l : list nat) (n : option nat) : option nat :=
  match l with [] => n | x :: _ => Some x end.
Fixpoint lastor (l : list nat) (p : option nat) : option nat :=
  match l with [] => p | x :: t => lastor t (Some x) end.

Lemma hdor_app l1 l2 n : hdor (l1 ++ l2) n = hdor l1 (hdor l2 n).
Proof. destruct l1; reflexivity. Qed.
Lemma lastor_app l1 l2 p : lastor (l1 ++ l2) p = lastor l2 (lastor l1 p).
Proof. revert p; induction l1; simpl; auto. Qed.
Lemma lastor_in l p x : lastor l p = Some x -> l <> [] -> In x l.
Proof.
  revert p; induction l as [|y t IH]; intros p H N; [congruence|].
  simpl in *. destruct t as [|z t]; simpl in *.
  - left; congruence.
  - right. apply (IH (Some y)); congruence.
Qed.
Lemma lastor_none l p : lastor l p = None -> l = [] /\ p = None.
Proof.
  revert p; induction l as [|y t IH]; simpl; intros p H; auto.
  apply IH in H. destruct H; discriminate.
Qed.

Fixpoint dseg (st : store) (p : option nat) (l : list nat) (n : option nat) : Prop :=
  match l with
  | [] => True
  | x :: t =>
    (exists c, at_ st x = Some c /\ c_prev c = p /\ c_next c = hdor t n) /\
    dseg st (Some x) t n
  end.

Lemma dseg_app st p l1 l2 n :
  dseg st p (l1 ++ l2) n <-> dseg st p l1 (hdor l2 n) /\ dseg st (lastor l1 p) l2 n.
Proof.
  revert p; induction l1 as [|x t IH]; intros p; simpl.
  - tauto.
  - rewrite IH, hdor_app. tauto.
Qed.

Lemma dseg_frame st st' p l n :
  (forall x, In x l -> at_ st' x = at_ st x) -> dseg st p l n -> dseg st' p l n.
Proof.
  revert p; induction l as [|x t IH]; intros p F H; simpl in *; auto.
  destruct H as ((c&A&B&C)&D). split.
  - exists c. rewrite F; auto.
  - apply IH; auto.
Qed.

Lemma dseg_in st p l n x : dseg st p l n -> In x l -> exists c, at_ st x = Some c.
Proof.
  revert p; induction l as [|y t IH]; intros p H I; simpl in *; [easy|].
  destruct H as ((c&A&_)&D). destruct I as [->|I]; eauto.
Qed.

(* change the prev pointer of the head / the next pointer of the last *)
Lemma dseg_set_prev st p p' x t n c :
  NoDup (x :: t) -> at_ st x = Some c -> dseg st p (x :: t) n ->
  dseg (put st x (set_prev p' c)) p' (x :: t) n.
Proof.
  intros N A ((c'&A'&B&C)&D). assert (c' = c) by congruence. subst c'.
  inversion N; subst. simpl. split.
  - exists (set_prev p' c). rewrite (at_put_eq _ _ _ _ A). auto.
  - eapply dseg_frame; [|exact D]. intros y Hy. apply at_put_neq. intros ->; auto.
Qed.

Lemma dseg_set_next st p l y n n' c :
  NoDup (l ++ [y]) -> at_ st y = Some c -> dseg st p (l ++ [y]) n ->
  dseg (put st y (set_next n' c)) p (l ++ [y]) n'.
Proof.
  intros N A H. apply dseg_app in H. destruct H as (H1&(c'&A'&B&C)&_).
  assert (c' = c) by congruence. subst c'. apply dseg_app. simpl in *. split.
  - eapply dseg_frame; [|exact H1]. intros z Hz. apply at_put_neq. intros <-.
    apply NoDup_remove_2 in N. rewrite app_nil_r in N. auto.
  - split; auto. exists (set_next n' c). rewrite (at_put_eq _ _ _ _ A). auto.
Qed.

Definition isq (st : store) (q : queue) (l : list nat) : Prop :=
  q_first q = hdor l None /\ q_last q = lastor l None /\ dseg st None l None /\ NoDup l.

Lemma isq_nil st : isq st q_empty [].
Proof. repeat split; constructor. Qed.

Lemma isq_frame st st' q l :
  (forall x, In x l -> at_ st' x = at_ st x) -> isq st q l -> isq st' q l.
Proof. intros F (A&B&C&D). repeat split; auto. eapply dseg_frame; eauto. Qed.

Lemma isq_chg st st' S q l :
  (forall x, In x l -> ~ In x S) -> chg st st' S -> isq st q l -> isq st' q l.
Proof. intros D (A&B&C). apply isq_frame. intros x I. apply C. auto. Qed.

Lemma isq_in st q l x : isq st q l -> In x l -> exists c, at_ st x = Some c.
Proof. intros (A&B&C&D) I. eapply dseg_in; eauto. Qed.

Lemma isq_length st q l : isq st q l -> length l <= length st.
Proof.
  intros H. assert (I : incl l (seq 0 (length st))).
  { intros x Hx. apply in_seq. destruct (isq_in _ _ _ _ H Hx) as (c&E).
    apply at_lt in E. lia. }
  apply NoDup_incl_length in I; [|apply H]. rewrite seq_length in I. exact I.
Qed.

Lemma last_cases {A} (l : list A) : l = [] \/ exists l' x, l = l' ++ [x].
Proof. destruct l as [|x l] using rev_ind; eauto. Qed.

Lemma lastor_snoc l x p : lastor (l ++ [x]) p = Some x.
Proof. rewrite lastor_app. reflexivity. Qed.

(* the ways a walk over a queue ends up *)
Lemma isq_walk_next st q l : isq st q l -> walk_next st (q_first q) l.
Proof.
  intros (A&_&D&_). rewrite A. clear A.
  assert (G : forall l p, dseg st p l None -> walk_next st (hdor l None) l).
  { clear. induction l as [|x t IH]; intros p H; simpl; [constructor|].
    destruct H as ((c&A&B&C)&D). econstructor; eauto. rewrite C. eauto. }
  eauto.
Qed.

Lemma isq_walk_prev st q l : isq st q l -> walk_prev st (q_last q) (rev l).
Proof.
  intros (_&B&D&_). rewrite B. clear B.
  assert (G : forall l n, dseg st None l n -> walk_prev st (lastor l None) (rev l)).
  { clear. induction l as [|x t IH] using rev_ind; intros n D; [constructor|].
    rewrite lastor_snoc, rev_unit. apply dseg_app in D. destruct D as (D1&(c&A&P&N)&_).
    econstructor; eauto. rewrite P. eauto. }
  eauto.
Qed.

(* ---------------------------------------------------------------- *)
(* Queue operations *)

Lemma enqueue_spec st q l x c :
  isq st q l -> at_ st x = Some c -> ~ In x l ->
  exists st' q', enqueue st q x = Ok (st', q') /\
    isq st' q' (l ++ [x]) /\ chg st st' (x :: l).
Proof.
  intros H A N. pose proof H as (F&L&D&ND). unfold enqueue.
  destruct (last_cases l) as [->|(l'&y&->)].
  - simpl in L. rewrite L. rewrite (modify_ok _ _ _ _ A). simpl.
    do 2 eexists; split; [reflexivity|]. split.
    + repeat split; simpl; auto; try (repeat constructor; auto; fail).
      eexists. split; [apply (at_put_eq _ _ _ _ A)|]. auto.
    + eapply chg_put; eauto. simpl; auto.
  - rewrite lastor_snoc in L. rewrite L.
    rewrite (modify_ok _ _ _ _ A). simpl.
    assert (XY : x <> y) by (intros ->; apply N; apply in_or_app; simpl; auto).
    assert (exists cy, at_ st y = Some cy) as (cy&AY).
    { eapply isq_in; eauto. apply in_or_app; simpl; auto. }
    set (st1 := put st x (set_links (Some y) None c)).
    assert (AY1 : at_ st1 y = Some cy) by (unfold st1; rewrite at_put_neq; auto).
    rewrite (modify_ok _ _ _ _ AY1). simpl.
    do 2 eexists; split; [reflexivity|].
    assert (ND1 : NoDup ((l' ++ [y]) ++ [x])).
    { apply NoDup_rev in ND. rewrite <- (rev_involutive ((l' ++ [y]) ++ [x])).
      apply NoDup_rev. rewrite rev_unit. constructor; auto. rewrite <- in_rev. auto. }
    split.
    + repeat split.
      * simpl. rewrite F. rewrite !hdor_app. reflexivity.
      * simpl. rewrite lastor_snoc. reflexivity.
      * apply dseg_app. split.
        -- simpl. apply dseg_set_next with (n := None); auto.
           eapply dseg_frame; [|exact D]. intros z Hz. unfold st1.
           apply at_put_neq. intros <-; auto.
        -- rewrite lastor_snoc. simpl. split; auto. exists (set_links (Some y) None c).
           rewrite at_put_neq by auto. unfold st1. rewrite (at_put_eq _ _ _ _ A). auto.
      * exact ND1.
    + apply chg_trans with st1.
      * eapply chg_put; eauto. simpl; auto.
      * eapply chg_put; [exact AY1|apply core_next|]. simpl. right. apply in_or_app; simpl; auto.
Qed.

Definition ids_ok (st : store) : Prop :=
  forall p c, at_ st p = Some c -> c_id c = Z.of_nat p.

Lemma ids_chg st st' S : chg st st' S -> ids_ok st -> ids_ok st'.
Proof.
  intros C I p c H. destruct (chg_at_inv _ _ _ _ _ C H) as (c0&A&E).
  rewrite <- (I _ _ A). change (c_id (core c) = c_id (core c0)). congruence.
Qed.

Lemma lookup_from_spec st cid l : ids_ok st -> forall p fuel,
  dseg st p l None -> length l < fuel ->
  lookup_from fuel st (hdor l None) cid = Ok (find (is_me cid) l).
Proof.
  intros I. induction l as [|x t IH]; intros p fuel D F; destruct fuel as [|fuel]; simpl in F; try lia.
  - reflexivity.
  - destruct D as ((c&A&P&Nx)&D). simpl. rewrite (get_ok _ _ _ A). simpl.
    rewrite (I _ _ A). unfold is_me at 1. destruct (Z.of_nat x =? cid)%Z; auto.
    rewrite Nx. eapply IH; eauto. lia.
Qed.

Lemma lookup_spec st q l cid : ids_ok st -> isq st q l ->
  lookup st q cid = Ok (find (is_me cid) l).
Proof.
  intros I H. pose proof (isq_length _ _ _ H). destruct H as (F&L&D&N).
  unfold lookup. rewrite F. eapply lookup_from_spec; eauto. lia.
Qed.

Lemma NoDup_mid {A} (l1 l2 : list A) x : NoDup (l1 ++ x :: l2) -> ~ In x l1 /\ ~ In x l2 /\ NoDup (l1 ++ l2).
Proof.
  intros H. pose proof (NoDup_remove_1 _ _ _ H). apply NoDup_remove_2 in H.
  repeat split; auto; intros I; apply H; apply in_or_app; auto.
Qed.

(* taking [x] out of the middle, pointwise *)
Lemma isq_unlink st st' q q' l1 x l2 :
  isq st q (l1 ++ x :: l2) ->
  q_first q' = hdor (l1 ++ l2) None -> q_last q' = lastor (l1 ++ l2) None ->
  (forall y c, at_ st y = Some c ->
     at_ st' y = Some
       (let c1 := if opt_eqb (lastor l1 None) (Some y) then set_next (hdor l2 None) c else c in
        if opt_eqb (hdor l2 None) (Some y) then set_prev (lastor l1 None) c1 else c1)) ->
  isq st' q' (l1 ++ l2).
Proof.
  intros (F&L&D&N) F' L' U. apply NoDup_mid in N. destruct N as (N1&N2&N3).
  repeat split; auto.
  apply dseg_app in D. destruct D as (D1&(c&A&P&Nx)&D2). simpl in D1.
  apply dseg_app. split.
  - destruct (last_cases l1) as [->|(l'&y&->)]; [exact Logic.I|].
    rewrite lastor_snoc in *.
    assert (NI : forall z, In z (l' ++ [y]) -> opt_eqb (hdor l2 None) (Some z) = false).
    { intros z Hz. destruct l2 as [|u t]; simpl; auto. apply Nat.eqb_neq. intros ->.
      apply NoDup_remove_2 in N3. apply N3. apply in_or_app; auto. }
    apply dseg_app in D1. destruct D1 as (D11&(cy&AY&PY&NY)&_).
    assert (N' : ~ In y l').
    { rewrite <- app_assoc in N3. simpl in N3. apply NoDup_mid in N3. tauto. }
    apply dseg_app. split.
    + simpl. simpl in D11. clear PY.
      assert (G : forall z, In z l' -> at_ st' z = at_ st z).
      { intros z Hz. destruct (dseg_in _ _ _ _ z D11 Hz) as (cz&AZ).
        rewrite (U _ _ AZ), AZ. rewrite NI by (apply in_or_app; auto).
        simpl. destruct (Nat.eqb_spec y z); [subst; tauto|]. reflexivity. }
      eapply dseg_frame; eauto.
    + simpl. split; auto. eexists. split; [apply (U _ _ AY)|].
      rewrite NI by (apply in_or_app; simpl; auto). simpl. rewrite Nat.eqb_refl. auto.
  - destruct l2 as [|u t]; [exact Logic.I|]. simpl in *.
    destruct D2 as ((cu&AU&PU&NU)&D2).
    assert (NI : forall z, In z (u :: t) -> opt_eqb (lastor l1 None) (Some z) = false).
    { intros z Hz. destruct (last_cases l1) as [->|(l'&y&->)]; auto.
      rewrite lastor_snoc. simpl. apply Nat.eqb_neq. intros ->.
      rewrite <- app_assoc in N3. simpl in N3. apply NoDup_mid in N3.
      destruct N3 as (_&B&_). auto. }
    split.
    + eexists. split; [apply (U _ _ AU)|]. rewrite NI by (simpl; auto).
      rewrite Nat.eqb_refl. auto.
    + assert (G : forall z, In z t -> at_ st' z = at_ st z).
      { intros z Hz. destruct (dseg_in _ _ _ _ z D2 Hz) as (cz&AZ).
        rewrite (U _ _ AZ), AZ. rewrite NI by (simpl; auto).
        destruct (Nat.eqb_spec u z); [|reflexivity]. subst.
        apply NoDup_mid in N3. destruct N3 as (_&B&_). tauto. }
      eapply dseg_frame; eauto.
Qed.

(* contexts next to [x] exist *)
Lemma isq_mid st q l1 x l2 : isq st q (l1 ++ x :: l2) ->
  (exists c, at_ st x = Some c /\ c_prev c = lastor l1 None /\ c_next c = hdor l2 None) /\
  (forall y, lastor l1 None = Some y -> exists c, at_ st y = Some c) /\
  (forall y, hdor l2 None = Some y -> exists c, at_ st y = Some c) /\
  (forall y, lastor l1 None = Some y -> hdor l2 None <> Some y) /\
  (forall y, lastor l1 None = Some y -> In y l1) /\
  (forall y, hdor l2 None = Some y -> In y l2).
Proof.
  intros (F&L&D&N). apply dseg_app in D. destruct D as (D1&(c&A&P&Nx)&D2).
  assert (I1 : forall y, lastor l1 None = Some y -> In y l1).
  { intros y E. eapply lastor_in; eauto. intros ->. discriminate. }
  assert (I2 : forall y, hdor l2 None = Some y -> In y l2).
  { intros y E. destruct l2; [discriminate|]. simpl in *. left; congruence. }
  split; [eauto|]. repeat split; auto.
  - intros y E. eapply dseg_in; [exact D1|]. auto.
  - intros y E. eapply dseg_in; [exact D2|]. auto.
  - intros y E E'. apply NoDup_mid in N. destruct N as (_&_&N).
    apply I1 in E. apply I2 in E'. apply in_split in E. destruct E as (a&b&->).
    rewrite <- app_assoc in N. simpl in N. apply NoDup_mid in N. destruct N as (_&N&_).
    apply N. apply in_or_app. auto.
Qed.

Lemma opt_eqb_eq a b : opt_eqb a b = true <-> a = b.
Proof.
  destruct a, b; simpl; try (split; congruence); try tauto.
  rewrite Nat.eqb_eq. split; congruence.
Qed.

Ltac uneq :=
  repeat match goal with
  | H : at_ ?s ?p = Some ?a, H' : at_ ?s ?p = Some ?b |- _ =>
      assert (a = b) by congruence; subst b; clear H'
  end.

Lemma unlink_drop_spec st q l1 x l2 c :
  isq st q (l1 ++ x :: l2) -> at_ st x = Some c ->
  exists st' q', unlink_drop st q x c = Ok (st', q') /\ isq st' q' (l1 ++ l2) /\
    chg st st' (l1 ++ l2).
Proof.
  intros H A. destruct (isq_mid _ _ _ _ _ H) as ((c'&A'&P&Nx)&E1&E2&NE&I1&I2). uneq.
  unfold unlink_drop. rewrite P, Nx. pose proof H as (F&L&_&_).
  destruct (lastor l1 None) as [pr|] eqn:LE; destruct (hdor l2 None) as [t|] eqn:HE.
  - destruct (E1 _ eq_refl) as (cp&AP). destruct (E2 _ eq_refl) as (ct&AT).
    assert (pr <> t) by (intros ->; eapply NE; eauto).
    rewrite (modify_ok _ _ _ _ AP). cbn [bind].
    assert (AT1 : at_ (put st pr (set_next (Some t) cp)) t = Some ct) by (rewrite at_put_neq; auto).
    rewrite (modify_ok _ _ _ _ AT1). cbn [bind].
    do 2 eexists; split; [reflexivity|]. split.
    + eapply isq_unlink; eauto.
      * rewrite F, !hdor_app. destruct l1; [discriminate LE|reflexivity].
      * rewrite L, !lastor_app. destruct l2; [discriminate HE|reflexivity].
      * intros y cy AY. rewrite LE, HE. simpl.
        destruct (Nat.eqb_spec t y) as [->|].
        -- rewrite (at_put_eq _ _ _ _ AT1). uneq.
           destruct (Nat.eqb_spec pr y); [congruence|]. reflexivity.
        -- rewrite at_put_neq by auto. destruct (Nat.eqb_spec pr y) as [->|].
           ++ rewrite (at_put_eq _ _ _ _ AP). uneq. reflexivity.
           ++ rewrite at_put_neq; auto.
    + eapply chg_trans.
      * eapply chg_put; [exact AP|apply core_next|]. apply in_or_app; auto.
      * eapply chg_put; [exact AT1|apply core_prev|]. apply in_or_app; auto.
  - destruct (E1 _ eq_refl) as (cp&AP). rewrite (modify_ok _ _ _ _ AP). cbn [bind].
    assert (l2 = []) by (destruct l2; [auto|discriminate]). subst l2.
    do 2 eexists; split; [reflexivity|]. split.
    + eapply isq_unlink; eauto.
      * simpl. rewrite F, !hdor_app. destruct l1; [discriminate LE|reflexivity].
      * simpl. rewrite app_nil_r. congruence.
      * intros y cy AY. rewrite LE. simpl. destruct (Nat.eqb_spec pr y) as [->|].
        -- rewrite (at_put_eq _ _ _ _ AP). uneq. reflexivity.
        -- rewrite at_put_neq; auto.
    + eapply chg_put; [exact AP|apply core_next|]. apply in_or_app; auto.
  - destruct (E2 _ eq_refl) as (ct&AT). rewrite (modify_ok _ _ _ _ AT). cbn [bind].
    apply lastor_none in LE. destruct LE as (->&_).
    do 2 eexists; split; [reflexivity|]. split.
    + eapply isq_unlink; eauto.
      * simpl in *. rewrite L. destruct l2; [discriminate HE|reflexivity].
      * intros y cy AY. rewrite HE. simpl. destruct (Nat.eqb_spec t y) as [->|].
        -- rewrite (at_put_eq _ _ _ _ AT). uneq. reflexivity.
        -- rewrite at_put_neq; auto.
    + eapply chg_put; [exact AT|apply core_prev|]. apply in_or_app; auto.
  - apply lastor_none in LE. destruct LE as (->&_).
    assert (l2 = []) by (destruct l2; [auto|discriminate]). subst l2.
    do 2 eexists; split; [reflexivity|]. split; [apply isq_nil|apply chg_refl].
Qed.

Lemma unlink_wake_spec st q l1 x l2 c :
  isq st q (l1 ++ x :: l2) -> at_ st x = Some c ->
  exists st' q', unlink_wake st q x c = Ok (st', q') /\ isq st' q' (l1 ++ l2) /\
    chg st st' (l1 ++ l2).
Proof.
  intros H A. destruct (unlink_drop_spec _ _ _ _ _ _ H A) as (st'&q'&U&R).
  destruct (isq_mid _ _ _ _ _ H) as ((c'&A'&P&Nx)&E1&E2&NE&I1&I2). uneq.
  pose proof H as (F&L&_&ND).
  assert (LQ : opt_eqb (Some x) (q_last q) = match l2 with [] => true | _ => false end).
  { rewrite L, lastor_app. simpl. destruct l2 as [|u t]; [simpl; apply Nat.eqb_refl|].
    destruct (last_cases (u :: t)) as [?|(l'&y&E)]; [discriminate|]. rewrite E, lastor_snoc.
    simpl. apply Nat.eqb_neq. intros ->. apply NoDup_mid in ND. destruct ND as (_&B&_).
    apply B. rewrite E. apply in_or_app; simpl; auto. }
  exists st', q'. split; auto. rewrite <- U.
  unfold unlink_wake, unlink_drop. rewrite LQ, P, Nx.
  destruct l2 as [|u t]; simpl.
  - destruct (lastor l1 None); reflexivity.
  - destruct (lastor l1 None) as [pr|]; [reflexivity|]. reflexivity.
Qed.

Lemma remove_mid l1 x l2 : NoDup (l1 ++ x :: l2) -> remove Nat.eq_dec x (l1 ++ x :: l2) = l1 ++ l2.
Proof.
  intros N. apply NoDup_mid in N. destruct N as (A&B&_).
  rewrite remove_app. simpl. destruct (Nat.eq_dec x x); [|tauto].
  rewrite !notin_remove; auto.
Qed.

Lemma drop_from_in st q l1 x l2 cx : ids_ok st ->
  isq st q (l1 ++ x :: l2) -> at_ st x = Some cx -> forall l0 l1' fuel,
  l1 = l0 ++ l1' -> length l1' < fuel ->
  exists st' q',
    drop_from fuel st q (hdor (l1' ++ x :: l2) None) (c_id cx) = Ok (st', q', true) /\
    isq st' q' (l1 ++ l2) /\ chg st st' (l1 ++ l2).
Proof.
  intros I H A l0 l1'. revert l0. induction l1' as [|y t IH]; intros l0 fuel E LT;
    destruct fuel as [|fuel]; simpl in LT; try lia.
  - simpl. rewrite (get_ok _ _ _ A). simpl. rewrite Z.eqb_refl.
    destruct (unlink_drop_spec _ _ _ _ _ _ H A) as (st'&q'&U&R). rewrite U. simpl. eauto.
  - assert (IY : In y (l1 ++ x :: l2)).
    { subst l1. apply in_or_app; left. apply in_or_app; right. simpl; auto. }
    destruct (isq_in _ _ _ _ H IY) as (cy&AY).
    assert (NY : c_next cy = hdor (t ++ x :: l2) None).
    { destruct H as (_&_&D&_). rewrite E, <- app_assoc in D. apply dseg_app in D.
      destruct D as (_&D). simpl in D. destruct D as ((c&A1&_&N1)&_). congruence. }
    simpl. rewrite (get_ok _ _ _ AY). simpl. rewrite (I _ _ AY), (I _ _ A).
    replace (Z.of_nat y =? Z.of_nat x)%Z with false.
    2:{ symmetry. apply Z.eqb_neq. intros Q. apply Nat2Z.inj in Q. subst y.
        destruct H as (_&_&_&ND). apply NoDup_mid in ND. destruct ND as (ND&_).
        apply ND. subst l1. apply in_or_app; simpl; auto. }
    rewrite NY. rewrite <- (I _ _ A).
    apply (IH (l0 ++ [y])); [|lia]. rewrite <- app_assoc. exact E.
Qed.

Lemma drop_from_notin st q l cid : ids_ok st -> (forall y, In y l -> Z.of_nat y <> cid) ->
  forall p fuel, dseg st p l None -> length l < fuel ->
  drop_from fuel st q (hdor l None) cid = Ok (st, q, false).
Proof.
  intros I. induction l as [|x t IH]; intros NI p fuel D LT; destruct fuel as [|fuel]; simpl in LT; try lia.
  - reflexivity.
  - destruct D as ((c&A&P&Nx)&D). simpl. rewrite (get_ok _ _ _ A). simpl. rewrite (I _ _ A).
    destruct (Z.eqb_spec (Z.of_nat x) cid) as [e|e]; [exfalso; apply (NI x); simpl; auto|].
    rewrite Nx. eapply IH; eauto; [|lia]. intros; apply NI; simpl; auto.
Qed.

Lemma drop_spec st q l x c : ids_ok st -> isq st q l -> at_ st x = Some c ->
  exists st' q', drop st q x = Ok (st', q', memb x l) /\
    isq st' q' (remove Nat.eq_dec x l) /\ chg st st' l /\ (~ In x l -> st' = st /\ q' = q) /\
    at_ st' x = Some c.
Proof.
  intros I H A. pose proof (isq_length _ _ _ H) as LN. pose proof H as (F&L&D&N).
  destruct (in_dec Nat.eq_dec x l) as [IN|NI].
  - assert (memb x l = true) as ->.
    { unfold memb. apply existsb_exists. exists x. rewrite Nat.eqb_refl. auto. }
    apply in_split in IN. destruct IN as (l1&l2&->).
    unfold drop. rewrite F, L.
    destruct (hdor (l1 ++ x :: l2) None) as [f|] eqn:EF;
      [|destruct l1; discriminate].
    destruct (lastor (l1 ++ x :: l2) None) as [la|] eqn:EL;
      [|apply lastor_none in EL; destruct EL as (EL&_); destruct l1; discriminate].
    rewrite (get_ok _ _ _ A). cbn [bind].
    destruct (drop_from_in st q l1 x l2 c I H A [] l1 (S (length st)) eq_refl) as (st'&q'&U&R1&R2).
    { rewrite app_length in LN. simpl in LN. lia. }
    rewrite EF in U. exists st', q'. rewrite remove_mid by auto. split; [exact U|].
    assert (~ In x (l1 ++ l2)) by (apply NoDup_remove_2; auto).
    repeat split; try apply R1; auto.
    + eapply chg_mono; [|exact R2]. intros p. rewrite !in_app_iff. simpl. tauto.
    + eapply chg_mono; [|exact R2]. intros p. rewrite !in_app_iff. simpl. tauto.
    + intros p Hp. apply R2. intros Hp'. apply Hp. rewrite in_app_iff in *. simpl. tauto.
    + exfalso; apply H1; apply in_or_app; simpl; auto.
    + exfalso; apply H1; apply in_or_app; simpl; auto.
    + rewrite <- A. apply R2. auto.
  - assert (memb x l = false) as ->.
    { unfold memb. destruct (existsb (Nat.eqb x) l) eqn:E; auto. apply existsb_exists in E.
      destruct E as (y&Y1&Y2). apply Nat.eqb_eq in Y2. subst. tauto. }
    exists st, q. rewrite notin_remove by auto. split; [|repeat split; auto].
    unfold drop. rewrite F, L. destruct l as [|f t]; [reflexivity|].
    destruct (lastor (f :: t) None) as [la|] eqn:EL; [|reflexivity].
    change (hdor (f :: t) None) with (Some f). cbn iota beta.
    rewrite (get_ok _ _ _ A). cbn [bind]. rewrite (I _ _ A).
    change (Some f) with (hdor (f :: t) None).
    eapply drop_from_notin; eauto; [|simpl in *; lia].
    intros y Hy E. apply Nat2Z.inj in E. subst. auto.
Qed.

Lemma dequeue_spec st q l : isq st q l ->
  exists st' q', dequeue st q = Ok (st', q', hd_error l) /\
    isq st' q' (tl l) /\ chg st st' l.
Proof.
  intros H. pose proof H as (F&L&D&N). unfold dequeue. rewrite L.
  destruct l as [|x t].
  - simpl. do 2 eexists; split; [reflexivity|]. split; [|apply chg_refl]. exact H.
  - destruct (lastor (x :: t) None) as [la|] eqn:EL;
      [|apply lastor_none in EL; destruct EL; discriminate].
    rewrite F. simpl. pose proof D as ((c&A&P&Nx)&D2).
    destruct t as [|y t].
    + simpl in EL. injection EL as <-. rewrite Nat.eqb_refl. cbn [bind].
      rewrite (modify_ok _ _ _ _ A). cbn [bind]. do 2 eexists; split; [reflexivity|].
      split; [apply isq_nil|]. eapply chg_put; eauto. simpl; auto.
    + destruct (Nat.eqb_spec x la) as [->|NE].
      { exfalso. simpl in EL. assert (In la (y :: t)).
        { eapply (lastor_in (y :: t) None); [exact EL|discriminate]. }
        inversion N; auto. }
      rewrite (get_ok _ _ _ A). cbn [bind]. rewrite Nx. cbn [modify_o hdor].
      destruct D2 as ((cy&AY&PY&NY)&D3).
      rewrite (modify_ok _ _ _ _ AY). cbn [bind].
      assert (XY : y <> x) by (intros ->; inversion N; simpl in *; tauto).
      assert (A1 : at_ (put st y (set_prev None cy)) x = Some c) by (rewrite at_put_neq; auto).
      rewrite (modify_ok _ _ _ _ A1). cbn [bind]. do 2 eexists; split; [reflexivity|].
      inversion N as [|? ? N1 N2]; subst. split.
      * split; [reflexivity|]. split; [simpl; auto|]. split; [|exact N2].
        eapply dseg_frame; [|apply dseg_set_prev with (p := Some x); eauto].
        -- intros z Hz. apply at_put_neq. intros <-. auto.
        -- split; eauto.
      * eapply chg_trans.
        -- eapply chg_put; [exact AY|apply core_prev|simpl; auto].
        -- eapply chg_put; [exact A1|apply core_links|simpl; auto].
Qed.

(* ---------------------------------------------------------------- *)
(* Mailboxes *)
Local Open Scope Z_scope.

Definition mwf (c : ctx) : Prop :=
  Z.of_nat (length (c_mbox c)) = c_mbsize c /\ 1 <= c_mbsize c < 2 ^ 32 /\
  0 <= c_nmail c <= c_mbsize c.

Lemma firstn_upd_ge {A} (l : list A) n i x : (n <= i)%nat -> firstn n (upd l i x) = firstn n l.
Proof.
  revert n i; induction l as [|h t IH]; intros [|n] [|i] H; simpl; auto; try lia.
  f_equal. apply IH. lia.
Qed.

Lemma firstn_S_nth {A} (l : list A) n x : nth_error l n = Some x -> firstn (S n) l = firstn n l ++ [x].
Proof.
  revert n; induction l as [|h t IH]; intros [|n] H; simpl in *; try discriminate.
  - congruence.
  - f_equal. auto.
Qed.

Lemma firstn_S_upd {A} (l : list A) n x : (n < length l)%nat -> firstn (S n) (upd l n x) = firstn n l ++ [x].
Proof.
  intros H. rewrite (firstn_S_nth _ n x) by (apply nth_error_upd_eq; auto).
  rewrite firstn_upd_ge by lia. reflexivity.
Qed.

Lemma shift_mail_spec n : forall k fuel m i,
  1 <= n < 2 ^ 32 -> (n <= Z.of_nat (length m)) -> Z.of_nat i + Z.of_nat k = n - 1 -> (k < fuel)%nat ->
  exists m', shift_mail fuel m (Z.of_nat i) n = Ok m' /\ length m' = length m /\
    firstn (Z.to_nat n - 1) m' = firstn i m ++ firstn k (skipn (S i) m).
Proof.
  induction k as [|k IH]; intros fuel m i HN HL HI HF; destruct fuel as [|fuel]; try lia.
  - simpl. rewrite wrap_small by lia.
    destruct (Z.ltb_spec (Z.of_nat i) (n - 1)); [lia|].
    exists m. split; auto. split; auto. rewrite app_nil_r. f_equal. lia.
  - cbn [shift_mail]. rewrite wrap_small by lia.
    destruct (Z.ltb_spec (Z.of_nat i) (n - 1)); [|lia].
    destruct (nth_error m (S i)) as [x|] eqn:EX.
    2:{ apply nth_error_None in EX. lia. }
    rewrite (rd_nth m (Z.of_nat i + 1) x); [|lia|].
    2:{ replace (Z.to_nat (Z.of_nat i + 1)) with (S i) by lia. exact EX. }
    cbn [bind]. rewrite wr_ok by lia. cbn [bind]. rewrite Nat2Z.id.
    replace (Z.of_nat i + 1) with (Z.of_nat (S i)) by lia.
    destruct (IH fuel (upd m i x) (S i)) as (m'&R&LEN&FN); try lia.
    { rewrite length_upd. lia. }
    exists m'. split; [exact R|]. rewrite length_upd in LEN. split; auto.
    rewrite FN. rewrite firstn_S_upd by lia. rewrite <- app_assoc. f_equal.
    assert (skipn (S (S i)) (upd m i x) = skipn (S (S i)) m) as ->.
    { clear. revert m. induction i as [|i IHi]; intros [|h t]; simpl; auto.
      destruct t; simpl; auto. apply (IHi (_ :: _)). }
    assert (skipn (S i) m = x :: skipn (S (S i)) m) as ->.
    { clear - EX. revert m EX. induction i as [|i IHi]; intros [|h t] EX; simpl in *; try discriminate.
      - destruct t; simpl in *; try discriminate. congruence.
      - apply IHi. exact EX. }
    reflexivity.
Qed.

Lemma firstn_skipn_comm' {A} (m : list A) i k : firstn k (skipn i m) = skipn i (firstn (i + k) m).
Proof. revert m; induction i as [|i IH]; intros [|h t]; simpl; auto. destruct k; reflexivity. Qed.

Lemma remove_mail_spec c ix : mwf c -> 0 <= ix < c_nmail c ->
  exists c', mailbox_remove_mail c ix = Ok c' /\ mwf c' /\
    c' = set_mail (c_mbox c') (c_nmail c - 1) c /\
    mail_of c' = remove_nth (Z.to_nat ix) (mail_of c).
Proof.
  intros (L&SZ&M) I. unfold mailbox_remove_mail.
  destruct (shift_mail_spec (c_nmail c) (Z.to_nat (c_nmail c - 1 - ix)) (S (length (c_mbox c)))
              (c_mbox c) (Z.to_nat ix)) as (m'&R&LEN&FN); try lia.
  rewrite Z2Nat.id in R by lia. rewrite R. cbn [bind].
  rewrite wrap_small by lia. eexists; split; [reflexivity|].
  split; [|split].
  - unfold mwf; simpl. lia.
  - reflexivity.
  - unfold mail_of. simpl. replace (Z.to_nat (c_nmail c - 1)) with (Z.to_nat (c_nmail c) - 1)%nat by lia.
    rewrite FN. unfold remove_nth. rewrite firstn_firstn, Nat.min_l by lia. f_equal.
    rewrite firstn_skipn_comm'. f_equal. f_equal. lia.
Qed.

Lemma mail_of_length c : mwf c -> Z.of_nat (length (mail_of c)) = c_nmail c.
Proof. intros (L&SZ&M). unfold mail_of. rewrite firstn_length. lia. Qed.

Lemma tl_remove_nth (l : list Z) : remove_nth 0 l = tl l.
Proof. destruct l; reflexivity. Qed.

Lemma add_mail_spec c m : mwf c ->
  exists c', mailbox_add_mail c m = Ok c' /\ mwf c' /\
    c' = set_mail (c_mbox c') (c_nmail c') c /\
    mail_of c' = push_mail (c_mbsize c) (mail_of c) m.
Proof.
  intros W. pose proof (mail_of_length _ W) as ML. pose proof W as (L&SZ&M).
  unfold mailbox_add_mail, push_mail. rewrite ML.
  destruct (Z.leb_spec (c_mbsize c) (c_nmail c)) as [FU|NF].
  - destruct (remove_mail_spec c 0 W) as (c1&R&W1&E1&M1); [lia|].
    rewrite R. cbn [bind]. pose proof W1 as (L1&SZ1&B1).
    change (Z.to_nat 0) with 0%nat in M1.
    rewrite E1 in *. simpl c_mbox in *. simpl c_nmail in *. simpl c_mbsize in *.
    rewrite wr_ok by lia. cbn [bind].
    rewrite wrap_small by lia. eexists; split; [reflexivity|]. split; [|split].
    + unfold mwf; simpl. rewrite length_upd. lia.
    + reflexivity.
    + rewrite <- tl_remove_nth, <- M1. unfold mail_of. simpl.
      replace (Z.to_nat (c_nmail c - 1 + 1)) with (Datatypes.S (Z.to_nat (c_nmail c - 1))) by lia.
      apply firstn_S_upd. lia.
  - cbn [bind]. rewrite wr_ok by lia. cbn [bind]. rewrite wrap_small by lia.
    eexists; split; [reflexivity|]. split; [|split].
    + unfold mwf; simpl. rewrite length_upd. lia.
    + reflexivity.
    + unfold mail_of; simpl.
      replace (Z.to_nat (c_nmail c + 1)) with (Datatypes.S (Z.to_nat (c_nmail c))) by lia.
      apply firstn_S_upd. lia.
Qed.

Lemma copy_mail_spec src n : forall k fuel dst i,
  Z.of_nat i + Z.of_nat k = n -> n <= Z.of_nat (length src) -> n <= Z.of_nat (length dst) ->
  (k < fuel)%nat ->
  exists d, copy_mail fuel dst src (Z.of_nat i) n = Ok d /\ length d = length dst /\
    firstn (Z.to_nat n) d = firstn i dst ++ firstn k (skipn i src).
Proof.
  induction k as [|k IH]; intros fuel dst i HI HS HD HF; destruct fuel as [|fuel]; try lia.
  - simpl. destruct (Z.ltb_spec (Z.of_nat i) n); [lia|]. exists dst. rewrite app_nil_r.
    repeat split. f_equal; lia.
  - cbn [copy_mail]. destruct (Z.ltb_spec (Z.of_nat i) n); [|lia].
    destruct (nth_error src i) as [x|] eqn:EX.
    2:{ apply nth_error_None in EX. lia. }
    rewrite (rd_nth src (Z.of_nat i) x); [|lia|rewrite Nat2Z.id; exact EX].
    cbn [bind]. rewrite wr_ok by lia. cbn [bind]. rewrite Nat2Z.id.
    replace (Z.of_nat i + 1) with (Z.of_nat (S i)) by lia.
    destruct (IH fuel (upd dst i x) (S i)) as (d&R&LEN&FN); try lia.
    { rewrite length_upd. lia. }
    exists d. split; [exact R|]. rewrite length_upd in LEN. split; auto.
    rewrite FN, firstn_S_upd by lia. rewrite <- app_assoc. f_equal.
    assert (skipn i src = x :: skipn (S i) src) as ->.
    { clear - EX. revert src EX. induction i as [|i IHi]; intros [|h t] EX; simpl in *; try discriminate.
      - congruence.
      - apply IHi. exact EX. }
    reflexivity.
Qed.

Lemma change_size_spec c fresh : mwf c ->
  c_nmail c <= Z.of_nat (length fresh) -> 1 <= Z.of_nat (length fresh) < 2 ^ 32 ->
  exists c', mailbox_change_size c fresh = Ok c' /\ mwf c' /\
    c' = set_mbox (c_mbox c') (Z.of_nat (length fresh)) c /\ mail_of c' = mail_of c.
Proof.
  intros (L&SZ&M) F1 F2. unfold mailbox_change_size.
  destruct (copy_mail_spec (c_mbox c) (c_nmail c) (Z.to_nat (c_nmail c)) (Datatypes.S (length (c_mbox c)))
     fresh 0%nat) as (d&R&LEN&FN); try lia.
  change (Z.of_nat 0) with 0 in R. rewrite R. cbn [bind]. rewrite wrap_small by lia.
  eexists; split; [reflexivity|]. split; [|split].
  - unfold mwf; simpl. lia.
  - reflexivity.
  - unfold mail_of; simpl. rewrite FN. reflexivity.
Qed.
