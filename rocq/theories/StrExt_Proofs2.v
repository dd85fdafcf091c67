(* Lists of new strings. *)
From Verif Require Eq_Props.
From Verif Require Import Base Value_Model Heap_Model Value_Proofs Value_Proofs2 Value_Props Heap_Spec Heap_Proofs List_Proofs GC_Model Eq_Model Eq_Spec
  Flat_Model Flat_Spec Flat_Proofs Flat_Proofs2 Read_Model Read_Proofs2 Read_Proofs3 Match_Props Eval_Proofs ArrExt_Model ArrExt_Proofs StrExt_Model StrExt_Spec StrExt_Proofs.
Import List.
Local Open Scope Z_scope.

Section Arch.
Context {A : Arch} {L : Libc} {C : Conv} {Ch : Char}.

(* [r] is a list of the new strings [ss], made since the state [u0], [fl0] *)
Definition acc (u0 : ust) (fl0 : list Z) (u : ust) (fl : list Z) (r : Z) (ss : list (list Z)) : Prop :=
  incl fl fl0 /\ grows fl0 (uh u0) (uh u) /\ exists xs ps, list_on (uh u) r xs ps /\ Forall2 (den (nums ps ++ fl) (uh u)) xs (map str ss) /\
    Forall (fun p => is_cons_rw p = true) ps /\ off (nums ps) fl /\ incl (nums ps) fl0.
Lemma Forall2_impl {T U} (P Q : T -> U -> Prop) l l' : (forall x y, P x y -> Q x y) -> Forall2 P l l' -> Forall2 Q l l'.
Proof. intros H. induction 1; constructor; auto. Qed.
Lemma acc_nil u fl : acc u fl u fl NIL [].
Proof.
  split; [apply incl_refl|]. split; [apply grows_refl|]. exists [], []. rewrite NIL_0. split; [constructor|]. split; [constructor|]. split; [constructor|].
  split; [apply off_nil|intros x []].
Qed.
Lemma nums_ix ps i : Forall (fun p => is_cons_rw p = true) ps -> ~ In i (nums ps) -> forall p, In p ps -> f_ix p <> i.
Proof. intros _ N p P E. apply N. unfold nums. rewrite <- E. apply in_map. auto. Qed.

Lemma push_ok u0 fl0 u fl r ss n fill s : ready u fl -> acc u0 fl0 u fl r ss -> 0 < n -> fill (repeat 0 (Z.to_nat n)) = Ok (s ++ [0]) ->
  exists u1 tok, create_str u n fill = Ok (u1, tok) /\
   ((tok = MERROR /\ ~ ((1 <= length fl)%nat /\ (2 <= avail (up u))%nat) /\ heap_ok (uh u1) fl /\ incl fl fl0 /\ grows fl0 (uh u0) (uh u1)) \/
    (tok <> MERROR /\ exists h r', Heap_Model.cons (uh u1) tok r = Ok (h, r') /\
      ((r' = MERROR /\ length fl = 1%nat /\ heap_ok h [] /\ grows fl0 (uh u0) h) \/
       (exists fl', length fl = S (S (length fl')) /\ avail (up u) = S (S (avail (up u1))) /\ ready (set_h u1 h) fl' /\ acc u0 fl0 (set_h u1 h) fl' r' (s :: ss))))).
Proof.
  intros R (I0&G0&xs&ps&Lo&F2&Rw&Of&In0) Pn Fi. destruct (create_made u fl n fill (s ++ [0]) R Pn Fi) as (u1&tok&E&M). exists u1, tok. split; [exact E|].
  destruct M as [(i&fl1&->&R1&G1&Av&NM&D)|(No&->&OK&G1)].
  2:{ left. split; [auto|]. split; [auto|]. split; [auto|]. split; [auto|]. eapply grows_trans; [exact G0|]. exact (grows_incl _ _ _ _ I0 G1). }
  right. split; [exact NM|]. assert (G01 : grows fl0 (uh u0) (uh u1)) by (eapply grows_trans; [exact G0|exact (grows_incl _ _ _ _ I0 G1)]).
  destruct fl1 as [|j fl2].
  { exists (uh u1), MERROR. split; [apply alloc_cell_nil, R1|]. left. split; [auto|split; [auto|split; [apply R1|auto]]]. }
  destruct (cons_ok (uh u1) j fl2 tok r (r_heap _ _ R1)) as (h&Ec&OK&Ce&Sb&Sz&Cc&Mm&_&Rj). exists h, (enc_cons_ptr j). split; [exact Ec|]. right.
  exists fl2. split; [reflexivity|]. split; [exact Av|].
  assert (G1h : forall l, In j l -> grows l (uh u1) h).
  { intros l Hj. split; [eapply same_but_incl; [|exact Sb]; intros x [->|[]]; auto|]. split; [auto|]. intros a o Ma. rewrite Mm. auto. }
  assert (J0 : In j fl0) by (apply I0; right; left; auto).
  assert (NJ : ~ In j fl2) by (pose proof (ok_nodup _ _ (r_heap _ _ R1)) as X; inversion X; auto).
  split.
  { destruct R1 as [_ R12 R13]. constructor; cbn [uh up set_h]; auto; rewrite Mm; auto. }
  split; [intros x X; apply I0; right; right; auto|]. cbn [uh set_h]. split; [eapply grows_trans; [exact G01|apply G1h; auto]|].
  exists (tok :: xs), (enc_cons_ptr j :: ps).
  assert (Of1 : off (nums ps) (i :: j :: fl2)) by exact Of.
  split; [|split; [|split; [|split]]].
  - apply (list_on_cons_cell h j tok r); [exact Rj|exact Ce|]. eapply list_on_frame; eauto; [rewrite Cc; apply G1|]. intros p P Kp.
    assert (Np : In (f_ix p) (nums ps)) by (apply in_map; auto).
    rewrite Sb by (intros [Q|[]]; apply (Of _ Np); right; left; exact Q). destruct G1 as (S1&_). apply S1. intros X. eapply Of; eauto.
  - change (map str (s :: ss)) with (str s :: map str ss). cbn [nums map]. rewrite enc_ix by auto. change (map f_ix ps) with (nums ps). constructor.
    + apply (den_grows (nums ps ++ j :: fl2) (uh u1)); [apply G1h; apply in_or_app; right; left; auto| |apply D; auto].
      intros x [<-|X]; [apply in_or_app; right; left; auto|]. apply in_app_or in X. apply in_or_app. destruct X; [left; auto|right; right; auto].
    + eapply Forall2_impl; [|exact F2]. intros x t Dx.
      apply (den_grows (nums ps ++ j :: fl2) (uh u1)); [apply G1h; apply in_or_app; right; left; auto| |].
      { intros y [<-|X]; [apply in_or_app; right; left; auto|]. apply in_app_or in X. apply in_or_app. destruct X; [left; auto|right; right; auto]. }
      apply (den_grows (nums ps ++ i :: j :: fl2) (uh u)); auto.
      * eapply grows_incl; [|exact G1]. apply incl_appr, incl_refl.
      * apply incl_app_app; [apply incl_refl|apply incl_tl, incl_refl].
  - constructor; auto. apply enc_rw. auto.
  - cbn [nums map]. rewrite enc_ix by auto. intros x [<-|X] Y; [auto|]. eapply Of1; [exact X|right; right; auto].
  - cbn [nums map]. rewrite enc_ix by auto. intros x [<-|X]; auto.
Qed.

(* the value of such a list *)
Lemma list_on_den h fl xs ps ts : forall r, list_on h r xs ps -> Forall2 (den fl h) xs ts -> Forall (fun p => is_cons_rw p = true) ps -> off (nums ps) fl ->
  den fl h r (tlist ts).
Proof.
  intros r Lo. revert ts. induction Lo as [|p x q xs ps Wp Cp Rp Lo IH]; intros ts F2 Rw Of; inversion F2; subst; cbn [tlist fold_right].
  - assert (E : enc_sym 0 = 0) by exact NIL_0. rewrite <- E at 1. apply den_sym. lia.
  - inversion Rw as [|? ? Rp' Rw']; subst. pose proof Rp' as Ty. unfold is_cons_rw in Ty. apply Z.eqb_eq in Ty. assert (P : is_ptr p = true) by (unfold is_cons in Cp; apply andb_true_iff in Cp; tauto).
    eapply den_pair; eauto.
    + intros _ _ X. apply (Of (f_ix p)); [left; auto|exact X].
    + rewrite functional_ptr by auto. rewrite Ty. arch; reflexivity.
    + apply IH; auto. intros y0 Y0 Z0. eapply Of; [right; exact Y0|exact Z0].
Qed.
Lemma list_head_ok h r xs ps : list_on h r xs ps -> r <> MERROR.
Proof.
  intros Lo. inversion Lo as [E|p x q xs' ps' Wp Cp R L' E]; subst.
  - arch; discriminate.
  - intros ->. apply cons_not_symbol in Cp. revert Cp. arch; discriminate.
Qed.
Lemma acc_ok u0 fl0 u fl r ss : acc u0 fl0 u fl r ss -> r <> MERROR /\ den fl (uh u) r (tlist (map str ss)) /\ (forall w t, den fl0 (uh u0) w t -> den fl (uh u) w t).
Proof.
  intros (I0&G0&xs&ps&Lo&F2&Rw&Of&In0). split; [eapply list_head_ok; eauto|]. split.
  - eapply list_on_den; eauto. eapply Forall2_impl; [|exact F2]. intros x t D. apply (den_grows (nums ps ++ fl) (uh u)); auto; [apply grows_refl|apply incl_appr, incl_refl].
  - intros w t D. eapply den_grows; eauto.
Qed.
(* and reversed in place *)
Lemma acc_reverse u0 fl0 u fl r ss fuel : ready u fl -> acc u0 fl0 u fl r ss -> (length ss <= fuel)%nat ->
  exists h r', list_destructive_reverse fuel (uh u) r = Ok (h, r') /\ ready (set_h u h) fl /\ acc u0 fl0 (set_h u h) fl r' (rev ss).
Proof.
  intros R (I0&G0&xs&ps&Lo&F2&Rw&Of&In0) Lf. unfold list_destructive_reverse. destruct (type_of r =? TYPE_SYMBOL) eqn:Ty.
  - assert (xs = [] /\ ps = []) as (->&->).
    { inversion Lo as [|p x q xs' ps' Wp Cp]; subst; auto. apply cons_type in Cp. congruence. }
    destruct ss; [|inversion F2]. exists (uh u), r. split; [reflexivity|]. replace (set_h u (uh u)) with u by (destruct u; reflexivity). split; auto.
    split; [auto|]. split; [auto|]. exists [], []. repeat split; auto.
  - assert (Lx : length xs = length ss) by (clear - F2; apply Eq_Props.Forall2_length in F2; rewrite map_length in F2; auto).
    destruct (drev_loop_ok xs r ps (uh u) NIL [] [] fuel) as (h'&r'&E&L'&S'&Sz&Eh); auto; [lia|rewrite NIL_0; constructor|].
    rewrite app_nil_r in L'. rewrite app_nil_r in L'. exists h', r'. split; [exact E|].
    assert (Mm : mem h' = mem (uh u)) by (rewrite Eh; reflexivity). assert (Cc : ccells h' = ccells (uh u)) by (rewrite Eh; reflexivity).
    assert (Gr : forall l, incl (nums ps) l -> grows l (uh u) h').
    { intros l Il. split; [eapply same_but_incl; [exact Il|exact S']|]. split; [auto|]. intros a o. rewrite Mm. auto. }
    split.
    + destruct R as [[H1 H2 H3 H4] R2 R3]. constructor; cbn [uh up set_h]; try (rewrite Mm; auto).
      constructor; auto; [rewrite Sz; auto| |].
      * replace (freelist h') with (freelist (uh u)) by (rewrite Eh; reflexivity). eapply chain_frame; eauto. intros i Ii. apply S'. intros X. exact (Of i X Ii).
      * rewrite Sz. rewrite Eh. exact H4.
    + split; [auto|]. cbn [uh set_h]. split; [eapply grows_trans; [exact G0|apply Gr; auto]|]. exists (rev xs), (rev ps). split; [auto|].
      assert (Nr : nums (rev ps) = rev (nums ps)) by apply map_rev. rewrite Nr. split; [|split; [|split]].
      * rewrite map_rev. assert (F : Forall2 (den (nums ps ++ fl) h') xs (map str ss)).
        { eapply Forall2_impl; [|exact F2]. intros x t D. apply (den_grows (nums ps ++ fl) (uh u)); auto; [|apply incl_refl]. apply Gr. apply incl_appl, incl_refl. }
        assert (F' : Forall2 (den (rev (nums ps) ++ fl) h') xs (map str ss)).
        { eapply Forall2_impl; [|exact F]. intros x t D. apply (den_grows (nums ps ++ fl) h'); auto; [apply grows_refl|]. intros y Y. apply in_app_or in Y. apply in_or_app. destruct Y as [Y|Y]; [left; apply in_rev; auto|auto]. }
        clear - F'. induction F' as [|x t xs ts D F IH]; [constructor|]. cbn [rev]. apply Forall2_app; auto.
      * apply Forall_rev. auto.
      * intros x X Y. apply (Of x); auto. apply in_rev. auto.
      * intros x X. apply In0. apply in_rev. auto.
Qed.

(* ---- how a loop ends that adds [k] strings ---- *)
Definition final (u0 : ust) (fl0 : list Z) (u : ust) (fl : list Z) (k : nat) (ss : list (list Z)) (u' : ust) (r : Z) : Prop :=
  ((2 * k <= length fl)%nat /\ (2 * k <= avail (up u))%nat /\ exists fl', ready u' fl' /\ acc u0 fl0 u' fl' r ss) \/
  (~ ((2 * k <= length fl)%nat /\ (2 * k <= avail (up u))%nat) /\ r = MERROR /\ exists fl', incl fl' fl0 /\ heap_ok (uh u') fl' /\ grows fl0 (uh u0) (uh u')).
Lemma final_outcome u fl k ss u' r : final u fl u fl k ss u' r -> outcome (2 * k) (2 * k) u fl (tlist (map str ss)) u' r.
Proof.
  intros [(H1&H2&fl'&R&Ac)|(No&->&fl'&I&OK&G)]; exists fl'.
  - destruct (acc_ok _ _ _ _ _ _ Ac) as (_&D&K). split; [apply Ac|]. split; [apply R|]. split; [exact K|]. left. auto.
  - split; [auto|]. split; [auto|]. split; [intros; eapply den_grows; eauto|]. right. auto.
Qed.
End Arch.
