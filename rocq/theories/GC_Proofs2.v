(* One round of the marking loop keeps the invariant; the loop; roots; environments. *)
From Verif Require Import Base Value_Model Heap_Model Value_Proofs Value_Proofs2 Heap_Spec Heap_Proofs GC_Model GC_Spec GC_Proofs.
Local Open Scope Z_scope.

Section Arch.
Context {A : Arch}.

(* what marking leaves alone *)
Definition gframe (h h' : heap) : Prop :=
  ccells h' = ccells h /\ freelist h' = freelist h /\ num_alloc h' = num_alloc h /\ freed h' = freed h /\
  gc_recovered h' = gc_recovered h /\ gc_recovered_arrays h' = gc_recovered_arrays h /\ gsize h' = gsize h.

Lemma gframe_refl h : gframe h h. Proof. repeat split. Qed.
Lemma gframe_trans a b c : gframe a b -> gframe b c -> gframe a c.
Proof. unfold gframe. intuition congruence. Qed.

Definition pcl (n : next) : list Z := match n with NGo w => [w] | _ => [] end.

Definition stack_ok (h : heap) : Prop := Z.of_nat (length (gstack h)) <= gsize h /\ 1 <= gsize h.

Lemma lisp_not_chan : TYPE_LISPARRAY <> TYPE_CHANNEL. Proof. arch; discriminate. Qed.
Lemma lisp_not_cons : TYPE_LISPARRAY <> TYPE_CONS. Proof. arch; discriminate. Qed.
Lemma chan_not_cons : TYPE_CHANNEL <> TYPE_CONS. Proof. arch; discriminate. Qed.
Lemma WB_pos : 0 < WB. Proof. arch; lia. Qed.

Lemma size_minus n : 0 < n < 2 ^ 32 -> wrap W (WB * n / WB - 1) = n - 1.
Proof.
  intros H. rewrite Z.mul_comm, Z.div_mul by (pose proof WB_pos; lia). apply wrap_small.
  assert (2 ^ 32 <= 2 ^ W) by (apply Z.pow_le_mono_r; arch; lia). lia.
Qed.

(* a word with the mark bit set is the same pointer *)
Lemma set_mark_ptr d : word d -> is_ptr (set_gc_mark d) = is_ptr d /\ is_const_ptr (set_gc_mark d) = is_const_ptr d /\
  f_ix (set_gc_mark d) = f_ix d /\ (is_ptr d = true -> type_of (set_gc_mark d) = type_of d).
Proof.
  intros Wd. destruct (set_mark_fields d Wd) as (Ws&T&I&G&P). rewrite !is_ptr_f, !is_const_f, P, T. repeat split; auto.
  intros Pd. rewrite !type_of_ptr; auto; [congruence| |]; rewrite is_ptr_f, ?P; auto.
Qed.

Lemma heap_ptr_set d : word d -> heap_ptr (set_gc_mark d) <-> heap_ptr d.
Proof. intros Wd. destruct (set_mark_ptr d Wd) as (E1&E2&_). unfold heap_ptr. rewrite E1, E2. tauto. Qed.

Lemma rd_nth_error {T} (l : list T) k x : nth_error l k = Some x -> rd l (Z.of_nat k) = Ok x.
Proof. intros H. apply rd_nth; [lia|]. rewrite Nat2Z.id. auto. Qed.

(* pushing *)
Lemma gpush_none h v : stack_ok h -> gpush h v = None -> gstack h <> [].
Proof.
  intros [L G] H E. unfold gpush in H. rewrite E in H. cbn [length] in H. change (Z.of_nat 0) with 0 in H.
  destruct (Z.eqb_spec 0 (gsize h)); [lia|discriminate].
Qed.


Section Mark.
Variable h0 : heap.
Variable root : Z -> Prop.
Hypothesis RDY : gc_ready h0 root.
Notation R := (reach h0 root).
Notation Inv := (Inv h0 root).

Lemma rlike_reach w : R w -> rlike h0 root w.
Proof. intros. exists w. auto. Qed.

(* no push was lost on the way; without lisp arrays none can be *)
Definition nolost (h h' : heap) : Prop :=
  (lost h' = false -> lost h = false) /\ ((forall w, R w -> type_of w <> TYPE_LISPARRAY) -> lost h' = lost h).
Lemma nolost_refl h h' : lost h' = lost h -> nolost h h'.
Proof. intros E. split; intros; congruence. Qed.
Lemma nolost_trans a b c : nolost a b -> nolost b c -> nolost a c.
Proof. intros [A1 A2] [B1 B2]. split; auto. intros N. rewrite B2, A2; auto. Qed.

(* changing the progress index of an array *)
Lemma inv_index K h S P w a d data elts k k' : Inv K h S P -> R w -> type_of w = TYPE_LISPARRAY ->
  cell h0 (f_ix w) = Some (a, d) -> mem h0 a = Some (OLisp data (WB * Z.of_nat (length elts)) elts 0) ->
  mem h a = Some (OLisp data (WB * Z.of_nat (length elts)) elts (Z.of_nat k)) ->
  (k' < length elts)%nat -> Z.of_nat (length elts) < 2 ^ 32 ->
  (forall j e, (j < k')%nat -> nth_error elts j = Some e -> is_followed e = true -> marked h (f_ix e)) ->
  (k' <> 0%nat -> ~ marked h (f_ix w)) ->
  (lost h = false -> k' <> 0%nat -> exists p, In p S /\ heap_ptr p /\ f_ix p = f_ix w) ->
  Inv K (set_obj h a (Some (OLisp data (WB * Z.of_nat (length elts)) elts (Z.of_nat k')))) S P.
Proof.
  intros [i1 i2 i3 i4 i5 i6 ik i7] Rw T C M0 M Kl L D Zk Zs.
  constructor; auto.
  - intros x. simpl. destruct (Z.eqb_spec x a) as [->|]; auto. right. exists w, d. eauto 10.
  - intros v a' d' Rv Tv Cv. simpl.
    destruct (Z.eqb_spec a' a) as [->|].
    + pose proof (gr_array1 _ _ RDY w v _ _ _ Rw Rv T Tv C Cv) as E.
      exists data, elts, k'. rewrite <- E. repeat (split; auto).
    + destruct (i7 v a' d' Rv Tv Cv) as (data'&elts'&k2&H). eauto.
Qed.

Lemma body_inv K h c P : Inv K h (c :: gstack h) P -> stack_ok h ->
  exists h' nx, mark_body h c = Ok (h', nx) /\ stack_ok h' /\ gframe h h' /\
    nolost h h' /\
    (nx = NCrit \/ Inv K h' (pcl nx ++ gstack h') P).
Proof.
  intros I SO. unfold mark_body.
  destruct (negb (is_ptr c) || is_const_ptr c) eqn:HP.
  { exists h, NPop. split; auto. split; auto. split; [apply gframe_refl|]. split; [apply nolost_refl; reflexivity|]. right. simpl.
    assert (NH : ~ heap_ptr c).
    { intros [H1 H2]. rewrite H1, H2 in HP. discriminate. }
    eapply inv_weaken; eauto.
    - intros _ p [<-|Ip] Hp; [tauto|auto].
    - intros _ p Ip _ _. apply in_or_app; auto.
    - intros p Ip Hp. apply (iv_pend _ _ _ _ _ _ I); auto. right; auto. }
  apply orb_false_iff in HP as [HP1 HP2]. apply negb_false_iff in HP1.
  assert (Hc : heap_ptr c) by (split; auto).
  destruct (iv_pend _ _ _ _ _ _ I c) as (w&Rw&Ix&Ty); [left; auto|auto|].
  destruct (gr_in _ _ RDY w Rw) as [Ww Lw].
  rewrite dec_ptr_f. destruct (cell_some h (f_ix c)) as (cc&C).
  { rewrite (iv_size _ _ _ _ _ _ I). pose proof (f_ix_range c). lia. }
  rewrite rd_cell, C. cbn [bind].
  destruct (get_gc_mark (snd cc)) eqn:GM.
  { exists h, NPop. split; auto. split; auto. split; [apply gframe_refl|]. split; [apply nolost_refl; reflexivity|]. right. simpl.
    assert (M : marked h (f_ix c)) by (eapply marked_dec; eauto).
    eapply inv_weaken; eauto.
    - intros _ p [<-|Ip] Hp Nm; [tauto|auto].
    - intros _ p Ip _ _. apply in_or_app; auto.
    - intros p Ip Hp. apply (iv_pend _ _ _ _ _ _ I); auto. right; auto. }
  pose proof (inv_unmarked h0 root RDY _ _ _ _ _ _ I C GM) as C0. destruct cc as [a d]. cbn [fst snd] in *.
  destruct (gr_cdr _ _ RDY _ _ _ C0) as [Wd Gd].
  assert (NM : ~ marked h (f_ix c)).
  { rewrite (marked_dec _ _ _ C). simpl. congruence. }
  assert (Rng : 0 <= f_ix c) by (pose proof (f_ix_range c); lia).
  rewrite <- Ix in C, C0, NM.
  destruct (Z.eqb_spec (type_of c) TYPE_LISPARRAY) as [T|NT].
  - (* lisp array *)
    destruct (iv_arr _ _ _ _ _ _ I w a d Rw ltac:(congruence) C0) as (data&elts&k&M0&M&Kl&L32&D&Zk&Zs).
    set (h1 := gpush_ignored h c).
    assert (E1 : cells h1 = cells h /\ mem h1 = mem h /\ gframe h h1 /\ stack_ok h1 /\ (lost h1 = false -> lost h = false) /\
                 (lost h1 = false -> gstack h1 = c :: gstack h) /\ gstack h1 <> [] /\ incl (gstack h1) (c :: gstack h)).
    { unfold h1, gpush_ignored. destruct (gpush h c) as [h2|] eqn:Gp.
      - unfold gpush in Gp. destruct (Z.eqb_spec (Z.of_nat (length (gstack h))) (gsize h)); [discriminate|].
        injection Gp as <-. destruct SO. simpl. repeat split; auto; simpl; try lia; try discriminate. apply incl_refl.
      - pose proof (gpush_none _ _ SO Gp). destruct SO. simpl. repeat split; auto; try discriminate. apply incl_tl, incl_refl. }
    destruct E1 as (Ec&Em&Fr&SO1&Lo&St&Ne&Inc). clearbody h1.
    assert (LN : nolost h h1) by (split; [exact Lo|]; intros NA; exfalso; apply (NA w Rw); congruence).
    rewrite Em, M. destruct (nth_error elts k) as [e|] eqn:Ek; [|apply nth_error_None in Ek; lia].
    rewrite (rd_nth_error _ _ _ Ek). cbn [bind].
    assert (HC : forall i, cell h1 i = cell h i) by (intros; unfold cell; rewrite Ec; auto).
    assert (HM : forall i, marked h1 i <-> marked h i) by (intros; unfold marked; rewrite HC; tauto).
    assert (I1 : Inv K h1 (c :: gstack h) P) by (eapply inv_ext; eauto).
    assert (Re : is_followed e = true -> R e).
    { intros Fe. apply followed_spec in Fe as [He Nc]. eapply reach_step; eauto.
      eapply pt_elt; eauto; [congruence|]. eapply nth_error_In; eauto. }
    assert (FOL : exists b, (if is_followed e then let! ec := rd (cells h1) (dec_ptr e) in Ok (negb (get_gc_mark (snd ec))) else Ok false) = Ok b /\
       (if b : bool then is_followed e = true else is_followed e = true -> marked h (f_ix e))).
    { destruct (is_followed e) eqn:Fe; [|exists false; split; auto; discriminate].
      destruct (gr_in _ _ RDY e (Re eq_refl)) as [_ Le].
      destruct (cell_some h (f_ix e)) as (ce&Ce). { rewrite (iv_size _ _ _ _ _ _ I). pose proof (f_ix_range e). lia. }
      rewrite dec_ptr_f, rd_cell, HC, Ce. cbn [bind]. eexists. split; [reflexivity|].
      destruct (get_gc_mark (snd ce)) eqn:Gce; simpl; auto. intros _. apply (marked_dec _ _ _ Ce). auto. }
    destruct FOL as (b&->&HB). cbn [bind].
    assert (D' : forall j e', (j < Datatypes.S k)%nat -> nth_error elts j = Some e' -> b = false -> is_followed e' = true -> marked h1 (f_ix e')).
    { intros j e' Hj He' -> Fe'. apply HM. destruct (Nat.eq_dec j k) as [->|].
      - rewrite Ek in He'. injection He' as ->. auto.
      - eapply (D j); eauto. lia. }
    assert (PD : forall p, In p (gstack h1 ++ P) -> heap_ptr p -> rlike h0 root p).
    { intros p Ip Hp. apply (iv_pend _ _ _ _ _ _ I); auto. apply in_app_or in Ip as [Ip|Ip]; apply in_or_app; auto. }
    destruct b.
    + exists h1, (NGo e). split; auto. split; auto. split; auto. split; [exact LN|]. right. simpl.
      eapply inv_weaken; eauto.
      * intros NL p Ip Hp _. right. rewrite St; auto.
      * intros NL p Ip _ _. right. apply in_or_app; auto.
      * intros p [<-|Ip] Hp; [apply rlike_reach; auto|auto].
    + rewrite size_minus by lia.
      destruct (Z.ltb_spec (Z.of_nat k) (Z.of_nat (length elts) - 1)).
      * (* index++ *)
        rewrite wrap_small by lia. replace (Z.of_nat k + 1) with (Z.of_nat (Datatypes.S k)) by lia.
        eexists _, NPop. split; [reflexivity|]. split; [exact SO1|]. split; [exact Fr|]. split; [exact LN|]. right.
        simpl gstack. simpl pcl. simpl app.
        eapply inv_index with (w := w) (k := k); eauto; try congruence; try lia.
        -- eapply inv_weaken; eauto.
           ++ intros NL p Ip Hp _. rewrite St; auto.
           ++ intros NL p Ip _ _. apply in_or_app; auto.
        -- intros _. rewrite HM; auto.
        -- intros NL _. exists c. rewrite St by auto. split; [left; auto|auto].
      * (* done *)
        set (h2 := set_obj h1 a (Some (OLisp data (WB * Z.of_nat (length elts)) elts 0))).
        assert (I2 : Inv K h2 (c :: gstack h) P).
        { eapply inv_index with (w := w) (k := k) (k' := 0%nat); eauto; try congruence; try lia. }
        assert (C2 : cell h2 (f_ix w) = Some (a, d)) by (change (cell h2 (f_ix w)) with (cell h1 (f_ix w)); rewrite HC; auto).
        rewrite <- Ix. rewrite (mark_cell_ok _ _ _ C2). cbn [bind].
        unfold gpop, inc_marked, mk. simpl gstack.
        destruct (gstack h1) as [|top rest] eqn:Eg; [congruence|]. cbn [bind fst].
        eexists _, NPop. split; [reflexivity|].
        split. { destruct SO1 as [s1 s2]. rewrite Eg in s1. simpl in s1. split; simpl; lia. }
        split; [exact Fr|]. split; [exact LN|]. right.
        eapply inv_ext with (h := mk h2 (f_ix w) (a, d)); [|reflexivity|reflexivity|auto].
        simpl pcl. simpl app. eapply inv_mark; eauto.
        -- intros NL p Ip Hp Np. change (lost h1 = false) in NL. specialize (St NL). injection St as -> ->.
           simpl. destruct Ip as [<-|Ip]; [congruence|auto].
        -- intros _ p Ip _ _. simpl. apply in_or_app; auto.
        -- intros p Ip Hp. apply PD; auto. right; auto.
        -- intros s Pt Hs. left. change (marked h2 (f_ix s)) with (marked h1 (f_ix s)).
           pose proof lisp_not_cons. pose proof lisp_not_chan.
           inversion Pt; subst; try congruence.
           rewrite C0 in *. match goal with H : Some _ = Some (_, _) |- _ => injection H as <- <- end.
           rewrite M0 in *. match goal with H : Some _ = Some (OLisp _ _ _ _) |- _ => injection H as <- <- <- <- end.
           match goal with H : In s elts |- _ => apply In_nth_error in H as (j&Hj) end.
           assert (j < length elts)%nat by (apply nth_error_Some; congruence).
           eapply (D' j); eauto; [lia|]. apply followed_spec. auto.
        -- intros _ data' size' elts' k' Hm. simpl in Hm. rewrite Z.eqb_refl in Hm. congruence.
  - assert (NA : type_of w <> TYPE_LISPARRAY) by congruence.
    rewrite <- Ix, (mark_cell_ok _ _ _ C).
    destruct (Z.eqb_spec (type_of c) TYPE_CHANNEL) as [T|NT2].
    + (* channel *)
      cbn [bind]. rewrite NIL_0. destruct (Z.eqb_spec a 0) as [->|Na]; cbn [negb].
      * eexists _, NPop. split; [reflexivity|]. split; [exact SO|]. split; [repeat split|]. split; [apply nolost_refl; reflexivity|]. right.
        eapply inv_ext with (h := mk h (f_ix w) (0, d)); [|reflexivity|reflexivity|auto].
        simpl. eapply inv_mark; eauto.
        -- intros _ p [<-|Ip] Hp Np; [congruence|auto].
        -- intros _ p Ip _ _. apply in_or_app; auto.
        -- intros p Ip Hp. apply (iv_pend _ _ _ _ _ _ I); auto. right; auto.
        -- intros s Pt Hs. exfalso. inversion Pt; subst; try congruence; try (pose proof chan_not_cons; congruence).
        -- intros; congruence.
      * destruct (gr_chan _ _ RDY w a d Rw ltac:(congruence) C0 Na) as (st&dep&M0).
        assert (M : mem (inc_marked (mk h (f_ix w) (a, d))) a = Some (OChan st dep)).
        { simpl. destruct (iv_mem _ _ _ _ _ _ I a) as [->|(?&?&?&?&?&?&?&_&_&_&Y&_)]; auto. congruence. }
        rewrite M.
        assert (Pd : points h0 w dep) by (eapply pt_dep; eauto; congruence).
        eexists _, (NGo dep). split; [reflexivity|]. split; [exact SO|]. split; [repeat split|]. split; [apply nolost_refl; reflexivity|]. right.
        eapply inv_ext with (h := mk h (f_ix w) (a, d)); [|reflexivity|reflexivity|auto].
        simpl. eapply inv_mark; eauto.
        -- intros _ p [<-|Ip] Hp Np; [congruence|right; auto].
        -- intros _ p Ip _ _. apply in_or_app; auto.
        -- intros p [<-|Ip] Hp; [apply rlike_reach; eapply reach_step; eauto|]. apply (iv_pend _ _ _ _ _ _ I); auto. right; auto.
        -- intros s Pt Hs. right; right. exists s. split; auto.
           inversion Pt; subst; try congruence; try (pose proof chan_not_cons; congruence).
           rewrite C0 in *. match goal with H : Some _ = Some (_, _) |- _ => injection H as <- <- end. left; congruence.
        -- intros; congruence.
    + cbn [bind]. destruct (Z.eqb_spec (type_of c) TYPE_CONS) as [T|NT3].
      * (* cons *)
        assert (Pa : points h0 w a) by (eapply pt_car; eauto; congruence).
        assert (Pd : points h0 w d) by (eapply pt_cdr; eauto; congruence).
        assert (SUC : forall s, points h0 w s -> s = a \/ s = d).
        { intros s Pt. inversion Pt; subst; try congruence;
            rewrite C0 in *; match goal with H : Some _ = Some (_, _) |- _ => injection H as <- <- end; auto. }
        destruct (set_mark_ptr d Wd) as (E1&E2&E3&E4).
        destruct (is_ptr d) eqn:Pt.
        -- destruct (gpush (inc_marked (mk h (f_ix w) (a, d))) (set_gc_mark d)) as [h3|] eqn:Gp.
           ++ unfold gpush in Gp. destruct (Z.eqb_spec (Z.of_nat (length (gstack (inc_marked (mk h (f_ix w) (a, d)))))) (gsize (inc_marked (mk h (f_ix w) (a, d))))) as [|Ns]; [discriminate|].
              injection Gp as <-. eexists _, (NGo a). split; [reflexivity|].
              split. { destruct SO as [s1 s2]. simpl in Ns. split; simpl; lia. }
              split; [repeat split|]. split; [apply nolost_refl; reflexivity|]. right.
              eapply inv_ext with (h := mk h (f_ix w) (a, d)); [|reflexivity|reflexivity|auto].
              simpl. eapply inv_mark; eauto.
              ** intros _ p [<-|Ip] Hp Np; [congruence|right; right; auto].
              ** intros _ p Ip _ _. simpl. right; right. apply in_or_app; auto.
              ** intros p [<-|[<-|Ip]] Hp.
                 --- apply rlike_reach; eapply reach_step; eauto.
                 --- rewrite heap_ptr_set in Hp by auto. exists d. split; [eapply reach_step; eauto|]. split; auto.
                     symmetry; apply E4; auto.
                 --- apply (iv_pend _ _ _ _ _ _ I); auto. right; auto.
              ** intros s Ps Hs. right; right. destruct (SUC s Ps) as [->| ->].
                 --- exists a. simpl; auto.
                 --- exists (set_gc_mark d). rewrite heap_ptr_set by auto. simpl; auto.
              ** intros; congruence.
           ++ eexists _, NCrit. split; [reflexivity|]. split; [exact SO|]. split; [repeat split|]. split; [apply nolost_refl; reflexivity|auto].
        -- eexists _, (NGo a). split; [reflexivity|]. split; [exact SO|]. split; [repeat split|]. split; [apply nolost_refl; reflexivity|]. right.
           eapply inv_ext with (h := mk h (f_ix w) (a, d)); [|reflexivity|reflexivity|auto].
           simpl. eapply inv_mark; eauto.
           ++ intros _ p [<-|Ip] Hp Np; [congruence|right; auto].
           ++ intros _ p Ip _ _. simpl. right. apply in_or_app; auto.
           ++ intros p [<-|Ip] Hp; [apply rlike_reach; eapply reach_step; eauto|]. apply (iv_pend _ _ _ _ _ _ I); auto. right; auto.
           ++ intros s Ps Hs. destruct (SUC s Ps) as [->| ->].
              ** right; right. exists a. simpl; auto.
              ** destruct Hs as [Hs _]. congruence.
           ++ intros; congruence.
      * (* anything else *)
        eexists _, NPop. split; [reflexivity|]. split; [exact SO|]. split; [repeat split|]. split; [apply nolost_refl; reflexivity|]. right.
        eapply inv_ext with (h := mk h (f_ix w) (a, d)); [|reflexivity|reflexivity|auto].
        simpl. eapply inv_mark; eauto.
        -- intros _ p [<-|Ip] Hp Np; [congruence|auto].
        -- intros _ p Ip _ _. apply in_or_app; auto.
        -- intros p Ip Hp. apply (iv_pend _ _ _ _ _ _ I); auto. right; auto.
        -- intros s Pt Hs. exfalso. inversion Pt; subst; congruence.
        -- intros; congruence.
Qed.

End Mark.
End Arch.
