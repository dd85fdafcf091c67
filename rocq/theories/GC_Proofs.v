(* The marking invariant. *)
From Verif Require Import Base Value_Model Heap_Model Value_Proofs Value_Proofs2 Heap_Spec Heap_Proofs GC_Model GC_Spec.
Local Open Scope Z_scope.

Section Arch.
Context {A : Arch}.

Section Mark.
Variable h0 : heap.
Variable root : Z -> Prop.
Hypothesis RDY : gc_ready h0 root.

Notation R := (reach h0 root).

Definition marked (h : heap) (i : Z) : Prop := exists a d, cell h i = Some (a, d) /\ get_gc_mark d = true.

Lemma followed_spec e : is_followed e = true <-> heap_ptr e /\ ~ cont_value e.
Proof.
  unfold is_followed, heap_ptr, cont_value. destruct (is_ptr e), (is_const_ptr e);
  destruct (Z.eqb_spec (Z.land e CONTINUATION_INTERNAL) CONTINUATION_INTERNAL); simpl; intuition discriminate.
Qed.

(* p refers to the same cell, at the same type, as some reachable word *)
Definition rlike (p : Z) : Prop := exists w, R w /\ f_ix w = f_ix p /\ type_of w = type_of p.

(* S: the GC stack and the current word; P: pending, to be visited later;
   K: words that must end up marked *)
Record Inv (K : list Z) (h : heap) (S P : list Z) : Prop := {
  iv_size : hsize h = hsize h0;
  iv_cells : forall i a d, cell h0 i = Some (a, d) -> cell h i = Some (a, d) \/ cell h i = Some (a, set_gc_mark d);
  iv_mem : forall x, mem h x = mem h0 x \/
     exists w d data size elts k k0, R w /\ type_of w = TYPE_LISPARRAY /\ cell h0 (f_ix w) = Some (x, d) /\
       mem h0 x = Some (OLisp data size elts k0) /\ mem h x = Some (OLisp data size elts k);
  iv_sound : forall i, marked h i -> live h0 root i;
  iv_pend : forall p, In p (S ++ P) -> heap_ptr p -> rlike p;
  iv_black : lost h = false -> forall w s, R w -> marked h (f_ix w) -> points h0 w s -> heap_ptr s ->
     marked h (f_ix s) \/ exists p, In p (S ++ P) /\ heap_ptr p /\ f_ix p = f_ix s;
  iv_keep : lost h = false -> forall s, In s K -> heap_ptr s ->
     R s /\ (marked h (f_ix s) \/ exists p, In p (S ++ P) /\ heap_ptr p /\ f_ix p = f_ix s);
  iv_arr : forall w a d, R w -> type_of w = TYPE_LISPARRAY -> cell h0 (f_ix w) = Some (a, d) ->
     exists data elts k, mem h0 a = Some (OLisp data (WB * Z.of_nat (length elts)) elts 0) /\
       mem h a = Some (OLisp data (WB * Z.of_nat (length elts)) elts (Z.of_nat k)) /\
       (k < length elts)%nat /\ Z.of_nat (length elts) < 2 ^ 32 /\
       (forall j e, (j < k)%nat -> nth_error elts j = Some e -> is_followed e = true -> marked h (f_ix e)) /\
       (k <> 0%nat -> ~ marked h (f_ix w)) /\
       (lost h = false -> k <> 0%nat -> exists p, In p S /\ heap_ptr p /\ f_ix p = f_ix w)
}.

Lemma inv_cell K h S P i c : Inv K h S P -> cell h i = Some c ->
  exists d, cell h0 i = Some (fst c, d) /\ word d /\ f_gc d = 0 /\
    ((snd c = d /\ get_gc_mark (snd c) = false) \/ (snd c = set_gc_mark d /\ get_gc_mark (snd c) = true)).
Proof.
  intros I C. destruct (cell_some h0 i) as ([a d]&C0).
  { rewrite <- (iv_size _ _ _ _ I). eapply cell_range; eauto. }
  destruct (gr_cdr _ _ RDY _ _ _ C0) as [Wd G].
  exists d. destruct (iv_cells _ _ _ _ I _ _ _ C0) as [E|E]; rewrite E in C; injection C as <-; simpl.
  - split; auto. split; auto. split; auto. left. split; auto. rewrite get_mark_f, G. reflexivity.
  - split; auto. split; auto. split; auto. right. split; auto. rewrite get_mark_f.
    destruct (set_mark_fields d Wd) as (_&_&_&->&_). reflexivity.
Qed.

Lemma inv_unmarked K h S P i c : Inv K h S P -> cell h i = Some c -> get_gc_mark (snd c) = false -> cell h0 i = Some c.
Proof.
  intros I C M. destruct (inv_cell _ _ _ _ _ _ I C) as (d&C0&_&_&[[E _]|[_ E]]); [|congruence].
  rewrite C0, <- E. destruct c; reflexivity.
Qed.

Lemma marked_dec h i c : cell h i = Some c -> marked h i <-> get_gc_mark (snd c) = true.
Proof.
  intros C. split.
  - intros (a&d&C'&M). rewrite C in C'. injection C' as ->. auto.
  - intros M. destruct c as [a d]. exists a, d. auto.
Qed.

Definition mk (h : heap) (i : Z) (c : Z * Z) : heap := hput h i (fst c, set_gc_mark (snd c)).

Lemma mark_cell_ok h i c : cell h i = Some c -> mark_cell h i = Ok (mk h i c).
Proof. intros C. unfold mark_cell. rewrite rd_cell, C. cbn [bind]. rewrite wr_cell, C. reflexivity. Qed.

Lemma get_set d : word d -> get_gc_mark (set_gc_mark d) = true.
Proof. intros Wd. rewrite get_mark_f. destruct (set_mark_fields d Wd) as (_&_&_&->&_). reflexivity. Qed.

Lemma marked_mk K h S P i c j : Inv K h S P -> cell h i = Some c -> marked (mk h i c) j <-> marked h j \/ j = i.
Proof.
  intros I C. pose proof (cell_range _ _ _ C) as Rg. unfold mk. split.
  - intros (a&d&C'&M). destruct (Z.eq_dec j i) as [->|N]; auto. left.
    rewrite cell_hput_neq in C' by lia. exists a, d. auto.
  - intros [(a&d&C'&M)| ->].
    + destruct (Z.eq_dec j i) as [->|N].
      * exists (fst c), (set_gc_mark (snd c)). rewrite (cell_hput_eq _ _ _ _ C). split; auto.
        destruct (inv_cell _ _ _ _ _ _ I C) as (d0&_&Wd&_&[[-> _]|[-> _]]).
        -- apply get_set; auto.
        -- rewrite set_set by auto. apply get_set; auto.
      * exists a, d. rewrite cell_hput_neq by lia. auto.
    + exists (fst c), (set_gc_mark (snd c)). rewrite (cell_hput_eq _ _ _ _ C). split; auto.
      destruct (inv_cell _ _ _ _ _ _ I C) as (d0&_&Wd&_&[[-> _]|[-> _]]).
      * apply get_set; auto.
      * rewrite set_set by auto. apply get_set; auto.
Qed.

(* Marking the cell of reachable w, and taking w off the pending lists, its
   contents being marked or pending.  If w is an array its index must be 0. *)
Lemma inv_mark K h S P S' P' w c : Inv K h S P -> R w -> cell h (f_ix w) = Some c ->
  (lost h = false -> forall p, In p S -> heap_ptr p -> f_ix p <> f_ix w -> In p S') ->
  (lost h = false -> forall p, In p P -> heap_ptr p -> f_ix p <> f_ix w -> In p (S' ++ P')) ->
  (forall p, In p (S' ++ P') -> heap_ptr p -> rlike p) ->
  (forall s, points h0 w s -> heap_ptr s ->
     marked h (f_ix s) \/ f_ix s = f_ix w \/ exists p, In p (S' ++ P') /\ heap_ptr p /\ f_ix p = f_ix s) ->
  (type_of w = TYPE_LISPARRAY -> forall data size elts k, mem h (fst c) = Some (OLisp data size elts k) -> k = 0) ->
  Inv K (mk h (f_ix w) c) S' P'.
Proof.
  intros I Rw C KS KP NP SU AR. pose proof (cell_range _ _ _ C) as Rg.
  pose proof (fun j => marked_mk _ _ _ _ _ _ j I C) as MM.
  assert (KA : lost h = false -> forall p, In p (S ++ P) -> heap_ptr p -> f_ix p <> f_ix w -> In p (S' ++ P')).
  { intros NL p Ip Hp Np. apply in_app_or in Ip as [Ip|Ip]; auto. apply in_or_app; left; auto. }
  constructor.
  - unfold mk. rewrite hput_size. apply (iv_size _ _ _ _ I).
  - intros i a d C0. unfold mk. destruct (Z.eq_dec i (f_ix w)) as [->|N].
    + rewrite (cell_hput_eq _ _ _ _ C). right. destruct (inv_cell _ _ _ _ _ _ I C) as (d0&C0'&Wd&_&D).
      rewrite C0 in C0'. injection C0' as -> <-. destruct D as [[-> _]|[-> _]]; auto. rewrite set_set by auto. auto.
    + rewrite cell_hput_neq by lia. apply (iv_cells _ _ _ _ I); auto.
  - apply (iv_mem _ _ _ _ I).
  - intros i M. apply MM in M as [M| ->]; [apply (iv_sound _ _ _ _ I); auto|]. exists w. auto.
  - auto.
  - intros NL v s Rv M Pt Hs. specialize (KA NL).
    apply MM in M as [M|E].
    + destruct (iv_black _ _ _ _ I NL v s Rv M Pt Hs) as [Ms|(p&Ip&Hp&Ep)]; [left; apply MM; auto|].
      destruct (Z.eq_dec (f_ix s) (f_ix w)) as [Es|Ns]; [left; apply MM; auto|].
      right. exists p. split; [|auto]. apply KA; auto. congruence.
    + assert (points h0 w s) as Pt'.
      { pose proof (gr_typed _ _ RDY v w Rv Rw E) as T.
        inversion Pt; subst; rewrite E, T in *; [eapply pt_car|eapply pt_cdr|eapply pt_elt|eapply pt_dep]; eauto. }
      destruct (SU s Pt' Hs) as [Ms|[Es|Ps]]; [left; apply MM; auto|left; apply MM; auto|auto].
  - intros NL s Is Hs. destruct (iv_keep _ _ _ _ I NL s Is Hs) as [Rs [Ms|(p&Ip&Hp&Ep)]]; split; auto; [left; apply MM; auto|].
    destruct (Z.eq_dec (f_ix s) (f_ix w)) as [Es|Ns]; [left; apply MM; auto|].
    right. exists p. split; [|auto]. apply (KA NL); auto. congruence.
  - intros v a d Rv T C0. destruct (iv_arr _ _ _ _ I v a d Rv T C0) as (data&elts&k&M0&M&Kl&L&D&Z&Y).
    assert (NE : k <> 0%nat -> f_ix v <> f_ix w).
    { intros NZ E. pose proof (gr_typed _ _ RDY v w Rv Rw E) as T'.
      destruct (inv_cell _ _ _ _ _ _ I C) as (d0&C0'&_). rewrite <- E, C0 in C0'. injection C0' as -> ->.
      specialize (AR ltac:(congruence) _ _ _ _ M). lia. }
    exists data, elts, k. split; auto. split; [exact M|]. split; auto. split; auto. split; [|split].
    + intros j e Hj He Fe. apply MM. left. eapply D; eauto.
    + intros NZ X. apply MM in X as [X|X]; [apply (Z NZ); auto|apply (NE NZ); auto].
    + intros NL NZ. destruct (Y NL NZ) as (p&Ip&Hp&Ep). exists p. split; auto. apply (KS NL); auto. rewrite Ep. auto.
Qed.

(* Inv does not depend on the order or on non-heap entries *)
Lemma inv_weaken K h S P S' P' : Inv K h S P ->
  (lost h = false -> forall p, In p S -> heap_ptr p -> ~ marked h (f_ix p) -> In p S') ->
  (lost h = false -> forall p, In p P -> heap_ptr p -> ~ marked h (f_ix p) -> In p (S' ++ P')) ->
  (forall p, In p (S' ++ P') -> heap_ptr p -> rlike p) ->
  Inv K h S' P'.
Proof.
  intros I KS KP NP. destruct I as [i1 i2 i3 i4 i5 i6 ik i7].
  assert (G : lost h = false -> forall s p, R s -> In p (S ++ P) -> heap_ptr p -> f_ix p = f_ix s ->
     marked h (f_ix s) \/ exists p, In p (S' ++ P') /\ heap_ptr p /\ f_ix p = f_ix s).
  { intros NL s p Rs Ip Hp Ep.
    assert (Dec : marked h (f_ix s) \/ ~ marked h (f_ix s)).
    { destruct (gr_in _ _ RDY _ Rs) as [_ Lt].
      destruct (cell_some h (f_ix s)) as (c&C); [rewrite i1; pose proof (f_ix_range s); lia|].
      rewrite (marked_dec _ _ _ C). destruct (get_gc_mark (snd c)); [left|right]; auto. }
    destruct Dec as [Ms|Nm]; auto. right. exists p. split; auto.
    apply in_app_or in Ip as [Ip|Ip].
    - apply in_or_app. left. apply KS; auto. congruence.
    - apply KP; auto. congruence. }
  constructor; auto.
  - intros NL w s Rw M Pt Hs. destruct (i6 NL w s Rw M Pt Hs) as [Ms|(p&Ip&Hp&Ep)]; auto.
    eapply G; eauto. eapply reach_step; eauto.
  - intros NL s Is Hs. destruct (ik NL s Is Hs) as [Rs [Ms|(p&Ip&Hp&Ep)]]; split; auto. eapply G; eauto.
  - intros w a d Rw T C0. destruct (i7 w a d Rw T C0) as (data&elts&k&M0&M&Kl&L&D&Z&Y).
    exists data, elts, k. split; auto. split; auto. split; auto. split; auto. split; auto. split; auto.
    intros NL NZ. destruct (Y NL NZ) as (p&Ip&Hp&Ep). exists p. split; auto. apply KS; auto. rewrite Ep. auto.
Qed.

(* fields other than cells and mem do not matter *)
Lemma inv_ext K h h' S P : Inv K h S P -> cells h' = cells h -> mem h' = mem h ->
  (lost h' = false -> lost h = false) -> Inv K h' S P.
Proof.
  intros [i1 i2 i3 i4 i5 i6 ik i7] Ec Em El.
  assert (HC : forall i, cell h' i = cell h i) by (intros; unfold cell; rewrite Ec; auto).
  assert (HM : forall i, marked h' i <-> marked h i) by (intros; unfold marked; rewrite HC; tauto).
  constructor.
  - unfold hsize in *. rewrite Ec. auto.
  - intros. rewrite HC. auto.
  - intros. rewrite Em. auto.
  - intros i M. apply i4, HM; auto.
  - auto.
  - intros NL w s Rw M Pt Hs. rewrite HM in M. destruct (i6 (El NL) w s Rw M Pt Hs) as [X|X]; [left; apply HM; auto|auto].
  - intros NL s Is Hs. destruct (ik (El NL) s Is Hs) as [Rs [X|X]]; split; auto. left; apply HM; auto.
  - intros w a d Rw T C0. destruct (i7 w a d Rw T C0) as (data&elts&k&M0&M&Kl&L&D&Z&Y).
    exists data, elts, k. rewrite Em. split; auto. split; auto. split; auto. split; auto. split; [|split].
    + intros j e Hj He Fe. apply HM. eapply D; eauto.
    + intros NZ. rewrite HM. auto.
    + auto.
Qed.

End Mark.
End Arch.
