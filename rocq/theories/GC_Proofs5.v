(* The whole collection. *)
From Verif Require Import Base Value_Model Heap_Model Value_Proofs Value_Proofs2 Heap_Spec Heap_Proofs GC_Model GC_Spec
  GC_Proofs GC_Proofs2 GC_Proofs3 GC_Proofs4.
Local Open Scope Z_scope.

Section Arch.
Context {A : Arch}.

Definition ctx_ok (h : heap) (c : croots) : Prop := env_at h (c_env c).

Section GC.
Variable h0 : heap.
Variables pre genv : list Z.
Variable ctxs : list croots.
Notation root := (gc_root h0 pre genv ctxs).
Hypothesis RDY : gc_ready h0 root.
Hypothesis ENV : Forall (env_at h0) genv.
Hypothesis CTX : Forall (ctx_ok h0) ctxs.

Definition allroots : list Z := pre ++ genv ++ flat_map (ctx_words (hsize h0)) ctxs.

Lemma auxs_in w xs : In w (auxs (hsize h0) xs) <-> In w xs /\ stack_ref h0 w.
Proof.
  unfold auxs, stack_ref. rewrite filter_In, !andb_true_iff, !Z.leb_le, Z.ltb_lt, dec_ptr_f. tauto.
Qed.

Lemma allroots_spec w : In w allroots <-> root w.
Proof.
  unfold allroots, gc_root. rewrite !in_app_iff, in_flat_map. unfold ctx_words.
  assert (E : (exists x, In x ctxs /\ In w (c_env x :: c_roots x ++ auxs (hsize h0) (c_stack x))) <->
     (exists c, In c ctxs /\ (w = c_env c \/ In w (c_roots c) \/ (In w (c_stack c) /\ stack_ref h0 w)))).
  { split; intros (c&I&H); exists c; split; auto.
    - destruct H as [<-|H]; auto. apply in_app_or in H as [H|H]; auto. apply auxs_in in H. tauto.
    - destruct H as [->|[H|H]]; [left; auto|right; apply in_or_app; auto|right; apply in_or_app; right; apply auxs_in; auto]. }
  rewrite E. tauto.
Qed.

(* the heap when marking has ended *)
Definition after_mark (h : heap) : Prop :=
  Inv h0 root allroots h [] [] /\ freelist h = 0 /\ num_alloc h = hsize h0 /\ gc_recovered h = 0 /\ freed h = freed h0 /\
  gsize h = gsize h0 /\ gstack h = [] /\ ccells h = ccells h0.

Lemma own_mem h x d : Inv h0 root allroots h [] [] -> owned_obj d (mem h0 x) -> owned_obj d (mem h x).
Proof.
  intros I O. destruct (iv_mem _ _ _ _ _ _ I x) as [->|(w&dd&data&size&elts&k&k0&_&_&_&M0&M)]; auto.
  rewrite M0 in O. rewrite M. destruct O as (O1&O2&O3). repeat split.
  - intros _. left. eauto.
  - intros E. destruct (O2 E) as (?&?&?). discriminate.
  - intros E. specialize (O3 E). discriminate.
Qed.

Lemma unmarked_cell h i a d : Inv h0 root allroots h [] [] -> cell h i = Some (a, d) -> get_gc_mark d = false ->
  cell h0 i = Some (a, d).
Proof. intros I C G. exact (inv_unmarked h0 root RDY _ _ _ _ _ _ I C G). Qed.

Lemma swept h : after_mark h -> exists h', sweep h = Ok h' /\ SW h h' (length (cells h)).
Proof.
  intros (I&F&N&R&_). apply sweep_ok; auto.
  - rewrite (iv_size _ _ _ _ _ _ I). apply (gr_size _ _ RDY).
  - intros i a d C G O. apply own_mem; auto.
    exact (gr_owned _ _ RDY i a d (unmarked_cell h i a d I C G) O).
  - intros i j a d d' C C' G G' O O'. 
    exact (gr_owned1 _ _ RDY i j a d d' (unmarked_cell h i a d I C G) (unmarked_cell h j a d' I C' G') O O').
  - rewrite N. symmetry. apply (iv_size _ _ _ _ _ _ I).
Qed.

Lemma gc_run fuel : gc fuel h0 pre genv ctxs = Fuel \/ (exists h, gc fuel h0 pre genv ctxs = Ok (h, false)) \/
  exists h h', after_mark h /\ nolost h0 root h0 h /\ sweep h = Ok h' /\ gc fuel h0 pre genv ctxs = Ok (h', true).
Proof.
  unfold gc.
  assert (I0 : Inv h0 root allroots h0 [] (pre ++ (genv ++ flat_map (ctx_words (hsize h0)) ctxs))).
  { apply inv_start; auto. intros r. apply allroots_spec. }
  destruct (gr_stack _ _ RDY) as [G0 S0].
  destruct (mark_roots_inv h0 root RDY allroots fuel pre h0 _ I0 G0 S0) as [->|(h1&b1&->&F1&L1&G1)]; [left; auto|].
  cbn [bind snd fst]. destruct b1; [|right; left; eauto]. destruct (G1 eq_refl) as [G1' I1]. clear G1.
  destruct F1 as (f1&f2&f3&f4&f5&f6&f7).
  set (h2 := nil_freelist (gc_state_inc h1)).
  assert (I2 : Inv h0 root allroots h2 [] (genv ++ flat_map (ctx_words (hsize h0)) ctxs)).
  { eapply inv_ext; [exact I1|reflexivity|reflexivity|auto]. }
  assert (S2 : 1 <= gsize h2) by (change (gsize h2) with (gsize h1); rewrite f7; auto).
  destruct (mark_envs_inv h0 root RDY allroots fuel genv h2 _ I2 G1' S2 ENV) as [->|(h3&b3&->&F3&L3&G3)]; [left; auto|].
  cbn [bind snd fst]. destruct b3; [|right; left; eauto]. destruct (G3 eq_refl) as [G3' I3]. clear G3.
  assert (S3 : 1 <= gsize h3) by (destruct F3 as (_&_&_&_&_&_&->); auto).
  rewrite <- (app_nil_r (flat_map _ ctxs)) in I3.
  destruct (mark_contexts_inv h0 root RDY allroots fuel ctxs h3 [] I3 G3' S3 CTX) as [->|(h4&b4&->&F4&L4&G4)]; [left; auto|].
  cbn [bind snd fst]. destruct b4; [|right; left; eauto]. destruct (G4 eq_refl) as [G4' I4]. clear G4.
  assert (AM : after_mark h4).
  { pose proof (gframe_trans _ _ _ F3 F4) as (q1&q2&q3&q4&q5&q6&q7).
    split; auto. split; [rewrite q2; apply NIL_0|]. split.
    { rewrite q3. change (num_alloc h2) with (hsize h1). apply (iv_size _ _ _ _ _ _ I1). }
    split; [rewrite q5; reflexivity|]. split; [rewrite q4; exact f4|]. split; [rewrite q7; exact f7|]. split; auto.
    rewrite q1. exact f1. }
  destruct (swept h4 AM) as (h'&E&_). right; right. exists h4, h'. rewrite E. cbn [bind]. split; auto. split; auto.
  eapply nolost_trans; [exact L1|]. eapply nolost_trans; [|exact L4]. exact L3.
Qed.

(* everything known about a completed collection in which no push was lost *)
Lemma mark_mem h : after_mark h -> lost h = false -> forall x, mem h x = mem h0 x.
Proof.
  intros (I&_) NL x. destruct (iv_mem _ _ _ _ _ _ I x) as [E|(w&d&_&_&_&_&_&Rw&T&C&_)]; auto.
  destruct (iv_arr _ _ _ _ _ _ I w x d Rw T C) as (data&elts&k&M0&M&_&_&_&_&Y).
  destruct k; [rewrite M, M0; reflexivity|]. destruct (Y NL ltac:(discriminate)) as (p&[]&_).
Qed.

Lemma um_live h i : after_mark h -> lost h = false -> um h i = true <-> 0 <= i < hsize h0 /\ ~ live h0 root i.
Proof.
  intros (I&_) NL. pose proof (inv_end h0 root _ h I NL (fun r => proj2 (allroots_spec r)) i) as E.
  rewrite <- E. unfold um. split.
  - destruct (cell h i) as [[a d]|] eqn:C; [|discriminate]. intros G. apply negb_true_iff in G.
    split; [rewrite <- (iv_size _ _ _ _ _ _ I); eapply cell_range; eauto|].
    rewrite (marked_dec _ _ _ C). simpl. congruence.
  - intros [Ri N]. rewrite <- (iv_size _ _ _ _ _ _ I) in Ri. destruct (cell_some h i Ri) as ([a d]&C). rewrite C.
    rewrite (marked_dec _ _ _ C) in N. simpl in N. destruct (get_gc_mark d); auto.
Qed.

Lemma dead_blocks h : after_mark h -> lost h = false -> forall n,
  flat_map (blocks h) (dead h n) = flat_map (blocks h0) (dead h n).
Proof.
  intros AM NL n.
  assert (E : forall i, In i (dead h n) -> blocks h i = blocks h0 i).
  { intros i Ii. apply dead_in in Ii as [_ U]. unfold um in U. unfold blocks.
    destruct (cell h i) as [[a d]|] eqn:C; [|discriminate]. apply negb_true_iff in U.
    rewrite (unmarked_cell h i a d (proj1 AM) C U). rewrite (mark_mem h AM NL). reflexivity. }
  induction (dead h n) as [|i l IH]; auto. cbn [flat_map]. rewrite (E i (or_introl eq_refl)), IH; auto.
  intros; apply E; right; auto.
Qed.

Record collected (h' : heap) (ds : list Z) : Prop := {
  co_size : hsize h' = hsize h0;
  co_ok : heap_ok h' (rev ds);
  co_dead : forall i, In i ds <-> 0 <= i < hsize h0 /\ ~ live h0 root i;
  co_keep : forall i, live h0 root i -> cell h' i = cell h0 i;
  co_clear : forall i, In i ds -> exists q, cell h' i = Some (RECOVERED, q) /\ f_gc q = 0;
  co_freed : freed h' = rev (flat_map (blocks h0) ds) ++ freed h0;
  co_rec : gc_recovered h' = Z.of_nat (length ds);
  co_mem : forall x, (forall i a d, In i ds -> cell h0 i = Some (a, d) -> owner d -> a <> x) -> mem h' x = mem h0 x;
  co_gone : forall i a d, In i ds -> cell h0 i = Some (a, d) -> owner d -> mem h' a = None;
  co_frame : ccells h' = ccells h0 /\ gstack h' = [] /\ gsize h' = gsize h0
}.

Lemma chain_cdr_gc hh v l : hsize hh <= 2 ^ (W - 8) -> chain hh v l -> f_gc v = 0 /\ forall i, In i l -> exists a q, cell hh i = Some (a, q) /\ f_gc q = 0.
Proof.
  intros SZ H. induction H as [|i a q l C H [IH1 IH2]].
  - split; [apply nil_fields|intros i []].
  - split.
    + apply cell_range in C. destruct (enc_cons_fields i) as (_&_&_&G&_); auto. lia.
    + intros j [<-|Ij]; eauto.
Qed.

Lemma gc_collected fuel h' : gc fuel h0 pre genv ctxs = Ok (h', true) -> lost h' = false ->
  exists ds, collected h' ds.
Proof.
  intros E NL'. destruct (gc_run fuel) as [X|[(h&X)|(h&h2&AM&_&Sw&X)]]; rewrite X in E; try discriminate.
  injection E as ->. destruct (swept h AM) as (h2&Sw2&S). rewrite Sw in Sw2. injection Sw2 as <-.
  destruct S as [s1 s2 s3 sd s4 s5 s6 s7 s8 s9 s10].
  assert (NL : lost h = false) by (destruct s10 as (_&_&_&_&E); congruence).
  pose proof AM as (I&F&N&R&Fr&Gs&Gst&Cc).
  pose proof (iv_size _ _ _ _ _ _ I) as SZ.
  assert (LN : Z.of_nat (length (cells h)) = hsize h0) by (rewrite <- SZ; reflexivity).
  set (n := length (cells h)) in *.
  assert (DD : forall i, In i (dead h n) <-> 0 <= i < hsize h0 /\ ~ live h0 root i).
  { intros i. rewrite dead_in, (um_live h i AM NL), LN. tauto. }
  assert (OKh : heap_ok h' (rev (dead h n))).
  { constructor; auto.
    - rewrite s1, SZ. apply (gr_size _ _ RDY).
    - apply NoDup_rev, dead_nodup.
    - rewrite rev_length, s1. auto. }
  exists (dead h n). constructor; auto.
  - congruence.
  - intros i Li. assert (M : marked h i) by (apply (inv_end h0 root _ h I NL (fun r => proj2 (allroots_spec r))); auto).
    destruct M as (a&d&C&G). pose proof (cell_range _ _ _ C) as Ri.
    rewrite (s3 i a d) by (auto; rewrite LN; lia).
    destruct (inv_cell h0 root RDY _ _ _ _ _ _ I C) as (d0&C0&Wd&Gd&[[_ X2]|[X1 X2]]); simpl in *; [congruence|].
    rewrite C0, X1, clr_set; auto.
  - intros i Ii. destruct (sd i Ii) as (q&Cq). exists q. split; auto.
    destruct (chain_cdr_gc h' (freelist h') _ ltac:(rewrite s1, SZ; apply (gr_size _ _ RDY)) s4) as [_ Y].
    destruct (Y i) as (a&q'&C'&G'); [rewrite <- in_rev; auto|]. rewrite Cq in C'. congruence.
  - rewrite s7, (dead_blocks h AM NL), Fr. reflexivity.
  - intros x Hx. rewrite s8, (mark_mem h AM NL); auto. intros i a d Ii Ci Oi. eapply Hx; eauto.
    apply dead_in in Ii as [_ U]. unfold um in U. rewrite Ci in U. apply negb_true_iff in U. eapply unmarked_cell; eauto.
  - intros i a d Ii Ci Oi. apply (s9 i a d); auto. apply dead_in in Ii as [_ U]. unfold um in U.
    destruct (cell h i) as [[a' d']|] eqn:C'; [|discriminate]. apply negb_true_iff in U.
    pose proof (unmarked_cell h i a' d' I C' U). congruence.
  - destruct s10 as (q1&q2&q3&_). repeat split; congruence.
Qed.

(* without reachable lisp arrays no push is lost *)
Lemma gc_not_lost fuel h' : gc fuel h0 pre genv ctxs = Ok (h', true) ->
  (forall w, reach h0 root w -> type_of w <> TYPE_LISPARRAY) -> lost h' = false.
Proof.
  intros E NA. destruct (gc_run fuel) as [X|[(h&X)|(h&h2&AM&[_ LN]&Sw&X)]]; rewrite X in E; try discriminate.
  injection E as ->. destruct (swept h AM) as (h2&Sw2&S). rewrite Sw in Sw2. injection Sw2 as <-.
  destruct (sw_frame _ _ _ S) as (_&_&_&_&->). rewrite LN by auto. apply (gr_lost _ _ RDY).
Qed.

End GC.
End Arch.
