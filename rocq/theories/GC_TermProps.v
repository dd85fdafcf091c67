(* C11: marking terminates, except for arrays that contain themselves. *)
From Verif Require Import Base Value_Model Heap_Model Value_Proofs Value_Proofs2 Heap_Spec Heap_Proofs GC_Model GC_Spec
  GC_Proofs GC_Proofs2 GC_Proofs3 GC_Proofs4 GC_Proofs5 GC_Check GC_Term GC_Props.
Local Open Scope Z_scope.

Section Arch.
Context {A : Arch}.

(* [rk] bounds how deep arrays are nested directly within arrays: so no cycle of
   arrays only.  Cycles through cons cells or channels are allowed. *)
Definition nesting (h : heap) (root : Z -> Prop) (rk : Z -> nat) : Prop :=
  forall w v, reach h root w -> type_of w = TYPE_LISPARRAY -> points h w v -> heap_ptr v ->
    type_of v = TYPE_LISPARRAY -> (rk (f_ix v) < rk (f_ix w))%nat.

(* number of array elements in the heap *)
Definition num_elts (h : heap) : nat :=
  list_sum (map (fun c => match mem h (fst c) with Some (OLisp _ _ elts _) => length elts | _ => 0%nat end) (cells h)).

(* rounds of the marking loop: a polynomial in the number of cells, the number of
   array elements, the nesting depth and the size of the GC stack *)
Definition rounds (h : heap) (depth : nat) : nat :=
  ((length (cells h) * (num_elts h + 1) + num_elts h + 1) * (depth + 5 + 2 * Z.to_nat (gsize h)))%nat.

Theorem mark_terminates h (root : Z -> Prop) rk depth r fuel :
  gc_ready h root -> nesting h root rk -> (forall i, (rk i <= depth)%nat) -> root r ->
  (rounds h depth <= fuel)%nat ->
  exists h' b, mark_phase fuel h r = Ok (h', b).
Proof.
  intros RDY N B Rr L. destruct (gr_stack _ _ RDY) as [G S].
  assert (I : Inv h root [r] h [] [r]) by (apply inv_start; auto; intros x [<-|[]]; auto).
  pose proof (mark_phase_fuel h root RDY rk depth B N [r] h [] r fuel I G eq_refl S L) as NF.
  destruct (mark_phase_inv h root RDY [r] h [] r fuel I G S) as [X|(h'&b&E&_)]; [congruence|eauto].
Qed.

Lemma sweep_cell_no_fuel h i : sweep_cell h i <> Fuel.
Proof.
  unfold sweep_cell, rd, wr, free_payload. intros E.
  repeat (match type of E with context [match ?x with _ => _ end] => destruct x; cbn [bind] in E; try discriminate end).
Qed.
Lemma sweep_no_fuel h : sweep h <> Fuel.
Proof.
  unfold sweep. generalize (length (cells h)) as n, 0 as i. intros n. revert h.
  induction n as [|n IH]; intros h i; cbn [sweep_loop]; [discriminate|].
  pose proof (sweep_cell_no_fuel h i). destruct (sweep_cell h i); cbn [bind]; auto; discriminate.
Qed.

(* the whole collection, when no environment has more than [n] bindings *)
Theorem gc_bounded h pre genv ctxs rk depth n :
  gc_ready h (gc_root h pre genv ctxs) -> Forall (fun e => exists m, env_len h e m /\ (m <= n)%nat) genv ->
  Forall (fun c => exists m, env_len h (c_env c) m /\ (m <= n)%nat) ctxs ->
  nesting h (gc_root h pre genv ctxs) rk -> (forall i, (rk i <= depth)%nat) ->
  forall fuel, (rounds h depth + n <= fuel)%nat -> exists h' b, gc fuel h pre genv ctxs = Ok (h', b).
Proof.
  intros RDY ENV0 CTX0 N B. set (root := gc_root h pre genv ctxs) in *.
  assert (ENV : Forall (env_at h) genv) by (eapply Forall_impl; [|exact ENV0]; intros e (m&X&_); eauto using env_len_at).
  assert (CTX : Forall (fun c => env_at h (c_env c)) ctxs) by (eapply Forall_impl; [|exact CTX0]; intros e (m&X&_); eauto using env_len_at).
  set (K := allroots h pre genv ctxs).
  pose proof (mark_envs_fuel h root RDY rk depth B N K genv n ENV0) as H1.
  pose proof (mark_contexts_fuel h root RDY rk depth B N K ctxs n CTX0) as H2.
  intros fuel L. change (rounds h depth) with (enough h depth) in L.
  destruct (gc_run h pre genv ctxs RDY ENV CTX fuel) as [X|[(h1&->)|(h1&h2&_&_&_&->)]]; eauto.
  exfalso. revert X. unfold gc.
  assert (I0 : Inv h root K h [] (pre ++ (genv ++ flat_map (ctx_words (hsize h)) ctxs))).
  { apply inv_start; auto. intros r. apply allroots_spec. }
  destruct (gr_stack _ _ RDY) as [G0 S0].
  pose proof (mark_roots_fuel h root RDY rk depth B N K fuel pre ltac:(lia) h _ I0 G0 eq_refl S0) as NF.
  destruct (mark_roots_inv h root RDY K fuel pre h _ I0 G0 S0) as [X|(h1&b1&->&F1&L1&G1)]; [congruence|].
  cbn [bind snd fst]. destruct b1; [|discriminate]. destruct (G1 eq_refl) as [G1' I1]. clear G1.
  destruct F1 as (_&_&_&_&_&_&F1).
  set (h2 := nil_freelist (gc_state_inc h1)).
  assert (I2 : Inv h root K h2 [] (genv ++ flat_map (ctx_words (hsize h)) ctxs)).
  { eapply inv_ext; [exact I1|reflexivity|reflexivity|auto]. }
  assert (GS2 : gsize h2 = gsize h) by exact F1. assert (S2 : 1 <= gsize h2) by (rewrite GS2; auto).
  pose proof (H1 fuel ltac:(lia) h2 _ I2 G1' GS2 S2) as NF2.
  destruct (mark_envs_inv h root RDY K fuel genv h2 _ I2 G1' S2 ENV) as [X|(h3&b3&->&F3&L3&G3)]; [congruence|].
  cbn [bind snd fst]. destruct b3; [|discriminate]. destruct (G3 eq_refl) as [G3' I3]. clear G3.
  destruct F3 as (_&_&_&_&_&_&F3).
  rewrite <- (app_nil_r (flat_map _ ctxs)) in I3.
  assert (GS3 : gsize h3 = gsize h) by congruence. assert (S3 : 1 <= gsize h3) by (rewrite GS3; auto).
  pose proof (H2 fuel ltac:(lia) h3 _ I3 G3' GS3 S3) as NF3.
  destruct (mark_contexts_inv h root RDY K fuel ctxs h3 [] I3 G3' S3 CTX) as [X|(h4&b4&->&F4&L4&G4)]; [congruence|].
  cbn [bind snd fst]. destruct b4; [|discriminate]. destruct (G4 eq_refl) as [G4' I4]. clear G4.
  pose proof (sweep_no_fuel h4) as NF4. destruct (sweep h4); cbn [bind]; congruence.
Qed.

Theorem gc_terminates h pre genv ctxs rk depth :
  gc_ready h (gc_root h pre genv ctxs) -> Forall (env_at h) genv -> Forall (fun c => env_at h (c_env c)) ctxs ->
  nesting h (gc_root h pre genv ctxs) rk -> (forall i, (rk i <= depth)%nat) ->
  exists F, forall fuel, (F <= fuel)%nat -> exists h' b, gc fuel h pre genv ctxs = Ok (h', b).
Proof.
  intros RDY ENV CTX N B.
  assert (E : forall T (fe : T -> Z) l, Forall (fun x => env_at h (fe x)) l ->
    exists n, Forall (fun x => exists m, env_len h (fe x) m /\ (m <= n)%nat) l).
  { intros T fe l FA. induction FA as [|x l Ex _ (n&IH)]; [exists 0%nat; constructor|].
    destruct (env_at_len h _ Ex) as (m&Lm). exists (n + m)%nat. constructor; [exists m; split; auto; lia|].
    eapply Forall_impl; [|exact IH]. intros y (m'&L'&B'). exists m'. split; auto. lia. }
  destruct (E _ (fun e => e) genv ENV) as (n1&E1). destruct (E _ c_env ctxs CTX) as (n2&E2).
  exists (rounds h depth + (n1 + n2))%nat. intros fuel L. apply gc_bounded with (rk := rk) (depth := depth) (n := (n1 + n2)%nat); auto.
  - eapply Forall_impl; [|exact E1]. intros y (m'&L'&B'). exists m'. split; auto. lia.
  - eapply Forall_impl; [|exact E2]. intros y (m'&L'&B'). exists m'. split; auto. lia.
Qed.

(* FINDING.  Marking an array that holds itself first never ends, and neither does
   marking arrays that hold each other in a ring: the loop goes round the ring
   without marking anything.  [P] is the set of arrays of the ring. *)
Definition array_ring (h : heap) (P : Z -> Prop) : Prop :=
  forall w, P w -> heap_ptr w /\ type_of w = TYPE_LISPARRAY /\
    exists a d data size e elts, cell h (f_ix w) = Some (a, d) /\ get_gc_mark d = false /\
      mem h a = Some (OLisp data size (e :: elts) 0) /\ P e /\ ~ cont_value e.

Lemma ring_ext h h' P : array_ring h P -> cells h' = cells h -> mem h' = mem h -> array_ring h' P.
Proof.
  intros R C M w Pw. destruct (R w Pw) as (H1&H2&a&d&data&sz&e&elts&H3&H4&H5&H6).
  split; auto. split; auto. exists a, d, data, sz, e, elts. unfold cell in *. rewrite C, M. auto.
Qed.

Lemma ring_run P fuel : forall h w, array_ring h P -> P w -> mark_run fuel h (Some w) = Fuel.
Proof.
  induction fuel as [|k IH]; intros h w R Pw; [reflexivity|]. cbn [mark_run].
  destruct (R w Pw) as ([H1 H1']&H2&a&d&data&sz&e&elts&C&M&O&Pe&NC).
  set (h1 := gpush_ignored h w).
  assert (E1 : cells h1 = cells h /\ mem h1 = mem h).
  { unfold h1, gpush_ignored, gpush. destruct (Z.of_nat (length (gstack h)) =? gsize h); auto. }
  destruct E1 as [E1 E2].
  destruct (R e Pe) as (He&He2&ae&de&_&_&_&_&Ce&Me&_).
  assert (B : mark_body h w = Ok (h1, NGo e)).
  { unfold mark_body. rewrite H1, H1'. cbn [negb orb].
    rewrite dec_ptr_f, rd_cell, C. cbn [bind fst snd]. rewrite M, H2, Z.eqb_refl.
    fold h1. rewrite E2, O. change (rd (e :: elts) 0) with (Ok e). cbn [bind].
    assert (F : is_followed e = true).
    { apply followed_spec. split; auto. }
    assert (Ce1 : cell h1 (f_ix e) = Some (ae, de)) by (unfold cell in *; rewrite E1; exact Ce).
    rewrite F, dec_ptr_f, rd_cell, Ce1. cbn [bind fst snd]. rewrite Me. reflexivity. }
  rewrite B. cbn [bind fst snd]. apply IH; auto. eapply ring_ext; eauto.
Qed.

Theorem array_ring_never_ends h P w fuel :
  array_ring h P -> P w -> gstack h = [] -> 1 <= gsize h -> mark_phase fuel h w = Fuel.
Proof.
  intros R Pw G S. unfold mark_phase. rewrite G. change (Z.of_nat (length (@nil Z))) with 0.
  replace (0 <? gsize h) with true by (symmetry; apply Z.ltb_lt; lia).
  destruct fuel as [|k]; [reflexivity|]. cbn [mark_run gstack set_gstack].
  apply ring_run with (P := P); auto.
Qed.

End Arch.

(* the heap of GC_Props with its cycle through cons cells and an array *)
Example ex_term_meets :
  gc_ready (A := A32) ex_gc_heap (gc_root (A := A32) ex_gc_heap [cp 0] [] []) /\
  nesting (A := A32) ex_gc_heap (gc_root (A := A32) ex_gc_heap [cp 0] [] []) (fun _ => 0%nat) /\
  rounds ex_gc_heap 0 = 273%nat.
Proof.
  destruct (check_ready (A := A32) ex_gc_heap (gc_root (A := A32) ex_gc_heap [cp 0] [] []) [cp 0] [cp 0; cp 1; arr_ptr 2]) as [R W].
  { intros r [H|[[]|(c&[]&_)]]; auto. }
  { vm_compute. reflexivity. }
  split; auto. split; [|vm_compute; reflexivity].
  intros w v Rw Tw Pt Hv Tv. exfalso. apply points_succs in Pt.
  destruct (W w Rw) as [<-|[<-|[<-|[]]]]; try (vm_compute in Tw; discriminate).
  vm_compute in Pt. destruct Pt as [<-|[<-|[]]]; vm_compute in Tv; discriminate.
Qed.

(* an array of one element that is the array itself, and one whose marking has to
   end before the bound though two arrays are nested *)
Definition self_heap : heap :=
  mkHeap [(100, enc_sym (A := A32) SYM_LISPARRAY_TYPE)] [] 0 1 [] 4 0 0 0
    (fun x => if x =? 100 then Some (OLisp 50 4 [arr_ptr 0] 0) else None) [] false.
Example ex_ring_meets : array_ring (A := A32) self_heap (fun w => w = arr_ptr 0).
Proof.
  intros w ->. split; [vm_compute; split; reflexivity|]. split; [vm_compute; reflexivity|].
  exists 100, (enc_sym (A := A32) SYM_LISPARRAY_TYPE), 50, 4, (arr_ptr 0), []. vm_compute. repeat split; try reflexivity; discriminate.
Qed.

Definition nest_heap : heap :=
  mkHeap [(100, enc_sym (A := A32) SYM_LISPARRAY_TYPE); (200, enc_sym (A := A32) SYM_LISPARRAY_TYPE)] [] 0 2 [] 4 0 0 0
    (fun x => if x =? 100 then Some (OLisp 50 8 [arr_ptr 1; arr_ptr 1] 0)
              else if x =? 200 then Some (OLisp 60 4 [enc_i (A := A32) 3] 0) else None) [] false.
Example ex_nest_meets :
  gc_ready (A := A32) nest_heap (gc_root (A := A32) nest_heap [arr_ptr 0] [] []) /\
  nesting (A := A32) nest_heap (gc_root (A := A32) nest_heap [arr_ptr 0] [] []) (fun i => if i =? 0 then 1%nat else 0%nat).
Proof.
  destruct (check_ready (A := A32) nest_heap (gc_root (A := A32) nest_heap [arr_ptr 0] [] []) [arr_ptr 0] [arr_ptr 0; arr_ptr 1]) as [R W].
  { intros r [H|[[]|(c&[]&_)]]; auto. }
  { vm_compute. reflexivity. }
  split; auto. intros w v Rw Tw Pt Hv Tv. apply points_succs in Pt.
  destruct (W w Rw) as [<-|[<-|[]]]; vm_compute in Pt.
  - destruct Pt as [<-|[<-|[]]]; vm_compute; auto.
  - destruct Pt as [<-|[]]. vm_compute in Tv. discriminate.
Qed.

Print Assumptions mark_terminates.
Print Assumptions gc_bounded.
Print Assumptions gc_terminates.
Print Assumptions array_ring_never_ends.
