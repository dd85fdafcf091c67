(* C09, C10: what a garbage collection keeps and what it frees. *)
From Verif Require Import Base Value_Model Heap_Model Value_Proofs Value_Proofs2 Heap_Spec Heap_Proofs GC_Model GC_Spec
  GC_Proofs GC_Proofs2 GC_Proofs3 GC_Proofs4 GC_Proofs5 GC_Check.
Local Open Scope Z_scope.

Section Arch.
Context {A : Arch}.

Section Thms.
Variables (h : heap) (pre genv : list Z) (ctxs : list croots).
Notation root := (gc_root h pre genv ctxs).
(* the heap is in the state the runtime keeps it in, and environments are lists of bindings *)
Hypothesis RDY : gc_ready h root.
Hypothesis ENV : Forall (env_at h) genv.
Hypothesis CTX : Forall (fun c => env_at h (c_env c)) ctxs.

(* The collector never goes out of bounds: it runs out of the model's fuel, or
   ends in the critical error (false), or completes (true). *)
Theorem gc_safe fuel : gc fuel h pre genv ctxs <> UB.
Proof.
  destruct (gc_run h pre genv ctxs RDY ENV CTX fuel) as [->|[(h1&->)|(h1&h2&_&_&_&->)]]; discriminate.
Qed.

(* C09.  After a completed collection every reachable cell has its old car and
   cdr and is not on the free list; the objects it owns are as before and none of
   its memory blocks was released. *)
Theorem gc_keeps_reachable fuel h' :
  gc fuel h pre genv ctxs = Ok (h', true) -> lost h' = false ->
  exists fl fr, heap_ok h' fl /\ freed h' = fr ++ freed h /\
    forall w, reach h root w ->
      cell h' (f_ix w) = cell h (f_ix w) /\ ~ In (f_ix w) fl /\
      (forall a d, cell h (f_ix w) = Some (a, d) -> owner d -> mem h' a = mem h a) /\
      (forall x, In x (blocks h (f_ix w)) -> x <> 0 -> ~ In x fr).
Proof.
  intros E NL. destruct (gc_collected h pre genv ctxs RDY ENV CTX fuel h' E NL) as (ds&[c1 c2 c3 c4 c5 c6 c7 c8 c9 c10]).
  exists (rev ds), (rev (flat_map (blocks h) ds)). split; auto. split; auto.
  intros w Rw. assert (L : live h root (f_ix w)) by (exists w; auto).
  split; auto. split; [rewrite <- in_rev, c3; tauto|]. split.
  - intros a d C O. apply c8. intros i a' d' Ii Ci Oi ->.
    pose proof (gr_owned1 _ _ RDY _ _ _ _ _ C Ci O Oi). subst i. apply c3 in Ii. tauto.
  - intros x Ix Nx I. rewrite <- in_rev in I. apply in_flat_map in I as (i&Ii&Bi).
    pose proof (gr_blocks _ _ RDY _ _ _ Ix Bi Nx). subst i. apply c3 in Ii. tauto.
Qed.

(* Without lisp arrays within reach no push is ever lost, so the condition above holds. *)
Theorem gc_keeps_without_arrays fuel h' :
  gc fuel h pre genv ctxs = Ok (h', true) ->
  (forall w, reach h root w -> type_of w <> TYPE_LISPARRAY) -> lost h' = false.
Proof. apply gc_not_lost; auto. Qed.

(* C10.  After a completed collection the free list holds exactly the unreachable
   cells, each once; no mark bit is set; the recovered cells are counted exactly,
   and the memory released is exactly what the unreachable cells owned, each
   block once. *)
Theorem gc_frees_unreachable fuel h' :
  gc fuel h pre genv ctxs = Ok (h', true) -> lost h' = false ->
  exists fl, heap_ok h' fl /\ hsize h' = hsize h /\
    (forall i, In i fl <-> 0 <= i < hsize h /\ ~ live h root i) /\
    gc_recovered h' = Z.of_nat (length fl) /\
    (forall i a d, cell h' i = Some (a, d) -> get_gc_mark d = false) /\
    freed h' = rev (flat_map (blocks h) (rev fl)) ++ freed h /\
    (forall i a d, In i fl -> cell h i = Some (a, d) -> owner d -> mem h' a = None).
Proof.
  intros E NL. destruct (gc_collected h pre genv ctxs RDY ENV CTX fuel h' E NL) as (ds&[c1 c2 c3 c4 c5 c6 c7 c8 c9 c10]).
  exists (rev ds). split; auto. split; auto. split; [intros i; rewrite <- in_rev; apply c3|].
  split; [rewrite rev_length; auto|]. split; [|split].
  - intros i a d C.
    assert (D : In i ds \/ ~ In i ds) by (destruct (in_dec Z.eq_dec i ds); auto).
    destruct D as [D|D].
    + destruct (c5 i D) as (q&Cq&G). rewrite C in Cq. injection Cq as -> ->. rewrite get_mark_f, G. reflexivity.
    + pose proof (cell_range _ _ _ C) as Ri. rewrite c1 in Ri. rewrite c3 in D.
      destruct (cell_some h i Ri) as ([a0 d0]&C0). destruct (gr_cdr _ _ RDY _ _ _ C0) as [_ G].
      destruct (get_gc_mark d) eqn:M; auto. exfalso. apply D. split; auto. intros L.
      rewrite (c4 i L), C0 in C. injection C as -> ->. rewrite get_mark_f, G in M. discriminate.
  - rewrite rev_involutive. auto.
  - intros i a d Ii C O. rewrite <- in_rev in Ii. eauto.
Qed.

End Thms.
End Arch.

(* ---- a concrete heap that meets the hypotheses: a cyclic list of two cells
   whose second car is a lisp array holding a number and a pointer back into the
   list; a byte array nobody refers to; two free cells. ---- *)
Notation cp := (enc_cons_ptr (A := A32)).
Definition arr_ptr (i : Z) : Z := set_ptr_type (A := A32) (cp i) (TYPE_LISPARRAY (A := A32)).

Definition ex_mem (x : Z) : option obj :=
  if x =? 100 then Some (OLisp 50 8 [enc_i (A := A32) 7; cp 0] 0)
  else if x =? 200 then Some (OByte 60 [1; 2; 3]) else None.
Definition ex_gc_heap : heap :=
  mkHeap [(enc_i (A := A32) 1, cp 1); (arr_ptr 2, cp 0); (100, enc_sym (A := A32) SYM_LISPARRAY_TYPE);
          (200, enc_sym (A := A32) SYM_ARRAY_TYPE); (0, cp 5); (0, 0)] [] (cp 4) 4 [] 4 0 0 0 ex_mem [] false.

Example ex_gc_meets :
  gc_ready (A := A32) ex_gc_heap (gc_root (A := A32) ex_gc_heap [cp 0] [] []) /\
  match gc (A := A32) 100 ex_gc_heap [cp 0] [] [] with
  | Ok (h', b) => b = true /\ lost h' = false /\ freed h' = [200; 60] /\ gc_recovered h' = 3 /\
      chain (A := A32) h' (freelist h') [5; 4; 3] /\ firstn 3 (cells h') = firstn 3 (cells ex_gc_heap)
  | _ => False
  end.
Proof.
  split.
  - eapply (check_ready (A := A32)) with (roots := [cp 0]) (ws := [cp 0; cp 1; arr_ptr 2]); [|vm_compute; reflexivity].
    intros r [H|[[]|(c&[]&_)]]; auto.
  - vm_compute. repeat split; try reflexivity.
    repeat (eapply (chain_cons (A := A32)) with (i := 5) || eapply (chain_cons (A := A32)) with (i := 4) || eapply (chain_cons (A := A32)) with (i := 3) || apply (chain_nil (A := A32)); try reflexivity).
Qed.

(* FINDING.  C09 fails when the push of a lisp array on the GC stack is refused:
   the result of that push is not looked at (heap.c 789), so when the array is
   finished the pop takes someone else's entry.  A cons cell whose car is an
   array, with the GC stack full: the rest of the list is collected although it
   is reachable. *)
Definition lost_mem (x : Z) : option obj := if x =? 100 then Some (OLisp 50 4 [enc_i (A := A32) 7] 0) else None.
Definition lost_heap : heap :=
  mkHeap [(arr_ptr 2, cp 1); (enc_i (A := A32) 5, 0); (100, enc_sym (A := A32) SYM_LISPARRAY_TYPE)] [] 0 3 [] 1 0 0 0 lost_mem [] false.

Theorem gc_keeps_reachable_refuted :
  exists (h : heap) (r : Z) (h' : heap) (w : Z),
    gc_ready (A := A32) h (gc_root (A := A32) h [r] [] []) /\
    gc (A := A32) 100 h [r] [] [] = Ok (h', true) /\
    reach (A := A32) h (gc_root (A := A32) h [r] [] []) w /\
    cell h' (f_ix (A := A32) w) <> cell h (f_ix (A := A32) w) /\
    chain (A := A32) h' (freelist h') [f_ix (A := A32) w].
Proof.
  eexists lost_heap, (cp 0), _, (cp 1). split; [|split; [vm_compute; reflexivity|split; [|split]]].
  - eapply (check_ready (A := A32)) with (roots := [cp 0]) (ws := [cp 0; cp 1; arr_ptr 2]); [|vm_compute; reflexivity].
    intros r [H|[[]|(c&[]&_)]]; auto.
  - eapply reach_step with (w := cp 0).
    + apply reach_root; [left; left; auto|]. vm_compute. split; reflexivity.
    + eapply pt_cdr; vm_compute; reflexivity.
    + vm_compute. split; reflexivity.
  - vm_compute. discriminate.
  - change (f_ix (A := A32) (cp 1)) with 1. eapply (chain_cons (A := A32)) with (i := 1); [reflexivity|]. apply (chain_nil (A := A32)).
Qed.

(* FINDING.  The reported numbers do not add up: marking an environment counts two
   cells for every binding even if another context's environment shares it.  Here
   two contexts share an environment of one binding. *)
Definition sum_heap : heap :=
  mkHeap [(cp 1, 0); (enc_sym (A := A32) 300, enc_i (A := A32) 5); (0, 0)] [] (cp 2) 2 [] 4 0 0 0 (fun _ => None) [] false.
Definition sum_ctx : croots := mkCroots (cp 0) [] [].

Theorem gc_counts_add_up_refuted :
  exists (h : heap) (ctxs : list croots) (h' : heap),
    gc_ready (A := A32) h (gc_root (A := A32) h [] [] ctxs) /\ Forall (fun c => env_at (A := A32) h (c_env c)) ctxs /\
    gc (A := A32) 100 h [] [] ctxs = Ok (h', true) /\ lost h' = false /\
    gc_marked h' + gc_recovered h' <> hsize h.
Proof.
  eexists sum_heap, [sum_ctx; sum_ctx], _. split; [|split; [|split; [vm_compute; reflexivity|split; [reflexivity|]]]].
  - eapply (check_ready (A := A32)) with (roots := [cp 0]) (ws := [cp 0; cp 1]); [|vm_compute; reflexivity].
    intros r [[]|[[]|(c&[<-|[<-|[]]]&[H|[[]|[[] _]]])]]; left; auto.
  - assert (E : env_at (A := A32) sum_heap (cp 0)).
    { apply (env_cons (A := A32)) with (b := cp 1) (d := 0) (k := enc_sym (A := A32) 300) (v := enc_i (A := A32) 5);
        try (vm_compute; (reflexivity || (split; reflexivity))). apply env_nil. reflexivity. }
    constructor; [exact E|constructor; [exact E|constructor]].
  - vm_compute. discriminate.
Qed.

Print Assumptions gc_safe.
Print Assumptions gc_keeps_reachable.
Print Assumptions gc_keeps_without_arrays.
Print Assumptions gc_frees_unreachable.
Print Assumptions gc_keeps_reachable_refuted.
Print Assumptions gc_counts_add_up_refuted.
