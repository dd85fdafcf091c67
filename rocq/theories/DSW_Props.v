(* C49: pointer reversal marking. *)
From Verif Require Import Base Value_Model Heap_Model Value_Proofs Value_Proofs2 Heap_Spec Heap_Proofs GC_Model GC_Spec
  GC_Proofs GC_Term GC_Check DSW_Model DSW_Spec DSW_Proofs.
Local Open Scope Z_scope.

Section Arch.
Context {A : Arch}.

Section Roots.
Variables (h : heap) (roots : list Z).
Notation root := (fun w => In w roots).
Hypothesis RDY : dsw_ready h root.

Lemma st_start : St h h. Proof. constructor; auto. Qed.

Lemma roots_run depth fuel : (length (cells h) <= depth)%nat \/ no_arrays h root -> (5 * length (cells h) + 3 <= fuel)%nat ->
  forall rs h1, incl rs roots -> St h h1 -> (Mz h1 <= length (cells h))%nat ->
  exists h2, dsw_roots depth fuel h1 rs = Ok h2 /\ Post h root h1 (fun w => In w rs) h2.
Proof.
  intros D F. induction rs as [|r t IH]; intros h1 I S1 M1.
  - exists h1. split; auto. apply Post_refl; intros w [].
  - assert (Ir : In r roots) by (apply I; left; auto).
    destruct (dr_root _ _ RDY r Ir) as [Wr Gr].
    assert (exists h2, dsw_phase depth fuel h1 r = Ok h2 /\ Post h root h1 (eq r) h2) as (h2&E2&P2).
    { unfold dsw_phase. destruct (is_ptr r) eqn:P.
      - destruct null_fields as (Wn&Gn&Pn&Dn).
        destruct (visit h root RDY (length (cells h)) depth h1 r NULL_PTR M1 D S1) as (h2&P2&V2); auto.
        { split; auto. split; auto. intros Hr. apply reach_root; auto. }
        exists h2. split; auto. specialize (V2 1%nat h2). eapply dsw_le; [|apply V2|discriminate].
        + pose proof (po_count _ _ _ _ _ P2). lia.
        + cbn [dsw]. rewrite Pn, Dn, Z.eqb_refl. reflexivity.
      - exists h1. split; auto. apply Post_refl. intros w <- [X _]. congruence. }
    destruct (IH h2) as (h3&E3&P3).
    + intros x Ix. apply I. right; auto.
    + eapply St_post; eauto.
    + pose proof (po_count _ _ _ _ _ P2). lia.
    + exists h3. split; [cbn [dsw_roots]; rewrite E2; exact E3|].
      eapply Post_weaken; [eapply Post_trans; eauto|]. intros w. cbn [In]. intuition.
Qed.

Lemma start_unmarked i : ~ marked h i.
Proof. intros (a&d&C&M). destruct (dr_cdr _ _ RDY _ _ _ C) as [_ G]. rewrite get_mark_f, G in M. discriminate. Qed.

(* Marking ends, all cars and cdrs are as before, and marked are exactly the
   reachable cells.  The C stack suffices if it has room for one nested call per
   cell, and none is used when no lisp array is reachable. *)
Theorem dsw_correct depth fuel :
  (length (cells h) <= depth)%nat \/ no_arrays h root -> (5 * length (cells h) + 3 <= fuel)%nat ->
  exists h', dsw_roots depth fuel h roots = Ok h' /\ marks_exactly h h' (live h root).
Proof.
  intros D F. destruct (roots_run depth fuel D F roots h (fun x I => I) st_start) as (h'&E&P).
  { unfold Mz. apply filter_len. }
  exists h'. split; auto.
  assert (CL : forall w, reach h root w -> marked h' (f_ix w)).
  { intros w Rw. induction Rw as [w Iw Hw|w v Rw IH Pt Hv]; [eapply po_root; eauto|].
    eapply (po_closed _ _ _ _ _ P); eauto. apply start_unmarked. }
  split; [apply P|]. split; [apply P|]. intros i a d C. destruct (dr_cdr _ _ RDY _ _ _ C) as [Wd Gd].
  assert (M : get_gc_mark d = false) by (rewrite get_mark_f, Gd; reflexivity).
  destruct (po_new _ _ _ _ _ P _ _ _ C M) as [E'|E']; split; intros L; auto.
  - exfalso. destruct L as (w&Rw&<-). destruct (CL w Rw) as (a'&d'&C'&M'). congruence.
  - exfalso. apply L. apply (po_sound _ _ _ _ _ P); [|apply start_unmarked]. exists a, (set_gc_mark d). split; auto. apply get_set_mark; auto.
Qed.

End Roots.
End Arch.

Notation cp := (enc_cons_ptr (A := A32)).
Notation ptr_of i t := (set_ptr_type (A := A32) (cp i) t).
Notation arr i := (ptr_of i (TYPE_LISPARRAY (A := A32))).

(* A cyclic list with shared structure and an array holding a pointer back into
   the list; one cell is garbage. *)
Definition ex_mem (x : Z) : option obj := if x =? 100 then Some (OLisp 50 8 [enc_i (A := A32) 7; cp 0] 0) else None.
Definition ex_heap : heap :=
  mkHeap [(cp 1, cp 1); (arr 2, cp 0); (100, enc_sym (A := A32) SYM_LISPARRAY_TYPE); (cp 0, 0)] [] 0 4 [] 4 0 0 0 ex_mem [] false.

Lemma ex_reach w : reach (A := A32) ex_heap (fun x => In x [cp 0]) w -> In w [cp 0; cp 1; arr 2].
Proof.
  intros H. induction H as [w [<-|[]] _|w v Rw IH Pt Hv]; [left; auto|].
  inversion Pt as [a d T C|a d T C|a d dat sz el k v' T C M I N|a d st dep T C N M]; subst;
  destruct IH as [<-|[<-|[<-|[]]]]; vm_compute in T; try discriminate T; vm_compute in C; try (injection C as <- <-); auto.
  - right. left. reflexivity.
  - right. right. left. reflexivity.
  - right. left. reflexivity.
  - left. reflexivity.
  - vm_compute in M. injection M as <- <- <- <-. destruct I as [<-|[<-|[]]]; [|left; reflexivity].
    exfalso. destruct Hv as [X _]. vm_compute in X. discriminate.
Qed.

Example ex_dsw : dsw_ready (A := A32) ex_heap (fun x => In x [cp 0]) /\
  match dsw_roots (A := A32) 4 23 ex_heap [cp 0] with
  | Ok h' => cells h' = [(cp 1, set_gc_mark (cp 1)); (arr 2, set_gc_mark (cp 0));
                         (100, set_gc_mark (enc_sym (A := A32) SYM_LISPARRAY_TYPE)); (cp 0, 0)]
  | _ => False
  end.
Proof.
  split; [|vm_compute; reflexivity].
  assert (CC : forall i c, cell ex_heap i = Some c -> In (i, c) (combine [0; 1; 2; 3] (cells ex_heap))).
  { intros i c C. pose proof (cell_range _ _ _ C) as Rg. change (hsize ex_heap) with 4 in Rg.
    assert (i = 0 \/ i = 1 \/ i = 2 \/ i = 3) as [->|[->|[->| ->]]] by lia; vm_compute in C; injection C as <-; vm_compute; tauto. }
  constructor.
  - intros i a d C. apply CC in C. vm_compute in C. destruct C as [E|[E|[E|[E|[]]]]]; injection E as <- <- <-; vm_compute; repeat split; discriminate || reflexivity.
  - reflexivity.
  - intros w [<-|[]]. vm_compute. repeat split; discriminate || reflexivity.
  - intros w Rw. apply ex_reach in Rw. destruct Rw as [<-|[<-|[<-|[]]]]; vm_compute; repeat split; discriminate || reflexivity.
  - intros w v Rw Rv. apply ex_reach in Rw, Rv. destruct Rw as [<-|[<-|[<-|[]]]], Rv as [<-|[<-|[<-|[]]]]; vm_compute; intros E; discriminate || reflexivity.
  - intros w a d Rw T C. apply ex_reach in Rw. destruct Rw as [<-|[<-|[<-|[]]]]; vm_compute in T; try discriminate T; vm_compute in C; injection C as <- <-; vm_compute; repeat split; discriminate || reflexivity.
  - intros w a d Rw T C. apply ex_reach in Rw. destruct Rw as [<-|[<-|[<-|[]]]]; vm_compute in T; try discriminate T; vm_compute in C; injection C as <- <-.
    exists 50, [enc_i (A := A32) 7; cp 0], 0. split; [reflexivity|]. intros e [<-|[<-|[]]]; vm_compute; repeat split; try discriminate; intros X; discriminate.
  - intros w a d st dep Rw T C. apply ex_reach in Rw. destruct Rw as [<-|[<-|[<-|[]]]]; vm_compute in T; discriminate T.
Qed.

(* FINDING.  A channel's dependency is not followed (the stack based marking does,
   heap.c 823-829): what a reader still needs is collected. *)
Definition chan_mem (x : Z) : option obj := if x =? 100 then Some (OChan 50 (cp 1)) else None.
Definition chan_heap : heap :=
  mkHeap [(100, enc_sym (A := A32) SYM_CHANNEL_TYPE); (enc_i (A := A32) 5, 0)] [] 0 2 [] 4 0 0 0 chan_mem [] false.
Notation chan i := (ptr_of i (TYPE_CHANNEL (A := A32))).

Theorem dsw_channel_refuted :
  exists (h : heap) (r w : Z) (h' : heap),
    gc_ready (A := A32) h (fun x => In x [r]) /\ hsize h < 2 ^ (W (A := A32) - 8) /\
    reach (A := A32) h (fun x => In x [r]) w /\
    dsw_roots (A := A32) 4 100 h [r] = Ok h' /\ ~ marked h' (f_ix (A := A32) w).
Proof.
  exists chan_heap, (chan 0), (cp 1). eexists. split; [|split; [reflexivity|split; [|split; [vm_compute; reflexivity|]]]].
  - eapply (check_ready (A := A32)) with (roots := [chan 0]) (ws := [chan 0; cp 1]); [|vm_compute; reflexivity]. auto.
  - eapply reach_step with (w := chan 0); [apply reach_root; [left; auto|vm_compute; split; reflexivity]| |vm_compute; split; reflexivity].
    eapply pt_dep with (a := 100); try (vm_compute; reflexivity). discriminate.
  - intros (a&d&C&M). vm_compute in C. injection C as <- <-. vm_compute in M. discriminate.
Qed.

(* FINDING.  Captured stacks are arrays that hold continuation values, which look
   like pointers.  Pointer reversal marking does not leave them out (the stack based
   marking does, heap.c 798-800): CONTINUATION(4), eval_cps.c 48, marks cell 4
   without following it, so that when the list beginning there is reached later its
   rest is taken to be marked already. *)
Definition CONTINUATION (x : Z) : Z := Z.lor (Z.shiftl x 2) (CONTINUATION_INTERNAL (A := A32)).
Definition cont_mem (x : Z) : option obj := if x =? 100 then Some (OLisp 50 4 [CONTINUATION 4] 0) else None.
Definition cont_heap : heap :=
  mkHeap [(arr 1, cp 4); (100, enc_sym (A := A32) SYM_LISPARRAY_TYPE); (0, 0); (enc_i (A := A32) 6, 0); (enc_i (A := A32) 5, cp 3)]
    [] (cp 2) 4 [] 4 0 0 0 cont_mem [] false.

Theorem dsw_continuation_refuted :
  exists (h : heap) (r w : Z) (h' : heap),
    gc_ready (A := A32) h (fun x => In x [r]) /\ hsize h < 2 ^ (W (A := A32) - 8) /\
    reach (A := A32) h (fun x => In x [r]) w /\ type_of (A := A32) w = TYPE_CONS (A := A32) /\
    dsw_roots (A := A32) 4 100 h [r] = Ok h' /\ ~ marked h' (f_ix (A := A32) w).
Proof.
  exists cont_heap, (cp 0), (cp 3). eexists. split; [|split; [reflexivity|split; [|split; [reflexivity|split; [vm_compute; reflexivity|]]]]].
  - eapply (check_ready (A := A32)) with (roots := [cp 0]) (ws := [cp 0; arr 1; cp 4; cp 3]); [|vm_compute; reflexivity]. auto.
  - eapply reach_step with (w := cp 4); [|eapply pt_cdr; vm_compute; reflexivity|vm_compute; split; reflexivity].
    eapply reach_step with (w := cp 0); [|eapply pt_cdr; vm_compute; reflexivity|vm_compute; split; reflexivity].
    apply reach_root; [left; auto|vm_compute; split; reflexivity].
  - intros (a&d&C&M). vm_compute in C. injection C as <- <-. vm_compute in M. discriminate.
Qed.

(* "Using no stack" is not so with lisp arrays: arrays nested to depth n take n
   nested calls, whatever n is. *)
Section Nest.
Context {A : Arch}.
Definition arr_at (i : Z) : Z := set_ptr_type (enc_cons_ptr i) TYPE_LISPARRAY.
Definition nest_mem (n : nat) (x : Z) : option obj :=
  if (0 <=? x) && (x <? Z.of_nat n) then Some (OLisp 0 WB [arr_at (x + 1)] 0)
  else if x =? Z.of_nat n then Some (OLisp 0 0 [] 0) else None.
Definition nest_heap (n : nat) : heap :=
  mkHeap (map (fun i => (Z.of_nat i, enc_sym SYM_LISPARRAY_TYPE)) (seq 0 (S n))) [] 0 (Z.of_nat n + 1) [] 4 0 0 0 (nest_mem n) [] false.

Lemma tag_arr : ptr_tag TYPE_LISPARRAY.
Proof. exists (TYPE_LISPARRAY / 2 ^ (W - 6)). arch; split; (lia || reflexivity). Qed.

Lemma arr_facts i : 0 <= i < 2 ^ (W - 8) -> word (arr_at i) /\ f_ix (arr_at i) = i /\ f_gc (arr_at i) = 0 /\
  heap_ptr (arr_at i) /\ type_of (arr_at i) = TYPE_LISPARRAY /\ is_cons_rw (arr_at i) = false /\ ~ cont_value (arr_at i).
Proof.
  intros R. unfold arr_at. destruct (set_type_fields (enc_cons_ptr i) _ tag_arr) as (Wp&T&I&G&P). rewrite enc_ix in I by auto.
  set (p := set_ptr_type (enc_cons_ptr i) TYPE_LISPARRAY) in *.
  assert (Pp : is_ptr p = true) by (rewrite is_ptr_f, P; reflexivity).
  assert (Tp : type_of p = TYPE_LISPARRAY) by (rewrite type_of_ptr; auto).
  assert (Cv : ~ cont_value p).
  { unfold cont_value. intros E. assert (E2 : Z.land (Z.land p PTR_TYPE_MASK) CONTINUATION_INTERNAL = Z.land PTR_TYPE_MASK CONTINUATION_INTERNAL).
    { rewrite <- Z.land_assoc, (Z.land_comm PTR_TYPE_MASK), Z.land_assoc, E. reflexivity. }
    rewrite ptr_type_mask_f, T in E2 by auto. revert E2. clear. arch; intros E; vm_compute in E; discriminate. }
  assert (Cp : is_const_ptr p = false).
  { assert (E : Z.land p PTR_TO_CONSTANT_BIT = Z.land (Z.land p PTR_TYPE_MASK) PTR_TO_CONSTANT_BIT).
    { rewrite <- Z.land_assoc. f_equal. clear. arch; reflexivity. }
    unfold is_const_ptr. rewrite E, ptr_type_mask_f, T by auto. clear. arch; reflexivity. }
  split; auto. split; auto. split; auto. split; [split; auto|]. split; auto. split; auto.
  unfold is_cons_rw. rewrite Tp. clear. arch; reflexivity.
Qed.

Section N.
Variable n : nat.
Hypothesis L : Z.of_nat n + 1 < 2 ^ (W - 8).

Lemma nest_cell i c : cell (nest_heap n) i = Some c <-> 0 <= i <= Z.of_nat n /\ c = (i, enc_sym SYM_LISPARRAY_TYPE).
Proof.
  unfold cell. cbn [cells nest_heap]. destruct (Z.ltb_spec i 0); [split; [discriminate|lia]|].
  rewrite nth_error_map. split.
  - destruct (nth_error (seq 0 (S n)) (Z.to_nat i)) as [k|] eqn:E; [|discriminate]. intros X. injection X as <-.
    pose proof (nth_error_Some (seq 0 (S n)) (Z.to_nat i)) as [X _]. rewrite E, seq_length in X. specialize (X ltac:(discriminate)).
    apply nth_error_nth with (d := 0%nat) in E. rewrite seq_nth in E by lia. subst k.
    split; [lia|]. rewrite Nat.add_0_l, Z2Nat.id by lia. reflexivity.
  - intros [R ->]. rewrite (nth_error_nth' _ 0%nat) by (rewrite seq_length; lia). rewrite seq_nth by lia.
    cbn [option_map]. rewrite Nat.add_0_l, Z2Nat.id by lia. reflexivity.
Qed.

Lemma nest_reach w : reach (nest_heap n) (fun x => In x [arr_at 0]) w -> exists i, 0 <= i <= Z.of_nat n /\ w = arr_at i.
Proof.
  intros H. induction H as [w [<-|[]] _|w v Rw (i&R&->) Pt Hv]; [exists 0; split; [lia|auto]|].
  destruct (arr_facts i) as (Wi&Ii&Gi&Hi&Ti&_); [lia|].
  inversion Pt as [a d T C|a d T C|a d dat sz el k v' T C M I N|a d st dep T C N M]; subst.
  1,2: exfalso; rewrite Ti in T; revert T; clear; arch; discriminate.
  2: exfalso; rewrite Ti in T; revert T; clear; arch; discriminate.
  rewrite Ii in C. apply nest_cell in C as [_ E]. injection E as -> ->. cbn [mem nest_heap] in M. unfold nest_mem in M.
  destruct (Z.leb_spec 0 i), (Z.ltb_spec i (Z.of_nat n)); cbn [andb] in M; try lia.
  - injection M as <- <- <- <-. destruct I as [<-|[]]. exists (i + 1). split; [lia|auto].
  - destruct (i =? Z.of_nat n); [|discriminate]. injection M as <- <- <- <-. destruct I.
Qed.

Lemma nest_ready : dsw_ready (nest_heap n) (fun x => In x [arr_at 0]).
Proof.
  constructor.
  - intros i a d C. apply nest_cell in C as [_ E]. injection E as -> ->. split; [apply enc_sym_word|apply enc_sym_gc].
  - unfold hsize. cbn [cells nest_heap]. rewrite map_length, seq_length. lia.
  - intros w [<-|[]]. destruct (arr_facts 0) as (Wi&Ii&Gi&_); [lia|]. auto.
  - intros w Rw. apply nest_reach in Rw as (i&R&->). destruct (arr_facts i) as (Wi&Ii&Gi&_); [lia|]. split; auto. split; auto.
    rewrite Ii. unfold hsize. cbn [cells nest_heap]. rewrite map_length, seq_length. lia.
  - intros w v Rw Rv _. apply nest_reach in Rw as (i&R&->). apply nest_reach in Rv as (j&R'&->).
    destruct (arr_facts i) as (_&_&_&_&Ti&_); [lia|]. destruct (arr_facts j) as (_&_&_&_&Tj&_); [lia|]. congruence.
  - intros w a d Rw T. apply nest_reach in Rw as (i&R&->). destruct (arr_facts i) as (_&_&_&_&Ti&_); [lia|].
    exfalso. rewrite Ti in T. revert T. clear. arch; discriminate.
  - intros w a d Rw T C. apply nest_reach in Rw as (i&R&->). destruct (arr_facts i) as (_&Ii&_); [lia|]. rewrite Ii in C.
    apply nest_cell in C as [_ E]. injection E as -> ->. cbn [mem nest_heap]. unfold nest_mem.
    destruct (Z.leb_spec 0 i), (Z.ltb_spec i (Z.of_nat n)); cbn [andb]; try lia.
    + exists 0, [arr_at (i + 1)], 0. split; [rewrite Z.mul_1_r; reflexivity|]. intros e [<-|[]].
      destruct (arr_facts (i + 1)) as (Wj&_&Gj&_&_&_&Cj); [lia|]. auto.
    + exists 0, [], 0. replace i with (Z.of_nat n) by lia. rewrite Z.eqb_refl, Z.mul_0_r. split; [reflexivity|]. intros e [].
  - intros w a d st dep Rw T. apply nest_reach in Rw as (i&R&->). destruct (arr_facts i) as (_&_&_&_&Ti&_); [lia|].
    exfalso. rewrite Ti in T. revert T. clear. arch; discriminate.
Qed.

Lemma nest_deep d : forall i h fuel, 0 <= i -> i + Z.of_nat d <= Z.of_nat n -> mem h = nest_mem n ->
  (forall j, i <= j <= Z.of_nat n -> cell h j = Some (j, enc_sym SYM_LISPARRAY_TYPE)) -> (d < fuel)%nat ->
  dsw d fuel h (arr_at i) NULL_PTR Down = UB.
Proof.
  induction d as [|d IH]; intros i h fuel Ri Rd M C F; (destruct fuel as [|k]; [lia|]); cbn [dsw];
    (destruct (arr_facts i) as (Wi&Ii&Gi&[Pi Ci]&Ti&RWi&_); [lia|]);
    pose proof (C i ltac:(lia)) as Cc;
    unfold down_cond; rewrite !dec_ptr_f, Ii, Pi, Ci, null_ix;
    (destruct (Z.eqb_spec i (2 ^ (W - 8) - 1)); [lia|]); cbn [negb andb];
    rewrite rd_cell, Cc; cbn [bind snd fst]; rewrite get_mark_f, enc_sym_gc; cbn [Z.eqb negb];
    rewrite RWi, (mark_cell_ok _ _ _ Cc); cbn [bind]; rewrite Ti, Z.eqb_refl;
    change (mem (mk h i (i, enc_sym SYM_LISPARRAY_TYPE))) with (mem h); rewrite M; unfold nest_mem.
  - destruct (Z.leb_spec 0 i), (Z.ltb_spec i (Z.of_nat n)); cbn [andb]; try lia.
    + destruct (WB / WB <=? _); reflexivity.
    + replace i with (Z.of_nat n) by lia. rewrite Z.eqb_refl. destruct (0 / WB <=? _); reflexivity.
  - destruct (Z.leb_spec 0 i), (Z.ltb_spec i (Z.of_nat n)); cbn [andb]; try lia.
    rewrite Z.div_same by (clear; arch; lia). cbn [length Z.of_nat Z.leb Z.compare]. change (firstn (Z.to_nat 1) [arr_at (i + 1)]) with [arr_at (i + 1)].
    cbn [mark_elts]. destruct (arr_facts (i + 1)) as (_&_&_&[Pj _]&_); [lia|]. rewrite Pj.
    rewrite (IH (i + 1)); [reflexivity|lia|lia|exact M| |lia].
    intros j Rj. unfold mk. rewrite cell_hput_neq by lia. apply C. lia.
Qed.

(* n nested calls do not suffice *)
Theorem dsw_no_stack_refuted : dsw_ready (nest_heap n) (fun x => In x [arr_at 0]) /\
  forall fuel, (n < fuel)%nat -> dsw_roots n fuel (nest_heap n) [arr_at 0] = UB.
Proof.
  split; [apply nest_ready|]. intros fuel F. cbn [dsw_roots]. unfold dsw_phase.
  destruct (arr_facts 0) as (_&_&_&[P0 _]&_); [lia|]. rewrite P0, nest_deep; auto; try lia.
  intros j Rj. apply nest_cell. auto.
Qed.
End N.
End Nest.

Print Assumptions dsw_correct.
Print Assumptions dsw_channel_refuted.
Print Assumptions dsw_continuation_refuted.
Print Assumptions dsw_no_stack_refuted.

Example ex_nest : Z.of_nat 3 + 1 < 2 ^ (W (A := A64) - 8) /\
  dsw_roots (A := A64) 3 100 (nest_heap (A := A64) 3) [arr_at (A := A64) 0] = UB /\
  match dsw_roots (A := A64) 4 100 (nest_heap (A := A64) 3) [arr_at (A := A64) 0] with Ok _ => True | _ => False end.
Proof. vm_compute. repeat split; reflexivity. Qed.
