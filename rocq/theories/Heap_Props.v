(* C08: cell allocation. *)
From Verif Require Import Base Value_Model Heap_Model Value_Proofs Value_Proofs2 Heap_Spec Heap_Proofs List_Proofs
  Heap_Proofs2 GC_Model GC_Spec GC_Props.
From Coq Require Import Permutation.
Local Open Scope Z_scope.

Section Spec.
Context {A : Arch}.

(* A history of the heap from its initialisation with [n] cells.  [out] lists the
   cells handed out and not yet recovered by garbage collection.  In between the
   program may store anything in the cells it was given and change the objects
   in the memory; it leaves the free list alone. *)
Inductive hist (n g : Z) : heap -> list Z -> Prop :=
| hist_init h : heap_init n g = Ok h -> hist n g h []
| hist_cell h out ty a d h' v : hist n g h out -> ptr_tag ty ->
    alloc_cell h ty a d = Ok (h', v) -> v <> MERROR -> hist n g h' (f_ix v :: out)
| hist_list h out vals h' v ps : hist n g h out ->
    alloc_list_init h vals = Ok (h', v) -> v <> MERROR -> list_on h' v vals ps -> hist n g h' (map f_ix ps ++ out)
| hist_store h out h' : hist n g h out ->
    same_but out h h' -> hsize h' = hsize h -> freelist h' = freelist h -> num_alloc h' = num_alloc h -> hist n g h' out
| hist_gc h out out' fuel pre genv ctxs h' : hist n g h out ->
    gc_ready h (gc_root h pre genv ctxs) -> Forall (env_at h) genv -> Forall (fun c => env_at h (c_env c)) ctxs ->
    gc fuel h pre genv ctxs = Ok (h', true) -> lost h' = false ->
    NoDup out' -> (forall i, In i out' <-> live h (gc_root h pre genv ctxs) i) -> hist n g h' out'.

End Spec.

Section Proofs.
Context {A : Arch}.

Definition split_heap (h : heap) (out fl : list Z) : Prop :=
  heap_ok h fl /\ NoDup (out ++ fl) /\ forall i, In i (out ++ fl) <-> 0 <= i < hsize h.

Lemma NoDup_app_parts {T} (a b : list T) : NoDup (a ++ b) -> NoDup a /\ NoDup b /\ forall x, In x a -> ~ In x b.
Proof.
  induction a as [|x a IH]; simpl; intros N; [repeat split; auto; constructor|]. inversion N as [|? ? N1 N2]; subst.
  destruct (IH N2) as (H1&H2&H3). split; [constructor; auto; intros I; apply N1, in_or_app; auto|]. split; auto.
  intros y [<-|I]; auto. intros J. apply N1, in_or_app; auto.
Qed.

Lemma NoDup_app_build {T} (a b : list T) : NoDup a -> NoDup b -> (forall x, In x a -> ~ In x b) -> NoDup (a ++ b).
Proof.
  induction 1 as [|x a N1 N2 IH]; simpl; intros Nb D; auto. constructor.
  - intros I. apply in_app_or in I. destruct I as [I|I]; auto. eapply D; eauto.
  - apply IH; auto.
Qed.

Lemma f_ix_enc_map l : Forall (fun i => 0 <= i < 2 ^ (W - 8)) l -> map f_ix (map enc_cons_ptr l) = l.
Proof. induction 1; simpl; auto. rewrite enc_ix by auto. congruence. Qed.

Lemma chain_small h fl : heap_ok h fl -> Forall (fun i => 0 <= i < 2 ^ (W - 8)) fl.
Proof.
  intros OK. pose proof (chain_range _ _ _ (ok_chain _ _ OK)) as R. pose proof (ok_size _ _ OK).
  eapply Forall_impl; [|exact R]. simpl. intros; lia.
Qed.

Lemma MERROR_neq0 : MERROR <> 0.
Proof. destruct A; discriminate. Qed.

(* what list allocation does: n linked cells from the front of the free list, or
   merror and no change *)
Theorem list_alloc_all_or_nothing h fl vals : heap_ok h fl ->
  exists h' v, alloc_list_init h vals = Ok (h', v) /\
    ((length vals <= length fl)%nat /\ list_on h' v vals (map enc_cons_ptr (firstn (length vals) fl)) /\ v <> MERROR /\
       heap_ok h' (skipn (length vals) fl) /\ same_but (firstn (length vals) fl) h h' /\ hsize h' = hsize h \/
     (length fl < length vals)%nat /\ v = MERROR /\ h' = h).
Proof.
  intros OK. destruct (le_lt_dec (length vals) (length fl)) as [LE|LT].
  - destruct vals as [|x vals].
    + exists h, 0. split; [unfold alloc_list_init; simpl; rewrite NIL_0; reflexivity|]. left. simpl.
      split; [lia|]. split; [constructor|]. split; [apply not_eq_sym, MERROR_neq0|]. split; auto. split; auto. apply same_but_refl.
    + destruct (alloc_list_init_ok h fl (x :: vals) OK) as (h'&v&E&OK'&L&Hv&Sm&Sz&_); [discriminate|auto|].
      exists h', v. split; auto. left. split; auto. split; auto. split; [|auto].
      intros ->. inversion L as [|? ? ? ? ? ? C]; subst. apply cons_is_ptr in C. rewrite MERROR_not_ptr in C. discriminate.
  - exists h, MERROR. split; [eapply alloc_list_init_fail; eauto|]. right. auto.
Qed.

Theorem cell_alloc_all_or_nothing h fl ty a d : heap_ok h fl -> ptr_tag ty ->
  exists h' v, alloc_cell h ty a d = Ok (h', v) /\
    ((exists i fl', fl = i :: fl' /\ f_ix v = i /\ v <> MERROR /\ cell h' i = Some (a, d) /\ heap_ok h' fl' /\ same_but [i] h h' /\ hsize h' = hsize h) \/
     fl = [] /\ v = MERROR /\ h' = h).
Proof.
  intros OK T. destruct (alloc_cell_cases h fl ty a d OK T) as [(->&E)|(i&fl'&h'&->&E&OK'&C&Sm&Sz&_&_&_&Ix&Ri)].
  - exists h, MERROR. split; auto.
  - exists h', (set_ptr_type (enc_cons_ptr i) ty). split; auto. left. exists i, fl'. repeat (split; auto).
    intros EE. pose proof (set_type_fields (enc_cons_ptr i) ty T) as F. pose proof MERROR_not_ptr as M. rewrite <- EE in M.
    rewrite is_ptr_f in M. destruct F as (_&_&_&_&P). rewrite P in M. discriminate.
Qed.

Lemma in_zseq n i : In i (zseq n) <-> 0 <= i < n.
Proof.
  unfold zseq. rewrite in_map_iff. split.
  - intros (k&<-&I). apply in_seq in I. lia.
  - intros R. exists (Z.to_nat i). split; [lia|]. apply in_seq. lia.
Qed.

Lemma live_range h root i : gc_ready h root -> live h root i -> 0 <= i < hsize h.
Proof. intros R (w&Rw&<-). destruct (gr_in _ _ R _ Rw) as (_&L). pose proof (f_ix_range w). lia. Qed.

Lemma hist_split n g h out : 1 <= n <= 2 ^ (W - 8) -> hist n g h out -> hsize h = n /\ exists fl, split_heap h out fl.
Proof.
  intros Rn. induction 1 as [h E|h out ty a d h' v H IH T E NM|h out vals h' v ps H IH E NM L|h out h' H IH Sm Sz Fe Ne|
    h out out' fuel pre genv ctxs h' H IH RDY EN CT E NL ND LV].
  - destruct (heap_init_ok n g Rn) as (h0&E0&OK&Sz&_). rewrite E in E0. injection E0 as <-. split; auto.
    exists (zseq n). split; auto. split; [apply (ok_nodup _ _ OK)|]. intros i. simpl. rewrite in_zseq. lia.
  - destruct IH as (Sz&fl&OK&ND&CV). destruct (cell_alloc_all_or_nothing h fl ty a d OK T) as (h1&v1&E1&C).
    rewrite E in E1. injection E1 as <- <-.
    destruct C as [(i&fl'&->&<-&_&_&OK'&_&Sz')|(_&->&_)]; [|contradiction]. split; [congruence|]. exists fl'.
    assert (P : Permutation ((f_ix v :: out) ++ fl') (out ++ f_ix v :: fl')) by (simpl; apply Permutation_middle).
    split; auto. split; [eapply Permutation_NoDup; [symmetry; exact P|auto]|].
    intros i. rewrite Sz', <- CV. split; intros I; [eapply Permutation_in; eauto|eapply Permutation_in; [symmetry; exact P|auto]].
  - destruct IH as (Sz&fl&OK&ND&CV). destruct (list_alloc_all_or_nothing h fl vals OK) as (h1&v1&E1&C).
    rewrite E in E1. injection E1 as <- <-.
    destruct C as [(LE&L1&_&OK'&_&Sz')|(_&->&_)]; [|contradiction]. split; [congruence|].
    destruct (list_on_det _ _ _ _ L _ _ L1) as (_&->). rewrite f_ix_enc_map.
    2:{ pose proof (chain_small _ _ OK) as R. rewrite Forall_forall in R |- *. intros i I. apply R. eapply In_firstn; eauto. }
    exists (skipn (length vals) fl).
    assert (P : Permutation ((firstn (length vals) fl ++ out) ++ skipn (length vals) fl) (out ++ fl)).
    { rewrite <- (firstn_skipn (length vals) fl) at 3. rewrite !app_assoc. apply Permutation_app_tail, Permutation_app_comm. }
    split; auto. split; [eapply Permutation_NoDup; [symmetry; exact P|auto]|].
    intros i. rewrite Sz', <- CV. split; intros I; [eapply Permutation_in; eauto|eapply Permutation_in; [symmetry; exact P|auto]].
  - destruct IH as (Sz0&fl&OK&ND&CV). split; [congruence|]. exists fl. split; [|split; auto; rewrite Sz; auto].
    destruct (NoDup_app_parts _ _ ND) as (_&NF&DJ). destruct OK as [o1 o2 o3 o4]. constructor; auto.
    + rewrite Sz; auto.
    + rewrite Fe. eapply chain_frame; eauto. intros i I. apply Sm. intros J. eapply DJ; eauto.
    + congruence.
  - destruct IH as (Sz0&fl&OK&ND0&CV).
    destruct (gc_frees_unreachable h pre genv ctxs RDY EN CT fuel h' E NL) as (fl'&OK'&Sz&F&_). split; [congruence|].
    exists fl'. split; auto. split.
    + apply NoDup_app_build; auto; [apply (ok_nodup _ _ OK')|]. intros i I J. apply F in J. apply LV in I. tauto.
    + intros i. rewrite in_app_iff, LV, F, Sz. split.
      * intros [I|I]; [eapply live_range; eauto|tauto].
      * intros R. destruct (in_dec Z.eq_dec i out') as [I|I]; [left; apply LV; auto|right; rewrite <- LV; auto].
Qed.

(* C08: a cell that is handed out was free: it is none of the cells in use.  The
   same for the cells of an allocated list, which are also distinct. *)
Theorem cell_alloc_fresh n g h out ty a d h' v : 1 <= n <= 2 ^ (W - 8) -> hist n g h out -> ptr_tag ty ->
  alloc_cell h ty a d = Ok (h', v) -> v <> MERROR ->
  0 <= f_ix v < n /\ ~ In (f_ix v) out /\ cell h' (f_ix v) = Some (a, d) /\ (forall i, i <> f_ix v -> cell h' i = cell h i).
Proof.
  intros Rn H T E NM. destruct (hist_split n g h out Rn H) as (Sz&fl&OK&ND&CV).
  destruct (cell_alloc_all_or_nothing h fl ty a d OK T) as (h1&v1&E1&C). rewrite E in E1. injection E1 as <- <-.
  destruct C as [(i&fl'&->&<-&_&Cl&OK'&Sm&_)|(_&->&_)]; [|contradiction].
  split; [rewrite <- Sz; apply CV, in_or_app; simpl; auto|].
  split; [intros I; destruct (NoDup_app_parts _ _ ND) as (_&_&DJ); eapply DJ; eauto; simpl; auto|].
  split; auto. intros i NE. apply Sm. intros [<-|[]]. congruence.
Qed.

Theorem list_alloc_fresh n g h out vals h' v ps : 1 <= n <= 2 ^ (W - 8) -> hist n g h out ->
  alloc_list_init h vals = Ok (h', v) -> v <> MERROR -> list_on h' v vals ps ->
  NoDup (map f_ix ps) /\ length ps = length vals /\
  (forall i, In i (map f_ix ps) -> 0 <= i < n /\ ~ In i out) /\
  (forall i, ~ In i (map f_ix ps) -> cell h' i = cell h i).
Proof.
  intros Rn H E NM L. destruct (hist_split n g h out Rn H) as (Sz&fl&OK&ND&CV).
  destruct (list_alloc_all_or_nothing h fl vals OK) as (h1&v1&E1&C). rewrite E in E1. injection E1 as <- <-.
  destruct C as [(LE&L1&_&OK'&Sm&Sz')|(_&->&_)]; [|contradiction].
  destruct (list_on_det _ _ _ _ L _ _ L1) as (_&->). destruct (NoDup_app_parts _ _ ND) as (_&NF&DJ).
  rewrite f_ix_enc_map.
  2:{ pose proof (chain_small _ _ OK) as R. rewrite Forall_forall in R |- *. intros i I. apply R. eapply In_firstn; eauto. }
  split; [apply NoDup_firstn; auto|]. split; [rewrite map_length, firstn_length; lia|]. split; auto.
  intros i I. apply In_firstn in I. split; [rewrite <- Sz; apply CV, in_or_app; auto|]. intros J. eapply DJ; eauto.
Qed.

(* C08: cells in use and cells on the free list are together exactly the cells of
   the heap, and the allocation counter is the number in use. *)
Theorem heap_accounts n g h out : 1 <= n <= 2 ^ (W - 8) -> hist n g h out ->
  NoDup out /\ num_alloc h = Z.of_nat (length out) /\
  exists fl, chain h (freelist h) fl /\ (length out + length fl = Z.to_nat n)%nat /\
    forall i, 0 <= i < n <-> In i out /\ ~ In i fl \/ In i fl /\ ~ In i out.
Proof.
  intros Rn H. destruct (hist_split n g h out Rn H) as (Sz&fl&OK&ND&CV). destruct (NoDup_app_parts _ _ ND) as (NO&NF&DJ).
  assert (P : Permutation (out ++ fl) (zseq n)).
  { apply NoDup_Permutation; auto; [|intros i; rewrite CV, in_zseq; lia].
    destruct (heap_init_ok n g Rn) as (h0&_&OK0&_). apply (ok_nodup _ _ OK0). }
  assert (LL : (length out + length fl = Z.to_nat n)%nat).
  { rewrite <- app_length, (Permutation_length P). unfold zseq. rewrite map_length, seq_length. reflexivity. }
  split; auto. split; [rewrite (ok_count _ _ OK), Sz; lia|]. exists fl. split; [apply OK|]. split; auto.
  intros i. rewrite <- Sz, <- CV, in_app_iff. split; [|tauto].
  intros [I|I]; [left|right]; split; auto; intros J; eapply DJ; eauto.
Qed.

(* C08: the allocator never leaves the heap and refuses only for lack of cells,
   changing nothing. *)
Theorem alloc_total n g h out : 1 <= n <= 2 ^ (W - 8) -> hist n g h out ->
  (forall ty a d, ptr_tag ty -> exists h' v, alloc_cell h ty a d = Ok (h', v) /\ (v = MERROR <-> Z.of_nat (length out) = n) /\ (v = MERROR -> h' = h)) /\
  (forall vals, exists h' v, alloc_list_init h vals = Ok (h', v) /\ (v = MERROR <-> n < Z.of_nat (length out + length vals)) /\
     (v = MERROR -> h' = h) /\ (v <> MERROR -> exists ps, list_on h' v vals ps)).
Proof.
  intros Rn H. destruct (heap_accounts n g h out Rn H) as (_&NA&fl0&_&_&_).
  destruct (hist_split n g h out Rn H) as (Sz&fl&OK&ND&CV).
  pose proof (ok_count _ _ OK) as K. rewrite NA, Sz in K. split.
  - intros ty a d T. destruct (cell_alloc_all_or_nothing h fl ty a d OK T) as (h'&v&E&C). exists h', v. split; auto.
    destruct C as [(i&fl'&->&_&NM&_)|(->&->&->)]; simpl in K; split; try tauto; split; auto; intros; try lia; contradiction.
  - intros vals. destruct (list_alloc_all_or_nothing h fl vals OK) as (h'&v&E&C). exists h', v. split; auto.
    destruct C as [(LE&L&NM&_)|(LT&->&->)].
    + split; [split; [contradiction|lia]|]. split; [contradiction|]. eauto.
    + split; [split; [lia|auto]|]. split; auto. contradiction.
Qed.

End Proofs.

(* a history: three cells, a cell and a list of two are handed out, a store into
   the first; then the heap is full *)
Example ex_hist : exists h v ps, hist (A := A32) 3 4 h (map (f_ix (A := A32)) ps ++ [0]) /\ list_on (A := A32) h v [7; 8] ps /\
  alloc_cell (A := A32) h (TYPE_CONS (A := A32)) 1 2 = Ok (h, MERROR (A := A32)).
Proof.
  eexists _, _, [enc_cons_ptr (A := A32) 1; enc_cons_ptr (A := A32) 2]. split; [|split].
  - eapply hist_list with (vals := [7; 8]).
    + change 0 with (f_ix (A := A32) (enc_cons_ptr (A := A32) 0)). eapply hist_cell with (ty := TYPE_CONS (A := A32)) (a := 5) (d := 6).
      * apply hist_init. vm_compute. reflexivity.
      * apply tag_cons.
      * vm_compute. reflexivity.
      * vm_compute. discriminate.
    + vm_compute. reflexivity.
    + vm_compute. discriminate.
    + eapply list_on_cons; [split; [discriminate|reflexivity]|reflexivity|reflexivity|].
      eapply list_on_cons; [split; [discriminate|reflexivity]|reflexivity|reflexivity|]. constructor.
  - eapply list_on_cons; [split; [discriminate|reflexivity]|reflexivity|reflexivity|].
    eapply list_on_cons; [split; [discriminate|reflexivity]|reflexivity|reflexivity|]. constructor.
  - vm_compute. reflexivity.
Qed.

Print Assumptions list_alloc_all_or_nothing.
Print Assumptions cell_alloc_all_or_nothing.
Print Assumptions cell_alloc_fresh.
Print Assumptions list_alloc_fresh.
Print Assumptions heap_accounts.
Print Assumptions alloc_total.
