(* List segments in RAM: cells and their values, for code that relinks lists. *)
From Verif Require Import Base Value_Model Heap_Model Value_Proofs Value_Proofs2 Heap_Spec Heap_Proofs List_Proofs
  Heap_Proofs2 Env_Model Env_Proofs Sort_Model.
From Coq Require Import Permutation.
Local Open Scope Z_scope.

Section Spec.
Context {A : Arch}.

(* from the word [v] along the cells [l] (number and car of each) to the word [w] *)
Inductive seg (h : heap) : Z -> list (Z * Z) -> Z -> Prop :=
| seg_nil v : seg h v [] v
| seg_cons i x q l w : 0 <= i < 2 ^ (W - 8) -> cell h i = Some (x, q) -> seg h q l w -> seg h (enc_cons_ptr i) ((i, x) :: l) w.

End Spec.

Section Proofs.
Context {A : Arch}.

Lemma seg_frame h h' v l w : seg h v l w -> (forall i, In i (map fst l) -> cell h' i = cell h i) -> seg h' v l w.
Proof.
  induction 1 as [v|i x q l w R C S IH]; intros F; [constructor|]. apply seg_cons with (q := q); auto.
  - rewrite F; simpl; auto.
  - apply IH. intros j J. apply F. simpl; auto.
Qed.

Lemma seg_hput h v l w i c : seg h v l w -> 0 <= i -> ~ In i (map fst l) -> seg (hput h i c) v l w.
Proof. intros S R N. eapply seg_frame; eauto. intros j J. apply cell_hput_neq; auto. intros ->. auto. Qed.

Lemma seg_app h v l w l' w' : seg h v l w -> seg h w l' w' -> seg h v (l ++ l') w'.
Proof. induction 1; simpl; intros S; auto. econstructor; eauto. Qed.

Lemma seg_split h v l l' w : seg h v (l ++ l') w -> exists m, seg h v l m /\ seg h m l' w.
Proof.
  revert v. induction l as [|[i x] l IH]; simpl; intros v S; [exists v; split; [constructor|auto]|].
  inversion S as [|? ? q ? ? R C S']; subst. destruct (IH _ S') as (m&S1&S2). exists m. split; auto. econstructor; eauto.
Qed.

Lemma seg_range h v l w : seg h v l w -> Forall (fun i => 0 <= i < 2 ^ (W - 8)) (map fst l).
Proof. induction 1; simpl; constructor; auto. Qed.

Lemma seg_cell h v l w i x : seg h v l w -> In (i, x) l -> exists q, cell h i = Some (x, q).
Proof. induction 1; simpl; [intros []|]. intros [E|I]; auto. injection E as -> ->. eauto. Qed.

Lemma seg_last_put h v l i x w w' : seg h v (l ++ [(i, x)]) w -> NoDup (map fst (l ++ [(i, x)])) ->
  seg (hput h i (x, w')) v (l ++ [(i, x)]) w'.
Proof.
  intros S N. destruct (seg_split _ _ _ _ _ S) as (m&S1&S2). inversion S2 as [|? ? q ? ? R C S']; subst.
  rewrite map_app in N. simpl in N. apply NoDup_remove_2 in N. rewrite app_nil_r in N.
  eapply seg_app; [apply seg_hput; eauto; lia|]. econstructor; [auto|eapply cell_hput_eq; eauto|constructor].
Qed.

Lemma seg_list h v l : seg h v l 0 -> list_on h v (map snd l) (map enc_cons_ptr (map fst l)).
Proof.
  intros S. remember 0 as z eqn:E. revert E. induction S; intros ->; simpl; [constructor|].
  eapply list_on_cons_cell; eauto.
Qed.

Lemma list_seg h v xs cs : list_on h v xs (map enc_cons_ptr cs) -> Forall (fun i => 0 <= i < 2 ^ (W - 8)) cs ->
  seg h v (combine cs xs) 0 /\ length cs = length xs.
Proof.
  revert v xs. induction cs as [|c cs IH]; simpl; intros v xs L R; inversion L as [|? x q ? ? Wp C Rf L']; subst.
  - split; auto. constructor.
  - inversion R; subst. destruct (IH _ _ L') as (S&E); auto. split; [|simpl; lia]. econstructor; eauto.
    rewrite ref_cell_rw in Rf by (apply enc_not_const; auto). rewrite enc_ix in Rf by auto.
    destruct (cell h c) as [[? ?]|]; [injection Rf as -> ->; auto|discriminate].
Qed.

Lemma seg_nil_inv h v w l : seg h v l w -> l = [] -> v = w.
Proof. intros S ->. inversion S; auto. Qed.

Lemma seg_zero h l : seg h 0 l 0 -> l = [].
Proof. intros S. inversion S; auto. exfalso. rewrite H in H0. exact (enc_nonzero i H0 H). Qed.

Lemma seg_null h v l : seg h v l 0 -> (v =? NIL) = match l with [] => true | _ => false end.
Proof.
  intros S. rewrite NIL_0. inversion S as [|i ? ? ? ? R]; subst; auto. apply Z.eqb_neq. apply enc_nonzero; auto.
Qed.

(* stepping through a list segment with the heap operations *)
Lemma setd_enc h i x q v : 0 <= i < 2 ^ (W - 8) -> cell h i = Some (x, q) -> setd h (enc_cons_ptr i) v = Ok (hput h i (x, v)).
Proof. intros R C. unfold setd. rewrite (set_cdr_enc h i x q v R C). reflexivity. Qed.

Lemma setd_nil h v : setd h 0 v = Ok h.
Proof. unfold setd, set_cdr. rewrite zero_not_rw. reflexivity. Qed.

Lemma is_cons_enc i : 0 <= i < 2 ^ (W - 8) -> is_cons (enc_cons_ptr i) = true.
Proof. intros R. apply rw_is_cons; [apply enc_word|apply enc_rw]; auto. Qed.

Lemma end_loop_ok h v l : seg h v l 0 -> forall fuel ed, (length l <= fuel)%nat ->
  end_loop fuel h ed v = Ok (match rev l with [] => ed | (i, _) :: _ => enc_cons_ptr i end).
Proof.
  intros S. remember 0 as z eqn:E. revert E. induction S as [v|i x q l w R C S IH]; intros -> fuel ed F.
  - destruct fuel; cbn [end_loop]; rewrite zero_not_cons; reflexivity.
  - simpl in F. destruct fuel as [|n]; [lia|]. cbn [end_loop]. rewrite is_cons_enc, (cdr_enc h i _ _ R C) by auto. cbn [bind].
    rewrite IH by (auto; lia). simpl. destruct (rev l) as [|[j y] r]; reflexivity.
Qed.

Lemma last_loop_ok h v l : seg h v l 0 -> forall fuel, (length l <= fuel)%nat ->
  last_loop fuel h v = Ok (match rev l with [] => 0 | (i, _) :: _ => enc_cons_ptr i end).
Proof.
  intros S. remember 0 as z eqn:E. revert E. induction S as [v|i x q l w R C S IH]; intros -> fuel F.
  - destruct fuel; cbn [last_loop]; rewrite zero_not_cons; reflexivity.
  - simpl in F. destruct fuel as [|n]; [lia|]. cbn [last_loop]. rewrite is_cons_enc, (cdr_enc h i _ _ R C) by auto. cbn [bind].
    rewrite (seg_null _ _ _ S). destruct l as [|[j y] l]; [reflexivity|]. rewrite IH by (auto; lia).
    replace (rev ((i, x) :: (j, y) :: l)) with (rev ((j, y) :: l) ++ [(i, x)]) by reflexivity.
    destruct (rev ((j, y) :: l)) as [|[m z] r] eqn:Er; [|reflexivity].
    apply (f_equal (@length _)) in Er. rewrite rev_length in Er. discriminate.
Qed.

Lemma walk_ok h v l : seg h v l 0 -> forall n,
  exists w, walk n h v = Ok w /\ seg h v (firstn n l) w /\ seg h w (skipn n l) 0.
Proof.
  intros S. remember 0 as z eqn:E. revert E. induction S as [v|i x q l w R C S IH]; intros -> n.
  - exists 0. split; [|rewrite firstn_nil, skipn_nil; split; constructor].
    destruct n; cbn [walk]; [reflexivity|]. rewrite zero_not_cons. reflexivity.
  - destruct n as [|n]; [exists (enc_cons_ptr i); split; auto; split; [constructor|econstructor; eauto]|].
    cbn [walk]. rewrite is_cons_enc, (cdr_enc h i _ _ R C) by auto. cbn [bind]. destruct (IH eq_refl n) as (m&E&S1&S2).
    exists m. split; auto. simpl. split; auto. econstructor; eauto.
Qed.

End Proofs.
