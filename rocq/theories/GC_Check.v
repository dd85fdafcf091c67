(* A decision procedure for [gc_ready] on concrete heaps, used by the examples. *)
From Verif Require Import Base Value_Model Heap_Model Value_Proofs Value_Proofs2 Heap_Spec Heap_Proofs GC_Model GC_Spec GC_Proofs GC_Proofs4.
Local Open Scope Z_scope.

Section Arch.
Context {A : Arch}.

Definition hpb (w : Z) : bool := is_ptr w && negb (is_const_ptr w).
Lemma hpb_spec w : hpb w = true <-> heap_ptr w.
Proof. unfold hpb, heap_ptr. rewrite andb_true_iff, negb_true_iff. tauto. Qed.

Definition succs (h : heap) (w : Z) : list Z :=
  match cell h (f_ix w) with
  | Some (a, d) =>
    (if type_of w =? TYPE_CONS then [a; d] else []) ++
    (if type_of w =? TYPE_LISPARRAY then
       match mem h a with
       | Some (OLisp _ _ elts _) => filter (fun v => negb (Z.land v CONTINUATION_INTERNAL =? CONTINUATION_INTERNAL)) elts
       | _ => []
       end else []) ++
    (if (type_of w =? TYPE_CHANNEL) && negb (a =? 0) then match mem h a with Some (OChan _ dep) => [dep] | _ => [] end else [])
  | None => []
  end.

Lemma points_succs h w v : points h w v -> In v (succs h w).
Proof.
  unfold succs. intros H. destruct H as [a d T C|a d T C|a d data size elts k v T C M I NC|a d st dep T C N M];
    rewrite C, T, ?Z.eqb_refl; rewrite ?in_app_iff; try rewrite M.
  - left. simpl; auto.
  - left. simpl; auto.
  - right; left. apply filter_In. split; auto. apply negb_true_iff, Z.eqb_neq. auto.
  - right; right. destruct (Z.eqb_spec a 0); [congruence|]. simpl. auto.
Qed.

Definition elem (x : Z) (l : list Z) : bool := existsb (Z.eqb x) l.
Lemma elem_in x l : elem x l = true <-> In x l.
Proof. unfold elem. rewrite existsb_exists. split; [intros (y&I&E); apply Z.eqb_eq in E; congruence|intros I; exists x; rewrite Z.eqb_refl; auto]. Qed.

Definition idx (h : heap) : list Z := map Z.of_nat (seq 0 (length (cells h))).
Lemma idx_in h i c : cell h i = Some c -> In i (idx h).
Proof. intros C. apply cell_range in C. unfold idx, hsize in *. apply in_map_iff. exists (Z.to_nat i). rewrite in_seq. lia. Qed.

Definition wordb (x : Z) : bool := (0 <=? x) && (x <? 2 ^ W).

Definition check_cell (h : heap) (i : Z) : bool :=
  match cell h i with
  | Some (a, d) => wordb d && (f_gc d =? 0) &&
     (if ownerb d then
        (if (d =? enc_sym SYM_LISPARRAY_TYPE) || (d =? enc_sym SYM_ARRAY_TYPE) then
           match mem h a with Some (OLisp _ _ _ _) => true | Some (OByte _ _) => true | _ => false end else true) &&
        (if d =? enc_sym SYM_CHANNEL_TYPE then match mem h a with Some (OChan _ _) => true | _ => false end else true) &&
        (if d =? enc_sym SYM_CUSTOM_TYPE then match mem h a with Some OOther => true | _ => false end else true)
      else true)
  | None => true
  end.
Definition check_pair (h : heap) (i j : Z) : bool :=
  (i =? j) ||
  (match cell h i, cell h j with
   | Some (a, d), Some (a', d') => negb ((a =? a') && ownerb d && ownerb d')
   | _, _ => true
   end && forallb (fun x => (x =? 0) || negb (elem x (blocks h j))) (blocks h i)).
Definition check_word (h : heap) (ws : list Z) (w : Z) : bool :=
  wordb w && (f_ix w <? hsize h) &&
  forallb (fun s => negb (hpb s) || elem s ws) (succs h w) &&
  match cell h (f_ix w) with
  | Some (a, d) =>
    (if type_of w =? TYPE_LISPARRAY then
       match mem h a with
       | Some (OLisp _ size elts k) => (size =? WB * Z.of_nat (length elts)) && (1 <=? Z.of_nat (length elts)) &&
            (Z.of_nat (length elts) <? 2 ^ 32) && (k =? 0)
       | _ => false
       end else true) &&
    (if (type_of w =? TYPE_CHANNEL) && negb (a =? 0) then match mem h a with Some (OChan _ _) => true | _ => false end else true)
  | None => true
  end.
Definition check_words (h : heap) (w v : Z) : bool :=
  ((f_ix w =? f_ix v) && (type_of w =? type_of v)) ||
  (negb (f_ix w =? f_ix v) &&
   match cell h (f_ix w), cell h (f_ix v) with
   | Some (a, _), Some (a', _) => negb ((a =? a') && (type_of w =? TYPE_LISPARRAY) && (type_of v =? TYPE_LISPARRAY))
   | _, _ => true
   end).

Definition check (h : heap) (roots ws : list Z) : bool :=
  forallb (check_cell h) (idx h) && forallb (fun i => forallb (check_pair h i) (idx h)) (idx h) &&
  forallb (check_word h ws) ws && forallb (fun w => forallb (check_words h w) ws) ws &&
  forallb (fun r => negb (hpb r) || elem r ws) roots &&
  (hsize h <=? 2 ^ (W - 8)) && (1 <=? gsize h) && (match gstack h with [] => true | _ => false end) && negb (lost h).

Lemma check_ready h (root : Z -> Prop) roots ws : (forall r, root r -> In r roots) -> check h roots ws = true -> gc_ready h root /\ (forall w, reach h root w -> In w ws).
Proof.
  intros HR H. unfold check in H. rewrite !andb_true_iff in H.
  destruct H as ((((((((H1&H2)&H3)&H4)&H5)&H6)&H7)&H8)&H9).
  rewrite forallb_forall in H1, H2, H3, H4, H5.
  assert (RE : forall w, reach h root w -> In w ws).
  { induction 1 as [w Rt Hw|w v Rw IH Pt Hv].
    - specialize (H5 w (HR _ Rt)). apply orb_true_iff in H5 as [X|X]; [apply negb_true_iff in X; apply hpb_spec in Hw; congruence|apply elem_in; auto].
    - specialize (H3 w IH). unfold check_word in H3. rewrite !andb_true_iff in H3. destruct H3 as [[[_ _] X] _].
      rewrite forallb_forall in X. specialize (X v (points_succs _ _ _ Pt)).
      apply orb_true_iff in X as [X|X]; [apply negb_true_iff in X; apply hpb_spec in Hv; congruence|apply elem_in; auto]. }
  split; auto. constructor.
  - intros i a d C. specialize (H1 i (idx_in _ _ _ C)). unfold check_cell in H1. rewrite C in H1. rewrite !andb_true_iff in H1.
    destruct H1 as [[X Y] _]. apply Z.eqb_eq in Y. unfold wordb in X. rewrite andb_true_iff, Z.leb_le, Z.ltb_lt in X. split; auto.
  - apply Z.leb_le; auto.
  - split; [destruct (gstack h); auto; discriminate|apply Z.leb_le; auto].
  - apply negb_true_iff; auto.
  - intros w Rw. specialize (H3 w (RE w Rw)). unfold check_word in H3. rewrite !andb_true_iff in H3. destruct H3 as [[[X Y] _] _].
    unfold wordb in X. rewrite andb_true_iff, Z.leb_le, Z.ltb_lt in X. apply Z.ltb_lt in Y. split; auto.
  - intros w v Rw Rv E. specialize (H4 w (RE w Rw)). rewrite forallb_forall in H4. specialize (H4 v (RE v Rv)).
    unfold check_words in H4. rewrite E, Z.eqb_refl in H4. cbn [negb andb orb] in H4. rewrite orb_false_r in H4. apply Z.eqb_eq; auto.
  - intros w a d Rw T C. specialize (H3 w (RE w Rw)). unfold check_word in H3. rewrite !andb_true_iff in H3. destruct H3 as [_ X].
    rewrite C, T, Z.eqb_refl in X. apply andb_true_iff in X as [X _]. destruct (mem h a) as [[data size elts k| | | |]|]; try discriminate.
    rewrite !andb_true_iff, !Z.eqb_eq, Z.leb_le, Z.ltb_lt in X. destruct X as [[[X1 X2] X3] X4]. subst.
    exists data, elts. split; auto. split; [lia|auto].
  - intros w v a d d' Rw Rv T T' C C'. specialize (H4 w (RE w Rw)). rewrite forallb_forall in H4. specialize (H4 v (RE v Rv)).
    unfold check_words in H4. destruct (Z.eqb_spec (f_ix w) (f_ix v)); auto. cbn [negb andb orb] in H4.
    rewrite C, C', T, T', !Z.eqb_refl in H4. discriminate.
  - intros w a d Rw T C Na. specialize (H3 w (RE w Rw)). unfold check_word in H3. rewrite !andb_true_iff in H3. destruct H3 as [_ X].
    rewrite C, T, Z.eqb_refl in X. apply andb_true_iff in X as [_ X]. destruct (Z.eqb_spec a 0); [congruence|]. cbn [negb andb] in X.
    destruct (mem h a) as [[| |st dep| |]|]; try discriminate. eauto.
  - intros i a d C O. specialize (H1 i (idx_in _ _ _ C)). unfold check_cell in H1. rewrite C in H1. apply andb_true_iff in H1 as [_ X].
    apply ownerb_spec in O. rewrite O in X. rewrite !andb_true_iff in X. destruct X as [[X1 X2] X3]. repeat split.
    + intros E. assert (E' : (d =? enc_sym SYM_LISPARRAY_TYPE) || (d =? enc_sym SYM_ARRAY_TYPE) = true) by (rewrite orb_true_iff, !Z.eqb_eq; auto).
      rewrite E' in X1. destruct (mem h a) as [[| | | |]|]; try discriminate; [left|right]; eauto.
    + intros E. rewrite E, Z.eqb_refl in X2. destruct (mem h a) as [[| | | |]|]; try discriminate; eauto.
    + intros E. rewrite E, Z.eqb_refl in X3. destruct (mem h a) as [[| | | |]|]; try discriminate; eauto.
  - intros i j a d d' C C' O O'. specialize (H2 i (idx_in _ _ _ C)). rewrite forallb_forall in H2. specialize (H2 j (idx_in _ _ _ C')).
    unfold check_pair in H2. apply orb_true_iff in H2 as [X|X]; [apply Z.eqb_eq; auto|]. apply andb_true_iff in X as [X _].
    apply ownerb_spec in O, O'. rewrite C, C', Z.eqb_refl, O, O' in X. discriminate.
  - intros i j x Ii Ij Nx.
    assert (Ci : exists c, cell h i = Some c) by (unfold blocks in Ii; destruct (cell h i); [eauto|destruct Ii]).
    assert (Cj : exists c, cell h j = Some c) by (unfold blocks in Ij; destruct (cell h j); [eauto|destruct Ij]).
    destruct Ci as (ci&Ci), Cj as (cj&Cj).
    specialize (H2 i (idx_in _ _ _ Ci)). rewrite forallb_forall in H2. specialize (H2 j (idx_in _ _ _ Cj)).
    unfold check_pair in H2. apply orb_true_iff in H2 as [X|X]; [apply Z.eqb_eq; auto|]. apply andb_true_iff in X as [_ X].
    rewrite forallb_forall in X. specialize (X x Ii). apply orb_true_iff in X as [X|X]; [apply Z.eqb_eq in X; congruence|].
    apply negb_true_iff in X. apply elem_in in Ij. congruence.
Qed.

End Arch.
