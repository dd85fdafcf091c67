(* C36: rotate. *)
From Verif Require Import Base Value_Model Heap_Model Value_Proofs Value_Proofs2 Heap_Spec Heap_Proofs List_Proofs
  Heap_Proofs2 List_Props Env_Proofs Sort_Model Seg_Proofs Heap_Props.
From Coq Require Import Permutation.
Local Open Scope Z_scope.

Section Spec.

(* the list turned to the left by k places, k counted modulo the length *)
Definition turn {T} (k : Z) (l : list T) : list T :=
  let m := Z.to_nat (k mod Z.of_nat (length l)) in skipn m l ++ firstn m l.

End Spec.

Section Lists.
Context {T : Type}.

Definition rot1 (l : list T) : list T := match l with [] => [] | x :: r => r ++ [x] end.

Lemma rot1_len l : length (rot1 l) = length l.
Proof. destruct l; simpl; auto. rewrite app_length. simpl. lia. Qed.

Lemma rots_len d l : length (Nat.iter d rot1 l) = length l.
Proof. induction d; simpl; auto. rewrite rot1_len. auto. Qed.

Lemma rots_small d l : (d <= length l)%nat -> Nat.iter d rot1 l = skipn d l ++ firstn d l.
Proof.
  induction d as [|d IH]; intros L; [simpl; rewrite app_nil_r; auto|]. cbn [Nat.iter nat_rect]. unfold Nat.iter in *. rewrite IH by lia.
  destruct (skipn d l) as [|x r] eqn:E.
  { apply (f_equal (@length _)) in E. rewrite skipn_length in E. simpl in E. lia. }
  cbn [app rot1]. assert (skipn (S d) l = r) as ->.
  { clear IH. revert l L E. induction d as [|d IH]; intros l L E; destruct l as [|y l]; try discriminate; simpl in *.
    - injection E as -> ->. auto.
    - apply IH; auto. lia. }
  assert (firstn (S d) l = firstn d l ++ [x]) as ->.
  { clear IH. revert l L E. induction d as [|d IH]; intros l L E; destruct l as [|y l]; try discriminate; simpl in *.
    - injection E as -> ->. auto.
    - f_equal. apply IH; auto. lia. }
  rewrite app_assoc. auto.
Qed.

Lemma iter_add a b (l : list T) : Nat.iter (a + b) rot1 l = Nat.iter a rot1 (Nat.iter b rot1 l).
Proof. induction a; simpl; auto. f_equal. auto. Qed.

Lemma rots_full l : Nat.iter (length l) rot1 l = l.
Proof. rewrite rots_small by lia. rewrite skipn_all, firstn_all. auto. Qed.

Lemma rots_cycles k l : Nat.iter (k * length l) rot1 l = l.
Proof.
  induction k as [|k IH]; auto. cbn [Nat.mul]. rewrite iter_add, IH. apply rots_full.
Qed.

Lemma rots_turn d l : l <> [] -> Nat.iter d rot1 l = turn (Z.of_nat d) l.
Proof.
  intros NE. assert (0 < length l)%nat by (destruct l; [congruence|simpl; lia]). unfold turn.
  assert (Z.to_nat (Z.of_nat d mod Z.of_nat (length l)) = d mod length l)%nat as ->.
  { rewrite <- Nat2Z.inj_mod, Nat2Z.id. auto. }
  transitivity (Nat.iter (d mod length l + d / length l * length l) rot1 l).
  { f_equal. rewrite (Nat.div_mod d (length l)) at 1 by lia. lia. }
  rewrite iter_add, rots_cycles.
  apply rots_small. pose proof (Nat.mod_upper_bound d (length l)). lia.
Qed.

Lemma rots_perm d (l : list T) : Permutation (Nat.iter d rot1 l) l.
Proof.
  assert (P : forall m : list T, Permutation (rot1 m) m).
  { intros [|x m]; simpl; auto. symmetry. apply Permutation_cons_append. }
  induction d as [|d IH]; [simpl; auto|]. etransitivity; [|exact IH]. apply (P (Nat.iter d rot1 l)).
Qed.

Lemma turn_rev k (l : list T) : l <> [] -> rev (turn k (rev l)) = turn (- k) l.
Proof.
  intros NE. set (n := length l). assert (0 < n)%nat by (unfold n; destruct l; [congruence|simpl; lia]).
  unfold turn. rewrite rev_length. fold n. rewrite rev_app_distr.
  destruct (Z.eq_dec (k mod Z.of_nat n) 0) as [E|E].
  - rewrite E. rewrite Z_mod_zero_opp_full by auto. simpl. rewrite app_nil_r, rev_involutive. auto.
  - pose proof (Z.mod_pos_bound k (Z.of_nat n)) as B. rewrite Z_mod_nz_opp_full by auto.
    rewrite firstn_rev, skipn_rev, !rev_involutive. fold n.
    replace (Z.to_nat (Z.of_nat n - k mod Z.of_nat n)) with (n - Z.to_nat (k mod Z.of_nat n))%nat by lia. auto.
Qed.

End Lists.

Lemma turn_map {T U} (f : T -> U) k l : map f (turn k l) = turn k (map f l).
Proof. unfold turn. rewrite map_app, skipn_map, firstn_map, map_length. auto. Qed.

Section Proofs.
Context {A : Arch}.

(* the free list, the sizes and the other memories are the same *)
Definition meta (h h' : heap) : Prop := hsize h' = hsize h /\ ccells h' = ccells h /\ freelist h' = freelist h /\
  num_alloc h' = num_alloc h /\ mem h' = mem h.
Lemma meta_refl h : meta h h. Proof. repeat split; auto. Qed.
Lemma meta_trans h1 h2 h3 : meta h1 h2 -> meta h2 h3 -> meta h1 h3.
Proof. intros (a&b&c&d&e) (a'&b'&c'&d'&e'). repeat split; congruence. Qed.
Lemma meta_hput h i c : meta h (hput h i c). Proof. repeat split; auto. apply hput_size. Qed.
Lemma meta_ok h h' fl l : heap_ok h fl -> meta h h' -> same_but l h h' -> (forall i, In i l -> ~ In i fl) -> heap_ok h' fl.
Proof.
  intros [o1 o2 o3 o4] (a&b&c&d&_) S D. constructor; auto; try congruence.
  rewrite c. eapply chain_frame; eauto. intros i I. apply S. intros J. eapply D; eauto.
Qed.

Lemma rev_last {T} (l : list T) x r : rev l = x :: r -> l = rev r ++ [x].
Proof. intros E. apply (f_equal (@rev _)) in E. rewrite rev_involutive in E. auto. Qed.

(* one turn of the loop moves the first cell to the end *)
Lemma rot_loop_ok d : forall h s l j y r, seg h s l 0 -> NoDup (map fst l) -> (2 <= length l)%nat -> rev l = (j, y) :: r ->
  exists h' s', rot_loop d h s (enc_cons_ptr j) = Ok (h', s') /\ seg h' s' (Nat.iter d rot1 l) 0 /\ same_but (map fst l) h h' /\ meta h h'.
Proof.
  induction d as [|d IH]; intros h s l j y r S N L E.
  - exists h, s. split; auto. split; auto. split; [apply same_but_refl|apply meta_refl].
  - destruct l as [|[i x] l]; [simpl in L; lia|]. apply rev_last in E.
    inversion S as [|? ? q ? ? R C S']; subst.
    destruct (rev r) as [|p l0] eqn:Er; [injection E as ? ? ->; simpl in L; lia|].
    simpl in E. injection E as <- ->. cbn [rot_loop]. rewrite (cdr_enc h i _ _ R C). cbn [bind].
    rewrite (setd_enc h i x q NIL R C). cbn [bind]. rewrite NIL_0.
    simpl in N. inversion N as [|? ? Ni N']; subst. rewrite map_app in Ni, N'. simpl in Ni, N'.
    assert (Nij : j <> i) by (intros ->; apply Ni, in_or_app; simpl; auto).
    assert (Rj : 0 <= j < 2 ^ (W - 8)).
    { pose proof (seg_range _ _ _ _ S') as RR. rewrite map_app in RR. apply Forall_app in RR as [_ RR]. simpl in RR. inversion RR; auto. }
    destruct (seg_cell h q _ _ j y S') as (qj&Cj); [apply in_or_app; simpl; auto|].
    assert (Cj1 : cell (hput h i (x, 0)) j = Some (y, qj)) by (rewrite cell_hput_neq by lia; auto).
    rewrite (setd_enc _ j y qj _ Rj Cj1). cbn [bind].
    set (h1 := hput h i (x, 0)) in *. set (h2 := hput h1 j (y, enc_cons_ptr i)).
    assert (S2 : seg h2 q (l0 ++ [(j, y)] ++ [(i, x)]) 0).
    { rewrite app_assoc. eapply seg_app with (w := enc_cons_ptr i).
      - apply seg_last_put with (w := 0); [|rewrite map_app; auto]. apply seg_hput; auto; [lia|]. rewrite map_app; auto.
      - apply seg_cons with (q := 0); auto; [|constructor]. unfold h2. rewrite cell_hput_neq by lia. unfold h1. eapply cell_hput_eq; eauto. }
    destruct (IH h2 q (l0 ++ [(j, y)] ++ [(i, x)]) i x (rev (l0 ++ [(j, y)]))) as (h'&s'&E'&S3&Sm&Mt); auto.
    { rewrite !map_app. simpl. apply (Permutation_NoDup (l := i :: map fst l0 ++ [j])); [|constructor; auto].
      replace (map fst l0 ++ [j; i]) with ((map fst l0 ++ [j]) ++ [i]) by (rewrite <- app_assoc; auto). apply Permutation_cons_append. }
    { rewrite !app_length. simpl. lia. }
    { rewrite app_assoc, rev_app_distr. reflexivity. }
    exists h', s'. split; auto. split; [|split; [|eapply meta_trans; [|exact Mt]; unfold h2, h1; eapply meta_trans; apply meta_hput]].
    + replace (Nat.iter (Datatypes.S d) rot1 ((i, x) :: l0 ++ [(j, y)])) with (Nat.iter d rot1 (l0 ++ [(j, y)] ++ [(i, x)])); auto.
      replace (Datatypes.S d) with (d + 1)%nat by lia. rewrite iter_add. simpl. rewrite <- app_assoc. reflexivity.
    + intros k K. rewrite Sm.
      * unfold h2, h1. rewrite !cell_hput_neq; auto; try lia; intros ->; apply K; simpl; auto.
        rewrite map_app. right. apply in_or_app. simpl; auto.
      * intros I. apply K. simpl. rewrite map_app, in_app_iff. rewrite !map_app, !in_app_iff in I. simpl in *. tauto.
Qed.

Lemma drev_loop_seg l : forall h v la acc fuel, seg h v l 0 -> seg h la acc 0 -> NoDup (map fst (l ++ acc)) -> (length l <= fuel)%nat ->
  exists h' r, drev_loop fuel h v la = Ok (h', r) /\ seg h' r (rev l ++ acc) 0 /\ same_but (map fst l) h h' /\ meta h h'.
Proof.
  induction l as [|[i x] l IH]; intros h v la acc fuel S Sa N F.
  - apply seg_nil_inv in S; auto. subst v. exists h, la. split; [destruct fuel; cbn [drev_loop]; rewrite zero_not_rw; reflexivity|].
    split; auto. split; [apply same_but_refl|apply meta_refl].
  - simpl in F. destruct fuel as [|n]; [lia|]. inversion S as [|? ? q ? ? R C S']; subst. cbn [drev_loop].
    rewrite enc_rw, (cdr_enc h i _ _ R C) by auto. cbn [bind]. rewrite (set_cdr_enc h i _ _ _ R C). cbn [bind fst].
    simpl in N. inversion N as [|? ? Ni N']; subst. rewrite map_app in Ni.
    destruct (IH (hput h i (x, la)) q (enc_cons_ptr i) ((i, x) :: acc) n) as (h'&r&E&S2&Sm&Mt).
    + apply seg_hput; auto; [lia|]. intros I; apply Ni, in_or_app; auto.
    + apply seg_cons with (q := la); auto; [eapply cell_hput_eq; eauto|]. apply seg_hput; auto; [lia|]. intros I; apply Ni, in_or_app; auto.
    + apply (Permutation_NoDup (l := map fst ((i, x) :: l ++ acc))); auto. apply Permutation_map, Permutation_middle.
    + lia.
    + exists h', r. split; auto. split; [simpl; rewrite <- app_assoc; auto|]. split.
      * intros k K. simpl in K. rewrite Sm by tauto. apply cell_hput_neq; [lia|tauto].
      * eapply meta_trans; [apply meta_hput|exact Mt].
Qed.

Lemma drev_seg h v l fuel : seg h v l 0 -> NoDup (map fst l) -> (length l <= fuel)%nat ->
  exists h' r, list_destructive_reverse fuel h v = Ok (h', r) /\ seg h' r (rev l) 0 /\ same_but (map fst l) h h' /\ meta h h'.
Proof.
  intros S N F. unfold list_destructive_reverse. rewrite NIL_0.
  destruct (drev_loop_seg l h v 0 [] fuel S) as (h'&r&E&S'&Sm&Mt); auto; [constructor|rewrite app_nil_r; auto|].
  rewrite app_nil_r in S'. destruct (type_of v =? TYPE_SYMBOL) eqn:Ty; [|exists h', r; auto].
  inversion S as [|i x q l' ? R C]; subst.
  - exists h, 0. split; auto. split; [constructor|]. split; [apply same_but_refl|apply meta_refl].
  - rewrite enc_type_not_sym in Ty by auto. discriminate.
Qed.

Lemma list_copy_len h v xs ps fuel h' r m : list_on h v xs ps -> (length xs <= fuel)%nat ->
  list_copy fuel h (-1) v = Ok (h', r, m) -> m = sgn 32 (Z.of_nat (length xs)).
Proof.
  intros L F. unfold list_copy. rewrite (list_length_ok _ _ _ _ _ L F). cbn [bind]. change (0 <=? -1) with false. cbn [andb].
  change (-1 =? -1) with true. cbn iota zeta. destruct (Z.of_nat (length xs) =? 0); [intros E; injection E; auto|].
  destruct (alloc_list h (Z.of_nat (length xs))) as [[h1 nl]| |]; cbn [bind]; try discriminate.
  destruct (is_symbol nl); [intros E; injection E; auto|].
  destruct (copy_loop _ _ _ _ _); cbn [bind]; try discriminate. intros E; injection E; auto.
Qed.

(* the copy: fresh cells, the original as before *)
Lemma copy_seg h fl v xs ps fuel : heap_ok h fl -> list_on h v xs ps -> used fl ps -> (length xs <= fuel)%nat ->
  Z.of_nat (length xs) < 2 ^ 31 -> (length xs <= length fl)%nat ->
  exists h' r l, list_copy fuel h (-1) v = Ok (h', r, Z.of_nat (length xs)) /\ r <> MERROR /\
    heap_ok h' (skipn (length xs) fl) /\ seg h' r l 0 /\ map snd l = xs /\ map fst l = firstn (length xs) fl /\
    list_on h' v xs ps /\ ccells h' = ccells h /\ (forall i, ~ In i fl -> cell h' i = cell h i).
Proof.
  intros OK L U F B LE. destruct (list_copy_correct h fl v xs ps (-1) fuel OK L U F) as (h'&r&m&E&Sm&Cc&L0&C).
  change (0 <=? -1) with false in C. cbn [andb] in C. cbn iota in C. replace (length xs <=? length fl)%nat with true in C by (symmetry; apply Nat.leb_le; auto). destruct C as (OK'&Lr).
  rewrite firstn_all in Lr. pose proof (list_copy_len _ _ _ _ _ _ _ _ L F E) as ->.
  assert (sgn 32 (Z.of_nat (length xs)) = Z.of_nat (length xs)) as EQ.
  { unfold sgn. rewrite Z.mod_small by lia. destruct (Z.ltb_spec (Z.of_nat (length xs)) (2 ^ (32 - 1))); lia. }
  rewrite EQ in E. pose proof (chain_small _ _ OK) as R.
  assert (R' : Forall (fun i => 0 <= i < 2 ^ (W - 8)) (firstn (length xs) fl)).
  { rewrite Forall_forall in R |- *. intros i I. apply R. eapply In_firstn; eauto. }
  destruct (list_seg _ _ _ _ Lr R') as (S&LL).
  exists h', r, (combine (firstn (length xs) fl) xs). split; auto. split.
  { intros ->. inversion Lr as [HH|? ? ? ? ? ? C]; subst; [apply MERROR_neq0; auto|].
    apply cons_is_ptr in C. rewrite MERROR_not_ptr in C. discriminate. }
  split; auto. split; auto. split; [|split; auto].
  - clear - LL. revert LL. generalize (firstn (length xs) fl). induction xs; intros [|] LL; simpl in *; auto; try lia. f_equal. apply IHxs. lia.
  - clear - LL. revert LL. generalize (firstn (length xs) fl) as l. induction xs; intros [|] LL; simpl in *; auto; try lia. f_equal. apply IHxs. lia.
Qed.

(* C36: for a list that does not have exactly one element, and every distance
   but the smallest int, the result is the list turned to the right by the
   distance (to the left when it is negative), in fresh cells; the argument is
   unchanged. *)
Theorem rotate_correct h fl v xs ps dist fuel : heap_ok h fl -> list_on h v xs ps -> used fl ps ->
  (length xs <= fuel)%nat -> (length xs <= length fl)%nat -> Z.of_nat (length xs) < 2 ^ 31 ->
  length xs <> 1%nat -> - 2 ^ 31 < dist < 2 ^ 31 ->
  exists h' r, apply_rotate fuel h v dist = Ok (h', Some r) /\ list_at h' r (turn (- dist) xs) /\
    (forall i, ~ In i fl -> cell h' i = cell h i) /\ list_on h' v xs ps.
Proof.
  intros OK L U F LE B N1 D. unfold apply_rotate.
  destruct (copy_seg h fl v xs ps fuel OK L U F B LE) as (h1&r&l&E&NM&OK1&S&Sn&Fs&L1&_&Sm1). rewrite E. cbn [bind].
  destruct (Z.eqb_spec r MERROR); [contradiction|].
  assert (LL : length l = length xs) by (rewrite <- Sn, map_length; auto).
  assert (ND : NoDup (map fst l)) by (rewrite Fs; apply NoDup_firstn, (ok_nodup _ _ OK)).
  assert (INC : forall i, In i (map fst l) -> In i fl) by (rewrite Fs; intros i; apply In_firstn).
  assert (Fin : forall h', same_but (map fst l) h1 h' -> meta h1 h' ->
    (forall i, ~ In i fl -> cell h' i = cell h i) /\ list_on h' v xs ps).
  { intros h' Sm (_&Cc&_). split.
    - intros i I. rewrite Sm; [apply Sm1; auto|]. intros J. auto.
    - eapply list_on_same; eauto. }
  destruct ((0 <? Z.of_nat (length xs)) && negb (dist =? 0)) eqn:Cond.
  - apply andb_prop in Cond as [C1 C2]. apply Z.ltb_lt in C1. apply negb_true_iff, Z.eqb_neq in C2.
    assert (L2 : (2 <= length l)%nat) by lia.
    assert (NE : l <> []) by (intros ->; simpl in L2; lia).
    destruct (Z.ltb_spec 0 dist) as [Pos|Neg].
    + destruct (drev_seg h1 r l fuel S ND ltac:(lia)) as (h2&r2&E2&S2&Sm2&Mt2). rewrite E2. cbn [bind].
      rewrite (end_loop_ok _ _ _ S2) by (rewrite rev_length; lia). cbn [bind].
      destruct (rev (rev l)) as [|[j y] t] eqn:Er; [rewrite rev_involutive in Er; congruence|].
      assert (ND2 : NoDup (map fst (rev l))) by (rewrite map_rev; apply NoDup_rev; auto).
      destruct (rot_loop_ok (Z.to_nat dist) h2 r2 (rev l) j y t S2) as (h3&r3&E3&S3&Sm3&Mt3); auto; [rewrite rev_length; auto|].
      rewrite E3. cbn [bind].
      assert (P : Permutation (Nat.iter (Z.to_nat dist) rot1 (rev l)) (rev l)) by apply rots_perm.
      destruct (drev_seg h3 r3 _ fuel S3) as (h4&r4&E4&S4&Sm4&Mt4); [|rewrite rots_len, rev_length; lia|].
      { eapply Permutation_NoDup; [|exact ND2]. apply Permutation_map. symmetry. auto. }
      rewrite E4. cbn [bind fst snd]. exists h4, r4. split; auto.
      assert (NR : rev l <> []) by (intros EE; apply (f_equal (@length _)) in EE; rewrite rev_length in EE; simpl in EE; lia).
      rewrite rots_turn, turn_rev in S4 by auto.
      rewrite Z2Nat.id in S4 by lia. split.
      { exists (map enc_cons_ptr (map fst (turn (- dist) l))). rewrite <- Sn, <- turn_map. apply seg_list; auto. }
      apply Fin; [|eapply meta_trans; [exact Mt2|eapply meta_trans; eauto]].
      assert (IR : forall i, In i (map fst (rev l)) -> In i (map fst l)) by (intros i I; rewrite map_rev in I; apply in_rev; auto).
      eapply same_but_trans; [exact Sm2|]. eapply same_but_trans; [eapply same_but_incl; [|exact Sm3]; exact IR|].
      eapply same_but_incl; [|exact Sm4]. intros i I. apply IR. eapply Permutation_in; [|exact I]. apply Permutation_map; auto.
    + destruct (Z.eqb_spec dist (- 2 ^ 31)); [lia|]. cbn [bind].
      rewrite (end_loop_ok _ _ _ S) by lia. cbn [bind].
      destruct (rev l) as [|[j y] t] eqn:Er; [apply (f_equal (@length _)) in Er; rewrite rev_length in Er; simpl in Er; lia|].
      destruct (rot_loop_ok (Z.to_nat (- dist)) h1 r l j y t S) as (h3&r3&E3&S3&Sm3&Mt3); auto.
      rewrite E3. cbn [bind fst snd]. exists h3, r3. split; auto. rewrite rots_turn in S3 by auto. rewrite Z2Nat.id in S3 by lia. split.
      { exists (map enc_cons_ptr (map fst (turn (- dist) l))). rewrite <- Sn, <- turn_map. apply seg_list; auto. }
      apply Fin; auto.
  - exists h1, r. split; auto. split.
    + exists (map enc_cons_ptr (map fst l)). assert (turn (- dist) xs = xs) as ->; [|rewrite <- Sn; apply seg_list; auto].
      apply andb_false_iff in Cond as [C|C].
      * apply Z.ltb_ge in C. destruct xs; [|simpl in C; lia]. unfold turn. rewrite firstn_nil, skipn_nil. auto.
      * apply negb_false_iff, Z.eqb_eq in C. subst dist. unfold turn. change (- 0) with 0. rewrite Zmod_0_l.
        simpl. rewrite app_nil_r. auto.
    + split; auto.
Qed.

End Proofs.

(* FINDING.  A list of one element is lost: every rotation by a distance other
   than 0 returns nil or leaves a circular list behind. *)
Theorem rotate_refuted : exists h fl v ps, heap_ok (A := A32) h fl /\ list_on (A := A32) h v [enc_i (A := A32) 7] ps /\ used (A := A32) fl ps /\
  exists h', apply_rotate (A := A32) 5 h v 1 = Ok (h', Some (NIL (A := A32))).
Proof.
  set (e := enc_cons_ptr (A := A32)).
  set (h := mkHeap [(enc_i (A := A32) 7, 0); (0, e 2); (0, 0)] [] (e 1) 1 [] 10 0 0 0 (fun _ => None) [] false).
  exists h, [1; 2], (e 0), [e 0]. split; [|split; [|split]].
  - split.
    + vm_compute; discriminate.
    + repeat econstructor; try reflexivity; vm_compute; congruence.
    + repeat constructor; simpl; intuition lia.
    + reflexivity.
  - eapply list_on_cons; [split; [discriminate|reflexivity]|reflexivity|reflexivity|]. constructor.
  - intros p [<-|[]] _; vm_compute; intuition lia.
  - destruct (apply_rotate (A := A32) 5 h (e 0) 1) as [[h' [r|]]| |] eqn:E; vm_compute in E; try discriminate E.
    injection E as <- <-. eexists. reflexivity.
Qed.

(* FINDING.  The smallest int cannot be negated. *)
Theorem rotate_min_refuted : exists h fl v xs ps, heap_ok (A := A32) h fl /\ list_on (A := A32) h v xs ps /\ used (A := A32) fl ps /\
  apply_rotate (A := A32) 5 h v (- 2 ^ 31) = UB.
Proof.
  set (e := enc_cons_ptr (A := A32)).
  set (h := mkHeap [(7, e 1); (8, 0); (0, e 3); (0, 0)] [] (e 2) 2 [] 10 0 0 0 (fun _ => None) [] false).
  exists h, [2; 3], (e 0), [7; 8], [e 0; e 1]. split; [|split; [|split]].
  - split.
    + vm_compute; discriminate.
    + repeat econstructor; try reflexivity; vm_compute; congruence.
    + repeat constructor; simpl; intuition lia.
    + reflexivity.
  - repeat (eapply list_on_cons; [split; [discriminate|reflexivity]|reflexivity|reflexivity|]). constructor.
  - intros p [<-|[<-|[]]] _; vm_compute; intuition lia.
  - vm_compute. reflexivity.
Qed.

(* the hypotheses of rotate_correct are met: a list of three, rotated by 4 *)
Example ex_rotate : exists h fl v ps, heap_ok (A := A32) h fl /\ list_on (A := A32) h v [7; 8; 9] ps /\ used (A := A32) fl ps /\
  (3 <= length fl)%nat /\ turn (- 4) [7; 8; 9] = [9; 7; 8].
Proof.
  set (e := enc_cons_ptr (A := A32)).
  set (h := mkHeap [(7, e 1); (8, e 2); (9, 0); (0, e 4); (0, e 5); (0, 0)] [] (e 3) 3 [] 10 0 0 0 (fun _ => None) [] false).
  exists h, [3; 4; 5], (e 0), [e 0; e 1; e 2]. split; [|split; [|split; [|split]]].
  - split.
    + vm_compute; discriminate.
    + repeat econstructor; try reflexivity; vm_compute; congruence.
    + repeat constructor; simpl; intuition lia.
    + reflexivity.
  - repeat (eapply list_on_cons; [split; [discriminate|reflexivity]|reflexivity|reflexivity|]). constructor.
  - intros p [<-|[<-|[<-|[]]]] _; vm_compute; intuition lia.
  - simpl; lia.
  - reflexivity.
Qed.

Print Assumptions rotate_correct.
Print Assumptions rotate_refuted.
Print Assumptions rotate_min_refuted.
