(* C40, C41, C59: the defragmentable memory, for every history of it. *)
From Coq Require Import Permutation.
From Verif Require Import Base Value_Model Heap_Model Value_Proofs Value_Proofs2 Heap_Spec Heap_Proofs Heap_Proofs2 List_Proofs Env_Proofs
  Defrag_Model Defrag_Spec Defrag_Proofs Defrag_Proofs2.
Local Open Scope Z_scope.

Section Arch.
Context {A : Arch}.

(* the memory block lies in the address space *)
Definition lies (base nbytes : Z) : Prop :=
  0 <= nbytes < 2 ^ W /\ WB * words_for nbytes <= base /\ base + WB * words_for nbytes <= 2 ^ W.

Lemma da_word : word DEFRAG_ARRAY /\ f_gc DEFRAG_ARRAY = 0.
Proof. unfold word. destruct A; vm_compute; intuition congruence. Qed.

Lemma remark q q' : q = DEFRAG_ARRAY \/ q = set_gc_mark DEFRAG_ARRAY -> q' = q \/ q' = set_gc_mark q \/ q' = clr_gc_mark q ->
  q' = DEFRAG_ARRAY \/ q' = set_gc_mark DEFRAG_ARRAY.
Proof.
  destruct da_word as [Wd G]. intros [->| ->] [->|[->| ->]]; auto.
  - rewrite clr_id by auto. auto.
  - rewrite set_set by auto. auto.
  - rewrite clr_set by auto. auto.
Qed.

Lemma linked_other h h' base o bs : linked h base o bs ->
  (forall c, In c (cells_of bs) -> exists x q q', cell h c = Some (x, q) /\ cell h' c = Some (x, q') /\
     (q' = q \/ q' = set_gc_mark q \/ q' = clr_gc_mark q)) -> linked h' base o bs.
Proof.
  revert o. induction bs as [|[g a] t IH]; intros o L F; cbn [linked] in *; auto. destruct L as [(q&C&Q) L]. split.
  - destruct (F (a_cell a)) as (x&q0&q'&C0&C1&M); [left; auto|]. rewrite C in C0. injection C0 as <- <-.
    exists q'. split; auto. eapply remark; eauto.
  - apply IH; auto. intros c J. apply F. right; auto.
Qed.

Lemma live_split l1 (a : arr) l2 (bs : list (nat * arr)) : Permutation (l1 ++ a :: l2) (map snd bs) ->
  exists g b1 b2, bs = b1 ++ (g, a) :: b2 /\ Permutation (l1 ++ l2) (map snd b1 ++ map snd b2).
Proof.
  intros P. assert (J : In a (map snd bs)) by (eapply Permutation_in; [exact P|]; apply in_or_app; right; left; auto).
  apply in_map_iff in J as ([g a']&E&J). cbn [snd] in E. subst a'. apply in_split in J as (b1&b2&->).
  exists g, b1, b2. split; auto. rewrite map_app in P. cbn [map snd] in P. eapply Permutation_app_inv; eauto.
Qed.

Lemma alloc_none d h : dm_alloc d h 0 = Ok (d, h, EERROR).
Proof. unfold dm_alloc, alloc_internal. cbn [Z.eqb bind]. destruct (Z.eqb_spec EERROR MERROR) as [E|]; auto. exfalso. revert E. clear. destruct A; vm_compute; discriminate. Qed.

Lemma history_inv base nbytes d h l : history base nbytes d h l -> lies base nbytes ->
  exists bs tail fl, inv d h bs tail fl /\ Permutation l (map snd bs) /\ d_base d = base /\ d_flags d = 0 /\
    d_size d = words_for nbytes.
Proof.
  intros H (NB&P1&P2). induction H as [d h fl C HO|d h l bytes d' h' v H IH B E N1 N2|d h l bytes d' h' v H IH B E N
     |d h l1 a l2 x d' h' H IH C E|d h l1 a l2 k w d' H IH K E|d h l h' fl H IH HO F].
  - unfold dm_create in C. rewrite (bs2ws_words nbytes) in C by lia.
    destruct (Z.gtb_spec (words_for nbytes) 0); [|discriminate]. injection C as <-.
    exists [], (Z.to_nat (words_for nbytes)), fl. 
    assert (SZ : d_size (mkDm base (repeat 0 (Z.to_nat (words_for nbytes))) 0) = words_for nbytes).
    { unfold d_size. cbn [d_words]. rewrite repeat_length. lia. }
    split; [|repeat split; auto]. constructor; auto.
    + constructor.
    + constructor.
    + unfold placed. rewrite SZ. cbn [d_base]. lia.
  - destruct IH as (bs&tail&fl&I&P&Eb&Ef&Es).
    destruct (Z.eq_dec bytes 0) as [->|NZ]; [rewrite alloc_none in E; injection E as <- <- <-; congruence|].
    destruct (dm_alloc_ok d h bs tail fl bytes I Ef ltac:(lia)) as (d1&h1&v1&bs1&t1&fl1&E1&B1&S1&F1&I1&_&_&_&D).
    rewrite E in E1. injection E1 as <- <- <-. exists bs1, t1, fl1. split; auto.
    destruct D as [(k&Ev&_&KR&PP&_)|(Ev&_)]; [|congruence].
    destruct (ptr_not_error k KR) as (_&_&IX). rewrite Ev, IX.
    repeat split; try congruence. rewrite PP. apply perm_skip. exact P.
  - destruct IH as (bs&tail&fl&I&P&Eb&Ef&Es).
    destruct (Z.eq_dec bytes 0) as [->|NZ].
    { rewrite alloc_none in E. injection E as <- <- <-. exists bs, tail, fl. auto. }
    destruct (dm_alloc_ok d h bs tail fl bytes I Ef ltac:(lia)) as (d1&h1&v1&bs1&t1&fl1&E1&B1&S1&F1&I1&_&_&_&D).
    rewrite E in E1. injection E1 as <- <- <-. exists bs1, t1, fl1. split; auto.
    destruct D as [(k&Ev&_&KR&PP&_)|(Ev&PP&_)].
    { destruct (ptr_not_error k KR) as (Q1&Q2&_). destruct N as [->| ->]; congruence. }
    repeat split; try congruence. rewrite PP. exact P.
  - destruct IH as (bs&tail&fl&I&P&Eb&Ef&Es).
    destruct (live_split _ _ _ _ P) as (g&b1&b2&->&P').
    destruct (sweep_ok d h b1 g a b2 tail fl x I C) as (d1&h1&n&E1&B1&F1&S1&I1).
    rewrite E in E1. injection E1 as <- <-. eexists _, _, _. split; [exact I1|].
    repeat split; try congruence. rewrite map_app, arrs_widen. exact P'.
  - destruct IH as (bs&tail&fl&I&P&Eb&Ef&Es).
    destruct (live_split _ _ _ _ P) as (g&b1&b2&->&P').
    destruct (array_store_ok d h b1 g a b2 tail fl k w I K) as (d1&E1&B1&F1&S1&I1).
    rewrite E in E1. injection E1 as <-. eexists _, _, _. split; [exact I1|].
    repeat split; try congruence. rewrite map_app. cbn [map snd]. apply Permutation_elt. exact P'.
  - destruct IH as (bs&tail&fl0&I&P&Eb&Ef&Es). exists bs, tail, fl. split; [|auto].
    assert (L : forall c, In c (cells_of bs) -> exists a, In a l /\ a_cell a = c).
    { intros c J. rewrite cells_of_map in J. apply in_map_iff in J as (a&<-&J). exists a. split; auto.
      eapply Permutation_in; [symmetry; exact P|exact J]. }
    destruct I as [I1 I2 I3 I4 I5 I6 I7]. constructor; auto.
    + eapply linked_other; eauto. intros c J. destruct (L c J) as (a&Ja&<-). apply F; auto.
    + intros c J. destruct (L c J) as (a&Ja&<-). apply F; auto.
Qed.

Lemma block_at d h b1 g a b2 tail fl : inv d h (b1 ++ (g, a) :: b2) tail fl ->
  array_at d h a (after 0 b1 + Z.of_nat g).
Proof.
  intros I. destruct (inv_split _ _ _ _ _ _ _ _ I) as (W0&PL&AO&PE&P0&CQ&NI).
  set (p := after 0 b1 + Z.of_nat g) in *. unfold array_at. split; auto. split; [unfold extent in PE; lia|]. split; auto.
  unfold found. split; auto. rewrite W0. set (L := _ ++ repeat 0 g) in *.
  replace (Z.to_nat p) with (length L) by lia. rewrite skipn_app, skipn_all, Nat.sub_diag. cbn [app skipn].
  change ([a_bytes a; d_base d + WB * (p + 3); enc_cons_ptr (a_cell a)] ++ a_data a) with (body (d_base d) p a).
  change (a_bytes a :: d_base d + WB * (p + 3) :: enc_cons_ptr (a_cell a) :: a_data a) with (body (d_base d) p a).
  rewrite firstn_app, firstn_all, Nat.sub_diag. cbn [firstn]. apply app_nil_r.
Qed.

(* where an array is: its cell says so *)
Definition place (d : dm) (h : heap) (a : arr) : Z :=
  match cell h (a_cell a) with Some (x, _) => (x - d_base d) / WB | None => 0 end.

Lemma place_block d h b1 g a b2 tail fl : inv d h (b1 ++ (g, a) :: b2) tail fl ->
  place d h a = after 0 b1 + Z.of_nat g.
Proof.
  intros I. destruct (inv_split _ _ _ _ _ _ _ _ I) as (_&_&_&_&_&(q&CQ&_)&_). unfold place. rewrite CQ.
  pose proof WB_pos. replace (d_base d + WB * (after 0 b1 + Z.of_nat g) - d_base d) with ((after 0 b1 + Z.of_nat g) * WB) by lia.
  apply Z.div_mul. lia.
Qed.

Lemma blocks_apart d h bs tail fl a b : inv d h bs tail fl -> In a (map snd bs) -> In b (map snd bs) -> a <> b ->
  apart (place d h a) (extent a) (place d h b) (extent b).
Proof.
  intros I Ja Jb N. apply in_map_iff in Ja as ([g a']&E&Ja). cbn [snd] in E. subst a'. apply in_split in Ja as (b1&b2&->).
  rewrite (place_block _ _ _ _ _ _ _ _ I). rewrite map_app in Jb. cbn [map snd] in Jb.
  apply in_app_or in Jb as [Jb|[Jb|Jb]]; [|congruence|].
  - apply in_map_iff in Jb as ([g' b']&E&Jb). cbn [snd] in E. subst b'. apply in_split in Jb as (c1&c2&->).
    rewrite <- app_assoc in I. cbn [app] in I. rewrite (place_block _ _ _ _ _ _ _ _ I). right.
    rewrite after_app. cbn [after]. pose proof (after_ge (after 0 c1 + Z.of_nat g' + extent b) c2). lia.
  - apply in_map_iff in Jb as ([g' b']&E&Jb). cbn [snd] in E. subst b'. apply in_split in Jb as (c1&c2&->).
    change (b1 ++ (g, a) :: c1 ++ (g', b) :: c2) with (b1 ++ ((g, a) :: c1) ++ (g', b) :: c2) in I.
    rewrite app_assoc in I. rewrite (place_block _ _ _ _ _ _ _ _ I). left. rewrite after_app. cbn [after].
    pose proof (after_ge (after 0 b1 + Z.of_nat g + extent a) c1). lia.
Qed.

Lemma chain_fun h v l l' : hsize h <= 2 ^ (W - 8) -> chain h v l -> chain h v l' -> l = l'.
Proof.
  intros S C. revert l'. induction C as [|i a q l C H IH]; intros l' C'.
  - inversion C' as [|j b r l2 D K E]; auto. exfalso.
    pose proof (cell_range _ _ _ D). assert (RJ : 0 <= j < 2 ^ (W - 8)) by lia. destruct (enc_cons_fields j RJ) as (_&_&_&_&P).
    rewrite E in P. revert P. clear. unfold f_ptr. cbn. discriminate.
  - pose proof (cell_range _ _ _ C) as R. inversion C' as [E|j b r l2 D K E].
    + exfalso. assert (RJ : 0 <= i < 2 ^ (W - 8)) by lia. destruct (enc_cons_fields i RJ) as (_&_&_&_&P).
      rewrite <- E in P. revert P. clear. unfold f_ptr. cbn. discriminate.
    + pose proof (cell_range _ _ _ D) as R2.
      assert (j = i) as -> by (rewrite <- (enc_ix i), <- (enc_ix j) by lia; congruence).
      rewrite C in D. injection D as <- <-. f_equal. apply IH. auto.
Qed.

(* C40.  After any history of allocations (with the compactions they do), sweeps,
   writes and whatever else goes on in the heap, every live array is in the
   memory, with the bytes last written to it, its header in front of its data,
   its cell and its header pointing at each other; different arrays have
   different cells and do not overlap. *)
Theorem dm_intact base nbytes d h l : history base nbytes d h l -> lies base nbytes ->
  (forall a, In a l -> array_at d h a (place d h a) /\ Z.of_nat (length (a_data a)) = words_for (a_bytes a)) /\
  NoDup (map a_cell l) /\
  (forall a b, In a l -> In b l -> a <> b -> apart (place d h a) (extent a) (place d h b) (extent b)).
Proof.
  intros H L. destruct (history_inv _ _ _ _ _ H L) as (bs&tail&fl&I&P&_).
  assert (IN : forall a, In a l -> In a (map snd bs)) by (intros a J; eapply Permutation_in; eauto).
  split; [|split].
  - intros a J. apply IN, in_map_iff in J as ([g a']&E&J). cbn [snd] in E. subst a'. apply in_split in J as (b1&b2&->).
    rewrite (place_block _ _ _ _ _ _ _ _ I). split; [apply (block_at _ _ _ _ _ _ _ _ I)|].
    destruct (inv_split _ _ _ _ _ _ _ _ I) as (_&_&(AB&AL&_)&_). rewrite AL. apply bs2ws_words. lia.
  - eapply Permutation_NoDup; [apply Permutation_map; symmetry; exact P|]. rewrite <- cells_of_map. apply (i_nodup _ _ _ _ _ I).
  - intros a b Ja Jb N. eapply blocks_apart; eauto.
Qed.

(* C40.  No operation in such a history touches memory outside the block or runs
   for ever, a program that reads an array gets what it last wrote, and an access
   past the end is seen to be one. *)
Theorem dm_defined base nbytes d h l : history base nbytes d h l -> lies base nbytes ->
  (forall bytes, 0 <= bytes < 2 ^ W -> exists r, dm_alloc d h bytes = Ok r) /\
  (forall a x, In a l -> cell h (a_cell a) = Some (x, DEFRAG_ARRAY) -> exists r, sweep_dm_cell d h (a_cell a) = Ok r) /\
  (forall a k w, In a l -> exists r, array_store d h (a_cell a) k w = Ok r) /\
  (forall a k, In a l -> array_load d h (a_cell a) k =
     Ok (if (0 <=? k) && (k <? Z.of_nat (length (a_data a))) then Some (nth (Z.to_nat k) (a_data a) 0) else None)).
Proof.
  intros H L. destruct (history_inv _ _ _ _ _ H L) as (bs&tail&fl&I&P&_&F&_).
  assert (IN : forall a, In a l -> exists g b1 b2, bs = b1 ++ (g, a) :: b2).
  { intros a J. apply (Permutation_in _ P), in_map_iff in J as ([g a']&E&J). cbn [snd] in E. subst a'.
    apply in_split in J as (b1&b2&->). eauto. }
  repeat split.
  - intros bytes B. destruct (Z.eq_dec bytes 0) as [->|NZ]; [rewrite alloc_none; eauto|].
    destruct (dm_alloc_ok d h bs tail fl bytes I F ltac:(lia)) as (d1&h1&v1&bs1&t1&fl1&E1&_). eauto.
  - intros a x J C. destruct (IN a J) as (g&b1&b2&->). destruct (sweep_ok _ _ _ _ _ _ _ _ _ I C) as (d1&h1&n&E1&_). eauto.
  - intros a k w J. destruct (IN a J) as (g&b1&b2&->).
    destruct (Z_lt_le_dec k 0) as [K|K]; [|destruct (Z_lt_le_dec k (Z.of_nat (length (a_data a)))) as [K2|K2]].
    + unfold array_store. rewrite (array_word_ok _ _ _ _ _ _ _ _ _ I). destruct (Z.leb_spec 0 k); [lia|]. cbn. eauto.
    + destruct (array_store_ok _ _ _ _ _ _ _ _ (Z.to_nat k) w I ltac:(lia)) as (d1&E1&_). rewrite Z2Nat.id in E1 by lia. eauto.
    + unfold array_store. rewrite (array_word_ok _ _ _ _ _ _ _ _ _ I). destruct (Z.ltb_spec k (Z.of_nat (length (a_data a)))); [lia|].
      rewrite andb_false_r. cbn. eauto.
  - intros a k J. destruct (IN a J) as (g&b1&b2&->).
    destruct (Z.leb_spec 0 k); cbn [andb]; [destruct (Z.ltb_spec k (Z.of_nat (length (a_data a))))|].
    + pose proof (array_load_ok _ _ _ _ _ _ _ _ (Z.to_nat k) I ltac:(lia)) as E. rewrite Z2Nat.id in E by lia. exact E.
    + unfold array_load. rewrite (array_word_ok _ _ _ _ _ _ _ _ _ I). destruct (Z.ltb_spec k (Z.of_nat (length (a_data a)))); [lia|].
      rewrite andb_false_r. reflexivity.
    + unfold array_load. rewrite (array_word_ok _ _ _ _ _ _ _ _ _ I). destruct (Z.leb_spec 0 k); [lia|]. reflexivity.
Qed.

(* C41.  With two heap cells free, an allocation succeeds exactly if the words
   not taken by live arrays are enough for the data and a header of three words,
   wherever they are; it gives a new cell.  If it is refused, no live array is
   lost (dm_intact). *)
Theorem dm_alloc_complete base nbytes d h l fl bytes : history base nbytes d h l -> lies base nbytes ->
  heap_ok h fl -> (2 <= length fl)%nat -> 0 < bytes < 2 ^ W ->
  exists d' h' v, dm_alloc d h bytes = Ok (d', h', v) /\
    (taken l + 3 + words_for bytes <= words_for nbytes ->
       v <> MERROR /\ v <> EERROR /\ v = set_ptr_type (enc_cons_ptr (f_ix v)) TYPE_ARRAY /\ In (f_ix v) fl) /\
    (words_for nbytes < taken l + 3 + words_for bytes -> v = MERROR).
Proof.
  intros H L HO F2 B. destruct (history_inv _ _ _ _ _ H L) as (bs&tail&fl0&I&P&_&F&SZ).
  assert (fl0 = fl) as ->.
  { pose proof (ok_chain _ _ (i_heap _ _ _ _ _ I)) as C1. pose proof (ok_chain _ _ HO) as C2.
    eapply chain_fun; [apply (ok_size _ _ HO)|eauto|eauto]. }
  destruct (dm_alloc_ok d h bs tail fl bytes I F B) as (d1&h1&v1&bs1&t1&fl1&E1&_&_&_&_&_&_&_&D).
  exists d1, h1, v1. split; auto. rewrite (taken_perm _ _ P), <- SZ, <- bs2ws_words by lia. split.
  - intros T. destruct D as [(k&->&KI&KR&_)|(_&_&[D|D])]; try lia.
    destruct (ptr_not_error k KR) as (Q1&Q2&->). auto.
  - intros T. destruct D as [(k&_&_&_&_&D)|(->&_)]; auto. lia.
Qed.

(* C59.  Destroying the memory: the whole block is zero again, the cell of every
   live array is a pair of nils that keeps its mark, so that nothing points into
   the block; no other cell is touched. *)
Theorem dm_destroyed base nbytes d h l fl : history base nbytes d h l -> lies base nbytes -> heap_ok h fl ->
  exists d' h', dm_destroy d h = Ok (d', h') /\ d_words d' = repeat 0 (Z.to_nat (words_for nbytes)) /\ heap_ok h' fl /\
    (forall a, In a l -> exists x q, cell h (a_cell a) = Some (x, q) /\
       cell h' (a_cell a) = Some (NIL, if get_gc_mark q then set_gc_mark NIL else NIL)) /\
    (forall c, ~ In c (map a_cell l) -> cell h' c = cell h c).
Proof.
  intros H L HO. destruct (history_inv _ _ _ _ _ H L) as (bs&tail&fl0&I&P&_&F&SZ).
  assert (fl0 = fl) as ->.
  { pose proof (ok_chain _ _ (i_heap _ _ _ _ _ I)) as C1. pose proof (ok_chain _ _ HO) as C2.
    eapply chain_fun; [apply (ok_size _ _ HO)|eauto|eauto]. }
  destruct (destroy_ok bs d h O tail fl (length (d_words d))) as (d'&h'&E&_&_&EW&HO'&FC&FR&_).
  { destruct bs as [|[]]; exact I. }
  { unfold d_size. lia. }
  exists d', h'. split; [exact E|]. split; [rewrite EW; f_equal; unfold d_size in SZ; lia|]. split; auto.
  assert (PC : Permutation (map a_cell l) (cells_of bs)) by (rewrite cells_of_map; apply Permutation_map; auto).
  split.
  - intros a J. destruct (FC (a_cell a)) as (x&q&q'&C1&C2&EM); [eapply Permutation_in; [exact PC|apply in_map; auto]|].
    exists x, q. split; auto. rewrite C2, EM. reflexivity.
  - intros c N. apply FR. intros J. apply N. eapply Permutation_in; [symmetry; exact PC|auto].
Qed.

End Arch.

(* ---- a concrete history, on a 64-bit machine: a memory of 20 words; three
   arrays of two words, a write to the third, the sweep of the second; then an
   array of five words, for which the third array has to move ---- *)
Fixpoint chainb {A : Arch} (h : heap) (v : Z) (l : list Z) : bool :=
  match l with
  | [] => v =? 0
  | i :: t => (v =? enc_cons_ptr i) && match cell h i with Some (_, q) => chainb h q t | None => false end
  end.
Lemma chainb_ok {A : Arch} h v l : chainb h v l = true -> chain h v l.
Proof.
  revert v. induction l as [|i t IH]; intros v E; cbn [chainb] in E.
  - apply Z.eqb_eq in E. subst. constructor.
  - apply andb_prop in E as [E1 E2]. apply Z.eqb_eq in E1. subst.
    destruct (cell h i) as [[a q]|] eqn:C; [|discriminate]. econstructor; eauto.
Qed.

Section Example.
Let A : Arch := A64.
Existing Instance A.

Definition unres {T} (r : res T) (x : T) : T := match r with Ok y => y | _ => x end.
Definition h_empty : heap := mkHeap [] [] 0 0 [] 0 0 0 0 (fun _ => None) [] false.
Definition x_h0 : heap := Eval vm_compute in unres (heap_init 8 0) h_empty.
Definition x_d0 : dm := Eval vm_compute in mkDm 4096 (repeat 0 20) 0.
Definition step_alloc (s : dm * heap) (b : Z) : dm * heap * Z := unres (dm_alloc (fst s) (snd s) b) (s, 0).
Definition x_1 := Eval vm_compute in step_alloc (x_d0, x_h0) 16.
Definition x_2 := Eval vm_compute in step_alloc (fst x_1) 16.
Definition x_3 := Eval vm_compute in step_alloc (fst x_2) 15.
Definition x_4 := Eval vm_compute in unres (array_store (fst (fst x_3)) (snd (fst x_3)) 2 1 77) x_d0.
Definition x_5 := Eval vm_compute in unres (sweep_dm_cell x_4 (snd (fst x_3)) 1) (x_4, snd (fst x_3)).
Definition x_6 := Eval vm_compute in step_alloc x_5 40.
Definition x_arr c b ws := mkArr c b ws.

Lemma x_history_5 : history 4096 160 (fst x_5) (snd x_5) [x_arr 2 15 [0; 77]; x_arr 0 16 [0; 0]].
Proof.
  assert (H1 : history 4096 160 (fst (fst x_1)) (snd (fst x_1)) [x_arr 0 16 [0; 0]]).
  { refine (h_alloc 4096 160 x_d0 x_h0 [] 16 _ _ (snd x_1) _ _ _ _ _); [|split; vm_compute; congruence|reflexivity|vm_compute; discriminate|vm_compute; discriminate].
    destruct (heap_init_ok 8 0) as (h&E&HO&_); [split; vm_compute; congruence|].
    apply (h_create 4096 160 x_d0 x_h0 (zseq 8)); [reflexivity|].
    replace x_h0 with h; auto. vm_compute in E. injection E as <-. reflexivity. }
  assert (H2 : history 4096 160 (fst (fst x_2)) (snd (fst x_2)) [x_arr 1 16 [0; 0]; x_arr 0 16 [0; 0]]).
  { refine (h_alloc 4096 160 _ _ _ 16 _ _ (snd x_2) H1 _ _ _ _); [split; vm_compute; congruence|reflexivity|vm_compute; discriminate|vm_compute; discriminate]. }
  assert (H3 : history 4096 160 (fst (fst x_3)) (snd (fst x_3)) [x_arr 2 15 [0; 0]; x_arr 1 16 [0; 0]; x_arr 0 16 [0; 0]]).
  { refine (h_alloc 4096 160 _ _ _ 15 _ _ (snd x_3) H2 _ _ _ _); [split; vm_compute; congruence|reflexivity|vm_compute; discriminate|vm_compute; discriminate]. }
  assert (H4 : history 4096 160 x_4 (snd (fst x_3)) [x_arr 2 15 [0; 77]; x_arr 1 16 [0; 0]; x_arr 0 16 [0; 0]]).
  { refine (h_store 4096 160 _ _ [] _ _ 1 77 _ H3 _ _); [cbn; lia|reflexivity]. }
  refine (h_free 4096 160 _ _ [_] _ _ _ _ _ H4 _ _); reflexivity.
Qed.

Example x_lies : lies 4096 160. Proof. repeat split; vm_compute; congruence. Qed.

(* the hypotheses of dm_intact, dm_defined, dm_alloc_complete and dm_destroyed
   are met, and the third array moves from word 10 to word 5 *)
Example x_history : history 4096 160 (fst (fst x_6)) (snd (fst x_6))
    [x_arr 3 40 [0; 0; 0; 0; 0]; x_arr 2 15 [0; 77]; x_arr 0 16 [0; 0]] /\
  place (fst x_5) (snd x_5) (x_arr 2 15 [0; 77]) = 10 /\
  place (fst (fst x_6)) (snd (fst x_6)) (x_arr 2 15 [0; 77]) = 5 /\
  taken [x_arr 2 15 [0; 77]; x_arr 0 16 [0; 0]] + 3 + words_for 40 <= words_for 160 /\
  heap_ok (snd x_5) [1; 3; 4; 5; 6; 7].
Proof.
  split; [|split; [reflexivity|split; [reflexivity|split; [vm_compute; congruence|]]]].
  - refine (h_alloc 4096 160 _ _ _ 40 _ _ (snd x_6) x_history_5 _ _ _ _); [split; vm_compute; congruence|reflexivity|vm_compute; discriminate|vm_compute; discriminate].
  - constructor; [vm_compute; congruence|apply chainb_ok; reflexivity| |reflexivity].
    repeat (constructor; [cbn; intuition congruence|]). constructor.
Qed.

(* C41 fails with one heap cell free: the allocation takes the cell, finds no
   hole, compacts the memory, and then has no cell, although there is room. *)
Definition x_h1 : heap := Eval vm_compute in set_free (snd x_5) (enc_cons_ptr 7) 7.
Theorem dm_alloc_last_cell_refuted : exists d' h', history 4096 160 (fst x_5) x_h1 [x_arr 2 15 [0; 77]; x_arr 0 16 [0; 0]] /\
  heap_ok x_h1 [7] /\ taken [x_arr 2 15 [0; 77]; x_arr 0 16 [0; 0]] + 3 + words_for 40 <= words_for 160 /\
  dm_alloc (fst x_5) x_h1 40 = Ok (d', h', MERROR).
Proof.
  assert (HO : heap_ok x_h1 [7]).
  { constructor; [vm_compute; congruence|apply chainb_ok; reflexivity| |reflexivity].
    repeat (constructor; [cbn; intuition congruence|]). constructor. }
  eexists _, _. split; [|split; [exact HO|split; [vm_compute; congruence|vm_compute; reflexivity]]].
  eapply h_other; [exact x_history_5|exact HO|].
  intros a [<-|[<-|[]]]; (split; [cbn; intuition congruence|]); eexists _, _, _; (split; [reflexivity|split; [reflexivity|auto]]).
Qed.

(* C41.  The search looks at the first hole only: with holes of 4 and 8 words and
   arrays behind both, 8 words are not found without moving the arrays. *)
Example x_first_hole_only :
  search 22 [8; 4096 + 24; enc_cons_ptr 0; 5;  0; 0; 0; 0;  8; 4096 + 88; enc_cons_ptr 1; 5;  0; 0; 0; 0; 0; 0; 0; 0] 0 None 8 = Ok None.
Proof. reflexivity. Qed.

End Example.

Print Assumptions dm_intact.
Print Assumptions dm_defined.
Print Assumptions dm_alloc_complete.
Print Assumptions dm_alloc_last_cell_refuted.
Print Assumptions dm_destroyed.
