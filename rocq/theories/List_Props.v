(* C33: the list functions of heap.c compute the sequence operations.
   [heap_ok h fl]: the heap is in order and [fl] are its free cells.
   [list_on h v xs ps]: v is a proper list with elements xs in the cells ps.
   [used fl ps]: none of those cells is free.
   The loops are given fuel; any fuel >= the list length is enough. *)
From Verif Require Import Base Value_Model Heap_Model Value_Proofs Value_Proofs2 Heap_Spec Heap_Proofs Heap_Proofs2 List_Proofs.
Local Open Scope Z_scope.

Section Arch.
Context {A : Arch}.

(* C33 length *)
Theorem list_length_correct h v xs fuel : list_at h v xs -> (length xs <= fuel)%nat ->
  list_length fuel h v = Ok (Z.of_nat (length xs)).
Proof. intros [ps L] F. eapply list_length_ok; eauto. Qed.

(* C33 drop: the result is the tail inside the same list *)
Theorem list_drop_correct h v xs ps n fuel : list_on h v xs ps -> Forall plain ps -> (length xs <= fuel)%nat ->
  exists w, list_drop fuel h (Z.of_nat n) v = Ok w /\ list_on h w (skipn n xs) (skipn n ps).
Proof. intros. eapply list_drop_ok; eauto. Qed.

(* C33 index: from the front, or from the back when negative, nil outside *)
Theorem index_list_front h v xs n fuel : list_at h v xs -> (length xs <= fuel)%nat ->
  index_list fuel h v (Z.of_nat n) = Ok (nth n xs NIL).
Proof.
  intros [ps L] F. unfold index_list. destruct (Z.ltb_spec (Z.of_nat n) 0); [lia|].
  eapply index_loop_ok; eauto.
Qed.

Theorem index_list_back h v xs n fuel : list_at h v xs -> (length xs <= fuel)%nat ->
  Z.of_nat (length xs) < 2 ^ 31 -> 1 <= n <= 2 ^ 31 ->
  index_list fuel h v (- n) =
  Ok (if n <=? Z.of_nat (length xs) then nth (length xs - Z.to_nat n) xs NIL else NIL).
Proof.
  intros [ps L] F B N. unfold index_list. destruct (Z.ltb_spec (- n) 0); [|lia].
  rewrite (list_length_ok _ _ _ _ _ L F). cbn [bind].
  assert (sgn 32 (Z.of_nat (length xs)) = Z.of_nat (length xs)) as ->.
  { unfold sgn. rewrite Z.mod_small by lia. destruct (Z.ltb_spec (Z.of_nat (length xs)) (2 ^ (32 - 1))); lia. }
  destruct (Z.ltb_spec (Z.of_nat (length xs) + - n) (- 2 ^ 31)); [lia|].
  destruct (Z.ltb_spec (Z.of_nat (length xs) + - n) 0); destruct (Z.leb_spec n (Z.of_nat (length xs))); try lia; auto.
  replace (Z.of_nat (length xs) + - n) with (Z.of_nat (length xs - Z.to_nat n)) by lia.
  eapply index_loop_ok; eauto.
Qed.

(* C33 reverse: a new list with the elements in reverse order, in fresh cells;
   every cell in use, hence the argument, is unchanged.  With too few free
   cells the result is the memory error. *)
Theorem list_reverse_correct h fl v xs ps fuel : heap_ok h fl -> list_on h v xs ps -> used fl ps ->
  (length xs <= fuel)%nat ->
  exists h' r, list_reverse fuel h v = Ok (h', r) /\
    (forall i, ~ In i fl -> cell h' i = cell h i) /\ list_on h' v xs ps /\
    if (length xs <=? length fl)%nat
    then heap_ok h' (skipn (length xs) fl) /\
         list_on h' r (rev xs) (rev (map enc_cons_ptr (firstn (length xs) fl)))
    else r = MERROR /\ heap_ok h' [].
Proof.
  intros OK L U F. unfold list_reverse.
  destruct (type_of v =? TYPE_SYMBOL) eqn:Ty.
  - inversion L as [|p x q xs' ps' Wp C R L']; subst.
    + exists h, 0. split; auto. split; auto. split; auto. simpl. split; auto.
    + exfalso. rewrite type_of_ptr in Ty by auto using cons_is_ptr. rewrite is_cons_f in C by auto.
      apply andb_true_iff in C as [_ C]. apply Z.eqb_eq in C. unfold TYPE_SYMBOL in Ty. apply Z.eqb_eq in Ty.
      apply Z.mul_eq_0 in Ty as [E|E]; [rewrite E in C; discriminate|].
      revert E. apply Z.pow_nonzero; pose proof W_pos; lia.
  - rewrite NIL_0. destruct (reverse_loop_ok xs v ps fl h 0 [] [] fuel F OK U) as (h'&r&E&S&Sz&Cc&M&H); auto.
    { intros p []. } { constructor. }
    exists h', r. split; auto. split; auto. split.
    + eapply list_on_same; eauto. apply incl_refl.
    + destruct (length xs <=? length fl)%nat; auto. rewrite !app_nil_r in H. auto.
Qed.

(* C33 destructive reverse: the same cells in reverse order, nothing else changed *)
Theorem destructive_reverse_correct h v xs ps fuel : list_on h v xs ps ->
  Forall (fun p => is_cons_rw p = true) ps -> (length xs <= fuel)%nat ->
  exists h' r, list_destructive_reverse fuel h v = Ok (h', r) /\
    list_on h' r (rev xs) (rev ps) /\ same_but (nums ps) h h'.
Proof.
  intros L RW F. unfold list_destructive_reverse.
  destruct (type_of v =? TYPE_SYMBOL) eqn:Ty.
  - inversion L as [|p x q xs' ps' Wp C R L']; subst.
    + exists h, 0. split; auto. split; auto. apply same_but_refl.
    + exfalso. inversion RW as [|? ? RWp _]; subst. unfold is_cons_rw in RWp. apply Z.eqb_eq in RWp, Ty.
      rewrite RWp in Ty. revert Ty. clear. arch; discriminate.
  - rewrite NIL_0. destruct (drev_loop_ok xs v ps h 0 [] [] fuel F L) as (h'&r&E&L'&S&_&_);
      [constructor|auto|intros p q _ []|].
    rewrite !app_nil_r in L'. exists h', r. auto.
Qed.

(* C33 copy: all elements, or the first m when 0 <= m < length *)
Theorem list_copy_correct h fl v xs ps m fuel : heap_ok h fl -> list_on h v xs ps -> used fl ps ->
  (length xs <= fuel)%nat ->
  let n := if (0 <=? m) && (m <? Z.of_nat (length xs)) then Z.to_nat m else length xs in
  exists h' r m', list_copy fuel h m v = Ok (h', r, m') /\
    (forall i, ~ In i fl -> cell h' i = cell h i) /\ ccells h' = ccells h /\ list_on h' v xs ps /\
    if (n <=? length fl)%nat
    then heap_ok h' (skipn n fl) /\ list_on h' r (firstn n xs) (map enc_cons_ptr (firstn n fl))
    else r = MERROR /\ h' = h.
Proof.
  intros OK L U F n. unfold list_copy. rewrite (list_length_ok _ _ _ _ _ L F). cbn [bind].
  set (cm := if (0 <=? m) && (m <? Z.of_nat (length xs)) then (m, m)
             else if m =? -1 then (Z.of_nat (length xs), sgn 32 (Z.of_nat (length xs))) else (Z.of_nat (length xs), m)).
  assert (Ecm : fst cm = Z.of_nat n).
  { unfold cm, n. destruct ((0 <=? m) && (m <? Z.of_nat (length xs))) eqn:B; simpl; [|destruct (m =? -1); auto].
    apply andb_true_iff in B as [B _]. apply Z.leb_le in B. lia. }
  assert (Hn : (n <= length xs)%nat).
  { unfold n. destruct ((0 <=? m) && (m <? Z.of_nat (length xs))) eqn:B; auto.
    apply andb_true_iff in B as [_ B]. apply Z.ltb_lt in B. lia. }
  destruct cm as [cn m']. simpl in Ecm. subst cn. clearbody n.
  destruct (Z.eqb_spec (Z.of_nat n) 0).
  - exists h, NIL, m'. split; auto. split; auto. split; auto. split; auto. replace n with 0%nat by lia. simpl. split; auto.
    rewrite NIL_0. constructor.
  - unfold alloc_list. rewrite Nat2Z.id.
    destruct (Nat.leb_spec n (length fl)).
    + destruct (alloc_list_init_ok h fl (repeat NIL n) OK) as (h1&t&E&OK1&L1&Et&S1&Sz1&Cc1&M1&_).
      { destruct n; [lia|discriminate]. } { rewrite repeat_length; auto. }
      rewrite repeat_length in *. rewrite E. cbn [bind].
      assert (Ht : is_symbol t = false).
      { destruct (is_symbol t) eqn:St; auto. apply is_symbol_not_ptr in St. exfalso.
        destruct n; [lia|]. inversion L1; subst. rewrite cons_is_ptr in St by auto. discriminate. }
      rewrite Ht.
      pose proof (chain_range _ _ _ (ok_chain _ _ OK)) as FR. rewrite Forall_forall in FR. pose proof (ok_size _ _ OK) as SZ.
      assert (TS : forall p, In p (map enc_cons_ptr (firstn n fl)) -> is_cons_rw p = true /\ In (f_ix p) (firstn n fl)).
      { intros p P. apply in_map_iff in P as (i&<-&I). pose proof (In_firstn _ _ _ I) as I'. specialize (FR _ I').
        rewrite enc_ix by lia. split; auto. apply enc_rw; lia. }
      assert (Lv1 : list_on h1 v xs ps).
      { eapply list_on_same with (fl := fl); eauto. intros i I; eapply In_firstn; eauto. }
      destruct (copy_loop_ok xs v ps h1 t (repeat NIL n) (map enc_cons_ptr (firstn n fl)) fuel (Z.of_nat n))
        as (h2&E2&L2&S2&Sz2&St2); auto.
      { rewrite repeat_length; auto. } { rewrite repeat_length; auto. }
      { rewrite Forall_forall. intros p P. apply TS; auto. }
      { intros p q P Q C E0. apply (U p P C). rewrite E0. eapply In_firstn. apply TS; eauto. }
      rewrite E2. cbn [bind]. exists h2, t, m'. split; auto. rewrite repeat_length in L2.
      assert (FN : incl (map f_ix (map enc_cons_ptr (firstn n fl))) (firstn n fl)).
      { intros i I. apply in_map_iff in I as (p&<-&P). apply TS; auto. }
      assert (S12 : forall i, ~ In i (firstn n fl) -> cell h2 i = cell h i).
      { intros i I. rewrite S2 by (intros J; apply I, FN; auto). apply S1; auto. }
      split; [|split; [rewrite St2; simpl; auto|split; [|split]]]; auto.
      * intros i I. apply S12. intros J. apply I. eapply In_firstn; eauto.
      * eapply list_on_frame with (h := h); eauto. { rewrite St2; simpl; auto. }
        intros p P C. rewrite S12; auto. intros J. apply (U p P C). eapply In_firstn; eauto.
      * destruct OK1 as [o1 o2 o3 o4]. constructor; auto.
        -- rewrite Sz2; auto.
        -- rewrite St2. simpl. eapply chain_frame; eauto. intros i I. rewrite <- S2.
           ++ rewrite St2 at 1. reflexivity.
           ++ intros J. apply FN in J. exact (NoDup_split fl n i (ok_nodup _ _ OK) J I).
        -- rewrite Sz2, <- o4. rewrite St2. reflexivity.
    + rewrite (alloc_list_init_fail h fl) by (auto; rewrite repeat_length; lia). cbn [bind].
      assert (is_symbol MERROR = true) as -> by apply enc_sym_is_symbol.
      exists h, MERROR, m'. auto 9.
Qed.

(* C33 append: concatenation; only the last cell of the first list is changed.
   The two lists must not share cells (a shared tail would become a cycle). *)
Theorem list_append_correct h v xs ps w ys qs fuel : list_on h v xs ps -> list_on h w ys qs ->
  Forall (fun p => is_cons_rw p = true) ps ->
  (forall p q, In p ps -> In q qs -> is_const_ptr q = false -> f_ix p <> f_ix q) ->
  (length xs <= fuel)%nat ->
  exists h' r, list_append fuel h v w = Ok (h', r) /\ list_on h' r (xs ++ ys) (ps ++ qs) /\
    same_but (match ps with [] => [] | _ => [f_ix (last ps 0)] end) h h'.
Proof.
  intros L1 L2 RW D F. unfold list_append.
  assert (is_list_rw v = true) as ->.
  { unfold is_list_rw. inversion L1; subst; [apply orb_true_r|]. inversion RW; subst.
    match goal with H : is_cons_rw v = true |- _ => rewrite H end. reflexivity. }
  assert (is_list w = true) as ->.
  { unfold is_list. inversion L2; subst; [apply orb_true_r|].
    match goal with H : is_cons w = true |- _ => rewrite H end. reflexivity. }
  cbn [andb]. destruct xs as [|x xs].
  - inversion L1; subst. exists h, w. simpl.
    assert (last_cell_loop fuel h 0 = Ok 0) as ->.
    { destruct fuel; cbn [last_cell_loop]; rewrite cdr_nil; cbn [bind]; rewrite type_cons_rw, zero_not_rw; auto. }
    cbn [bind]. simpl. split; auto. split; auto. apply same_but_refl.
  - destruct (last_cell_ok xs v ps h x fuel) as (p&E&E2&I&Rp); auto; [simpl in F; lia|].
    rewrite E. cbn [bind].
    destruct (list_on_in _ _ _ _ _ L1 I) as [Wp Cp].
    assert (RWp : is_cons_rw p = true) by (rewrite Forall_forall in RW; auto).
    pose proof (rw_not_const p Wp RWp) as NC.
    assert (is_symbol_nil p = false) as ->.
    { unfold is_symbol_nil. destruct (Z.eqb_spec p 0); auto. subst p. rewrite e, zero_not_cons in Cp. discriminate. }
    unfold set_cdr. rewrite RWp, Rp. cbn [bind fst]. rewrite put_cell_rw by auto.
    pose proof Rp as Rp'. rewrite ref_cell_rw in Rp' by auto. destruct (cell h (f_ix p)) as [c|] eqn:Cc; [|discriminate].
    injection Rp' as ->. cbn [bind fst].
    set (h' := hput h (f_ix p) (last (x :: xs) 0, w)).
    assert (S1 : same_but [f_ix p] h h') by (apply hput_same; pose proof (cell_range _ _ _ Cc); lia).
    exists h', v. split; auto.
    assert (FC : Forall (fun p => is_const_ptr p = false) ps).
    { rewrite Forall_forall in *. intros p' P'. apply rw_not_const; auto. exact (proj1 (list_on_in _ _ _ _ p' L1 P')). }
    split.
    + eapply list_on_relink with (p := p); eauto.
      * unfold h'. erewrite cell_hput_eq; eauto.
      * eapply list_on_frame; eauto. intros q Q Cq. apply S1. intros [J|[]]. apply (D p q); auto.
    + destruct ps; [destruct I|]. rewrite <- E2. auto.
Qed.

End Arch.

(* A heap of 6 cells holding the list (nil #t nil) in cells 0,1,2. *)
Definition ex_heap : heap :=
  match heap_init (A := A32) 6 10 with
  | Ok h => match alloc_list_init (A := A32) h [0; 32; 0] with Ok (h1, _) => h1 | _ => h end
  | _ => mkHeap [] [] 0 0 [] 0 0 0 0 (fun _ => None) [] false
  end.

Example ex_heap_meets :
  heap_ok (A := A32) ex_heap [3; 4; 5] /\
  list_on (A := A32) ex_heap (enc_cons_ptr (A := A32) 0) [0; 32; 0] (map (enc_cons_ptr (A := A32)) [0; 1; 2]) /\
  used (A := A32) [3; 4; 5] (map (enc_cons_ptr (A := A32)) [0; 1; 2]) /\
  Forall (plain (A := A32)) (map (enc_cons_ptr (A := A32)) [0; 1; 2]) /\
  Forall (fun p => is_cons_rw (A := A32) p = true) (map (enc_cons_ptr (A := A32)) [0; 1; 2]).
Proof.
  destruct (heap_init_ok (A := A32) 6 10) as (h&E&OK&_); [vm_compute; split; discriminate|].
  destruct (alloc_list_init_ok (A := A32) h _ [0; 32; 0] OK) as (h1&v&E1&OK1&L1&V1&_); [discriminate|vm_compute; repeat constructor|].
  assert (EX : ex_heap = h1) by (unfold ex_heap; rewrite E, E1; reflexivity).
  rewrite EX. subst v. split; [exact OK1|]. split; [exact L1|]. split; [|split].
  - intros p P C I. simpl in P, I. destruct P as [<-|[<-|[<-|[]]]]; vm_compute in I; intuition discriminate.
  - repeat constructor.
  - repeat constructor.
Qed.

(* reversing it by the code *)
Example ex_reverse :
  exists h' r, list_reverse (A := A32) 3 ex_heap (enc_cons_ptr (A := A32) 0) = Ok (h', r) /\
    list_on (A := A32) h' r [0; 32; 0] (rev (map (enc_cons_ptr (A := A32)) [3; 4; 5])).
Proof.
  destruct ex_heap_meets as (OK&L&U&_).
  destruct (list_reverse_correct (A := A32) ex_heap _ _ _ _ 3 OK L U) as (h'&r&E&_&_&_&R); [simpl; lia|]. eauto.
Qed.

Print Assumptions list_length_correct.
Print Assumptions list_drop_correct.
Print Assumptions index_list_front.
Print Assumptions index_list_back.
Print Assumptions list_reverse_correct.
Print Assumptions destructive_reverse_correct.
Print Assumptions list_copy_correct.
Print Assumptions list_append_correct.
