(* List allocation, init, lists on the heap. *)
From Coq Require Import FinFun.
From Verif Require Import Base Value_Model Heap_Model Value_Proofs Value_Proofs2 Heap_Spec Heap_Proofs.
Local Open Scope Z_scope.

Section Arch.
Context {A : Arch}.

Definition headp (is : list Z) : Z := match is with [] => 0 | i :: _ => enc_cons_ptr i end.

Lemma list_on_build h : forall is vals, length is = length vals ->
  Forall (fun i => 0 <= i < 2 ^ (W - 8)) is ->
  (forall k i x, nth_error is k = Some i -> nth_error vals k = Some x ->
     exists q, cell h i = Some (x, q) /\ q = headp (skipn (S k) is)) ->
  list_on h (headp is) vals (map enc_cons_ptr is).
Proof.
  induction is as [|i is IH]; intros [|x vals] L R H; try discriminate; [constructor|].
  inversion R as [|? ? Ri Rs]; subst. simpl in L.
  destruct (H 0%nat i x eq_refl eq_refl) as (q&C&Q). simpl in Q.
  cbn [headp map]. econstructor.
  - apply enc_word; auto.
  - apply rw_is_cons; [apply enc_word; auto|apply enc_rw; auto].
  - rewrite ref_cell_rw, enc_ix, C by auto using enc_not_const. reflexivity.
  - rewrite Q. apply IH; auto. intros k j y Hk Hy. destruct (H (S k) j y Hk Hy) as (q'&C'&Q').
    exists q'. auto.
Qed.

Lemma nth_firstn {T} (l : list T) n k : (k < n)%nat -> nth_error (firstn n l) k = nth_error l k.
Proof. revert n k. induction l; intros [|n] [|k] H; simpl; auto; try lia. apply IHl; lia. Qed.

Lemma NoDup_firstn {T} (l : list T) n : NoDup l -> NoDup (firstn n l).
Proof.
  revert n. induction l; intros [|n] H; simpl; auto using NoDup_nil. inversion H; subst. constructor; auto.
  intros I. apply H2. clear - I. revert n I. induction l; intros [|n] I; simpl in *; try tauto. destruct I; eauto.
Qed.

Lemma NoDup_skipn {T} (l : list T) n : NoDup l -> NoDup (skipn n l).
Proof. revert n. induction l; intros [|n] H; simpl; auto. inversion H; auto. Qed.

Lemma In_firstn {T} (l : list T) n x : In x (firstn n l) -> In x l.
Proof. intros H. rewrite <- (firstn_skipn n l). apply in_or_app; auto. Qed.
Lemma In_skipn {T} (l : list T) n x : In x (skipn n l) -> In x l.
Proof. intros H. rewrite <- (firstn_skipn n l). apply in_or_app; auto. Qed.

Lemma NoDup_split {T} (l : list T) n x : NoDup l -> In x (firstn n l) -> ~ In x (skipn n l).
Proof.
  intros N I J. rewrite <- (firstn_skipn n l) in N. revert N I. generalize (firstn n l). induction l0 as [|y l0 IH]; simpl; intros N I; [tauto|].
  inversion N; subst. destruct I as [->|I]; [apply H1; apply in_or_app; auto|auto].
Qed.

Lemma skipn_nth_cons {T} (l : list T) k j : nth_error l k = Some j -> skipn k l = j :: skipn (S k) l.
Proof. revert k. induction l; intros [|k] H; simpl in *; try discriminate; [injection H as ->; auto|]. apply IHl; auto. Qed.

Lemma headp_nth is k : headp (skipn k is) = match nth_error is k with Some j => enc_cons_ptr j | None => 0 end.
Proof.
  destruct (nth_error is k) eqn:E.
  - rewrite (skipn_nth_cons _ _ _ E). reflexivity.
  - apply nth_error_None in E. rewrite skipn_all2 by auto. reflexivity.
Qed.

Lemma last_nth {T} (l : list T) d : l <> [] -> nth_error l (length l - 1) = Some (List.last l d).
Proof.
  intros H. destruct (exists_last H) as (l'&x&->). rewrite last_last, app_length. simpl.
  replace (length l' + 1 - 1)%nat with (length l') by lia. rewrite nth_error_app2, Nat.sub_diag by lia. reflexivity.
Qed.

Lemma list_on_incl h v xs ps : list_on h v xs ps -> length ps = length xs.
Proof. induction 1; simpl; auto. Qed.

Lemma type_cons_rw v : (type_of v =? TYPE_CONS) = is_cons_rw v. Proof. reflexivity. Qed.

Lemma alloc_list_init_ok h fl vals : heap_ok h fl -> vals <> [] -> (length vals <= length fl)%nat ->
  exists h' v, alloc_list_init h vals = Ok (h', v) /\
    heap_ok h' (skipn (length vals) fl) /\
    list_on h' v vals (map enc_cons_ptr (firstn (length vals) fl)) /\ v = headp fl /\
    same_but (firstn (length vals) fl) h h' /\ hsize h' = hsize h /\
    ccells h' = ccells h /\ mem h' = mem h /\ freed h' = freed h.
Proof.
  intros OK NV LE. pose proof (num_free_ok _ _ OK) as NF. pose proof (heap_ok_free_le _ _ OK) as FL. destruct OK as [S C N K].
  set (n := length vals) in *.
  assert (n <> 0%nat) by (destruct vals; simpl in n; [congruence|lia]).
  unfold alloc_list_init. fold n. destruct (Z.eqb_spec (Z.of_nat n) 0); [lia|].
  rewrite NF. destruct (Z.ltb_spec (Z.of_nat (length fl)) (Z.of_nat n)); [lia|].
  pose proof (chain_range _ _ _ C) as R.
  assert (Hv : freelist h = headp fl) by (inversion C; reflexivity).
  assert (Hrw : is_cons_rw (freelist h) = true).
  { rewrite Hv. destruct fl as [|i fl]; [simpl in *; lia|]. simpl. apply enc_rw. inversion R; subst. lia. }
  rewrite type_cons_rw, Hrw.
  destruct (alloc_loop_ok vals h (freelist h) fl 0 S C N LE) as (h1&v1&E&Ch&Sm&Sz&St&Val). fold n in E, Ch, Sm, Val.
  rewrite E. cbn [bind].
  set (l := List.last (map enc_cons_ptr (firstn n fl)) 0).
  assert (LF : length (firstn n fl) = n) by (rewrite firstn_length; lia).
  assert (exists i, nth_error fl (n - 1) = Some i /\ l = enc_cons_ptr i) as (il&Hil&Hl).
  { pose proof (last_nth (map enc_cons_ptr (firstn n fl)) 0) as LN. fold l in LN.
    rewrite map_length, LF in LN. rewrite nth_error_map in LN. rewrite nth_firstn in LN by lia.
    destruct (nth_error fl (n - 1)) as [i|] eqn:Ei.
    - exists i. split; auto. simpl in LN. assert (Some (enc_cons_ptr i) = Some l) as [= <-]; auto. apply LN.
      destruct fl; [simpl in *; lia|]. destruct n; [lia|]. discriminate.
    - apply nth_error_None in Ei. lia. }
  assert (Ril : 0 <= il < 2 ^ (W - 8)).
  { rewrite Forall_forall in R. apply nth_error_In in Hil. specialize (R _ Hil). lia. }
  rewrite ref_cell_rw, Hl, enc_ix by (rewrite ?Hl; auto using enc_not_const).
  rewrite cell_set_free.
  assert (exists xl, nth_error vals (n - 1) = Some xl) as (xl&Hxl).
  { destruct (nth_error vals (n - 1)) eqn:EE; eauto. apply nth_error_None in EE. unfold n in *; lia. }
  destruct (Val (n - 1)%nat il xl) as (ql&Cl&_); [rewrite nth_firstn by lia; auto|auto|].
  rewrite Cl. cbn [bind fst]. rewrite put_cell_rw, enc_ix, cell_set_free, Cl by auto using enc_not_const. cbn [bind].
  eexists _, _. split; [reflexivity|].
  match goal with |- heap_ok ?x _ /\ _ => set (h3 := x) end.
  assert (C3 : forall i, cell h3 i = cell (hput h1 il (xl, 0)) i).
  { intros i. unfold h3, cell. simpl. rewrite NIL_0. reflexivity. }
  assert (Sz3 : hsize h3 = hsize h).
  { unfold h3. rewrite hsize_set_free, hput_size, hsize_set_free. auto. }
  assert (Iil : In il (firstn n fl)).
  { eapply nth_error_In. rewrite nth_firstn; eauto. lia. }
  split; [|split; [|split; [|split; [|split; [|split; [|split]]]]]]; auto.
  - constructor.
    + rewrite Sz3; auto.
    + unfold h3; simpl. eapply chain_frame with (h := hput h1 il (xl, 0)).
      * apply chain_put; auto; [apply NoDup_split; auto|lia].
      * intros i _. apply C3.
    + apply NoDup_skipn; auto.
    + rewrite Sz3. unfold h3. simpl. rewrite St. simpl. rewrite K, wrap_small; [rewrite skipn_length; lia|].
      pose proof W8. pose proof pow8_pos. unfold hsize in *. lia.
  - rewrite Hv. replace (headp fl) with (headp (firstn n fl)) by (destruct fl; destruct n; try lia; reflexivity).
    apply list_on_build.
    + rewrite LF; reflexivity.
    + rewrite Forall_forall in R |- *. intros i I. apply In_firstn in I. specialize (R _ I). lia.
    + intros k i x Hk Hx.
      assert (Hkn : (k < n)%nat). { rewrite <- LF. apply nth_error_Some. congruence. }
      destruct (Nat.eq_dec k (n - 1)) as [->|NE].
      * rewrite nth_firstn in Hk by lia. assert (i = il) as -> by congruence. assert (x = xl) as -> by congruence.
        exists 0. rewrite C3. split; [eapply cell_hput_eq; eauto|].
        rewrite skipn_all2 by lia. reflexivity.
      * destruct (Val k i x Hk Hx) as (q&Cq&Qn). exists q. split.
        -- rewrite C3, cell_hput_neq; [auto|lia|]. intros <-. apply NE.
           rewrite nth_firstn in Hk by lia.
           eapply NoDup_nth_error; eauto. { apply nth_error_Some. congruence. } congruence.
        -- rewrite headp_nth. destruct (nth_error (firstn n fl) (Datatypes.S k)) eqn:En; auto.
           apply nth_error_None in En. lia.
  - intros i I. rewrite C3, cell_hput_neq; [apply Sm; auto|lia|]. intros <-. apply I; auto.
  - unfold h3. simpl. rewrite St. reflexivity.
  - unfold h3. simpl. rewrite St. reflexivity.
  - unfold h3. simpl. rewrite St. reflexivity.
Qed.

Lemma alloc_list_init_fail h fl vals : heap_ok h fl -> (length fl < length vals)%nat ->
  alloc_list_init h vals = Ok (h, MERROR).
Proof.
  intros OK LT. unfold alloc_list_init. rewrite (num_free_ok _ _ OK).
  destruct (Z.eqb_spec (Z.of_nat (length vals)) 0); [lia|].
  destruct (Z.ltb_spec (Z.of_nat (length fl)) (Z.of_nat (length vals))); [auto|lia].
Qed.

(* ---- initialisation ---- *)

Lemma gen_free_ok n : n <= 2 ^ (W - 8) -> forall fuel i h, 1 <= i <= n -> n - i <= Z.of_nat fuel -> hsize h = n ->
  exists h', gen_free fuel i n h = Ok h' /\ h' = set_cells h (cells h') /\ hsize h' = n /\
    (forall j, i - 1 <= j < n - 1 -> cell h' j = Some (RECOVERED, enc_cons_ptr (j + 1))) /\
    (forall j, (j < i - 1 \/ j >= n - 1) -> cell h' j = cell h j).
Proof.
  intros Hn. induction fuel as [|fuel IH]; intros i h Hi Hf Hs; cbn [gen_free].
  - destruct (Z.ltb_spec i n); [lia|]. exists h. split; auto. split; [destruct h; auto|]. split; auto.
    split; intros j Hj; auto; lia.
  - destruct (Z.ltb_spec i n).
    + rewrite put_cell_rw, enc_ix by (try apply enc_not_const; lia).
      destruct (cell_some h (i - 1)) as (c&Hc); [lia|]. rewrite Hc. cbn [bind].
      destruct (IH (i + 1) (hput h (i - 1) (RECOVERED, enc_cons_ptr i))) as (h'&E&St&Sz&F1&F2); try lia.
      { rewrite hput_size; auto. }
      exists h'. split; auto. split; [rewrite St; destruct h; reflexivity|]. split; auto. split.
      * intros j Hj. destruct (Z.eq_dec j (i - 1)) as [->|].
        -- rewrite F2 by lia. erewrite cell_hput_eq by eauto. replace (i - 1 + 1) with i by lia. auto.
        -- apply F1. lia.
      * intros j Hj. rewrite F2 by lia. apply cell_hput_neq; lia.
    + exists h. split; auto. split; [destruct h; auto|]. split; auto. split; intros j Hj; auto; lia.
Qed.

Definition zseq (n : Z) : list Z := map Z.of_nat (seq 0 (Z.to_nat n)).

Lemma chain_seq h n : hsize h = n -> n <= 2 ^ (W - 8) ->
  (forall j, 0 <= j < n -> exists a, cell h j = Some (a, if j =? n - 1 then 0 else enc_cons_ptr (j + 1))) ->
  forall k i, (i + k = Z.to_nat n)%nat ->
  chain h (if Z.of_nat i =? n then 0 else enc_cons_ptr (Z.of_nat i)) (map Z.of_nat (seq i k)).
Proof.
  intros Hs Hn H. induction k as [|k IH]; intros i Hi; simpl.
  - destruct (Z.eqb_spec (Z.of_nat i) n); [constructor|].
    exfalso. unfold hsize in Hs. lia.
  - destruct (Z.eqb_spec (Z.of_nat i) n); [lia|]. destruct (H (Z.of_nat i) ltac:(lia)) as (a&Ca).
    econstructor; eauto. specialize (IH (Datatypes.S i)).
    replace (Z.of_nat (Datatypes.S i)) with (Z.of_nat i + 1) in IH by lia.
    replace (Z.of_nat i =? n - 1) with (Z.of_nat i + 1 =? n) by lia. apply IH. lia.
Qed.

Lemma heap_init_ok n g : 1 <= n <= 2 ^ (W - 8) ->
  exists h, heap_init n g = Ok h /\ heap_ok h (zseq n) /\ hsize h = n /\ gsize h = g /\ gstack h = [] /\
    (forall i, mem h i = None) /\
    (forall i, 0 <= i < n -> exists a, (a = 0 \/ a = RECOVERED) /\ cell h i = Some (a, if i =? n - 1 then 0 else enc_cons_ptr (i + 1))).
Proof.
  intros Hn. unfold heap_init, generate_freelist. simpl num_alloc.
  match goal with |- exists h, (let! h1 := gen_free _ _ _ ?x in _) = _ /\ _ => set (h0 := x) end.
  assert (S0 : hsize h0 = n).
  { unfold h0, hsize. simpl. rewrite repeat_length. lia. }
  assert (C0 : forall j, 0 <= j < n -> cell h0 j = Some (0, 0)).
  { intros j Hj. unfold cell, h0. simpl. destruct (Z.ltb_spec j 0); [lia|]. apply nth_error_repeat. lia. }
  destruct (gen_free_ok n ltac:(lia) (Z.to_nat n) 1 h0) as (h1&E&St&Sz&F1&F2); try lia.
  rewrite E. cbn [bind].
  rewrite ref_cell_rw, enc_ix by (try apply enc_not_const; lia).
  assert (Cl : cell h1 (n - 1) = Some (0, 0)) by (rewrite F2, C0 by lia; auto).
  rewrite Cl. cbn [bind fst]. rewrite put_cell_rw, enc_ix, Cl by (try apply enc_not_const; lia).
  eexists. split; [reflexivity|]. rewrite NIL_0.
  assert (CC : forall i, 0 <= i < n -> exists a, (a = 0 \/ a = RECOVERED) /\
     cell (hput h1 (n - 1) (0, 0)) i = Some (a, if i =? n - 1 then 0 else enc_cons_ptr (i + 1))).
  { intros i Hi. destruct (Z.eqb_spec i (n - 1)) as [->|].
    - exists 0. split; auto. eapply cell_hput_eq; eauto.
    - exists RECOVERED. split; auto. rewrite cell_hput_neq by lia. apply F1. lia. }
  split; [|split; [|split; [|split; [|split]]]]; auto.
  - constructor; rewrite ?hput_size; try lia.
    + unfold zseq. pose proof (chain_seq (hput h1 (n - 1) (0, 0)) n) as CS.
      specialize (CS ltac:(rewrite hput_size; auto) ltac:(lia)).
      assert (HH : forall j, 0 <= j < n -> exists a, cell (hput h1 (n - 1) (0, 0)) j = Some (a, if j =? n - 1 then 0 else enc_cons_ptr (j + 1))).
      { intros j Hj. destruct (CC j Hj) as (a&_&Ha). eauto. }
      specialize (CS HH (Z.to_nat n) 0%nat ltac:(lia)). simpl Z.of_nat in CS.
      destruct (Z.eqb_spec 0 n); [lia|].
      replace (freelist (hput h1 (n - 1) (0, 0))) with (enc_cons_ptr 0); auto.
      simpl. rewrite St. reflexivity.
    + unfold zseq. apply Injective_map_NoDup; [intros x y; lia|apply seq_NoDup].
    + unfold zseq. rewrite map_length, seq_length. replace (num_alloc (hput h1 (n - 1) (0, 0))) with 0 by (simpl; rewrite St; reflexivity). lia.
  - rewrite hput_size; auto.
  - simpl. rewrite St. reflexivity.
  - simpl. rewrite St. reflexivity.
  - simpl. rewrite St. reflexivity.
Qed.

End Arch.
