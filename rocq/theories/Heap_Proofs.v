(* Cells, the free list, allocation. *)
From Verif Require Import Base Value_Model Heap_Model Value_Proofs Value_Proofs2 Heap_Spec.
Local Open Scope Z_scope.

Section Arch.
Context {A : Arch}.

(* ---- cells ---- *)

Definition hput (h : heap) (i : Z) (c : Z * Z) : heap := set_cells h (upd (cells h) (Z.to_nat i) c).

Lemma cell_range h i c : cell h i = Some c -> 0 <= i < hsize h.
Proof.
  unfold cell, hsize. destruct (Z.ltb_spec i 0); [discriminate|]. intros E.
  assert (nth_error (cells h) (Z.to_nat i) <> None) as N by congruence.
  apply nth_error_Some in N. lia.
Qed.

Lemma cell_some h i : 0 <= i < hsize h -> exists c, cell h i = Some c.
Proof.
  unfold cell, hsize. intros H. destruct (Z.ltb_spec i 0); [lia|].
  destruct (nth_error (cells h) (Z.to_nat i)) as [c|] eqn:E; eauto.
  apply nth_error_None in E. lia.
Qed.

Lemma rd_cell h i : rd (cells h) i = match cell h i with Some c => Ok c | None => UB end.
Proof. unfold rd, cell. destruct (i <? 0); auto. Qed.

Lemma wr_cell h i c : wr (cells h) i c =
  match cell h i with Some _ => Ok (cells (hput h i c)) | None => UB end.
Proof.
  unfold wr, cell. destruct (Z.ltb_spec i 0); auto. destruct (Nat.ltb_spec (Z.to_nat i) (length (cells h))).
  - destruct (nth_error (cells h) (Z.to_nat i)) eqn:E; auto. apply nth_error_None in E. lia.
  - assert (nth_error (cells h) (Z.to_nat i) = None) as -> by (apply nth_error_None; lia). auto.
Qed.

Lemma cell_hput_eq h i c c' : cell h i = Some c -> cell (hput h i c') i = Some c'.
Proof.
  intros H. pose proof (cell_range _ _ _ H) as R. unfold cell, hput, hsize in *. simpl.
  destruct (Z.ltb_spec i 0); [lia|]. apply nth_error_upd_eq. lia.
Qed.

Lemma cell_hput_neq h i j c : 0 <= i -> i <> j -> cell (hput h i c) j = cell h j.
Proof.
  intros H N. unfold cell, hput. simpl. destruct (Z.ltb_spec j 0); auto.
  apply nth_error_upd_neq. lia.
Qed.

Lemma hput_size h i c : hsize (hput h i c) = hsize h.
Proof. unfold hsize, hput. simpl. rewrite length_upd. reflexivity. Qed.

Lemma hput_same h i c : 0 <= i -> same_but [i] h (hput h i c).
Proof. intros H j N. apply cell_hput_neq; auto. intros ->. apply N. left; auto. Qed.

Lemma same_but_refl l h : same_but l h h. Proof. intros i _; auto. Qed.
Lemma same_but_trans l h1 h2 h3 : same_but l h1 h2 -> same_but l h2 h3 -> same_but l h1 h3.
Proof. intros A1 A2 i N. rewrite A2, A1; auto. Qed.
Lemma same_but_incl l l' h h' : incl l l' -> same_but l h h' -> same_but l' h h'.
Proof. intros I S i N. apply S. auto. Qed.

Lemma cell_set_free h f n i : cell (set_free h f n) i = cell h i. Proof. reflexivity. Qed.
Lemma hsize_set_free h f n : hsize (set_free h f n) = hsize h. Proof. reflexivity. Qed.

(* ---- pointers ---- *)

Lemma const_not_rw p : word p -> is_ptr p = true -> is_const_ptr p = false -> dec_cons_cell_ptr p = f_ix p.
Proof.
  intros Wp P C. unfold dec_cons_cell_ptr. unfold is_const_ptr in C.
  destruct (Z.eqb_spec (Z.land p PTR_TO_CONSTANT_BIT) 0) as [E|]; [|discriminate].
  rewrite E, Z.shiftr_0_l, Z.shiftr_0_r. apply dec_ptr_f.
Qed.

Lemma dec_cell_rw p : is_const_ptr p = false -> dec_cons_cell_ptr p = f_ix p.
Proof.
  intros C. unfold dec_cons_cell_ptr. unfold is_const_ptr in C.
  destruct (Z.eqb_spec (Z.land p PTR_TO_CONSTANT_BIT) 0) as [E|]; [|discriminate].
  rewrite E, Z.shiftr_0_l, Z.shiftr_0_r. apply dec_ptr_f.
Qed.

Lemma ref_cell_rw h p : is_const_ptr p = false ->
  ref_cell h p = match cell h (f_ix p) with Some c => Ok c | None => UB end.
Proof. intros C. unfold ref_cell. rewrite C, dec_cell_rw by auto. apply rd_cell. Qed.

Lemma put_cell_rw h p c : is_const_ptr p = false ->
  put_cell h p c = match cell h (f_ix p) with Some _ => Ok (hput h (f_ix p) c) | None => UB end.
Proof.
  intros C. unfold put_cell. rewrite C, dec_cell_rw, wr_cell by auto.
  destruct (cell h (f_ix p)); reflexivity.
Qed.

Lemma rw_not_const p : word p -> is_cons_rw p = true -> is_const_ptr p = false.
Proof.
  intros Wp. rewrite cons_rw_iff, is_const_f by auto. intros H.
  apply andb_true_iff in H as [_ H]. apply Z.eqb_eq in H. rewrite H. reflexivity.
Qed.

Lemma rw_is_cons p : word p -> is_cons_rw p = true -> is_cons p = true.
Proof.
  intros Wp. rewrite cons_rw_iff, is_cons_f by auto. intros H.
  apply andb_true_iff in H as [H1 H]. apply Z.eqb_eq in H. rewrite H, H1. reflexivity.
Qed.

Lemma cons_is_ptr p : is_cons p = true -> is_ptr p = true.
Proof. unfold is_cons. intros H. apply andb_true_iff in H. tauto. Qed.

Lemma enc_not_const i : 0 <= i < 2 ^ (W - 8) -> is_const_ptr (enc_cons_ptr i) = false.
Proof. intros H. rewrite is_const_f. destruct (enc_cons_fields i H) as (_&->&_). reflexivity. Qed.

Lemma enc_ix i : 0 <= i < 2 ^ (W - 8) -> f_ix (enc_cons_ptr i) = i.
Proof. intros H. apply enc_cons_fields; auto. Qed.

Lemma enc_rw i : 0 <= i < 2 ^ (W - 8) -> is_cons_rw (enc_cons_ptr i) = true.
Proof.
  intros H. destruct (enc_cons_fields i H) as (Wp&T&I&G&P). rewrite cons_rw_iff, T, P by auto. reflexivity.
Qed.

Lemma enc_nonzero i : 0 <= i < 2 ^ (W - 8) -> enc_cons_ptr i <> 0.
Proof.
  intros H E. destruct (enc_cons_fields i H) as (Wp&T&I&G&P). rewrite E in P.
  destruct nil_fields as (_&P0&_). congruence.
Qed.

Lemma enc_word i : 0 <= i < 2 ^ (W - 8) -> word (enc_cons_ptr i).
Proof. intros H. apply enc_cons_fields; auto. Qed.

(* a pointer word of a given tag to cell i *)
Lemma set_type_fields p ty : ptr_tag ty ->
  word (set_ptr_type p ty) /\ f_ty (set_ptr_type p ty) * 2 ^ (W - 6) = ty /\ f_ix (set_ptr_type p ty) = f_ix p /\
  f_gc (set_ptr_type p ty) = 0 /\ f_ptr (set_ptr_type p ty) = 1.
Proof.
  intros (k&K&->). rewrite set_ptr_type_f by auto.
  destruct (fields_unique k (f_ix p) 0 1 K (f_ix_range p) ltac:(lia) ltac:(lia)) as (Wd&T&I&G&P).
  rewrite T. auto.
Qed.

Lemma MERROR_not_ptr : is_ptr MERROR = false.
Proof. apply is_symbol_not_ptr, enc_sym_is_symbol. Qed.

Lemma NIL_0 : NIL = 0. Proof. apply nil_sym. Qed.

(* ---- the free list ---- *)

Lemma chain_range h v l : chain h v l -> Forall (fun i => 0 <= i < hsize h) l.
Proof. induction 1; constructor; auto. eapply cell_range; eauto. Qed.

Lemma chain_frame h h' v l : chain h v l -> (forall i, In i l -> cell h' i = cell h i) -> chain h' v l.
Proof.
  induction 1; intros F; [constructor|]. econstructor; [rewrite F by (left; auto); eauto|].
  apply IHchain. intros; apply F; right; auto.
Qed.

Lemma chain_put h v l i c : chain h v l -> ~ In i l -> 0 <= i -> chain (hput h i c) v l.
Proof. intros H N P. eapply chain_frame; eauto. intros j J. apply cell_hput_neq; auto. intros ->; auto. Qed.

Lemma heap_ok_free_le h fl : heap_ok h fl -> Z.of_nat (length fl) <= hsize h.
Proof.
  intros [S C N K]. apply chain_range in C.
  assert (incl fl (map Z.of_nat (seq 0 (length (cells h))))) as I.
  { intros i H. rewrite Forall_forall in C. specialize (C i H). unfold hsize in C.
    apply in_map_iff. exists (Z.to_nat i). split; [lia|]. apply in_seq. lia. }
  apply NoDup_incl_length in I; auto. rewrite map_length, seq_length in I. unfold hsize; lia.
Qed.

Lemma W8 : 2 ^ (W - 8) * 256 = 2 ^ W.
Proof. change 256 with (2 ^ 8). rewrite <- Z.pow_add_r by (pose proof W_pos; lia). f_equal; lia. Qed.

Lemma num_free_ok h fl : heap_ok h fl -> num_free h = Z.of_nat (length fl).
Proof.
  intros H. pose proof (heap_ok_free_le h fl H). destruct H as [S C N K]. unfold num_free.
  fold (hsize h). rewrite K. replace (hsize h - (hsize h - Z.of_nat (length fl))) with (Z.of_nat (length fl)) by lia.
  apply wrap_small. pose proof W8. pose proof pow8_pos. lia.
Qed.

(* storing into a cell that is not free *)
Lemma heap_ok_put h fl i c : heap_ok h fl -> ~ In i fl -> 0 <= i -> heap_ok (hput h i c) fl.
Proof.
  intros [S C N K] NI P. constructor; rewrite ?hput_size; auto.
  apply chain_put; auto.
Qed.

(* ---- lbm_heap_allocate_cell ---- *)

Lemma alloc_cell_nil h ty a d : heap_ok h [] -> alloc_cell h ty a d = Ok (h, MERROR).
Proof. intros [S C N K]. inversion C as [E|]. unfold alloc_cell. rewrite <- E. reflexivity. Qed.

Lemma alloc_cell_ok h i fl ty a d : heap_ok h (i :: fl) -> ptr_tag ty ->
  exists h', alloc_cell h ty a d = Ok (h', set_ptr_type (enc_cons_ptr i) ty) /\
    heap_ok h' fl /\ cell h' i = Some (a, d) /\ same_but [i] h h' /\ hsize h' = hsize h /\
    ccells h' = ccells h /\ mem h' = mem h /\ freed h' = freed h /\
    f_ix (set_ptr_type (enc_cons_ptr i) ty) = i /\ 0 <= i < hsize h /\
    h' = hput (set_free h (freelist h') (num_alloc h')) i (a, d).
Proof.
  intros H T. pose proof (heap_ok_free_le _ _ H) as LE. destruct H as [S C N K]. inversion C as [|i' x q l Ci Cq E1]; subst.
  inversion N as [|? ? NI ND]; subst.
  pose proof (cell_range _ _ _ Ci) as R. unfold alloc_cell. rewrite <- E1.
  assert (R8 : 0 <= i < 2 ^ (W - 8)) by lia.
  destruct (Z.eqb_spec (enc_cons_ptr i) 0) as [E0|_]; [exfalso; eapply enc_nonzero; eauto|].
  rewrite dec_ptr_f, enc_ix, rd_cell, Ci by auto. cbn [bind]. cbn [snd].
  rewrite wr_cell, cell_set_free, Ci. cbn [bind].
  eexists. split; [reflexivity|].
  set (h' := set_cells _ _).
  assert (Eh : h' = hput (set_free h q (wrap W (num_alloc h + 1))) i (a, d)) by reflexivity.
  destruct (set_type_fields (enc_cons_ptr i) ty T) as (_&_&I&_).
  simpl in LE.
  split; [|split; [|split; [|split; [|split; [|split; [|split; [|split; [|split]]]]]]]]; auto.
  - rewrite Eh. apply heap_ok_put; try lia; auto. constructor; auto.
    + eapply chain_frame; eauto.
    + simpl. rewrite hsize_set_free. rewrite K, wrap_small; simpl length.
      * lia.
      * pose proof W8. pose proof pow8_pos. simpl length. unfold hsize in *. lia.
  - rewrite Eh. apply cell_hput_eq with (c := (x, q)). rewrite cell_set_free. auto.
  - rewrite Eh. intros j J. rewrite cell_hput_neq by (try lia; intros ->; apply J; left; auto). reflexivity.
  - rewrite Eh. rewrite hput_size. reflexivity.
  - rewrite I. apply enc_ix; auto.
Qed.

Lemma alloc_cell_cases h fl ty a d : heap_ok h fl -> ptr_tag ty ->
  (fl = [] /\ alloc_cell h ty a d = Ok (h, MERROR)) \/
  (exists i fl' h', fl = i :: fl' /\ alloc_cell h ty a d = Ok (h', set_ptr_type (enc_cons_ptr i) ty) /\
    heap_ok h' fl' /\ cell h' i = Some (a, d) /\ same_but [i] h h' /\ hsize h' = hsize h /\
    ccells h' = ccells h /\ mem h' = mem h /\ freed h' = freed h /\
    f_ix (set_ptr_type (enc_cons_ptr i) ty) = i /\ 0 <= i < hsize h).
Proof.
  intros H T. destruct fl as [|i fl].
  - left. split; auto. apply alloc_cell_nil; auto.
  - right. destruct (alloc_cell_ok h i fl ty a d H T) as (h'&E&R). exists i, fl, h'. tauto.
Qed.

(* ---- list allocation ---- *)

Lemma last_cons {T} (x : T) l d : List.last (x :: l) d = List.last l x.
Proof. revert x d. induction l as [|y l IH]; intros; [reflexivity|]. change (List.last (x :: y :: l) d) with (List.last (y :: l) d). rewrite !IH. reflexivity. Qed.

(* what the loop leaves: the first cells of the chain, cars set *)
Lemma alloc_loop_ok vals : forall h v fl last, hsize h <= 2 ^ (W - 8) -> chain h v fl -> NoDup fl ->
  (length vals <= length fl)%nat ->
  exists h' v', alloc_loop vals v last h = Ok (h', v', List.last (map enc_cons_ptr (firstn (length vals) fl)) last) /\
    chain h' v' (skipn (length vals) fl) /\
    same_but (firstn (length vals) fl) h h' /\ hsize h' = hsize h /\ h' = set_cells h (cells h') /\
    (forall k i x, nth_error (firstn (length vals) fl) k = Some i -> nth_error vals k = Some x ->
       exists q, cell h' i = Some (x, q) /\
         (forall j, nth_error (firstn (length vals) fl) (S k) = Some j -> q = enc_cons_ptr j)).
Proof.
  induction vals as [|x vals IH]; intros h v fl last S C N L.
  - exists h, v. simpl. split; [reflexivity|]. split; auto. split; [apply same_but_refl|]. split; auto.
    split; [destruct h; reflexivity|]. intros k i x H. destruct k; discriminate.
  - destruct C as [|i a q fl Ci Cq]; [simpl in L; lia|].
    inversion N as [|? ? NI ND]; subst. pose proof (cell_range _ _ _ Ci) as R.
    assert (R8 : 0 <= i < 2 ^ (W - 8)) by lia.
    cbn [alloc_loop]. rewrite ref_cell_rw, enc_ix, Ci by (auto using enc_not_const). cbn [bind]. cbn [snd].
    rewrite put_cell_rw, enc_ix, Ci by (auto using enc_not_const). cbn [bind].
    assert (C1 : chain (hput h i (x, q)) q fl) by (apply chain_put; auto; lia).
    simpl in L.
    destruct (IH (hput h i (x, q)) q fl (enc_cons_ptr i)) as (h'&v'&E&Ch&Sm&Sz&St&Val); auto.
    { rewrite hput_size; auto. } { lia. }
    exists h', v'. simpl firstn; simpl skipn; simpl map.
    split; [|split; [|split; [|split; [|split]]]].
    + rewrite E, last_cons. reflexivity.
    + auto.
    + intros j J. rewrite Sm by (intros H; apply J; right; auto). apply cell_hput_neq; [lia|].
      intros ->; apply J; left; auto.
    + rewrite Sz, hput_size; auto.
    + rewrite St. destruct h; reflexivity.
    + intros k j y Hk Hv. destruct k as [|k]; simpl in Hk, Hv.
      * injection Hk as ->. injection Hv as ->. exists q. split.
        -- rewrite Sm. apply cell_hput_eq with (c := (a, q)); auto. intros H. apply NI.
           clear - H. revert H. generalize (length vals). induction fl; intros [|n] H; simpl in *; try tauto.
           destruct H; eauto.
        -- intros j' Hj'. destruct fl as [|j0 fl]; [destruct (length vals); discriminate|].
           destruct (length vals); simpl in Hj'; [discriminate|]. injection Hj' as ->.
           inversion Cq. reflexivity.
      * eapply Val; eauto.
Qed.

End Arch.
