(* Lists on the heap: determinism, frames, and the list functions of heap.c. *)
From Verif Require Import Base Value_Model Heap_Model Value_Proofs Value_Proofs2 Heap_Spec Heap_Proofs Heap_Proofs2.
Local Open Scope Z_scope.

Section Arch.
Context {A : Arch}.

Lemma zero_not_cons : is_cons 0 = false.
Proof. unfold is_cons. destruct nil_fields as (_&_&_&->&_). reflexivity. Qed.

Lemma zero_not_rw : is_cons_rw 0 = false.
Proof.
  destruct nil_fields as (Wz&P&_). rewrite cons_rw_iff, P by auto. reflexivity.
Qed.

Lemma car_ptr h p x q : is_ptr p = true -> ref_cell h p = Ok (x, q) -> car h p = Ok x.
Proof. intros P R. unfold car. rewrite P, R. reflexivity. Qed.
Lemma cdr_ptr h p x q : is_ptr p = true -> ref_cell h p = Ok (x, q) -> cdr h p = Ok q.
Proof. intros P R. unfold cdr. rewrite P, R. reflexivity. Qed.
Lemma car_nil h : car h 0 = Ok 0.
Proof. unfold car. destruct nil_fields as (_&_&_&->&_). reflexivity. Qed.
Lemma cdr_nil h : cdr h 0 = Ok 0.
Proof. unfold cdr. destruct nil_fields as (_&_&_&->&_). rewrite NIL_0. reflexivity. Qed.

Lemma list_on_det h v xs ps : list_on h v xs ps -> forall ys qs, list_on h v ys qs -> xs = ys /\ ps = qs.
Proof.
  induction 1 as [|p x q xs ps Wp C R L IH]; intros ys qs H.
  - inversion H; subst; auto. rewrite zero_not_cons in *. discriminate.
  - inversion H; subst.
    + rewrite zero_not_cons in *. discriminate.
    + rewrite R in *. match goal with E : Ok _ = Ok _ |- _ => injection E as <- <- end.
      destruct (IH _ _ ltac:(eassumption)) as [-> ->]. auto.
Qed.

Lemma list_on_suffix h v xs ps : list_on h v xs ps -> forall k p, nth_error ps k = Some p ->
  list_on h p (skipn k xs) (skipn k ps).
Proof.
  induction 1 as [|p x q xs ps Wp C R L IH]; intros k p' H; [destruct k; discriminate|].
  destruct k as [|k]; simpl in H.
  - injection H as <-. simpl. econstructor; eauto.
  - simpl. eapply IH; eauto.
Qed.

Lemma list_on_in h v xs ps p : list_on h v xs ps -> In p ps -> word p /\ is_cons p = true.
Proof. induction 1; intros I; [destruct I|]. destruct I as [<-|I]; auto. Qed.

Lemma list_on_len h v xs ps : list_on h v xs ps -> length ps = length xs.
Proof. induction 1; simpl; auto. Qed.

Lemma list_on_nodup h v xs ps : list_on h v xs ps -> NoDup ps.
Proof.
  intros L. pose proof (list_on_len _ _ _ _ L) as LL. induction L as [|p x q xs ps Wp C R L IH]; constructor.
  - intros I. apply In_nth_error in I as (k&K). pose proof (list_on_suffix _ _ _ _ L _ _ K) as L2.
    assert (L1 : list_on h p (x :: xs) (p :: ps)) by (econstructor; eauto).
    destruct (list_on_det _ _ _ _ L1 _ _ L2) as [E _].
    apply (f_equal (@length Z)) in E. rewrite skipn_length in E. simpl in E. lia.
  - apply IH. eapply list_on_len; eauto.
Qed.

(* two entries of a RAM list never denote the same cell *)
Lemma list_on_ix h v xs ps : list_on h v xs ps -> Forall (fun p => is_const_ptr p = false) ps ->
  NoDup (map f_ix ps).
Proof.
  induction 1 as [|p x q xs ps Wp C R L IH]; intros F; simpl; constructor.
  - inversion F as [|? ? Fp Fs]; subst.
    intros I. apply in_map_iff in I as (p'&E&I). pose proof I as I'. apply In_nth_error in I' as (k&K).
    pose proof (list_on_suffix _ _ _ _ L _ _ K) as L2. inversion L2 as [|p0 y q' ys ps' Wp' C' R' L2']; subst.
    + destruct (list_on_in _ _ _ _ _ L I) as [_ C0]. rewrite zero_not_cons in C0. discriminate.
    + rewrite Forall_forall in Fs. rewrite ref_cell_rw in R, R' by auto. rewrite E in R'. rewrite R in R'.
      injection R' as <- <-. destruct (list_on_det _ _ _ _ L _ _ L2') as [E1 _].
      apply (f_equal (@length Z)) in E1. match goal with H : _ = skipn k xs |- _ => apply (f_equal (@length Z)) in H; rewrite skipn_length in H; simpl in H end.
      assert (K' : nth_error ps k <> None) by congruence. apply nth_error_Some in K'.
      pose proof (list_on_len _ _ _ _ L). lia.
  - inversion F; auto.
Qed.

Lemma list_on_short h v xs ps : list_on h v xs ps -> Z.of_nat (length xs) < 2 ^ W.
Proof.
  intros L. rewrite <- (list_on_len _ _ _ _ L). pose proof (list_on_nodup _ _ _ _ L) as N.
  assert (I : incl (0 :: ps) (map Z.of_nat (seq 0 (Z.to_nat (2 ^ W))))).
  { assert (0 < 2 ^ W) by (apply Z.pow_pos_nonneg; pose proof W_pos; lia).
    intros p [<-|H1]; apply in_map_iff.
    - exists 0%nat. split; auto. apply in_seq. lia.
    - destruct (list_on_in _ _ _ _ _ L H1) as [Wp _]. unfold word in Wp.
      exists (Z.to_nat p). split; [lia|]. apply in_seq. lia. }
  apply NoDup_incl_length in I.
  - rewrite map_length, seq_length in I. simpl in I. lia.
  - constructor; auto. intros H. destruct (list_on_in _ _ _ _ _ L H) as [_ C]. rewrite zero_not_cons in C. discriminate.
Qed.

(* frame *)
Lemma list_on_frame h h' v xs ps : list_on h v xs ps -> ccells h' = ccells h ->
  (forall p, In p ps -> is_const_ptr p = false -> cell h' (f_ix p) = cell h (f_ix p)) -> list_on h' v xs ps.
Proof.
  induction 1 as [|p x q xs ps Wp C R L IH]; intros E F; [constructor|].
  apply list_on_cons with (q := q); auto.
  - destruct (is_const_ptr p) eqn:Cp.
    + unfold ref_cell in *. rewrite Cp in *. rewrite E. auto.
    + rewrite ref_cell_rw in * by auto. rewrite F; auto. left; auto.
  - apply IH; auto. intros; apply F; auto. right; auto.
Qed.

(* a list none of whose cells is free survives a change to free cells only *)

Lemma list_on_same h h' v xs ps l fl : list_on h v xs ps -> ccells h' = ccells h -> same_but l h h' ->
  incl l fl -> used fl ps -> list_on h' v xs ps.
Proof. intros L E S I U. eapply list_on_frame; eauto. intros p P C. apply S. intros H. eapply U; eauto. Qed.

(* ---- length ---- *)

Lemma length_loop_ok h v xs ps : list_on h v xs ps -> forall fuel n, (length xs <= fuel)%nat ->
  0 <= n -> n + Z.of_nat (length xs) < 2 ^ W ->
  list_length_loop fuel h v n = Ok (n + Z.of_nat (length xs)).
Proof.
  induction 1 as [|p x q xs ps Wp C R L IH]; intros fuel n F N B.
  - destruct fuel; cbn [list_length_loop index_loop reverse_loop copy_loop list_drop drev_loop]; rewrite zero_not_cons; f_equal; simpl; lia.
  - destruct fuel as [|fuel]; simpl in F; [lia|]. cbn [list_length_loop]. rewrite C.
    rewrite (cdr_ptr h p x q) by auto using cons_is_ptr. cbn [bind]. cbn [length] in *.
    rewrite wrap_small by lia. rewrite IH by lia. f_equal. lia.
Qed.

Lemma list_length_ok h v xs ps fuel : list_on h v xs ps -> (length xs <= fuel)%nat ->
  list_length fuel h v = Ok (Z.of_nat (length xs)).
Proof.
  intros L F. unfold list_length. rewrite (length_loop_ok _ _ _ _ L); auto; try lia.
  pose proof (list_on_short _ _ _ _ L). lia.
Qed.

(* ---- drop, index ---- *)

Lemma functional_cons p : word p -> is_cons p = true -> (type_of_functional p =? TYPE_CONS) = true \/ f_ty p / 2 <> 2.
Proof.
  intros Wp C. destruct (Z.eq_dec (f_ty p / 2) 2) as [E|]; auto. left.
  unfold type_of_functional. pose proof (cons_is_ptr _ C) as P. unfold is_ptr in P.
  destruct (Z.land p PTR_BIT =? 0); [discriminate|].
  replace (Z.land (wnot PTR_TO_CONSTANT_BIT) PTR_TYPE_MASK) with (Z.shiftl (Z.ones 5) (W - 5)) by (arch; reflexivity).
  rewrite land_field by (pose proof W_pos; lia).
  replace (p / 2 ^ (W - 5)) with (f_ty p / 2).
  - rewrite E. change (2 mod 2 ^ 5) with 2. replace TYPE_CONS with (2 * 2 ^ (W - 5)) by (arch; reflexivity).
    apply Z.eqb_refl.
  - unfold f_ty. rewrite Z.div_div; [|apply Z.pow_nonzero; pose proof W_pos; lia|lia].
    replace (2 ^ (W - 6) * 2) with (2 ^ (W - 5)); auto.
    replace (W - 5) with (W - 6 + 1) by lia. rewrite Z.pow_add_r by (pose proof W_pos; lia). reflexivity.
Qed.

Lemma functional_zero : (type_of_functional 0 =? TYPE_CONS) = false.
Proof. unfold type_of_functional. rewrite Z.land_0_l. simpl. arch; reflexivity. Qed.


Lemma list_drop_ok h v xs ps : list_on h v xs ps -> Forall plain ps -> forall fuel n, (length xs <= fuel)%nat ->
  exists w, list_drop fuel h (Z.of_nat n) v = Ok w /\ list_on h w (skipn n xs) (skipn n ps).
Proof.
  induction 1 as [|p x q xs ps Wp C R L IH]; intros PL fuel n F.
  - exists 0. rewrite !skipn_nil. destruct fuel; cbn [list_length_loop index_loop reverse_loop copy_loop list_drop drev_loop]; rewrite functional_zero; split; auto; constructor.
  - destruct fuel as [|fuel]; simpl in F; [lia|]. inversion PL as [|? ? Pp Ps]; subst. cbn [list_drop].
    assert ((type_of_functional p =? TYPE_CONS) = true) as ->.
    { destruct (functional_cons p Wp C) as [|N]; auto. exfalso. apply N. destruct Pp as [-> | ->]; reflexivity. }
    rewrite andb_true_l. destruct n as [|n].
    + exists p. split; [reflexivity|]. simpl. econstructor; eauto.
    + destruct (Z.ltb_spec 0 (Z.of_nat (S n))); [|lia].
      rewrite (cdr_ptr h p x q) by auto using cons_is_ptr. cbn [bind].
      replace (Z.of_nat (S n) - 1) with (Z.of_nat n) by lia. apply IH; auto. lia.
Qed.

Lemma index_loop_ok h v xs ps : list_on h v xs ps -> forall fuel n, (length xs <= fuel)%nat ->
  index_loop fuel h v (Z.of_nat n) = Ok (nth n xs NIL).
Proof.
  induction 1 as [|p x q xs ps Wp C R L IH]; intros fuel n F.
  - destruct fuel; cbn [list_length_loop index_loop reverse_loop copy_loop list_drop drev_loop]; rewrite zero_not_cons; destruct n; reflexivity.
  - destruct fuel as [|fuel]; simpl in F; [lia|]. cbn [index_loop]. rewrite C, andb_true_l.
    destruct n as [|n].
    + simpl. eapply car_ptr; eauto. apply cons_is_ptr; auto.
    + destruct (Z.ltb_spec 0 (Z.of_nat (S n))); [|lia].
      rewrite (cdr_ptr h p x q) by auto using cons_is_ptr. cbn [bind].
      replace (Z.of_nat (S n) - 1) with (Z.of_nat n) by lia. apply IH; auto. lia.
Qed.

(* ---- reverse ---- *)

Lemma cons_type_ix p : f_ty (set_ptr_type p TYPE_CONS) = 4 /\ word (set_ptr_type p TYPE_CONS) /\
  f_ix (set_ptr_type p TYPE_CONS) = f_ix p /\ f_ptr (set_ptr_type p TYPE_CONS) = 1 /\
  f_gc (set_ptr_type p TYPE_CONS) = 0.
Proof.
  destruct (set_type_fields p TYPE_CONS tag_cons) as (Wd&T&I&G&P). split; auto.
  replace TYPE_CONS with (4 * 2 ^ (W - 6)) in T at 2 by (arch; reflexivity).
  apply Z.mul_cancel_r in T; auto. apply Z.pow_nonzero; pose proof W_pos; lia.
Qed.

Lemma cons_enc i : 0 <= i < 2 ^ (W - 8) -> set_ptr_type (enc_cons_ptr i) TYPE_CONS = enc_cons_ptr i.
Proof.
  intros H. destruct (enc_cons_fields i H) as (W1&T1&I1&G1&P1).
  destruct (cons_type_ix (enc_cons_ptr i)) as (T2&W2&I2&P2&G2). apply word_eq; auto; congruence.
Qed.

Lemma cons_ok h i fl a d : heap_ok h (i :: fl) ->
  exists h', cons h a d = Ok (h', enc_cons_ptr i) /\
    heap_ok h' fl /\ cell h' i = Some (a, d) /\ same_but [i] h h' /\ hsize h' = hsize h /\
    ccells h' = ccells h /\ mem h' = mem h /\ freed h' = freed h /\ 0 <= i < 2 ^ (W - 8).
Proof.
  intros OK. destruct (alloc_cell_ok h i fl TYPE_CONS a d OK tag_cons) as (h'&E&OK'&C&S&Sz&Cc&M&Fr&I&R&_).
  pose proof (ok_size _ _ OK). exists h'. unfold cons. rewrite E, cons_enc by lia. repeat (split; auto); lia.
Qed.

Lemma enc_type_not_sym i : 0 <= i < 2 ^ (W - 8) -> (type_of (enc_cons_ptr i) =? TYPE_SYMBOL) = false.
Proof.
  intros H. pose proof (enc_rw i H) as E. unfold is_cons_rw in E. apply Z.eqb_eq in E. rewrite E. arch; reflexivity.
Qed.

Lemma MERROR_type : (type_of MERROR =? TYPE_SYMBOL) = true.
Proof. unfold MERROR. arch; reflexivity. Qed.

Lemma cons_fail h a d : heap_ok h [] -> cons h a d = Ok (h, MERROR).
Proof. intros. apply alloc_cell_nil; auto. Qed.

Lemma list_on_cons_cell h i a d xs ps : 0 <= i < 2 ^ (W - 8) -> cell h i = Some (a, d) -> list_on h d xs ps ->
  list_on h (enc_cons_ptr i) (a :: xs) (enc_cons_ptr i :: ps).
Proof.
  intros R C L. econstructor; eauto using enc_word.
  - apply rw_is_cons; auto using enc_word, enc_rw.
  - rewrite ref_cell_rw, enc_ix, C by auto using enc_not_const. reflexivity.
Qed.


Lemma used_tail i fl ps : used (i :: fl) ps -> used fl ps.
Proof. intros U p P C I. eapply U; eauto. right; auto. Qed.
Lemma used_tail2 fl p ps : used fl (p :: ps) -> used fl ps.
Proof. intros U p' P C I. eapply U; eauto. right; auto. Qed.
Lemma used_enc fl i qs : 0 <= i < 2 ^ (W - 8) -> NoDup (i :: fl) -> used fl qs -> used fl (enc_cons_ptr i :: qs).
Proof.
  intros R N U p [<-|P] C; [|apply U; auto]. rewrite enc_ix by auto. inversion N; auto.
Qed.

Lemma reverse_loop_ok xs : forall v ps fl h acc ys qs fuel,
  (length xs <= fuel)%nat -> heap_ok h fl -> used fl ps -> used fl qs ->
  list_on h v xs ps -> list_on h acc ys qs ->
  exists h' r, reverse_loop fuel h v acc = Ok (h', r) /\
    same_but fl h h' /\ hsize h' = hsize h /\ ccells h' = ccells h /\ mem h' = mem h /\
    if (length xs <=? length fl)%nat
    then heap_ok h' (skipn (length xs) fl) /\
         list_on h' r (rev xs ++ ys) (rev (map enc_cons_ptr (firstn (length xs) fl)) ++ qs)
    else r = MERROR /\ heap_ok h' [].
Proof.
  induction xs as [|x xs IH]; intros v ps fl h acc ys qs fuel F OK U1 U2 Lv La.
  - inversion Lv; subst. exists h, acc. split; [destruct fuel; cbn [list_length_loop index_loop reverse_loop copy_loop list_drop drev_loop]; rewrite zero_not_cons; auto|].
    simpl. split; [apply same_but_refl|]. auto 10.
  - destruct fuel as [|fuel]; simpl in F; [lia|].
    inversion Lv as [|p x0 q xs0 ps0 Wp C R Lq]; subst.
    cbn [reverse_loop]. rewrite C, (car_ptr h v x q) by auto using cons_is_ptr. cbn [bind].
    destruct fl as [|i fl].
    + rewrite cons_fail by auto. cbn [bind]. rewrite MERROR_type. exists h, MERROR.
      split; auto. split; [apply same_but_refl|]. simpl. auto 10.
    + destruct (cons_ok h i fl x acc OK) as (h1&E&OK1&C1&S1&Sz1&Cc1&M1&_&Ri). rewrite E. cbn [bind].
      rewrite enc_type_not_sym by auto.
      assert (Inc : incl [i] (i :: fl)) by (intros j [->|[]]; left; auto).
      assert (R1 : ref_cell h1 v = Ok (x, q)).
      { unfold ref_cell in *. destruct (is_const_ptr v) eqn:Cp; [rewrite Cc1; auto|].
        rewrite dec_cell_rw in * by auto. rewrite rd_cell in *. rewrite S1; auto.
        intros [Ei|[]]. apply (U1 v); [left; auto|auto|left; auto]. }
      rewrite (cdr_ptr h1 v x q) by auto using cons_is_ptr. cbn [bind].
      destruct (IH q ps0 fl h1 (enc_cons_ptr i) (x :: ys) (enc_cons_ptr i :: qs) fuel) as (h'&r&E'&S'&Sz'&Cc'&M'&H'); auto.
      * lia.
      * eapply used_tail, used_tail2; eauto.
      * apply used_enc; auto; [apply (ok_nodup _ _ OK)|eapply used_tail; eauto].
      * eapply list_on_same with (fl := i :: fl); eauto. eapply used_tail2; eauto.
      * apply list_on_cons_cell with (d := acc); auto. eapply list_on_same with (fl := i :: fl); eauto.
      * exists h', r. split; auto. split; [|split; [congruence|split; [congruence|split; [congruence|]]]].
        -- apply same_but_trans with h1; [apply same_but_incl with [i]|apply same_but_incl with fl]; auto. intros j J; right; auto.
        -- cbn [length Nat.leb] in *. destruct (length xs <=? length fl)%nat; auto.
           destruct H' as [OK' L']. split; auto. cbn [firstn map rev]. rewrite <- !app_assoc. auto.
Qed.

(* ---- destructive reverse ---- *)

Lemma drev_loop_ok xs : forall v ps h acc ys qs fuel,
  (length xs <= fuel)%nat -> list_on h v xs ps -> list_on h acc ys qs ->
  Forall (fun p => is_cons_rw p = true) ps ->
  (forall p q, In p ps -> In q qs -> is_const_ptr q = false -> f_ix p <> f_ix q) ->
  exists h' r, drev_loop fuel h v acc = Ok (h', r) /\
    list_on h' r (rev xs ++ ys) (rev ps ++ qs) /\
    same_but (map f_ix ps) h h' /\ hsize h' = hsize h /\ h' = set_cells h (cells h').
Proof.
  induction xs as [|x xs IH]; intros v ps h acc ys qs fuel F Lv La RW D.
  - inversion Lv; subst. exists h, acc. split; [destruct fuel; cbn [list_length_loop index_loop reverse_loop copy_loop list_drop drev_loop]; rewrite zero_not_rw; auto|].
    simpl. split; auto. split; [apply same_but_refl|]. split; auto. destruct h; auto.
  - destruct fuel as [|fuel]; simpl in F; [lia|].
    inversion Lv as [|p x0 q xs0 ps0 Wp C R Lq]; subst. inversion RW as [|? ? RWv RWs]; subst.
    pose proof (rw_not_const v Wp RWv) as NC.
    cbn [drev_loop]. rewrite RWv, (cdr_ptr h v x q) by auto using cons_is_ptr. cbn [bind].
    unfold set_cdr. rewrite RWv, R. cbn [bind fst snd]. rewrite put_cell_rw by auto.
    rewrite ref_cell_rw in R by auto. destruct (cell h (f_ix v)) as [c|] eqn:Cv; [|discriminate]. injection R as ->.
    cbn [bind fst]. pose proof (cell_range _ _ _ Cv) as Rg.
    assert (NCs : Forall (fun p => is_const_ptr p = false) (v :: ps0)).
    { rewrite Forall_forall in *. intros p [<-|I]; auto. apply rw_not_const; auto.
      eapply list_on_in; eauto. }
    pose proof (list_on_ix _ _ _ _ Lv NCs) as ND. simpl in ND. inversion ND as [|? ? NI ND']; subst.
    set (h1 := hput h (f_ix v) (x, acc)).
    assert (S1 : same_but [f_ix v] h h1) by (apply hput_same; lia).
    destruct (IH q ps0 h1 v (x :: ys) (v :: qs) fuel) as (h'&r&E&L'&S'&Sz'&St'); auto.
    + lia.
    + eapply list_on_frame; eauto. intros p P _. apply S1. intros [E|[]]. apply NI. apply in_map_iff; eauto.
    + econstructor; eauto.
      * rewrite ref_cell_rw by auto. unfold h1. erewrite cell_hput_eq; eauto.
      * eapply list_on_frame; eauto. intros p P Cp. apply S1. intros [E|[]].
        eapply D; [left; eauto|eauto|auto|auto].
    + intros p q' P [<-|Q] Cq.
      * intros E. apply NI. rewrite <- E. apply in_map; auto.
      * apply D; auto. right; auto.
    + exists h', r. split; auto. split; [|split; [|split]].
      * cbn [rev]. rewrite <- !app_assoc. auto.
      * apply same_but_trans with h1; (eapply same_but_incl; [|eassumption]); intros j J; simpl in *; tauto.
      * rewrite Sz'. apply hput_size.
      * rewrite St'. destruct h; reflexivity.
Qed.

(* ---- copy ---- *)

Lemma copy_loop_ok xs : forall v ps h targ olds ts fuel n,
  (length xs <= fuel)%nat -> n = Z.of_nat (length olds) -> (length olds <= length xs)%nat ->
  list_on h v xs ps -> list_on h targ olds ts ->
  Forall (fun p => is_cons_rw p = true) ts ->
  (forall p t, In p ps -> In t ts -> is_const_ptr p = false -> f_ix p <> f_ix t) ->
  exists h', copy_loop fuel h v targ n = Ok h' /\
    list_on h' targ (firstn (length olds) xs) ts /\
    same_but (map f_ix ts) h h' /\ hsize h' = hsize h /\ h' = set_cells h (cells h').
Proof.
  induction xs as [|x xs IH]; intros v ps h targ olds ts fuel n F Hn LE Lv Lt RW D.
  - inversion Lv; subst. destruct olds; [|simpl in LE; lia]. inversion Lt; subst.
    exists h. split; [destruct fuel; cbn [list_length_loop index_loop reverse_loop copy_loop list_drop drev_loop]; rewrite zero_not_cons; auto|].
    simpl. split; auto. split; [apply same_but_refl|]. split; auto. destruct h; auto.
  - destruct fuel as [|fuel]; simpl in F; [lia|].
    inversion Lv as [|p x0 q xs0 ps0 Wp C R Lq]; subst.
    destruct olds as [|o olds].
    + inversion Lt; subst. exists h. cbn [copy_loop]. simpl Z.ltb. rewrite andb_false_r. split; auto.
      simpl. split; auto. split; [apply same_but_refl|]. split; auto. destruct h; auto.
    + inversion Lt as [|t o0 tq olds0 ts0 Wt Ct Rt Ltq]; subst. inversion RW as [|? ? RWt RWs]; subst.
      pose proof (rw_not_const targ Wt RWt) as NC.
      cbn [copy_loop]. rewrite C, andb_true_l. destruct (Z.ltb_spec 0 (Z.of_nat (length (o :: olds)))); [|simpl in *; lia].
      rewrite (car_ptr h v x q) by auto using cons_is_ptr. cbn [bind].
      unfold set_car. rewrite type_cons_rw, RWt, Rt. cbn [bind fst snd]. rewrite put_cell_rw by auto.
      rewrite ref_cell_rw in Rt by auto. destruct (cell h (f_ix targ)) as [c|] eqn:Cv; [|discriminate]. injection Rt as ->.
      cbn [bind fst]. pose proof (cell_range _ _ _ Cv) as Rg.
      set (h1 := hput h (f_ix targ) (x, tq)).
      assert (S1 : same_but [f_ix targ] h h1) by (apply hput_same; lia).
      assert (Rt1 : ref_cell h1 targ = Ok (x, tq)).
      { rewrite ref_cell_rw by auto. unfold h1. erewrite cell_hput_eq; eauto. }
      rewrite (cdr_ptr h1 targ x tq) by auto using cons_is_ptr. cbn [bind].
      assert (Lv1 : list_on h1 v (x :: xs) (v :: ps0)).
      { eapply list_on_frame; eauto. intros p P Cp. apply S1. intros [E|[]]. apply (D p targ); [auto|left; auto|auto|auto]. }
      inversion Lv1 as [|p1 x1 q1 xs1 ps1 _ _ R1 Lq1]; subst.
      assert (q1 = q) as ->.
      { destruct (is_const_ptr v) eqn:Cp.
        - unfold ref_cell in *. rewrite Cp in *. simpl in R1. congruence.
        - rewrite ref_cell_rw in * by auto. rewrite S1 in R1; [rewrite R in R1; congruence|].
          intros [E|[]]. apply (D v targ); [left; auto|left; auto|auto|auto]. }
      rewrite (cdr_ptr h1 v x q) by auto using cons_is_ptr. cbn [bind].
      assert (NCs : Forall (fun p => is_const_ptr p = false) (targ :: ts0)).
      { rewrite Forall_forall in *. intros p [<-|I]; auto. apply rw_not_const; auto. exact (proj1 (list_on_in _ _ _ _ p Ltq I)). }
      pose proof (list_on_ix _ _ _ _ Lt NCs) as ND. simpl in ND. inversion ND as [|? ? NI ND']; subst.
      destruct (IH q ps0 h1 tq olds ts0 fuel (Z.of_nat (length (o :: olds)) - 1)) as (h'&E&L'&S'&Sz'&St'); auto; try (cbn [length] in *; lia).
      * eapply list_on_frame; eauto. intros p P _. apply S1. intros [E|[]]. apply NI. apply in_map_iff; eauto.
      * intros p t P T. apply D; right; auto.
      * exists h'. split; auto. split; [|split; [|split]].
        -- cbn [length firstn]. econstructor; eauto. rewrite ref_cell_rw in Rt1 |- * by auto. rewrite S'; auto.
        -- apply same_but_trans with h1; (eapply same_but_incl; [|eassumption]); intros j J; simpl in *; tauto.
        -- rewrite Sz'. apply hput_size.
        -- rewrite St'. destruct h; reflexivity.
Qed.

(* ---- append ---- *)

Lemma last_cell_ok xs : forall v ps h x fuel, (length xs <= fuel)%nat -> list_on h v (x :: xs) ps ->
  Forall (fun p => is_cons_rw p = true) ps ->
  exists p, last_cell_loop fuel h v = Ok p /\ p = List.last ps 0 /\ In p ps /\
    ref_cell h p = Ok (List.last (x :: xs) 0, 0).
Proof.
  induction xs as [|y xs IH]; intros v ps h x fuel F L RW;
    inversion L as [|p x0 q xs0 ps0 Wp C R Lq]; subst.
  - inversion Lq; subst. exists v. split; [|split; [auto|split; [left; auto|auto]]].
    destruct fuel; cbn [last_cell_loop]; rewrite (cdr_ptr h v x 0) by auto using cons_is_ptr; cbn [bind];
      rewrite type_cons_rw, zero_not_rw; auto.
  - destruct fuel as [|fuel]; simpl in F; [lia|]. inversion RW as [|? ? RWv RWs]; subst.
    cbn [last_cell_loop]. rewrite (cdr_ptr h v x q) by auto using cons_is_ptr. cbn [bind].
    assert (Hq : is_cons_rw q = true) by (inversion Lq; subst; inversion RWs; auto).
    rewrite type_cons_rw, Hq. destruct (IH q ps0 h y fuel) as (p&E&E2&I&R2); auto; [lia|].
    exists p. split; auto. split; [|split; [right; auto|auto]].
    inversion Lq; subst. rewrite last_cons, last_cons. rewrite last_cons. reflexivity.
Qed.

Lemma list_on_relink h h' v xs ps w ys qs p x : list_on h v xs ps -> In p ps ->
  ref_cell h p = Ok (x, 0) -> is_const_ptr p = false ->
  cell h' (f_ix p) = Some (x, w) -> same_but [f_ix p] h h' -> ccells h' = ccells h ->
  Forall (fun p => is_const_ptr p = false) ps -> list_on h' w ys qs ->
  list_on h' v (xs ++ ys) (ps ++ qs).
Proof.
  intros L I Rp NC Cp S Cc FC L2. pose proof (list_on_ix _ _ _ _ L FC) as ND. revert I ND FC.
  induction L as [|p0 x0 q xs ps Wp C R L IH]; intros I ND FC; [destruct I|].
  inversion FC as [|? ? FCp FCs]; subst. simpl in ND. inversion ND as [|? ? NI ND']; subst.
  destruct I as [->|I].
  - rewrite Rp in R. injection R as <- <-. inversion L; subst; [|rewrite zero_not_cons in *; discriminate].
    simpl. econstructor; eauto. rewrite ref_cell_rw, Cp by auto. auto.
  - simpl. econstructor; eauto. rewrite ref_cell_rw in * by auto. rewrite S; auto.
    intros [E|[]]. apply NI. rewrite <- E. apply in_map; auto.
Qed.

End Arch.
