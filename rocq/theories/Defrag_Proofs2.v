(* Proofs about the defragmentable memory: freeing, writing, destroying. *)
From Coq Require Import Permutation.
From Verif Require Import Base Value_Model Heap_Model Value_Proofs Value_Proofs2 Heap_Spec Heap_Proofs List_Proofs Env_Proofs
  Defrag_Model Defrag_Spec Defrag_Proofs.
Local Open Scope Z_scope.

Section Arch.
Context {A : Arch}.

Lemma inv_split d h b1 g a b2 tail fl : inv d h (b1 ++ (g, a) :: b2) tail fl ->
  let p := after 0 b1 + Z.of_nat g in
  d_words d = (lay (d_base d) 0 b1 0 ++ repeat 0 g) ++ body (d_base d) p a ++ lay (d_base d) (p + extent a) b2 tail /\
  p = Z.of_nat (length (lay (d_base d) 0 b1 0 ++ repeat 0 g)) /\ arr_ok a /\ p + extent a <= d_size d /\ 0 <= p /\
  (exists q, cell h (a_cell a) = Some (d_base d + WB * p, q) /\ (q = DEFRAG_ARRAY \/ q = set_gc_mark DEFRAG_ARRAY)) /\
  ~ In (a_cell a) (cells_of (b1 ++ b2)).
Proof.
  intros I p. pose proof (inv_size _ _ _ _ _ I) as SZ. destruct I as [I1 I2 I3 I4 I5 I6 I7].
  rewrite after_app in SZ. cbn [after] in SZ.
  pose proof (after_ge (after 0 b1 + Z.of_nat g + extent a) b2). pose proof (after_ge 0 b1).
  split. { rewrite I1, lay_app. cbn [lay]. rewrite <- app_assoc. reflexivity. }
  split. { rewrite app_length, repeat_length, Nat2Z.inj_add, lay_length. unfold p. lia. }
  apply Forall_app in I2 as [_ I2]. inversion I2; subst. split; auto.
  split; [unfold p; lia|]. split; [unfold p; lia|].
  apply linked_app in I4 as [_ I4]. cbn [linked] in I4. split; [apply I4|].
  rewrite cells_app in *. cbn [cells_of map snd] in I3. apply NoDup_remove_2 in I3. exact I3.
Qed.

Lemma word_at_ok d p : word_at d (d_base d + WB * p) = Ok p.
Proof.
  unfold word_at. pose proof WB_pos. replace (d_base d + WB * p - d_base d) with (p * WB) by lia.
  rewrite Z.mod_mul, Z.div_mul by lia. reflexivity.
Qed.

(* taking a block out *)
Lemma inv_remove d h b1 g a b2 tail fl d' h' fl' n : inv d h (b1 ++ (g, a) :: b2) tail fl ->
  n = (g + Z.to_nat (extent a))%nat ->
  d_words d' = lay (d_base d) 0 b1 0 ++ repeat 0 n ++ lay (d_base d) (after 0 b1 + Z.of_nat n) b2 tail ->
  d_base d' = d_base d -> heap_ok h' fl' ->
  (forall c, In c (cells_of (b1 ++ b2)) -> ~ In c fl') ->
  (forall c, In c (cells_of (b1 ++ b2)) -> cell h' c = cell h c) ->
  inv d' h' (b1 ++ widen_b n b2) (widen_t n b2 tail) fl' /\ d_size d' = d_size d.
Proof.
  intros I N Wd B HO FL FR. destruct (inv_split _ _ _ _ _ _ _ _ I) as (W0&PL&AO&PE&P0&_&_).
  pose proof (extent_pos a) as EP.
  assert (SZ : d_size d' = d_size d).
  { pose proof (inv_size _ _ _ _ _ I) as SZ. unfold d_size at 1. rewrite Wd, !app_length, repeat_length, !Nat2Z.inj_add, !lay_length.
    rewrite SZ, after_app. cbn [after]. subst n.
    replace (after 0 b1 + Z.of_nat (g + Z.to_nat (extent a))) with (after 0 b1 + Z.of_nat g + extent a) by lia. lia. }
  split; auto. destruct I as [I1 I2 I3 I4 I5 I6 I7].
  rewrite cells_app in *. cbn [cells_of map snd] in *. apply NoDup_remove_1 in I3.
  apply Forall_app in I2 as [J1 J2]. inversion J2 as [|? ? Ja J3]; subst.
  apply linked_app in I4 as [K1 K2]. cbn [linked] in K2. destruct K2 as [_ K2].
  constructor; auto.
  - rewrite Wd, B, lay_app, lay_widen. reflexivity.
  - rewrite Forall_app. split; auto. apply ok_widen; auto.
  - rewrite cells_app, cells_widen. auto.
  - rewrite B, linked_app, linked_widen. split.
    + eapply linked_frame; eauto. intros c J. apply FR. apply in_or_app; auto.
    + replace (after 0 b1 + Z.of_nat (g + Z.to_nat (extent a))) with (after 0 b1 + Z.of_nat g + extent a) by lia.
      eapply linked_frame; eauto. intros c J. apply FR. apply in_or_app; auto.
  - intros c. rewrite cells_app, cells_widen. apply FL.
  - unfold placed. rewrite SZ, B. exact I7.
Qed.

Lemma clear_block d h b1 g a b2 tail fl n : inv d h (b1 ++ (g, a) :: b2) tail fl ->
  n = (g + Z.to_nat (extent a))%nat ->
  clear (d_words d) (after 0 b1 + Z.of_nat g) (extent a) =
    Ok (lay (d_base d) 0 b1 0 ++ repeat 0 n ++ lay (d_base d) (after 0 b1 + Z.of_nat n) b2 tail).
Proof.
  intros I ->. destruct (inv_split _ _ _ _ _ _ _ _ I) as (W0&PL&AO&PE&P0&_&_).
  pose proof (extent_pos a). rewrite W0, clear_mid; auto; [|rewrite body_length; auto].
  f_equal. rewrite repeat_app, <- !app_assoc. do 2 f_equal. f_equal.
  - f_equal. pose proof (body_length (d_base d) (after 0 b1 + Z.of_nat g) a). lia.
  - f_equal. lia.
Qed.

Lemma extent_wrap a : arr_ok a -> wrap W (3 + bs2ws (a_bytes a)) = extent a /\ wrap W (bs2ws (a_bytes a) + 3) = extent a.
Proof.
  intros (B&L&_). unfold extent. rewrite L. pose proof (bs2ws_small (a_bytes a)). pose proof (bs2ws_range (a_bytes a)).
  split; rewrite wrap_small; lia.
Qed.

Lemma rd_size d h b1 g a b2 tail fl : inv d h (b1 ++ (g, a) :: b2) tail fl ->
  let p := after 0 b1 + Z.of_nat g in
  rd (d_words d) p = Ok (a_bytes a) /\ rd (d_words d) (p + 1) = Ok (d_base d + WB * (p + 3)) /\
  rd (d_words d) (p + 2) = Ok (enc_cons_ptr (a_cell a)).
Proof.
  intros I p. destruct (inv_split _ _ _ _ _ _ _ _ I) as (W0&PL&_). fold p in W0, PL. rewrite W0.
  set (L := lay _ _ _ _ ++ _) in *. unfold body, hdr. cbn [app]. split; [|split].
  - apply rd_mid; auto.
  - change (L ++ ?x :: ?r) with (L ++ [x] ++ r). rewrite app_assoc. apply rd_mid. rewrite app_length. cbn [length]. lia.
  - change (L ++ ?x :: ?y :: ?r) with (L ++ [x; y] ++ r). rewrite app_assoc. apply rd_mid. rewrite app_length. cbn [length]. lia.
Qed.

Lemma heap_ok_freed h fl c x : heap_ok h fl -> ~ In c fl -> cell h c = Some x ->
  heap_ok (set_free (hput h c (RECOVERED, freelist h)) (enc_cons_ptr c) (wrap W (num_alloc h - 1))) (c :: fl).
Proof.
  intros H N C. pose proof (cell_range _ _ _ C) as R.
  set (h' := set_free (hput h c (RECOVERED, freelist h)) (enc_cons_ptr c) (hsize h - Z.of_nat (length (c :: fl)))).
  assert (X : heap_ok h' (c :: fl)).
  { destruct H as [H1 H2 H3 H4]. constructor.
    - unfold h'. rewrite hsize_set_free, hput_size. auto.
    - unfold h'. cbn [freelist set_free]. econstructor.
      + rewrite cell_set_free. apply (cell_hput_eq _ _ _ _ C).
      + eapply chain_frame; [exact H2|]. intros j J. rewrite cell_set_free. apply cell_hput_neq; [lia|]. intros ->; auto.
    - constructor; auto.
    - unfold h'. rewrite hsize_set_free, hput_size. reflexivity. }
  pose proof (heap_ok_free_le _ _ X) as LE. unfold h' in LE. rewrite hsize_set_free, hput_size in LE.
  assert (E : wrap W (num_alloc h - 1) = hsize h - Z.of_nat (length (c :: fl))).
  { rewrite (ok_count _ _ H). cbn [length] in *. rewrite wrap_small; [lia|].
    pose proof (ok_size _ _ H). pose proof W8. pose proof pow8_pos. lia. }
  rewrite E. exact X.
Qed.

Lemma sweep_ok d h b1 g a b2 tail fl x : inv d h (b1 ++ (g, a) :: b2) tail fl -> cell h (a_cell a) = Some (x, DEFRAG_ARRAY) ->
  exists d' h' n, sweep_dm_cell d h (a_cell a) = Ok (d', h') /\ d_base d' = d_base d /\ d_flags d' = d_flags d /\ d_size d' = d_size d /\
    inv d' h' (b1 ++ widen_b n b2) (widen_t n b2 tail) (a_cell a :: fl).
Proof.
  intros I C. destruct (inv_split _ _ _ _ _ _ _ _ I) as (W0&PL&AO&PE&P0&(q&CQ&_)&NI).
  rewrite C in CQ. injection CQ as -> <-.
  destruct (rd_size _ _ _ _ _ _ _ _ I) as (R0&_&_). destruct (extent_wrap a AO) as [EW _].
  pose proof (i_used _ _ _ _ _ I (a_cell a)) as U. rewrite cells_app in U. cbn [cells_of map snd] in U.
  assert (N : ~ In (a_cell a) fl) by (apply U; apply in_or_app; right; left; auto).
  unfold sweep_dm_cell. rewrite rd_cell, C. cbn [bind fst snd]. rewrite Z.eqb_refl.
  unfold dm_free. rewrite word_at_ok. cbn [bind]. rewrite R0. cbn [bind]. rewrite EW.
  rewrite (clear_block _ _ _ _ _ _ _ _ _ I eq_refl). cbn [bind]. rewrite wr_cell, C. cbn [bind].
  set (n := (g + Z.to_nat (extent a))%nat). set (d' := set_words d _).
  set (h' := set_free (hput h (a_cell a) (RECOVERED, freelist h)) (enc_cons_ptr (a_cell a)) (wrap W (num_alloc h - 1))).
  exists d', h', n. split; [reflexivity|]. split; [reflexivity|]. split; [reflexivity|].
  destruct (inv_remove d h b1 g a b2 tail fl d' h' (a_cell a :: fl) n I eq_refl) as [I' SZ]; auto.
  - eapply heap_ok_freed; eauto. apply (i_heap _ _ _ _ _ I).
  - intros c J [<-|K]; [auto|]. revert K. apply (i_used _ _ _ _ _ I). rewrite cells_app in *. cbn [cells_of map snd].
    apply in_app_or in J as [J|J]; apply in_or_app; [left|right; right]; auto.
  - intros c J. unfold h'. rewrite cell_set_free. apply cell_hput_neq; [|intros <-; auto]. destruct AO as (_&_&?); lia.
Qed.

Lemma array_word_ok d h b1 g a b2 tail fl k : inv d h (b1 ++ (g, a) :: b2) tail fl ->
  array_word d h (a_cell a) k =
    Ok (if (0 <=? k) && (k <? Z.of_nat (length (a_data a))) then Some (after 0 b1 + Z.of_nat g + 3 + k) else None).
Proof.
  intros I. destruct (inv_split _ _ _ _ _ _ _ _ I) as (W0&PL&AO&PE&P0&(q&CQ&_)&NI).
  destruct (rd_size _ _ _ _ _ _ _ _ I) as (R0&R1&_). set (p := after 0 b1 + Z.of_nat g) in *.
  unfold array_word. rewrite rd_cell, CQ. cbn [bind fst]. rewrite word_at_ok. cbn [bind]. rewrite R0, R1. cbn [bind].
  destruct AO as (AB&AL&_). rewrite <- AL. destruct (Z.leb_spec 0 k); cbn [andb]; auto.
  destruct (Z.ltb_spec k (Z.of_nat (length (a_data a)))); auto.
  assert (wrap W (d_base d + WB * (p + 3) + WB * k) = d_base d + WB * (p + 3 + k)) as ->.
  { pose proof (addr_ok d (p + 3 + k) (i_placed _ _ _ _ _ I)) as X. unfold addr in X. unfold extent in PE. rewrite <- X by lia. f_equal. lia. }
  rewrite word_at_ok. reflexivity.
Qed.

Lemma data_place d h b1 g a b2 tail fl : inv d h (b1 ++ (g, a) :: b2) tail fl ->
  let p := after 0 b1 + Z.of_nat g in
  d_words d = ((lay (d_base d) 0 b1 0 ++ repeat 0 g) ++ hdr (d_base d) p a) ++ a_data a ++ lay (d_base d) (p + extent a) b2 tail /\
  p + 3 = Z.of_nat (length ((lay (d_base d) 0 b1 0 ++ repeat 0 g) ++ hdr (d_base d) p a)).
Proof.
  intros I p. destruct (inv_split _ _ _ _ _ _ _ _ I) as (W0&PL&_). fold p in W0, PL. split.
  - rewrite W0 at 1. unfold body. rewrite <- !app_assoc. reflexivity.
  - rewrite (app_length (_ ++ _)). unfold hdr at 1. cbn [length]. lia.
Qed.

Lemma array_load_ok d h b1 g a b2 tail fl k : inv d h (b1 ++ (g, a) :: b2) tail fl -> (k < length (a_data a))%nat ->
  array_load d h (a_cell a) (Z.of_nat k) = Ok (Some (nth k (a_data a) 0)).
Proof.
  intros I K. unfold array_load. rewrite (array_word_ok _ _ _ _ _ _ _ _ _ I). cbn [bind].
  destruct (Z.leb_spec 0 (Z.of_nat k)); [|lia]. destruct (Z.ltb_spec (Z.of_nat k) (Z.of_nat (length (a_data a)))); [|lia]. cbn [andb].
  destruct (data_place _ _ _ _ _ _ _ _ I) as [E L]. rewrite E.
  destruct (nth_split (a_data a) 0 K) as (x1&x2&EX&LX). set (P := (_ ++ _) ++ hdr _ _ _) in *. rewrite EX at 1. rewrite <- (app_assoc x1), app_assoc. cbn [app].
  rewrite rd_mid; [reflexivity|]. rewrite app_length. lia.
Qed.

Lemma upd_mid' {T} (l1 : list T) x l2 y : upd (l1 ++ x :: l2) (length l1) y = l1 ++ y :: l2.
Proof. induction l1; cbn; congruence. Qed.

Lemma array_store_ok d h b1 g a b2 tail fl k w : inv d h (b1 ++ (g, a) :: b2) tail fl -> (k < length (a_data a))%nat ->
  let a' := mkArr (a_cell a) (a_bytes a) (upd (a_data a) k w) in
  exists d', array_store d h (a_cell a) (Z.of_nat k) w = Ok d' /\ d_base d' = d_base d /\ d_flags d' = d_flags d /\ d_size d' = d_size d /\
    inv d' h (b1 ++ (g, a') :: b2) tail fl.
Proof.
  intros I K a'. unfold array_store. rewrite (array_word_ok _ _ _ _ _ _ _ _ _ I). cbn [bind].
  destruct (Z.leb_spec 0 (Z.of_nat k)); [|lia]. destruct (Z.ltb_spec (Z.of_nat k) (Z.of_nat (length (a_data a)))); [|lia]. cbn [andb].
  destruct (data_place _ _ _ _ _ _ _ _ I) as [E L]. rewrite E.
  destruct (nth_split (a_data a) 0 K) as (x1&x2&EX&LX). revert EX. generalize (nth k (a_data a) 0) as y. intros y EX.
  set (P := (_ ++ _) ++ hdr _ _ _) in *. set (Q := lay _ _ b2 tail) in *.
  assert (EA : a_data a' = x1 ++ w :: x2).
  { unfold a'. cbn [a_data]. rewrite EX. replace k with (length x1). apply upd_mid'. }
  assert (LA : length (a_data a') = length (a_data a)).
  { rewrite EA. rewrite EX. rewrite !app_length. reflexivity. }
  assert (EXT : extent a' = extent a) by (unfold extent; rewrite LA; auto).
  rewrite EX. rewrite <- (app_assoc x1), app_assoc. cbn [app].
  rewrite wr_mid by (rewrite app_length; lia). cbn [bind].
  eexists. split; [reflexivity|]. split; [reflexivity|]. split; [reflexivity|].
  assert (EL : (P ++ x1) ++ w :: x2 ++ Q = lay (d_base d) 0 (b1 ++ (g, a') :: b2) tail).
  { rewrite lay_app. cbn [lay]. rewrite EXT. unfold body. rewrite EA. unfold P, Q.
    change (hdr (d_base d) (after 0 b1 + Z.of_nat g) a') with (hdr (d_base d) (after 0 b1 + Z.of_nat g) a).
    rewrite <- !app_assoc. cbn [app]. rewrite <- ?app_assoc. reflexivity. }
  assert (SZ : d_size (set_words d ((P ++ x1) ++ w :: x2 ++ Q)) = d_size d).
  { unfold d_size. cbn [set_words d_words]. rewrite E. rewrite EX. rewrite !app_length. cbn [length]. rewrite !app_length. lia. }
  split; [exact SZ|]. destruct I as [I1 I2 I3 I4 I5 I6 I7].
  assert (CE : cells_of (b1 ++ (g, a') :: b2) = cells_of (b1 ++ (g, a) :: b2)) by (rewrite !cells_app; reflexivity).
  constructor; cbn [set_words d_base d_words].
  - exact EL.
  - apply Forall_app in I2 as [J1 J2]. inversion J2 as [|? ? Ja J3]; subst. rewrite Forall_app. split; auto. constructor; auto.
    cbn [snd] in *. destruct Ja as (?&?&?). split; [exact H1|]. split; [rewrite LA; exact H2|exact H3].
  - rewrite CE. auto.
  - apply linked_app in I4 as [K1 K2]. rewrite linked_app. split; auto. cbn [linked] in *. rewrite EXT. exact K2.
  - auto.
  - rewrite CE. auto.
  - unfold placed. rewrite SZ. exact I7.
Qed.

(* ---- destroying ---- *)
Lemma set_ptr_cons c : 0 <= c < 2 ^ (W - 8) -> set_ptr_type (enc_cons_ptr c) TYPE_CONS = enc_cons_ptr c.
Proof.
  intros R. assert (exists k, 0 <= k < 64 /\ TYPE_CONS = k * 2 ^ (W - 6) /\ k = 4) as (k&K&E&K4)
    by (exists (TYPE_CONS / 2 ^ (W - 6)); destruct A; vm_compute; intuition congruence).
  rewrite E, set_ptr_type_f, enc_ix by auto.
  rewrite enc_cons_ptr_f by auto. subst k. lia.
Qed.

Definition emptied (q q' : Z) : Prop := q' = if get_gc_mark q then Z.lor NIL GC_MARKED else NIL.

Lemma destroy_zeros fuel d h i g l1 l2 : d_words d = l1 ++ repeat 0 g ++ l2 -> i = Z.of_nat (length l1) ->
  destroy_loop (g + fuel) d h i = destroy_loop fuel d h (i + Z.of_nat g).
Proof.
  revert i l1. induction g as [|g IH]; intros i l1 E I.
  - cbn [Nat.add]. rewrite Z.add_0_r. reflexivity.
  - cbn [Nat.add destroy_loop].
    destruct (Z.ltb_spec i (d_size d)) as [L|L].
    2: { exfalso. unfold d_size in L. rewrite E, !app_length, repeat_length in L. lia. }
    rewrite E at 1. cbn [repeat app]. rewrite rd_mid by auto. cbn [bind Z.eqb negb].
    rewrite (IH (i + 1) (l1 ++ [0])).
    + f_equal. lia.
    + rewrite E. cbn [repeat app]. rewrite <- app_assoc. reflexivity.
    + rewrite app_length. cbn [length]. lia.
Qed.

Lemma destroy_end fuel d h i : d_size d <= i -> destroy_loop fuel d h i = Ok (d, h).
Proof. intros L. destruct fuel; cbn [destroy_loop]; destruct (Z.ltb_spec i (d_size d)); try lia; reflexivity. Qed.

Lemma destroy_ok rest : forall d h m tail fl fuel,
  inv d h (widen_b m rest) (widen_t m rest tail) fl -> Z.of_nat fuel >= d_size d - Z.of_nat m ->
  exists d' h', destroy_loop fuel d h (Z.of_nat m) = Ok (d', h') /\ d_base d' = d_base d /\ d_flags d' = d_flags d /\
    d_words d' = repeat 0 (length (d_words d)) /\ heap_ok h' fl /\
    (forall c, In c (cells_of rest) -> exists x q q', cell h c = Some (x, q) /\ cell h' c = Some (NIL, q') /\ emptied q q') /\
    (forall c, ~ In c (cells_of rest) -> cell h' c = cell h c) /\ hsize h' = hsize h.
Proof.
  induction rest as [|[g a] t IH]; intros d h m tail fl fuel I Fu.
  - cbn [widen_b widen_t] in I. pose proof (i_words _ _ _ _ _ I) as Wd. cbn [lay] in Wd.
    pose proof (inv_size _ _ _ _ _ I) as SZ. cbn [after] in SZ.
    exists d, h. split.
    + replace fuel with (tail + (fuel - tail))%nat by lia.
      rewrite (destroy_zeros _ _ _ _ tail (repeat 0 m) []).
      * apply destroy_end. lia.
      * rewrite app_nil_r, <- repeat_app. exact Wd.
      * rewrite repeat_length. reflexivity.
    + split; auto. split; auto. split; [rewrite Wd at 1; f_equal; rewrite Wd, repeat_length; auto|].
      split; [apply (i_heap _ _ _ _ _ I)|]. split; [intros c []|]. auto.
  - cbn [widen_b widen_t] in I. change ((m + g, a) :: t)%nat with ([] ++ ((m + g)%nat, a) :: t) in I.
    destruct (inv_split _ _ _ _ _ _ _ _ I) as (W0&PL&AO&PE&P0&(q&CQ&QQ)&NI). cbn [after app lay repeat] in *.
    rewrite Z.add_0_l in *. destruct (rd_size _ _ [] _ _ _ _ _ I) as (R0&R1&R2). cbn [after] in R0, R1, R2. rewrite Z.add_0_l in *.
    destruct (extent_wrap a AO) as [EW1 EW2]. pose proof (extent_pos a) as EP.
    replace fuel with (g + S (fuel - g - 1))%nat by lia.
    rewrite (destroy_zeros _ _ _ _ g (repeat 0 m) (body (d_base d) (Z.of_nat (m + g)) a ++ lay (d_base d) (Z.of_nat (m + g) + extent a) t tail)).
    2: { rewrite W0, repeat_app, <- app_assoc. reflexivity. }
    2: { rewrite repeat_length. reflexivity. }
    remember (fuel - g - 1)%nat as fu eqn:EF. rewrite <- Nat2Z.inj_add. set (p := Z.of_nat (m + g)) in *.
    cbn [destroy_loop]. destruct (Z.ltb_spec p (d_size d)); [|lia].
    rewrite R0. cbn [bind]. destruct AO as (AB&AL&AC). destruct (Z.eqb_spec (a_bytes a) 0) as [?|_]; [lia|]. cbn [negb].
    rewrite EW1. unfold free_defrag_allocation. rewrite R0, R2. cbn [bind]. rewrite EW2, set_ptr_cons by auto.
    rewrite (cdr_enc h _ _ _ AC CQ). cbn [bind]. rewrite (set_cc_enc h _ _ _ _ _ AC CQ). cbn [bind].
    pose proof (clear_block _ _ [] _ _ _ _ _ _ I eq_refl) as CB. cbn [after lay app repeat] in CB. rewrite Z.add_0_l in CB. fold p in CB.
    rewrite CB. cbn [bind]. set (n := (m + g + Z.to_nat (extent a))%nat) in *. 
    set (d1 := set_words d _). set (q1 := if get_gc_mark q then Z.lor NIL GC_MARKED else NIL).
    set (h1 := hput h (a_cell a) (NIL, q1)).
    pose proof (i_used _ _ _ _ _ I) as U. cbn [app cells_of map snd] in U.
    destruct (inv_remove d h [] (m + g)%nat a t tail fl d1 h1 fl n I eq_refl) as [I1 SZ1]; auto.
    { apply heap_ok_put; [apply (i_heap _ _ _ _ _ I)| |lia]. apply U. left; auto. }
    { cbn [app]. intros c J. apply U. right; auto. }
    { cbn [app]. intros c J. apply cell_hput_neq; [lia|]. intros <-; auto. }
    cbn [app] in I1.
    destruct (IH d1 h1 n tail fl fu I1) as (d'&h'&E&Eb&Ef&EW&HO&FC&FR&HS).
    { rewrite SZ1. unfold n, p in *. lia. }
    assert (wrap W (p + extent a) = Z.of_nat n) as ->.
    { rewrite wrap_small; [unfold n, p; lia|]. pose proof (size_small d (i_placed _ _ _ _ _ I)). lia. }
    exists d', h'. split; [exact E|]. split; [rewrite Eb; auto|]. split; [rewrite Ef; auto|].
    split. { rewrite EW. f_equal. unfold d_size in SZ1. lia. }
    split; auto. assert (NC : ~ In (a_cell a) (cells_of t)) by exact NI.
    split; [|split; [|unfold h1 in HS; rewrite hput_size in HS; auto]].
    + intros c [<-|J]; cbn [snd].
      * exists (d_base d + WB * p), q, q1. split; auto. split; [|reflexivity]. rewrite (FR _ NC). apply (cell_hput_eq _ _ _ _ CQ).
      * destruct (FC c J) as (x&q0&q'&C1&C2&EM). exists x, q0, q'. split; auto. rewrite <- C1. symmetry. apply cell_hput_neq; [lia|]. intros <-; auto.
    + intros c J. cbn [cells_of map snd] in J. rewrite FR; [|intros K; apply J; right; auto].
      apply cell_hput_neq; [lia|]. intros <-. apply J. left; auto.
Qed.

End Arch.
