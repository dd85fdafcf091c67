(* C93: map.  C94: reverse. *)
From Verif Require Import Base Value_Model Heap_Model Env_Model Match_Model QQ_Model GC_Model Eval_Model Value_Proofs Value_Proofs2 Heap_Spec Heap_Proofs List_Proofs
  Heap_Proofs2 Env_Proofs Eval_Proofs Sort_Model Seg_Proofs Fund_Spec Fund_Proofs Ctl_Proofs Map_Model Map_Spec Map_Proofs.
Local Open Scope Z_scope.

Section Props.
Context {A : Arch} {HO : Host}.

Lemma free_in_range h fl i : heap_ok h fl -> In i fl -> 0 <= i < 2 ^ (W - 8).
Proof.
  intros OK I. pose proof (chain_range _ _ _ (ok_chain _ _ OK)) as FR. rewrite Forall_forall in FR. pose proof (ok_size _ _ OK). specialize (FR i I). lia.
Qed.
Lemma alloc_two h i j fl g pre c : heap_ok h (i :: j :: fl) -> exists h', two_gc h g pre c = Ok (Val (h', enc_cons_ptr i)) /\
  heap_ok h' fl /\ cell h' i = Some (NIL, enc_cons_ptr j) /\ cell h' j = Some (NIL, 0) /\ same_but [i; j] h h' /\ ccells h' = ccells h /\
  0 <= i < 2 ^ (W - 8) /\ 0 <= j < 2 ^ (W - 8) /\ i <> j.
Proof.
  intros OK. destruct (alloc_list_init_ok h (i :: j :: fl) [NIL; NIL] OK) as (h'&v&E&OK'&L&->&SB&_&CC&_); [discriminate|cbn [length]; lia|].
  assert (R : Forall (fun k => 0 <= k < 2 ^ (W - 8)) [i; j]).
  { constructor; [|constructor; [|constructor]]; apply (free_in_range h (i :: j :: fl)); simpl; auto. }
  cbn [length firstn skipn] in *. exists h'. destruct (list_seg _ _ _ _ L R) as (S&_). inversion R as [|? ? Ri R']; subst. inversion R' as [|? ? Rj _]; subst.
  cbn [combine headp] in S. inversion S as [|? ? q ? ? _ C1 S1 EQ]; subst. inversion S1 as [|? ? q2 ? ? _ C2 S2]; subst. inversion S2; subst.
  assert (NIJ : i <> j) by (pose proof (ok_nodup _ _ OK) as ND; inversion ND as [|? ? NI _]; subst; intros ->; apply NI; left; auto).
  split; [|auto 12].
  unfold two_gc, alloc_list. change (repeat NIL (Z.to_nat 2)) with [NIL; NIL]. rewrite E. cbn [bind headp].
  destruct (Z.eqb_spec (enc_cons_ptr i) MERROR) as [EM|_]; [|reflexivity]. exfalso. pose proof (enc_cons i Ri) as EC. rewrite EM in EC. revert EC. clear. arch; discriminate.
Qed.

Lemma map_starts h g K0 sz exp env r app_ fn f lst x xs ps w i1 i2 i3 i4 i5 fl :
  heap_ok h (i1 :: i2 :: i3 :: i4 :: i5 :: fl) -> path h lst (x :: xs) ps w -> is_cons w = false -> used (i1 :: i2 :: i3 :: i4 :: i5 :: fl) ps ->
  Z.of_nat (length K0) + 7 < sz ->
  exists h' tl, apply_map (mkE h g (lst :: f :: fn :: K0) sz exp env r app_) 2 =
      Ok (Val (mkE h' g (MAP :: mstack i2 i3 i5 (enc_cons_ptr i5) env tl K0) sz (enc_cons_ptr i3) env r false)) /\
    mheap f x xs [] i3 i4 i1 i2 i5 (enc_cons_ptr i5) tl h' fl.
Proof.
  intros OK P Wc U SZ. inversion P as [|? ? q ? ps' ? Wr Cr Plr Rr P']; subst. unfold apply_map. rewrite Cr, Rr. cbn [bind].
  set (c := regs env exp r (lst :: f :: fn :: K0)).
  destruct (alloc_two h i1 i2 _ g [] c OK) as (h1&E1&OK1&C11&C12&SB1&CC1&R1&R2&N12). rewrite E1. cbn [bind].
  destruct (alloc_two h1 i3 i4 _ g [enc_cons_ptr i1] c OK1) as (h2&E2&OK2&C23&C24&SB2&CC2&R3&R4&N34). rewrite E2. cbn [bind].
  pose proof (ok_nodup _ _ OK) as ND.
  assert (NN : i1 <> i3 /\ i1 <> i4 /\ i1 <> i5 /\ i2 <> i3 /\ i2 <> i4 /\ i2 <> i5 /\ i3 <> i5 /\ i4 <> i5 /\ ~ In i1 fl /\ ~ In i2 fl /\ ~ In i3 fl /\ ~ In i4 fl /\ ~ In i5 fl).
  { repeat match goal with H : NoDup (_ :: _) |- _ => inversion H as [|? ? ? ?]; subst; clear H end. simpl in *. intuition congruence. }
  destruct NN as (N13&N14&N15&N23&N24&N25&N35&N45&F1&F2&F3&F4&F5).
  assert (D1 : cell h2 i1 = Some (NIL, enc_cons_ptr i2)) by (rewrite SB2; [auto|simpl; intuition congruence]).
  assert (D2 : cell h2 i2 = Some (NIL, 0)) by (rewrite SB2; [auto|simpl; intuition congruence]).
  unfold get_cdr at 1. rewrite enc_is_ptr, (ref_enc _ _ _ R1 D1) by auto. cbn [bind snd].
  rewrite (set_both_enc _ _ _ _ x NIL R2 D2). cbn [bind]. set (h3 := hput h2 i2 (x, NIL)).
  assert (D31 : cell h3 i1 = Some (NIL, enc_cons_ptr i2)) by (unfold h3; rewrite cell_hput_neq; auto; lia).
  rewrite (set_car_enc _ _ _ _ QUOTE R1 D31). cbn [bind]. set (h4 := hput h3 i1 (QUOTE, enc_cons_ptr i2)).
  assert (D43 : cell h4 i3 = Some (NIL, enc_cons_ptr i4)) by (unfold h4, h3; rewrite !cell_hput_neq; auto; lia).
  assert (D44 : cell h4 i4 = Some (NIL, 0)) by (unfold h4, h3; rewrite !cell_hput_neq; auto; lia).
  unfold get_cdr at 1. rewrite enc_is_ptr, (ref_enc _ _ _ R3 D43) by auto. cbn [bind snd].
  rewrite (set_both_enc _ _ _ _ (enc_cons_ptr i1) NIL R4 D44). cbn [bind]. set (h5 := hput h4 i4 (enc_cons_ptr i1, NIL)).
  assert (D53 : cell h5 i3 = Some (NIL, enc_cons_ptr i4)) by (unfold h5; rewrite cell_hput_neq; auto; lia).
  rewrite (set_car_enc _ _ _ _ f R3 D53). cbn [bind]. set (h6 := hput h5 i3 (f, enc_cons_ptr i4)).
  assert (OK6 : heap_ok h6 (i5 :: fl)).
  { unfold h6, h5, h4, h3. repeat (apply heap_ok_put; [|simpl; intuition congruence|lia]). exact OK2. }
  destruct (cons_gc_free h6 i5 fl g [r; NIL; enc_cons_ptr i3] c r NIL OK6) as (h7&E7&(K7&CC7&_)&OK7&C75&R5). rewrite E7. cbn [bind].
  unfold reserve. cbn [length]. destruct (Z.ltb_spec (Z.of_nat (Datatypes.S (Datatypes.S (Datatypes.S (length K0)))) + Z.of_nat 4) sz); [|lia].
  exists h7, q. split; [reflexivity|].
  assert (C7 : forall k, k <> i5 -> cell h7 k = cell h6 k) by (intros k Nk; apply K7; intros [E|[]]; auto).
  assert (C6 : forall k, ~ In k [i1; i2; i3; i4] -> cell h6 k = cell h k).
  { intros k Nk. unfold h6, h5, h4, h3. rewrite !cell_hput_neq by (try lia; intros ->; apply Nk; simpl; auto 10).
    rewrite SB2, SB1; [auto| |]; intros I; apply Nk; simpl in *; tauto. }
  pose proof NILz as NZ.
  constructor.
  - exact OK7.
  - rewrite C7 by auto. unfold h6. eapply cell_hput_eq; eauto.
  - rewrite C7 by auto. unfold h6. rewrite cell_hput_neq by (auto; lia). unfold h5. rewrite (cell_hput_eq _ _ _ _ D44), NZ. reflexivity.
  - rewrite C7 by auto. unfold h6, h5. rewrite !cell_hput_neq by (auto; lia). unfold h4. rewrite (cell_hput_eq _ _ _ _ D31). reflexivity.
  - rewrite C7 by auto. unfold h6, h5, h4. rewrite !cell_hput_neq by (auto; lia). unfold h3. rewrite (cell_hput_eq _ _ _ _ D2), NZ. reflexivity.
  - exists r. rewrite C75, NZ. reflexivity.
  - constructor.
  - repeat constructor; lia.
  - cbn [map]. repeat constructor; simpl; intuition congruence.
  - cbn [map]. intros k [<-|[<-|[<-|[<-|[<-|[]]]]]]; auto.
  - exists ps', w. assert (IP : forall p, In p ps' -> is_const_ptr p = false -> ~ In (f_ix p) (i1 :: i2 :: i3 :: i4 :: i5 :: fl)) by (intros p I Cp; apply U; [right; auto|auto]).
    split; [|split; [auto|split]].
    + eapply path_frame; [exact P'|rewrite CC7; cbn [h6 h5 h4 h3 hput ccells set_cells]; congruence|].
      intros p I Cp. specialize (IP p I Cp). rewrite C7 by (intros E; apply IP; rewrite E; simpl; auto 10). apply C6. intros J. apply IP. simpl in J |- *. tauto.
    + intros p I Cp J. apply (IP p I Cp). simpl. auto 10.
    + intros p I Cp J. apply (IP p I Cp). simpl in J |- *. tauto.
Qed.

(* ---- C93: map ---- *)

(* MAP is on top of the stack when an application has been evaluated; it is popped: 5168 *)
Definition popped (s : est) : est := mkE (e_heap s) (e_glob s) (tl (e_K s)) (e_size s) (e_exp s) (e_env s) (e_r s) false.

(* Rounds of map: each evaluates the expression, by [ev], and then cont_map is
   called with its value.  [vs]: the values. *)
Inductive rounds (ev : est -> est -> Prop) (s : est) : list Z -> est -> Prop :=
| rounds_none : rounds ev s [] s
| rounds_one vs s1 s2 s3 : rounds ev s vs s1 -> e_app s1 = false -> ev s1 s2 -> cont_map (popped s2) = Ok (Val s3) -> rounds ev s (vs ++ [e_r s2]) s3.

(* Between the rounds: [vs] are done, (f (quote x)) is next and then [xs]. *)
Definition mapping (f env : Z) (K0 : list Z) (sz : Z) (vs : list Z) (x : Z) (xs : list Z) (s : est) : Prop :=
  e_app s = false /\ e_env s = env /\ e_size s = sz /\
  exists done b1 b2 a1 a0 t head rest fl, vs = map snd done /\ e_exp s = enc_cons_ptr b1 /\
    e_K s = MAP :: mstack a0 b1 t head env rest K0 /\ mheap f x xs done b1 b2 a1 a0 t head rest (e_heap s) fl.
Definition mapped (env : Z) (K0 : list Z) (vs : list Z) (s : est) : Prop :=
  e_app s = true /\ e_env s = env /\ e_K s = K0 /\ exists fl, heap_ok (e_heap s) fl /\ proper fl (e_heap s) (e_r s) vs.

Lemma seg_proper h v l fl : seg h v l 0 -> (forall i, In i (map fst l) -> ~ In i fl) -> proper fl h v (map snd l).
Proof.
  intros S U. exists (map enc_cons_ptr (map fst l)). pose proof (seg_range _ _ _ _ S) as R. rewrite Forall_forall in R. split.
  - apply list_path; [apply seg_list; auto|]. apply Forall_forall. intros p I. apply in_map_iff in I as (i&<-&I). apply enc_plain. auto.
  - intros p I K J. apply in_map_iff in I as (i&<-&I). rewrite enc_ix in J by auto. exact (U i I J).
Qed.
Lemma F2_length (R : Z -> Z -> Prop) l m : Forall2 R l m -> length l = length m.
Proof. induction 1; cbn; auto. Qed.
Lemma mapping_round f env K0 sz vs x xs s s2 : mapping f env K0 sz vs x xs s -> Z.of_nat (length K0) + 7 < sz -> evaluated s s2 ->
  exists s3, cont_map (popped s2) = Ok (Val s3) /\
    match xs with [] => mapped env K0 (vs ++ [e_r s2]) s3 | y :: ys => mapping f env K0 sz (vs ++ [e_r s2]) y ys s3 end.
Proof.
  intros (EA&EE&ES&done&b1&b2&a1&a0&t&head&rest&fl&->&EX&EK&M) SZ EV.
  destruct (mheap_evaluated _ _ _ _ _ _ _ _ _ _ _ s s2 fl env K0 M EK EV) as (i&fl'&M'). destruct EV as (EA2&EK2&ES2&_).
  unfold popped. rewrite EK2, EK, ES2, ES. cbn [tl]. destruct xs as [|y ys].
  - destruct (cont_map_last f x done b1 b2 a1 a0 t head rest (e_heap s2) (i :: fl') (e_glob s2) sz (e_exp s2) (e_env s2) env (e_r s2) K0 M') as (h'&E&OK&S&U&_).
    rewrite E. eexists. split; [reflexivity|]. split; [reflexivity|]. split; [reflexivity|]. split; [reflexivity|]. exists (i :: fl'). split; [exact OK|].
    cbn [e_heap e_r]. replace (map snd done ++ [e_r s2]) with (map snd (done ++ [(t, e_r s2)])) by (rewrite map_app; reflexivity). apply seg_proper; auto.
    intros k I. apply U. rewrite map_app in I. apply in_app_iff in I. simpl in *. tauto.
  - destruct (cont_map_more f x y ys done b1 b2 a1 a0 t head rest (e_heap s2) i fl' (e_glob s2) sz (e_exp s2) (e_env s2) env (e_r s2) K0 M' SZ) as (h'&rest'&E&M2).
    rewrite E. eexists. split; [reflexivity|]. split; [reflexivity|]. split; [reflexivity|]. split; [reflexivity|].
    exists (done ++ [(t, e_r s2)]), b1, b2, a1, a0, i, head, rest', fl'. rewrite map_app. cbn. auto.
Qed.

(* (map f lst), for any list and any way [ev] to evaluate applications that does
   not change or free what the stack holds.  The elements are taken in order, the
   expression (f (quote x)) is evaluated for each in the environment of the map, no
   round fails, and when all are done the value is the list of the values, on the
   stack and in the environment of the map. *)
Theorem map_correct (ev : est -> est -> Prop) (R : Z -> Z -> Prop) s lst f fn K0 xs ps w i1 i2 i3 i4 i5 fl :
  (forall s s', ev s s' -> evaluated s s') ->
  (forall s1 s2 x, ev s1 s2 -> e_env s1 = e_env s -> call_of (e_heap s1) (e_exp s1) f x -> R x (e_r s2)) ->
  e_K s = lst :: f :: fn :: K0 -> heap_ok (e_heap s) (i1 :: i2 :: i3 :: i4 :: i5 :: fl) -> Z.of_nat (length K0) + 7 < e_size s ->
  path (e_heap s) lst xs ps w -> xs <> [] -> is_cons w = false -> used (i1 :: i2 :: i3 :: i4 :: i5 :: fl) ps ->
  exists s1, apply_map s 2 = Ok (Val s1) /\
    forall vs s2, rounds ev s1 vs s2 ->
      Forall2 R (firstn (length vs) xs) vs /\
      (if (length vs =? length xs)%nat
       then e_app s2 = true /\ e_K s2 = K0 /\ e_env s2 = e_env s /\ exists fl2, heap_ok (e_heap s2) fl2 /\ proper fl2 (e_heap s2) (e_r s2) vs
       else (length vs < length xs)%nat /\ e_app s2 = false /\ e_env s2 = e_env s /\ call_of (e_heap s2) (e_exp s2) f (nth (length vs) xs 0) /\
            forall s3, ev s2 s3 -> exists s4, cont_map (popped s3) = Ok (Val s4)).
Proof.
  intros EV HR EK OK SZ P NE Wc U. destruct xs as [|x xs]; [congruence|]. destruct s as [h g K sz exp env r ap]. cbn [e_K e_heap e_size e_env] in *. subst K.
  destruct (map_starts h g K0 sz exp env r ap fn f lst x xs ps w i1 i2 i3 i4 i5 fl OK P Wc U SZ) as (h'&tl_&E&M). rewrite E. eexists. split; [reflexivity|].
  set (s1 := mkE h' g _ sz _ env r false). intros vs s2 RO.
  assert (INV : Forall2 R (firstn (length vs) (x :: xs)) vs /\
    ((length vs = length (x :: xs) /\ mapped env K0 vs s2) \/
     exists y ys, skipn (length vs) (x :: xs) = y :: ys /\ mapping f env K0 sz vs y ys s2)).
  { induction RO as [|vs s2 s3 s4 RO IH EA ES EC].
    - split; [constructor|]. right. exists x, xs. split; [reflexivity|]. split; [reflexivity|]. split; [reflexivity|]. split; [reflexivity|].
      exists [], i3, i4, i1, i2, i5, (enc_cons_ptr i5), tl_, fl. auto.
    - destruct IH as (F2&[(_&(EA'&_))|(y&ys&SK&MP)]); [congruence|].
      destruct (mapping_round f env K0 sz vs y ys s2 s3 MP SZ (EV _ _ ES)) as (s4'&EC'&NX). rewrite EC in EC'. injection EC' as <-.
      assert (RY : R y (e_r s3)).
      { destruct MP as (_&EE&_&done&b1&b2&a1&a0&t&head&rest&fl2&_&EX&_&MH). apply (HR s2 s3 y ES EE). rewrite EX. eapply mheap_call; eauto. }
      assert (SP : x :: xs = firstn (length vs) (x :: xs) ++ y :: ys) by (rewrite <- SK; symmetry; apply firstn_skipn).
      assert (LV : length (firstn (length vs) (x :: xs)) = length vs) by (eapply F2_length; eauto).
      assert (FN : firstn (length vs + 1) (x :: xs) = firstn (length vs) (x :: xs) ++ [y]).
      { rewrite SP at 1. rewrite firstn_app, LV. replace (length vs + 1 - length vs)%nat with 1%nat by lia. cbn [firstn]. rewrite firstn_all2 by lia. reflexivity. }
      assert (SN : skipn (length vs + 1) (x :: xs) = ys).
      { rewrite SP at 1. rewrite skipn_app, LV. replace (length vs + 1 - length vs)%nat with 1%nat by lia. cbn [skipn]. rewrite skipn_all2 by lia. reflexivity. }
      rewrite app_length. cbn [length]. rewrite FN, SN. split; [apply Forall2_app; auto|].
      destruct ys as [|z zs]; [left|right; exists z, zs; auto]. split; [|exact NX].
      apply (f_equal (@length Z)) in SP. rewrite app_length, LV in SP. cbn [length] in SP |- *. lia. }
  destruct INV as (F2&INV). split; [exact F2|]. destruct INV as [(L&(a&b&c&d))|(y&ys&SK&MP)].
  - rewrite L, Nat.eqb_refl. auto.
  - assert (LL : (length vs < length (x :: xs))%nat).
    { apply (f_equal (@length Z)) in SK. rewrite skipn_length in SK. cbn [length] in SK |- *. lia. }
    destruct (Nat.eqb_spec (length vs) (length (x :: xs))); [lia|]. split; [exact LL|].
    assert (NY : nth (length vs) (x :: xs) 0 = y).
    { rewrite <- (firstn_skipn (length vs) (x :: xs)) at 1. rewrite SK, app_nth2 by (rewrite firstn_length; lia). rewrite firstn_length, Nat.min_l by lia. rewrite Nat.sub_diag. reflexivity. }
    rewrite NY. pose proof MP as (EA&EE&_&done&b1&b2&a1&a0&t&head&rest&fl2&_&EX&_&MH). split; [auto|]. split; [auto|].
    split; [rewrite EX; eapply mheap_call; eauto|]. intros s3 ES. destruct (mapping_round f env K0 sz vs y ys s2 s3 MP SZ (EV _ _ ES)) as (s4&EC&_). eauto.
Qed.

(* The two cells of each pair: without two free cells the collector is called, and
   its result decides; the list then has two cells, the first free ones.  If there
   are not two free cells even then, map is out of memory. *)
Theorem map_cells h fl g pre c h2 fl2 : heap_ok h fl -> (length fl < 2)%nat -> collect h g pre c = Ok (Val h2) -> heap_ok h2 fl2 ->
  ((2 <= length fl2)%nat -> exists h' v, two_gc h g pre c = Ok (Val (h', v)) /\ heap_ok h' (skipn 2 fl2) /\
     list_on h' v [0; 0] (map enc_cons_ptr (firstn 2 fl2)) /\ same_but (firstn 2 fl2) h2 h') /\
  ((length fl2 < 2)%nat -> two_gc h g pre c = Ok NoMem).
Proof.
  intros OK L C OK2. unfold two_gc, alloc_list. change (repeat NIL (Z.to_nat 2)) with [NIL; NIL].
  rewrite (alloc_list_init_fail h fl [NIL; NIL] OK) by (cbn [length]; lia). cbn [bind]. rewrite Z.eqb_refl, C. cbn [bind]. split.
  - intros L2. destruct (alloc_list_init_ok h2 fl2 [NIL; NIL] OK2) as (h'&v&E&OK'&LO&EV&SB&_); [discriminate|cbn [length]; lia|]. rewrite E. cbn [bind].
    assert (NM : (v =? MERROR) = false).
    { destruct fl2 as [|i fl2]; [cbn in L2; lia|]. pose proof (free_in_range h2 _ i OK2 (or_introl eq_refl)) as Ri. rewrite EV. cbn [headp].
      apply Z.eqb_neq. intros EM. pose proof (enc_cons i Ri) as EC. rewrite EM in EC. revert EC. clear. arch; discriminate. }
    rewrite NM. exists h', v. rewrite NILz in LO. auto.
  - intros L2. rewrite (alloc_list_init_fail h2 fl2 [NIL; NIL] OK2) by (cbn [length]; lia). cbn [bind]. rewrite Z.eqb_refl. reflexivity.
Qed.

(* of the empty list the value is nil *)
Theorem map_nil s f fn K0 : e_K s = 0 :: f :: fn :: K0 ->
  exists s1, apply_map s 2 = Ok (Val s1) /\ e_app s1 = true /\ e_K s1 = K0 /\ e_r s1 = 0 /\ e_heap s1 = e_heap s /\ e_env s1 = e_env s.
Proof.
  intros E. destruct s as [h g K sz exp env r ap]. cbn [e_K] in E. subst K. unfold apply_map. rewrite is_cons_nil.
  replace (is_symbol_nil 0) with true by reflexivity. eexists. split; [reflexivity|]. cbn. rewrite NILz. auto 10.
Qed.
(* anything else is an error: another number of arguments, or no list *)
Theorem map_refuses s n : ((n <> 2)%nat \/ exists v K, e_K s = v :: K /\ is_cons v = false /\ is_symbol_nil v = false) -> apply_map s n = Ok Err.
Proof.
  intros H. destruct s as [h g K sz exp env r ap]. unfold apply_map. cbn [e_K] in H. destruct H as [H|(v&K'&->&H1&H2)].
  - destruct n as [|[|[|n]]]; auto. lia.
  - destruct n as [|[|[|n]]]; auto. destruct K' as [|? [|? ?]]; auto. rewrite H1, H2. reflexivity.
Qed.

(* ---- C94: reverse ---- *)
Lemma reverse_gc_ok g c w : is_cons w = false -> forall xs ps v fuel h fl acc, heap_ok h fl -> path h v xs ps w -> used fl ps ->
  (length xs <= length fl)%nat -> (length xs < fuel)%nat ->
  exists h' r, reverse_gc fuel h g c v acc = Ok (Val (h', r)) /\ built fl h (rev xs) acc h' r.
Proof.
  intros Wc. induction xs as [|x xs IH]; intros ps v fuel h fl acc OK P U L F; (destruct fuel as [|fuel]; [cbn in F; lia|]); cbn [reverse_gc].
  - inversion P; subst. rewrite Wc. exists h, acc. split; [reflexivity|]. split; [apply kept_refl|]. cbn. split; [auto|constructor].
  - inversion P as [|? ? q ? ps' ? Wr Cr Plr Rr P']; subst. rewrite Cr, Rr. cbn [bind]. destruct fl as [|i fl]; [cbn in L; lia|].
    destruct (cons_gc_free h i fl g [x; acc; NIL] c x acc OK) as (h1&E&K1&OK1&C1&Ri). rewrite E. cbn [bind].
    assert (P1 : path h1 v (x :: xs) (v :: ps') w). { eapply path_kept; [exact P| |exact K1]. eapply used_incl; [|exact U]. intros k [<-|[]]. left. auto. }
    inversion P1 as [|? ? q' ? ? ? _ _ _ Rr1 P1']; subst. rewrite Rr1. cbn [bind].
    destruct (IH ps' q' fuel h1 fl (enc_cons_ptr i)) as (h'&r&E'&B); auto; [|cbn in L; lia|cbn in F; lia|].
    + intros p I Cp J. apply (U p); [right; auto|auto|right; auto].
    + exists h', r. split; [exact E'|]. cbn [rev]. eapply built_step; eauto.
Qed.

(* (reverse lst) is a new list of the elements in the other order, in the first free
   cells; nothing else changes.  A list that ends in another value than nil is
   taken without that value. *)
Theorem reverse_correct fuel s lst fn K0 xs ps w fl :
  e_K s = lst :: fn :: K0 -> heap_ok (e_heap s) fl -> path (e_heap s) lst xs ps w -> is_cons w = false -> (xs = [] -> lst = 0) -> used fl ps ->
  (length xs <= length fl)%nat -> (length xs < fuel)%nat ->
  exists s1, apply_reverse fuel s 1 = Ok (Val s1) /\ e_app s1 = true /\ e_K s1 = K0 /\ e_env s1 = e_env s /\
    kept fl (e_heap s) (e_heap s1) /\ heap_ok (e_heap s1) (skipn (length xs) fl) /\
    path (e_heap s1) (e_r s1) (rev xs) (rev (map enc_cons_ptr (firstn (length xs) fl))) 0.
Proof.
  intros EK OK P Wc Z U L F. destruct s as [h g K sz exp env r ap]. cbn [e_K e_heap e_env] in *. subst K. unfold apply_reverse.
  assert (IL : is_list lst = true).
  { unfold is_list. destruct xs as [|x xs]; [rewrite (Z eq_refl), orb_true_r; reflexivity|]. inversion P; subst.
    match goal with H : is_cons lst = true |- _ => rewrite H end. reflexivity. }
  rewrite IL. destruct (reverse_gc_ok g (regs env exp r (lst :: fn :: K0)) w Wc xs ps lst fuel h fl NIL OK P U L F) as (h'&v&E&K1&B). rewrite E. cbn [bind].
  eexists. split; [reflexivity|]. cbn [e_app e_K e_env e_heap e_r]. rewrite rev_length in B. destruct (Nat.leb_spec (length xs) (length fl)); [|lia].
  rewrite NILz in B. tauto.
Qed.
Theorem reverse_refuses fuel s n : ((n <> 1)%nat \/ exists v K, e_K s = v :: K /\ is_list v = false) -> apply_reverse fuel s n = Ok Err.
Proof.
  intros H. destruct s as [h g K sz exp env r ap]. unfold apply_reverse. cbn [e_K] in H. destruct H as [H|(v&K'&->&H1)].
  - destruct n as [|[|n]]; auto. lia.
  - destruct n as [|[|n]]; auto. destruct K' as [|? ?]; auto. rewrite H1. reflexivity.
Qed.
End Props.
