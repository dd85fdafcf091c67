(* C82: mkarray, array-to-list and list-to-array. *)
From Verif Require Import Base Value_Model Heap_Model Value_Proofs Value_Proofs2 Value_Props Heap_Spec Heap_Proofs Heap_Proofs2 List_Proofs List_Props GC_Model.
From Verif Require Import Eq_Model Eq_Spec Eval_Proofs Flat_Model Flat_Spec Flat_Proofs Flat_Proofs2 Read_Model ArrExt_Model ArrExt_Spec ArrExt_Proofs.
From Verif Require Import Read_Proofs2 StrExt_Spec StrExt_Proofs Fund_Model Fund_Spec Fund_Proofs Fund_Props Fund_Props2.
Local Open Scope Z_scope.

Section Arch.
Context {A : Arch} {L : Libc} {C : Conv}.

(* ---- allocation ---- *)
Definition fits (fl : list Z) (u : ust) (num : Z) : bool := (1 <=? length fl)%nat && (blocks num <=? avail (up u))%nat.
Lemma alloc_lisp u fl num : ready u fl -> 0 <= num -> WB * num < 2 ^ W ->
  exists u' r, alloc_array u false num = Ok (u', r) /\ extended fl (uh u) (uh u') /\
    if fits fl u num
    then exists i fl' a q d h1 rest, fl = i :: fl' /\ r = set_ptr_type (enc_cons_ptr i) TYPE_LISPARRAY /\ 0 <= i < 2 ^ (W - 8) /\
      u' = mkU (set_obj h1 a (Some (OLisp d (WB * num) (repeat 0 (Z.to_nat num)) 0))) rest (us u) (uk u) /\
      heap_ok h1 fl' /\ cell h1 i = Some (a, q) /\ same_but [i] (uh u) h1 /\ ccells h1 = ccells (uh u) /\ mem h1 = mem (uh u) /\
      mem (uh u) a = None /\ ready u' fl'
    else r = MERROR /\ heap_ok (uh u') fl.
Proof.
  intros R Pn Sm. pose proof (r_heap _ _ R) as OK. unfold alloc_array. rewrite (wrap_small W (WB * num)) by (pose proof WB_pos; lia).
  unfold fits, blocks. unfold malloc at 1. destruct (up u) as [|a rest] eqn:U.
  { cbn [Z.eqb avail]. do 2 eexists. split; [reflexivity|]. split; [apply grows_refl|].
    replace ((if (num =? 0)%Z then 1 else 2) <=? 0)%nat with false by (destruct (num =? 0); auto). rewrite andb_false_r. auto. }
  destruct (Z.eqb_spec a 0) as [Ea|NA].
  { cbn [avail]. rewrite (proj2 (Z.eqb_eq a 0) Ea). do 2 eexists. split; [reflexivity|]. split; [apply grows_refl|].
    replace ((if (num =? 0)%Z then 1 else 2) <=? 0)%nat with false by (destruct (num =? 0); auto). rewrite andb_false_r. auto. }
  destruct (ready_pool _ _ _ _ R U NA) as (P1&P2&P3&P4&P5). rewrite U in P5. rewrite P5.
  (* the second block *)
  assert (SB : exists d rest2, (if WB * num >? 0 then malloc (mkU (uh u) rest (us u) (uk u)) else (mkU (uh u) rest (us u) (uk u), 0)) = (mkU (uh u) rest2 (us u) (uk u), d) /\
    if (WB * num >? 0) && (d =? 0) then num <> 0 /\ avail rest = 0%nat
    else ((if (num =? 0)%Z then 1 else 2) <= S (avail rest))%nat /\ incl (firstn (avail rest2) rest2) (firstn (avail rest) rest) /\ NoDup (firstn (avail rest2) rest2)).
  { assert (W0 := WB_pos). unfold malloc. cbn [up]. destruct (Z.eqb_spec num 0) as [->|Nz].
    - rewrite Z.mul_0_r. cbn [Z.gtb Z.compare andb]. do 2 eexists. split; [reflexivity|]. split; [lia|split; [apply incl_refl|auto]].
    - assert (Gt : WB * num >? 0 = true) by (apply Z.gtb_lt; apply Z.mul_pos_pos; lia). rewrite Gt. cbn [andb].
      destruct rest as [|d rest2]; [do 2 eexists; split; [reflexivity|]; cbn; auto|]. cbn [up uh us uk]. exists d, rest2. split; [reflexivity|]. cbn [avail].
      destruct (Z.eqb_spec d 0) as [->|]; [auto|]. split; [lia|]. cbn [avail] in P1. destruct (Z.eqb_spec d 0); [congruence|]. cbn [firstn] in *.
      split; [apply incl_tl, incl_refl|]. inversion P1; auto. }
  destruct SB as (d&rest2&ESB&HSB). rewrite ESB. clear ESB.
  destruct ((WB * num >? 0) && (d =? 0)) eqn:Short.
  { destruct HSB as (Nz&Av). do 2 eexists. split; [reflexivity|]. cbn [uh set_h]. split; [apply free_grows|].
    destruct (Z.eqb_spec num 0); [congruence|]. rewrite Av. cbn [Nat.leb]. rewrite andb_false_r. split; auto. apply free_ok; auto. }
  destruct HSB as (LE&IN&ND2). rewrite (proj2 (Nat.leb_le _ _) LE), andb_true_r.
  destruct fl as [|i fl].
  { cbn [uh]. rewrite alloc_cell_nil by auto. cbn [bind]. rewrite Z.eqb_refl. do 2 eexists. split; [reflexivity|]. cbn [length Nat.leb uh set_h].
    split; [split; [|split]; auto|]. split; auto. apply free_ok, free_ok; auto. }
  cbn [length Nat.leb uh].
  pose proof (good_array_ty false) as G. change (array_ty false) with TYPE_LISPARRAY in G.
  destruct (alloc_cell_ok (uh u) i fl TYPE_LISPARRAY a (enc_sym SYM_LISPARRAY_TYPE) OK (good_ptr_tag _ G)) as (h1&E&OK1&Ce&S1&Sz&Cc&M&_&_&Ri&_).
  assert (R8 : 0 <= i < 2 ^ (W - 8)) by (pose proof (ok_size _ _ OK); lia).
  destruct (tagged_facts i TYPE_LISPARRAY R8 G) as (P&I&K&T&NM). rewrite E. cbn [bind]. rewrite (proj2 (Z.eqb_neq _ MERROR) NM).
  replace (WB * num / WB) with num by (rewrite Z.mul_comm, Z.div_mul; [auto|pose proof WB_pos; lia]).
  do 2 eexists. split; [reflexivity|]. cbn [uh set_h]. split.
  { split; [|split]; cbn [cell ccells mem set_obj set_mem]; [intros j J; change (cell h1 j = cell (uh u) j); apply S1; intros [->|[]]; apply J; left; auto|exact Cc|].
    intros p o Mp. destruct (Z.eqb_spec p a) as [->|]; [congruence|]. rewrite M. auto. }
  unfold set_h; cbn [uh up us uk]. exists i, fl, a. do 4 eexists. split; [reflexivity|]. split; [reflexivity|]. split; [exact R8|]. split; [reflexivity|]. cbn [up us uk].
  split; [exact OK1|]. split; [exact Ce|]. split; [exact S1|]. split; [exact Cc|]. split; [exact M|]. split; [exact P3|].
  constructor; cbn [uh up set_h us uk].
  - apply set_obj_ok. auto.
  - cbn [mem set_obj set_mem]. destruct (Z.eqb_spec 0 a); [congruence|]. rewrite M. exact (r_null _ _ R).
  - split; [exact ND2|]. rewrite Forall_forall in *. intros x X. cbn. apply IN in X. destruct (Z.eqb_spec x a) as [->|]; [exfalso; auto|]. rewrite M. auto.
Qed.

Lemma lisp_tag i : 0 <= i < 2 ^ (W - 8) -> let r := set_ptr_type (enc_cons_ptr i) TYPE_LISPARRAY in
  is_ptr r = true /\ type_of_functional r = TYPE_LISPARRAY /\ is_symbol r = false /\ is_const_ptr r = false /\ f_ix r = i.
Proof.
  intros R r. destruct (tagged_facts i TYPE_LISPARRAY R (good_array_ty false)) as (P&I&K&T&NM). fold r in P, I, K, T, NM.
  split; [auto|]. split; [auto|]. split; [|auto].
  destruct (is_symbol r) eqn:Sy; auto. apply is_symbol_not_ptr in Sy. congruence.
Qed.

(* ---- mkarray ---- *)
(* C82: mkarray makes a new array of n nils *)
Theorem mkarray_correct u fl v n : ready u fl -> integer fl (uh u) v n -> 0 <= n < 2 ^ 32 -> WB * n < 2 ^ W ->
  exists u' r, mkarray u [v] = Ok (u', r) /\ extended fl (uh u) (uh u') /\
    if (1 <=? length fl)%nat && (blocks n <=? avail (up u))%nat
    then ready u' (tl fl) /\ lisp_array (uh u') r (repeat 0 (Z.to_nat n)) /\ In (f_ix r) fl /\
         (forall p q, ref_cell (uh u') r = Ok (p, q) -> mem (uh u) p = None)
    else r = MERROR /\ heap_ok (uh u') fl.
Proof.
  intros R I Rn Sm. destruct (integer_arg fl (uh u) v n I) as (N&D&_). unfold mkarray. rewrite N, D. cbn [bind]. rewrite wrap_small by lia.
  destruct (alloc_lisp u fl n R) as (u'&r&E&X&H); try lia. exists u', r. split; auto. split; auto. unfold fits in H.
  destruct ((1 <=? length fl)%nat && (blocks n <=? avail (up u))%nat); [|auto].
  destruct H as (i&fl'&a&q&d&h1&rest&->&->&Ri&->&OK1&Ce&S1&Cc&M&F&R'). cbn [tl]. split; auto.
  destruct (lisp_tag i Ri) as (P&T&_&NC&Ix).
  assert (RC : ref_cell (uh (mkU (set_obj h1 a (Some (OLisp d (WB * n) (repeat 0 (Z.to_nat n)) 0))) rest (us u) (uk u))) (set_ptr_type (enc_cons_ptr i) TYPE_LISPARRAY) = Ok (a, q)).
  { cbn [uh]. rewrite ref_cell_rw by auto. rewrite Ix. change (cell (set_obj h1 a (Some (OLisp d (WB * n) (repeat 0 (Z.to_nat n)) 0))) i) with (cell h1 i). rewrite Ce. auto. }
  split; [|split].
  - split; auto. split; auto. exists a, q, d, 0. split; [exact RC|]. cbn [uh mem set_obj set_mem]. rewrite Z.eqb_refl. rewrite repeat_length, Z2Nat.id by lia.
    rewrite Z.mul_comm. auto.
  - rewrite Ix. left. auto.
  - intros p0 q0 E0. rewrite RC in E0. injection E0 as <- <-. auto.
Qed.

(* ---- list-to-array ---- *)
Lemma to_array_ok h v xs ps w : path h v xs ps w -> is_cons w = false -> forall fuel pre rest, (length xs <= fuel)%nat -> length rest = length xs ->
  to_array_loop fuel h v (Z.of_nat (length pre)) (pre ++ rest) = Ok (pre ++ xs).
Proof.
  induction 1 as [w|p x q xs ps w Wp K Pl R P IH]; intros T fuel pre rest F E.
  - destruct rest; [|discriminate]. destruct fuel; cbn [to_array_loop]; rewrite T; auto.
  - destruct fuel as [|fuel]; [simpl in F; lia|]. destruct rest as [|y rest]; [discriminate|]. cbn [to_array_loop length] in *. rewrite K.
    rewrite (car_ptr h p x q), (cdr_ptr h p x q) by auto using cons_is_ptr. cbn [bind].
    assert (WR : wr (pre ++ y :: rest) (Z.of_nat (length pre)) x = Ok ((pre ++ [x]) ++ rest)).
    { rewrite wr_ok by (rewrite app_length; cbn; lia). rewrite Nat2Z.id. f_equal. rewrite upd_replace by (rewrite app_length; cbn; lia). unfold replace_nth.
      rewrite firstn_app, Nat.sub_diag, firstn_all, firstn_O, app_nil_r. rewrite skipn_app, skipn_all2 by lia.
      replace (S (length pre) - length pre)%nat with 1%nat by lia. cbn [skipn app]. rewrite <- app_assoc. auto. }
    rewrite WR. cbn [bind]. replace (Z.of_nat (length pre) + 1) with (Z.of_nat (length (pre ++ [x]))) by (rewrite app_length; cbn; lia).
    rewrite IH by (auto; lia). rewrite <- app_assoc. auto.
Qed.

(* C82: list-to-array makes a new array of the elements; of the empty list, nil *)
Theorem list_to_array_correct fuel u fl v xs : ready u fl -> items fl (uh u) v xs -> (length xs <= fuel)%nat -> WB * Z.of_nat (length xs) < 2 ^ W ->
  exists u' r, list_to_array fuel u [v] = Ok (u', r) /\ extended fl (uh u) (uh u') /\
    if (length xs =? 0)%nat then u' = u /\ r = 0
    else if (1 <=? length fl)%nat && (2 <=? avail (up u))%nat
    then ready u' (tl fl) /\ lisp_array (uh u') r xs /\ In (f_ix r) fl /\
         (forall p q, ref_cell (uh u') r = Ok (p, q) -> mem (uh u) p = None)
    else r = MERROR /\ heap_ok (uh u') fl.
Proof.
  intros R I F Sm. pose proof WB_pos as WP. unfold list_to_array. rewrite (items_is_list _ _ _ _ I). destruct I as (ps&w&P&U&Nw&Tw&Z0).
  assert (HW : 2 * Z.of_nat (length xs) < 2 ^ W) by (assert (2 <= WB) by (clear; arch; vm_compute; congruence); nia).
  unfold list_length. rewrite (length_path _ _ _ _ _ P Nw) by lia. cbn [bind]. rewrite Z.add_0_l.
  assert (E2 : 2 ^ W = 2 * 2 ^ (W - 1)) by (rewrite <- Z.pow_succ_r by (pose proof W_32; lia); f_equal; lia).
  rewrite sgn_small by (pose proof W_32; lia).
  destruct (Nat.eqb_spec (length xs) 0) as [E0|N0].
  { rewrite E0. cbn [Z.of_nat Z.gtb Z.compare]. do 2 eexists. split; [reflexivity|]. split; [apply grows_refl|]. auto using NIL_0. }
  destruct (Z.gtb_spec (Z.of_nat (length xs)) 0); [|lia].
  destruct (alloc_lisp u fl (Z.of_nat (length xs)) R) as (u1&r&E&X&HH); try lia. rewrite E. cbn [bind]. unfold fits, blocks in HH.
  destruct (Z.eqb_spec (Z.of_nat (length xs)) 0); [lia|].
  destruct ((1 <=? length fl)%nat && (2 <=? avail (up u))%nat).
  2: { destruct HH as (->&OK'). replace (is_symbol MERROR) with true by (clear; arch; reflexivity). exists u1, MERROR. auto. }
  destruct HH as (i&fl'&a&q&d&h1&rest&->&->&Ri&->&OK1&Ce&S1&Cc&M&Fr&R'). destruct (lisp_tag i Ri) as (Pp&T&NS&NC&Ix). rewrite NS.
  set (r := set_ptr_type (enc_cons_ptr i) TYPE_LISPARRAY) in *. cbn [uh] in *. rewrite Nat2Z.id in *.
  set (h2 := set_obj h1 a (Some (OLisp d (WB * Z.of_nat (length xs)) (repeat 0 (length xs)) 0))) in *.
  assert (LA : lisp_array_of h2 r = Ok (a, (d, WB * Z.of_nat (length xs), repeat 0 (length xs), 0))).
  { unfold lisp_array_of. rewrite (car_ptr h2 r a q Pp). 2:{ rewrite ref_cell_rw, Ix by auto. change (cell h2 i) with (cell h1 i). rewrite Ce. auto. }
    cbn [bind]. unfold h2. cbn [mem set_obj set_mem]. rewrite Z.eqb_refl. auto. }
  rewrite LA. cbn [bind].
  assert (P2 : path h2 v xs ps w).
  { eapply path_frame; [exact P|exact Cc|]. intros p Ip Kp. change (cell h1 (f_ix p) = cell (uh u) (f_ix p)). apply S1. intros [Ei|[]]. apply (U p Ip Kp). left. auto. }
  pose proof (to_array_ok _ _ _ _ _ P2 Nw fuel [] (repeat 0 (length xs)) F (repeat_length _ _)) as TA. cbn [app length Z.of_nat] in TA. rewrite TA. cbn [bind].
  do 2 eexists. split; [reflexivity|]. cbn [uh set_h tl].
  set (h3 := set_obj h2 a (Some (OLisp d (WB * Z.of_nat (length xs)) xs 0))).
  assert (RC : ref_cell h3 r = Ok (a, q)). { rewrite ref_cell_rw, Ix by auto. change (cell h3 i) with (cell h1 i). rewrite Ce. auto. }
  assert (M3 : forall p, mem h3 p = if p =? a then Some (OLisp d (WB * Z.of_nat (length xs)) xs 0) else mem (uh u) p).
  { intros p. unfold h3, h2. cbn [mem set_obj set_mem]. destruct (p =? a); auto. rewrite M. auto. }
  split; [|split; [|split; [|split]]].
  - split; [|split].
    + intros j J. change (cell h1 j = cell (uh u) j). apply S1. intros [->|[]]. apply J. left; auto.
    + exact Cc.
    + intros p o Mp. rewrite M3. destruct (Z.eqb_spec p a) as [->|]; [congruence|auto].
  - destruct R' as [r1 r2 (r3&r4)]. cbn [uh up] in *. constructor; cbn [uh up].
    + apply set_obj_ok. auto.
    + rewrite M3. unfold h2 in r2. cbn [mem set_obj set_mem] in r2. destruct (0 =? a); [discriminate|rewrite M in r2; auto].
    + split; auto. rewrite Forall_forall in *. intros x Xx. specialize (r4 x Xx). unfold h2 in r4. cbn [mem set_obj set_mem] in r4. rewrite M3.
      destruct (x =? a); [discriminate|rewrite M in r4; auto].
  - split; auto. split; auto. exists a, q, d, 0. split; auto. rewrite M3, Z.eqb_refl. rewrite Z.mul_comm. auto.
  - rewrite Ix. left. auto.
  - intros p0 q0 E0'. rewrite RC in E0'. injection E0' as <- <-. auto.
Qed.

(* ---- array-to-list ---- *)
Lemma to_list_ok : forall vs p ps h fuel pre xs, list_on h p vs ps -> Forall (fun p => is_cons_rw p = true) ps -> (length vs <= fuel)%nat -> length xs = length vs ->
  exists h', to_list_loop fuel h p (Z.of_nat (length pre)) (pre ++ xs) = Ok h' /\ list_on h' p xs ps /\ same_but (map f_ix ps) h h' /\
    h' = set_cells h (cells h') /\ hsize h' = hsize h.
Proof.
  induction vs as [|y vs IH]; intros p ps h fuel pre xs LO RW F E; inversion LO as [|p' x' q vs' ps' Wp Cp R LO']; subst.
  - destruct xs; [|discriminate]. exists h. split; [destruct fuel; cbn [to_list_loop]; rewrite zero_not_cons; auto|]. split; [constructor|]. split; [intros i I; auto|]. split; [destruct h; reflexivity|auto].
  - destruct xs as [|x xs]; [discriminate|]. inversion RW as [|? ? RWp RW']; subst.
    destruct fuel as [|fuel]; [simpl in F; lia|]. cbn [to_list_loop length] in *. rewrite Cp.
    assert (NC : is_const_ptr p = false) by (apply rw_not_const; auto).
    assert (NCs : Forall (fun p => is_const_ptr p = false) (p :: ps')).
    { rewrite Forall_forall in *. intros p0 [<-|J]; auto. apply rw_not_const; auto. exact (proj1 (list_on_in _ _ _ _ p0 LO' J)). }
    pose proof (list_on_ix _ _ _ _ LO NCs) as ND. simpl in ND. inversion ND as [|? ? NI ND']; subst.
    assert (RD : rd (pre ++ x :: xs) (Z.of_nat (length pre)) = Ok x).
    { unfold rd. destruct (Z.ltb_spec (Z.of_nat (length pre)) 0); [lia|]. rewrite Nat2Z.id, nth_error_app2, Nat.sub_diag by lia. auto. }
    rewrite RD. cbn [bind].
    unfold set_car. rewrite type_cons_rw, RWp, R. cbn [bind fst snd]. rewrite put_cell_rw by auto.
    rewrite ref_cell_rw in R by auto. destruct (cell h (f_ix p)) as [c|] eqn:Ce; [|discriminate]. injection R as ->. cbn [bind].
    pose proof (cell_range _ _ _ Ce) as Rg. set (h1 := hput h (f_ix p) (x, q)).
    assert (S1 : same_but [f_ix p] h h1) by (apply hput_same; lia).
    assert (R1 : ref_cell h1 p = Ok (x, q)). { rewrite ref_cell_rw by auto. unfold h1. erewrite cell_hput_eq; eauto. }
    rewrite (cdr_ptr h1 p x q) by auto using cons_is_ptr. cbn [bind].
    assert (L1 : list_on h1 q vs ps').
    { eapply list_on_frame; eauto. intros p0 P0 _. apply S1. intros [E0|[]]. apply NI. rewrite E0. apply in_map_iff; eauto. }
    replace (Z.of_nat (length pre) + 1) with (Z.of_nat (length (pre ++ [x]))) by (rewrite app_length; cbn; lia).
    replace (pre ++ x :: xs) with ((pre ++ [x]) ++ xs) by (rewrite <- app_assoc; auto).
    destruct (IH q ps' h1 fuel (pre ++ [x]) xs L1 RW') as (h'&E'&L'&S'&St'&Sz'); try lia.
    exists h'. split; auto. split; [|split; [|split]].
    + econstructor; eauto. rewrite ref_cell_rw in R1 |- * by auto. rewrite S'; auto.
    + intros i I. rewrite S', S1; auto; intros J; apply I; [destruct J as [J|[]]; left; auto|right; auto].
    + rewrite St'. unfold h1. destruct h; reflexivity.
    + rewrite Sz'. unfold h1. apply hput_size.
Qed.

(* C82: array-to-list makes a new list of the elements *)
Theorem array_to_list_correct fuel h fl v elts : heap_ok h fl -> lisp_array h v elts -> (length elts <= fuel)%nat ->
  exists h' r, array_to_list fuel h [v] = Ok (h', r) /\ kept fl h h' /\
    if (length elts <=? length fl)%nat
    then heap_ok h' (skipn (length elts) fl) /\ path h' r elts (map enc_cons_ptr (firstn (length elts) fl)) 0
    else r = MERROR /\ h' = h.
Proof.
  intros OK LA F. destruct (array_is_lisp _ _ _ LA) as (NL&_&R&_&p&q&d&x&_&_&E). unfold array_to_list. rewrite R, E. cbn [bind]. rewrite elts_size.
  unfold alloc_list. rewrite Nat2Z.id. set (n := length elts) in *.
  destruct (Nat.leb_spec n (length fl)) as [LE|GT].
  2: { rewrite (alloc_list_init_fail h fl) by (auto; rewrite repeat_length; auto). cbn [bind]. replace (is_symbol MERROR) with true by (clear; arch; reflexivity).
       do 2 eexists. split; [reflexivity|]. split; [apply kept_refl|auto]. }
  destruct (Nat.eq_dec n 0) as [E0|N0].
  { rewrite E0. cbn [repeat]. unfold alloc_list_init. cbn [length Z.of_nat Z.eqb bind]. rewrite NIL_0.
    replace (is_symbol 0) with true by (clear; arch; reflexivity). exists h, 0. split; auto. split; [apply kept_refl|]. cbn [skipn firstn map]. split; auto.
    destruct elts; [constructor|discriminate]. }
  destruct (alloc_list_init_ok h fl (repeat NIL n) OK) as (h1&r&E1&OK1&L1&Er&S1&Sz1&Cc1&M1&_); [destruct n; [lia|discriminate]|rewrite repeat_length; auto|].
  rewrite E1. cbn [bind]. rewrite repeat_length in *.
  pose proof (chain_range _ _ _ (ok_chain _ _ OK)) as FR. rewrite Forall_forall in FR. pose proof (ok_size _ _ OK) as SZ.
  assert (RW : Forall (fun p => is_cons_rw p = true) (map enc_cons_ptr (firstn n fl))).
  { rewrite Forall_forall. intros p0 I. apply in_map_iff in I as (i&<-&I). specialize (FR i (In_firstn _ _ _ I)). apply enc_rw. lia. }
  assert (SI : incl (map f_ix (map enc_cons_ptr (firstn n fl))) (firstn n fl)).
  { intros y I. apply in_map_iff in I as (p0&<-&I). apply in_map_iff in I as (i&<-&I). pose proof (FR i (In_firstn _ _ _ I)). rewrite enc_ix by lia. auto. }
  assert (NS : is_symbol r = false).
  { destruct n; [lia|]. cbn [repeat] in L1. inversion L1; subst. apply cons_not_symbol. auto. }
  rewrite NS. destruct (to_list_ok (repeat NIL n) r _ h1 fuel [] elts L1 RW) as (h2&E2&L2&S2&St2&Sz2); try (rewrite repeat_length; auto).
  cbn [length Z.of_nat app] in E2. rewrite E2. cbn [bind]. exists h2, r. split; auto.
  assert (K2 : kept (firstn n fl) h1 h2).
  { split; [|split; rewrite St2; reflexivity]. intros i I. apply S2. intros J. apply I, SI, J. }
  split.
  { eapply kept_trans with (h2 := h1); [|eapply kept_incl; [|exact K2]; intros y; apply In_firstn]. split; [|auto]. intros i I. apply S1. intros J. apply I. eapply In_firstn; eauto. }
  split.
  - destruct OK1 as [o1 o2 o3 o4]. constructor; auto.
    + rewrite Sz2; auto.
    + rewrite St2. cbn [freelist set_cells]. rewrite <- St2. eapply chain_frame; eauto. intros i I. apply K2.
      intros J. exact (NoDup_split fl n i (ok_nodup _ _ OK) J I).
    + rewrite Sz2, <- o4. rewrite St2. reflexivity.
  - apply list_path; auto. rewrite Forall_forall. intros p0 I. apply in_map_iff in I as (i&<-&I). specialize (FR i (In_firstn _ _ _ I)). apply enc_plain. lia.
Qed.

(* C82: a list turned into an array and back *)
Theorem list_array_list fuel u fl v xs : ready u fl -> items fl (uh u) v xs -> (length xs <= fuel)%nat -> WB * Z.of_nat (length xs) < 2 ^ W ->
  xs <> [] -> (S (length xs) <= length fl)%nat -> (2 <= avail (up u))%nat ->
  exists u' r h' l fl', list_to_array fuel u [v] = Ok (u', r) /\ array_to_list fuel (uh u') [r] = Ok (h', l) /\ proper fl' h' l xs /\ incl fl' fl.
Proof.
  intros R I F Sm NE LF LA. destruct (list_to_array_correct fuel u fl v xs R I F Sm) as (u'&r&E&X&H).
  destruct (Nat.eqb_spec (length xs) 0) as [E0|_]; [destruct xs; [congruence|discriminate]|].
  replace ((1 <=? length fl)%nat && (2 <=? avail (up u))%nat) with true in H by (symmetry; apply andb_true_iff; split; apply Nat.leb_le; lia).
  destruct H as (R'&LA'&_). destruct fl as [|i fl]; [cbn in LF; lia|]. cbn [tl length] in *.
  destruct (array_to_list_correct fuel (uh u') fl r xs (r_heap _ _ R') LA' F) as (h'&l&E'&K&H').
  rewrite (proj2 (Nat.leb_le _ _)) in H' by lia. destruct H' as (OK'&P).
  exists u', r, h', l, (skipn (length xs) fl). split; auto. split; auto. split; [|apply incl_tl, incl_skipn].
  eexists. split; [exact P|]. intros p Ip Kp J. apply in_rev in Ip. revert Kp J. revert p Ip. exact (enc_used_firstn (uh u') fl (length xs) (r_heap _ _ R')).
Qed.

End Arch.
