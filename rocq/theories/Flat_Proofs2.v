(* Unflattening the bytes of a tree. *)
From Verif Require Import Base Value_Model Heap_Model Value_Proofs Value_Proofs2 Value_Props Heap_Spec Heap_Proofs List_Proofs Env_Proofs
  GC_Model Eq_Model Eq_Spec Eq_Props Set_Props Sym_Model Flat_Model Flat_Spec Flat_Proofs.
Local Open Scope Z_scope.

(* ---- reading numbers ---- *)
Lemma be_ok k : forall n pre post acc,
  be (pre ++ bytes k n ++ post) (Z.of_nat (length pre)) k acc = Ok (acc * 256 ^ Z.of_nat k + n mod 256 ^ Z.of_nat k).
Proof.
  induction k as [|k IH]; intros n pre post acc; cbn [bytes be].
  - change (256 ^ Z.of_nat 0) with 1. rewrite Z.mod_1_r. f_equal. lia.
  - set (x := (n / 256 ^ Z.of_nat k) mod 256). cbn [app]. rewrite (rd_nth _ _ x).
    2: lia. 2:{ rewrite Nat2Z.id, nth_error_app2, Nat.sub_diag by lia. reflexivity. }
    cbn [bind]. replace (pre ++ x :: bytes k n ++ post) with ((pre ++ [x]) ++ bytes k n ++ post) by (rewrite <- app_assoc; reflexivity).
    replace (Z.of_nat (length pre) + 1) with (Z.of_nat (length (pre ++ [x]))) by (rewrite app_length; simpl; lia).
    rewrite IH. f_equal. rewrite Z.shiftl_mul_pow2 by lia.
    assert (0 <= x < 2 ^ 8) by (apply Z.mod_pos_bound; lia). rewrite lor_add by lia.
    rewrite (Nat2Z.inj_succ k), Z.pow_succ_r by lia. change (2 ^ 8) with 256.
    assert (0 < 256 ^ Z.of_nat k) by (apply Z.pow_pos_nonneg; lia).
    rewrite (Z.mul_comm 256 (256 ^ Z.of_nat k)), Z.rem_mul_r by lia. fold x. lia.
Qed.

Lemma extract_ok k n pre post :
  extract (at_pos pre (bytes k n ++ post)) (Z.of_nat k) = Ok (Some (n mod 256 ^ Z.of_nat k), at_pos (pre ++ bytes k n) post).
Proof.
  unfold extract, blen, at_pos. cbn [buf pos].
  match goal with |- context [?a >=? ?b] => destruct (Z.geb_spec a b) as [_|N] end.
  2:{ rewrite !app_length, length_bytes in N. lia. }
  rewrite Nat2Z.id, be_ok. cbn [bind]. rewrite <- app_assoc, app_length, length_bytes. do 3 f_equal. lia.
Qed.

Lemma c_string_ok n rest : Forall (fun c => c <> 0) n -> c_string (n ++ 0 :: rest) = Ok n.
Proof.
  induction 1 as [|x n NX _ IH]; cbn [app c_string]; auto. destruct (Z.eqb_spec x 0); [congruence|]. rewrite IH. reflexivity.
Qed.

Section Arch.
Context {A : Arch}.

(* ---- a heap with some memory blocks hidden ---- *)
Definition hide (P : Z -> bool) (h : heap) : heap := set_mem h (fun x => if P x then None else mem h x).

Lemma cell_hide P h i : cell (hide P h) i = cell h i. Proof. reflexivity. Qed.
Lemma ref_hide P h v : ref_cell (hide P h) v = ref_cell h v. Proof. reflexivity. Qed.
Lemma car_hide P h v : car (hide P h) v = car h v. Proof. reflexivity. Qed.

(* cells outside [l] and all memory blocks stay *)
Definition grows (l : list Z) (h h' : heap) : Prop :=
  same_but l h h' /\ ccells h' = ccells h /\ (forall a o, mem h a = Some o -> mem h' a = Some o).

Lemma ref_grows l h h' v : grows l h h' -> (is_const_ptr v = false -> ~ In (f_ix v) l) -> ref_cell h' v = ref_cell h v.
Proof.
  intros (S&C&M) N. destruct (is_const_ptr v) eqn:E.
  - unfold ref_cell. rewrite E, C. auto.
  - rewrite !ref_cell_rw by auto. rewrite S; auto.
Qed.
Lemma car_grows l h h' v : grows l h h' -> held l v -> car h' v = car h v.
Proof. intros O H. unfold car. destruct (is_ptr v) eqn:P; auto. rewrite (ref_grows l h h'); auto. Qed.

Lemma reads_grows l h h' v k n : grows l h h' -> held l v -> reads h v k n -> reads h' v k n.
Proof.
  intros G H R.
  assert (E1 : payload32 h' v = payload32 h v) by (unfold payload32; rewrite (car_grows l h h'); auto).
  assert (E2 : forall x, payload64 h v = Ok x -> payload64 h' v = Ok x).
  { intros x. unfold payload64. rewrite (car_grows l h h') by auto. destruct (car h v) as [c| |]; cbn [bind]; auto.
    destruct b64; auto. destruct G as (_&_&M). destruct (mem h c) as [o|] eqn:E; [|discriminate]. rewrite (M _ _ E). auto. }
  destruct k; cbn [reads] in *; rewrite ?E1; auto; [destruct R as (x&E&->); eauto..|]. destruct R. auto.
Qed.

Lemma den_grows l h h' l' v t : grows l h h' -> incl l' l -> den l h v t -> den l' h' v t.
Proof.
  intros O I. revert v. induction t as [k n|a d IHa IHd|bs|ts IH] using tree_rec_depth; intros v D; inversion D; subst.
  - constructor; eauto using held_incl, reads_grows.
  - eapply den_pair; eauto using held_incl. erewrite ref_grows; eauto.
  - eapply den_bytes; eauto using held_incl. { erewrite ref_grows; eauto. } destruct O as (_&_&M). eauto.
  - eapply den_arr; eauto using held_incl. { erewrite ref_grows; eauto. } { destruct O as (_&_&M). eauto. }
    match goal with H : Forall2 _ _ _ |- _ => revert H end. clear D. revert IH. generalize elts ts.
    induction elts0 as [|e es IHe]; intros us IH F; inversion F; subst; constructor; inversion IH; subst; auto.
Qed.

(* ---- tagged pointers ---- *)
Definition good_tag (ty : Z) : Prop :=
  exists k, 0 <= k < 64 /\ ty = k * 2 ^ (W - 6) /\ Z.odd k = false /\ Z.land ty (wnot PTR_TO_CONSTANT_BIT) = ty.

Lemma good_ptr_tag ty : good_tag ty -> ptr_tag ty.
Proof. intros (k&K&E&_). exists k. auto. Qed.

Lemma tagged_facts i ty : 0 <= i < 2 ^ (W - 8) -> good_tag ty -> let w := set_ptr_type (enc_cons_ptr i) ty in
  is_ptr w = true /\ f_ix w = i /\ is_const_ptr w = false /\ type_of_functional w = ty /\ w <> MERROR.
Proof.
  intros R G w. destruct (set_type_fields (enc_cons_ptr i) ty (good_ptr_tag _ G)) as (Wd&T&I&Gc&P). fold w in Wd, T, I, Gc, P.
  rewrite enc_ix in I by auto.
  assert (IP : is_ptr w = true) by (rewrite is_ptr_f, P; reflexivity).
  destruct G as (k&K&E&O&L).
  assert (f_ty w = k) as Ek. { rewrite E in T. apply Z.mul_reg_r in T; auto. apply Z.pow_nonzero; pose proof W_pos; lia. }
  repeat split; auto.
  - rewrite is_const_f, Ek. auto.
  - rewrite functional_ptr, type_of_ptr, T by auto. auto.
  - intros X. rewrite X, MERROR_not_ptr in IP. discriminate.
Qed.

End Arch.

Section Arch.
Context {A : Arch}.

Ltac gt ty := exists (ty / 2 ^ (W - 6)); destruct A; vm_compute; intuition congruence.
Lemma good_array : good_tag TYPE_ARRAY. Proof. gt TYPE_ARRAY. Qed.
Lemma good_lisparray : good_tag TYPE_LISPARRAY. Proof. gt TYPE_LISPARRAY. Qed.
Lemma good_cons : good_tag TYPE_CONS. Proof. gt TYPE_CONS. Qed.
Lemma good_i64 : good_tag TYPE_I64. Proof. gt TYPE_I64. Qed.
Lemma good_u64 : good_tag TYPE_U64. Proof. gt TYPE_U64. Qed.
Lemma good_double : good_tag TYPE_DOUBLE. Proof. gt TYPE_DOUBLE. Qed.
Lemma good_i32 : b64 = false -> good_tag TYPE_I32. Proof. intros. exists (TYPE_I32 / 2 ^ (W - 6)). destruct A; [discriminate|]; vm_compute; intuition congruence. Qed.
Lemma good_u32 : b64 = false -> good_tag TYPE_U32. Proof. intros. exists (TYPE_U32 / 2 ^ (W - 6)). destruct A; [discriminate|]; vm_compute; intuition congruence. Qed.
Lemma good_float : b64 = false -> good_tag TYPE_FLOAT. Proof. intros. exists (TYPE_FLOAT / 2 ^ (W - 6)). destruct A; [discriminate|]; vm_compute; intuition congruence. Qed.

(* ---- what unflattening one tree achieves ---- *)
Record gives (t : tree) (u u' : ust) (v : Z) (ads rest : list Z) (fl fl' : list Z) : Prop := {
  g_ok : heap_ok (uh u') fl';
  g_incl : incl fl' fl;
  g_len : length fl = (cells_of t + length fl')%nat;
  g_cells : same_but fl (uh u) (uh u');
  g_cc : ccells (uh u') = ccells (uh u);
  g_mem : forall x, ~ In x ads -> mem (uh u') x = mem (uh u) x;
  g_syms : us u' = us u;
  g_pool : up u' = rest;
  g_den : forall P, (forall x, In x ads -> P x = false) -> den fl' (hide P (uh u')) v t }.

Lemma set_obj_ok h fl a o : heap_ok h fl -> heap_ok (set_obj h a o) fl.
Proof. intros [S C N K]. constructor; auto. eapply chain_frame; eauto. Qed.

(* boxed in a cell *)
Lemma enc_raw_ok u i fl x qual ty k n : heap_ok (uh u) (i :: fl) -> good_tag ty -> ty = kind_tag k -> k <> KSym ->
  cells_of (Leaf k n) = 1%nat ->
  (forall h w, car h w = Ok x -> reads h w k n) ->
  exists u' v, enc_raw u x qual ty = Ok (u', v) /\ v <> MERROR /\ gives (Leaf k n) u u' v [] (up u) (i :: fl) fl.
Proof.
  intros OK G Tk NS C1 Rd. destruct (cons_ok _ i fl x (enc_sym qual) OK) as (h1&E&OK1&C&S&Sz&Cc&M&Fr&R).
  unfold enc_raw. rewrite E. cbn [bind]. rewrite enc_type_not_sym by auto. do 2 eexists. split; [reflexivity|].
  destruct (tagged_facts i ty R G) as (P&I&K&T&NM). split; auto. constructor; cbn [uh set_h us up]; auto.
  - apply incl_tl, incl_refl.
  - rewrite C1. reflexivity.
  - intros j J. apply S. intros [->|[]]. apply J. left; auto.
  - intros a _. rewrite M. auto.
  - intros Ph _. constructor; [|congruence|congruence|].
    + intros _ _. rewrite I. pose proof (ok_nodup _ _ OK) as ND. inversion ND; auto.
    + apply Rd. rewrite car_hide. apply car_ptr with (q := enc_sym qual); auto. rewrite ref_cell_rw, I, C by auto. reflexivity.
Qed.

(* boxed in a memory block *)
Lemma enc_64_on_32_ok u i fl a rest x qual ty k n : b64 = false -> heap_ok (uh u) (i :: fl) -> up u = a :: rest -> a <> 0 ->
  good_tag ty -> ty = kind_tag k -> k <> KSym -> cells_of (Leaf k n) = 1%nat ->
  (forall h w, payload64 h w = Ok x -> reads h w k n) ->
  exists u' v, enc_64_on_32 u x qual ty = Ok (u', v) /\ v <> MERROR /\ gives (Leaf k n) u u' v [a] rest (i :: fl) fl.
Proof.
  intros B OK U NA G Tk NS C1 Rd. destruct (cons_ok _ i fl NIL NIL OK) as (h1&E&OK1&C&S&Sz&Cc&M&Fr&R).
  unfold enc_64_on_32. rewrite E. cbn [bind]. rewrite enc_type_not_sym by auto. cbn [negb]. unfold malloc. cbn [up set_h]. rewrite U.
  destruct (Z.eqb_spec a 0) as [|_]; [congruence|]. cbn [negb]. cbn [uh set_h].
  unfold set_car_and_cdr. rewrite enc_rw by auto.
  assert (C' : cell (set_obj h1 a (Some (OBox x))) i = Some (NIL, NIL)) by exact C.
  rewrite ref_cell_rw, enc_ix, C' by auto using enc_not_const. cbn [bind]. rewrite put_cell_rw, enc_ix, C' by auto using enc_not_const. cbn [bind].
  do 2 eexists. split; [reflexivity|]. pose proof (ok_nodup _ _ OK) as ND. inversion ND as [|? ? NI ND']; subst.
  destruct (tagged_facts i (kind_tag k) R G) as (P&I&K&T&NM). split; auto. constructor; cbn [uh set_h us up]; auto.
  - apply heap_ok_put; auto using set_obj_ok. lia.
  - apply incl_tl, incl_refl.
  - rewrite C1. reflexivity.
  - intros j J. rewrite cell_hput_neq; [|lia|intros ->; apply J; left; auto]. apply S. intros [->|[]]. apply J. left; auto.
  - intros y Y. cbn. destruct (Z.eqb_spec y a); [exfalso; apply Y; left; auto|]. rewrite M. auto.
  - intros Ph D. constructor; [|congruence|congruence|].
    + intros _ _. rewrite I. auto.
    + apply Rd. unfold payload64. rewrite car_hide, (car_ptr _ _ a (enc_sym qual) P). 2:{ rewrite ref_cell_rw, I by auto. rewrite cell_hput_eq with (c := (NIL, NIL)); auto. }
      cbn [bind]. rewrite B. cbn. rewrite D by (left; auto). rewrite Z.eqb_refl. reflexivity.
Qed.


(* immediates *)
Lemma imm_not_ptr y t : 0 <= t < 2 ^ VAL_SHIFT -> t mod 4 = 0 -> is_ptr (y * 2 ^ VAL_SHIFT + t) = false.
Proof.
  intros T1 T2. rewrite is_ptr_f. unfold f_ptr.
  assert (PW : 2 ^ VAL_SHIFT = 4 * 2 ^ (VAL_SHIFT - 2)).
  { change 4 with (2 ^ 2). rewrite <- Z.pow_add_r by (try lia; arch; lia). f_equal. lia. }
  rewrite PW. replace (y * (4 * 2 ^ (VAL_SHIFT - 2)) + t) with (t + y * 2 * 2 ^ (VAL_SHIFT - 2) * 2) by lia.
  rewrite Z.mod_add by lia. apply Z.eqb_neq. clear - T2. Z.div_mod_to_equations; lia.
Qed.

Lemma imm_gives u k' v k n fl : heap_ok (uh u) fl -> is_ptr v = false -> type_of v = kind_tag k -> (k = KSym -> is_symbol v = true) ->
  (forall h, reads h v k n) -> cells_of (Leaf k n) = 0%nat ->
  gives (Leaf k n) u (mkU (uh u) (up u) (us u) k') v [] (up u) fl fl.
Proof.
  intros OK P T Sy R C. constructor; cbn [uh up us]; auto.
  - apply incl_refl.
  - rewrite C. reflexivity.
  - intros i _. reflexivity.
  - intros Ph _. constructor; auto. { intros X. congruence. } rewrite functional_nonptr; auto.
Qed.

Lemma ust_eta u : u = mkU (uh u) (up u) (us u) (uk u). Proof. destruct u; reflexivity. Qed.

Lemma sgn_mod_id w n : 0 < w -> -2 ^ (w - 1) <= n < 2 ^ (w - 1) -> sgn w (n mod 2 ^ w) = n.
Proof.
  intros H R. apply sgn_unique with (n / 2 ^ w); auto. rewrite (Z.div_mod n (2 ^ w)) at 1 by (apply Z.pow_nonzero; lia). lia.
Qed.

Lemma pay_le : 2 ^ (payload A - 1) <= 2 ^ (W - 1) /\ 2 ^ payload A <= 2 ^ W /\ payload A - 1 < 31 + (if b64 then 32 else 0).
Proof. destruct A; vm_compute; intuition congruence. Qed.

End Arch.

Section Arch.
Context {A : Arch}.

Lemma i32_imm : b64 = true -> forall n, -2 ^ 31 <= n < 2 ^ 31 ->
  is_ptr (enc_i32_imm n) = false /\ type_of (enc_i32_imm n) = TYPE_I32 /\ forall h, reads h (enc_i32_imm n) KI32 n.
Proof.
  intros B n R. assert (E : A = A64) by (destruct A; auto; discriminate). subst A.
  destruct (enc_i32_64_roundtrip n R) as (D&T). split; [|split]; auto.
  - unfold enc_i32_imm. rewrite imm_f by (vm_compute; intuition congruence). apply imm_not_ptr; vm_compute; intuition congruence.
  - intros h. cbn [reads]. unfold payload32. eexists. split; [reflexivity|]. rewrite <- D at 1. unfold dec_i32_imm, sgn, wrap. rewrite Z.mod_mod by lia. reflexivity.
Qed.
Lemma u32_imm : b64 = true -> forall n, 0 <= n < 2 ^ 32 ->
  is_ptr (enc_u32_imm n) = false /\ type_of (enc_u32_imm n) = TYPE_U32 /\ (forall h, reads h (enc_u32_imm n) KU32 n) /\
  is_ptr (enc_float_imm n) = false /\ type_of (enc_float_imm n) = TYPE_FLOAT /\ (forall h, reads h (enc_float_imm n) KFloat n).
Proof.
  intros B n R. assert (E : A = A64) by (destruct A; auto; discriminate). subst A.
  destruct (enc_u32_64_roundtrip n R) as (D&T&D2&T2). repeat split; auto.
  - unfold enc_u32_imm. rewrite imm_f by (vm_compute; intuition congruence). apply imm_not_ptr; vm_compute; intuition congruence.
  - intros h. cbn [reads]. unfold payload32. eexists. split; [reflexivity|]. rewrite <- D at 1. unfold dec_u32_imm, wrap. rewrite Z.mod_mod by lia. reflexivity.
  - unfold enc_float_imm. rewrite imm_f by (vm_compute; intuition congruence). apply imm_not_ptr; vm_compute; intuition congruence.
  - unfold payload32. rewrite B. f_equal. exact D2.
  - apply R.
  - apply R.
Qed.

(* the first step *)
Lemma at_pos_cons pre x rest : mkF (pre ++ x :: rest) (Z.of_nat (length pre) + 1) = at_pos (pre ++ [x]) rest.
Proof. apply (at_pos_app pre [x] rest). Qed.
Lemma not_at_end pre x rest : (blen (at_pos pre (x :: rest)) =? pos (at_pos pre (x :: rest))) = false.
Proof. unfold blen, at_pos. cbn [buf pos]. rewrite app_length. cbn [length]. lia. Qed.
Lemma rd_at pre x rest : rd (buf (at_pos pre (x :: rest))) (pos (at_pos pre (x :: rest))) = Ok x.
Proof. cbn [buf pos at_pos]. apply rd_nth; [lia|]. rewrite Nat2Z.id, nth_error_app2, Nat.sub_diag by lia. reflexivity. Qed.

Ltac first_step := cbn [unflatten]; rewrite not_at_end, rd_at; cbn [bind];
  change (buf (at_pos ?p (?x :: ?r))) with (p ++ x :: r);
  repeat match goal with
  | |- context [(Zpos ?a) =? ?b] => let r := eval vm_compute in (Zpos a =? b) in change (Zpos a =? b) with r
  end; cbv iota; cbv beta zeta; cbn [pos at_pos]; rewrite ?at_pos_cons.

(* the name of [n] is interned as [n] *)
Definition interned (s : syms) (nm : Z -> name) (n : Z) : Prop :=
  get_symbol_by_name s (nm n) = Ok (Some n) /\ Forall (fun c => c <> 0) (nm n).

Lemma extract4 n pre post : extract (at_pos pre (bytes 4 n ++ post)) 4 = Ok (Some (n mod 2 ^ 32), at_pos (pre ++ bytes 4 n) post).
Proof. apply (extract_ok 4). Qed.
Lemma extract8 n pre post : extract (at_pos pre (bytes 8 n ++ post)) 8 = Ok (Some (n mod 2 ^ 64), at_pos (pre ++ bytes 8 n) post).
Proof. apply (extract_ok 8). Qed.
Lemma extract1 n pre post : 0 <= n < 256 -> extract (at_pos pre (n :: post)) 1 = Ok (Some n, at_pos (pre ++ [n]) post).
Proof.
  intros R. pose proof (extract_ok 1 n pre post) as E. change (bytes 1 n) with [(n / 1) mod 256] in E.
  rewrite Z.div_1_r, Z.mod_small in E by lia. change (256 ^ Z.of_nat 1) with 256 in E. rewrite Z.mod_small in E by lia. exact E.
Qed.

Lemma app_snoc {T} (l : list T) x r : (l ++ [x]) ++ r = l ++ x :: r.
Proof. rewrite <- app_assoc. reflexivity. Qed.

Lemma merror_neq v : v <> MERROR -> (v =? MERROR) = false.
Proof. intros. apply Z.eqb_neq. auto. Qed.

Lemma un_leaf f0 nm u k n pre post fl ads rest : flat_ok (interned (us u) nm) (Leaf k n) -> heap_ok (uh u) fl ->
  (cells_of (Leaf k n) <= length fl)%nat -> up u = ads ++ rest -> length ads = blocks_of (Leaf k n) -> Forall (fun a => a <> 0) ads ->
  exists u' v fl', unflatten (S f0) u (at_pos pre (ser nm (Leaf k n) ++ post)) =
    Ok (u', at_pos (pre ++ ser nm (Leaf k n)) post, UOk v) /\ gives (Leaf k n) u u' v ads rest fl fl'.
Proof.
  intros FO OK CL UP LA NZ. inversion FO as [k1 n1 R Nm| | |]; subst.
  pose proof (enc_kinds n) as (T1&T2&T3&T4&P1&P2&P3&P4&Y&_). pose proof pay_le as (PL1&PL2&PL3).
  assert (R0 : ads = [] -> up u = rest) by (intros ->; exact UP).
  assert (CK : forall (f : fv) (x : res (ust * Z)) u' v, x = Ok (u', v) -> v <> MERROR -> (let! r := x in checked f r) = Ok (u', f, UOk v)).
  { intros f x u' v -> NM. unfold checked. cbn [bind fst snd]. rewrite merror_neq by auto. reflexivity. }
  assert (ALL : boxed k = true -> exists i fl', fl = i :: fl').
  { intros B. cbn [cells_of] in CL. rewrite B in CL. destruct fl; [simpl in CL; lia|eauto]. }
  assert (CB : boxed k = true -> cells_of (Leaf k n) = 1%nat) by (cbn [cells_of]; intros ->; auto).
  assert (A0 : blocked k = false -> ads = []).
  { intros B. cbn [blocks_of] in LA. rewrite B in LA. destruct ads; [auto|discriminate]. }
  assert (A1 : blocked k = true -> exists a, ads = [a] /\ a <> 0 /\ up u = a :: rest).
  { intros B. cbn [blocks_of] in LA. rewrite B in LA. destruct ads as [|a [|]]; try discriminate. inversion NZ; subst. eauto. }
  clear CL LA.
  destruct k; cbn [ser] in *; cbn [in_range] in R.
  - cbn [app]. first_step. destruct (Nm eq_refl) as (I&NZm). rewrite <- app_assoc. cbn [buf pos at_pos].
    replace (Z.to_nat (Z.of_nat (length pre) + 1)) with (length (pre ++ [3])) by (rewrite app_length; simpl; lia).
    rewrite skipn_app, skipn_all2, Nat.sub_diag by lia. cbn [skipn app].
    rewrite c_string_ok by auto. cbn [bind]. unfold add_symbol. rewrite I. cbn [bind].
    exists (mkU (uh u) (up u) (us u) (tl (uk u))), (enc_sym n), fl. split.
    + match goal with |- Ok (_, ?x, _) = Ok (_, ?y, _) => assert (x = y) as ->; [|reflexivity] end.
      unfold at_pos. f_equal; [rewrite <- !app_assoc; cbn [app]; rewrite <- app_assoc; reflexivity|]. rewrite app_length. cbn [length]. rewrite app_length. cbn [length]. lia.
    + rewrite A0 by auto. rewrite <- R0 by auto. apply imm_gives; auto. intros h. cbn. rewrite enc_sym_roundtrip; auto.
  - cbn [app]. first_step. rewrite extract1 by auto. cbn [bind fst snd]. rewrite app_snoc.
    do 3 eexists. split; [reflexivity|]. rewrite A0, <- R0 by auto. rewrite (ust_eta u) at 2. apply imm_gives; auto; [discriminate|].
    intros h. cbn. rewrite enc_char_roundtrip; auto.
  - assert (X : exists f', unflatten (S f0) u (at_pos pre ((if b64 then 14 :: bytes 8 n else 5 :: bytes 4 n) ++ post)) = Ok (u, f', UOk (enc_i n))
       /\ f' = at_pos (pre ++ (if b64 then 14 :: bytes 8 n else 5 :: bytes 4 n)) post).
    { destruct b64 eqn:B; cbn [app]; first_step; rewrite ?B, ?extract4, ?extract8; cbn [bind fst snd]; rewrite app_snoc, sgn_mod_id; eauto; try lia.
      - assert (2 ^ (payload A - 1) <= 2 ^ (64 - 1)) by (apply Z.pow_le_mono_r; lia). lia.
      - assert (2 ^ (payload A - 1) <= 2 ^ (32 - 1)) by (apply Z.pow_le_mono_r; lia). lia. }
    destruct X as (f'&->&->). do 3 eexists. split; [reflexivity|]. rewrite A0, <- R0 by auto. rewrite (ust_eta u) at 2.
    apply imm_gives; auto; [discriminate|]. intros h. cbn. rewrite enc_i_roundtrip; auto.
  - assert (X : exists f', unflatten (S f0) u (at_pos pre ((if b64 then 15 :: bytes 8 n else 6 :: bytes 4 n) ++ post)) = Ok (u, f', UOk (enc_u n))
       /\ f' = at_pos (pre ++ (if b64 then 15 :: bytes 8 n else 6 :: bytes 4 n)) post).
    { destruct b64 eqn:B; cbn [app]; first_step; rewrite ?B, ?extract4, ?extract8; cbn [bind fst snd]; rewrite app_snoc, Z.mod_small; eauto.
      - split; [lia|]. apply Z.lt_le_trans with (2 ^ payload A); [lia|]. apply Z.pow_le_mono_r; lia.
      - split; [lia|]. apply Z.lt_le_trans with (2 ^ payload A); [lia|]. apply Z.pow_le_mono_r; lia. }
    destruct X as (f'&->&->). do 3 eexists. split; [reflexivity|]. rewrite A0, <- R0 by auto. rewrite (ust_eta u) at 2.
    apply imm_gives; auto; [discriminate|]. intros h. cbn. rewrite enc_u_roundtrip, Z.mod_small; auto.
  - cbn [app]. first_step. rewrite extract4. cbn [bind]. rewrite app_snoc. unfold enc_i32. rewrite A0, <- R0 by auto.
    destruct b64 eqn:B.
    + destruct (i32_imm B n R) as (IP&IT&IR). rewrite sgn_mod_id by lia. rewrite (CK _ _ u (enc_i32_imm n)); auto.
      2:{ intros X. rewrite X in IT. revert IT. clear -B. destruct A; [|discriminate]. vm_compute. discriminate. }
      do 3 eexists. split; [reflexivity|]. rewrite (ust_eta u) at 2. apply imm_gives; auto; [discriminate|]. cbn. rewrite B. reflexivity.
    + destruct ALL as (i&fl'&->); [cbn; rewrite B; auto|].
      destruct (enc_raw_ok u i fl' (n mod 2 ^ 32) SYM_RAW_I_TYPE TYPE_I32 KI32 n) as (u'&v&E&NM&G); auto using good_i32; try discriminate.
      { apply CB. cbn. rewrite B. auto. }
      { intros h w Ec. cbn. unfold payload32. rewrite B. eexists. split; [eauto|]. rewrite sgn_mod_id; lia. }
      rewrite (CK _ _ _ _ E NM). eauto.
  - cbn [app]. first_step. rewrite extract4. cbn [bind]. rewrite app_snoc. unfold enc_u32. rewrite A0, <- R0 by auto.
    rewrite Z.mod_small by auto. destruct b64 eqn:B.
    + destruct (u32_imm B n R) as (IP&IT&IR&_). rewrite (CK _ _ u (enc_u32_imm n)); auto.
      2:{ intros X. rewrite X in IT. revert IT. clear -B. destruct A; [|discriminate]. vm_compute. discriminate. }
      do 3 eexists. split; [reflexivity|]. rewrite (ust_eta u) at 2. apply imm_gives; auto; [discriminate|]. cbn. rewrite B. reflexivity.
    + destruct ALL as (i&fl'&->); [cbn; rewrite B; auto|].
      destruct (enc_raw_ok u i fl' n SYM_RAW_U_TYPE TYPE_U32 KU32 n) as (u'&v&E&NM&G); auto using good_u32; try discriminate.
      { apply CB. cbn. rewrite B. auto. }
      { intros h w Ec. cbn. unfold payload32. rewrite B. eexists. split; [eauto|]. rewrite wrap_small; auto. }
      rewrite (CK _ _ _ _ E NM). eauto.
  - cbn [app]. first_step. rewrite extract8. cbn [bind]. rewrite app_snoc. unfold enc_i64.
    destruct ALL as (i&fl'&->); [auto|]. destruct b64 eqn:B.
    + rewrite A0, <- R0 by (auto; try (apply A0; cbn; rewrite B; auto); cbn; rewrite B; auto).
      destruct (enc_raw_ok u i fl' (n mod 2 ^ 64) SYM_RAW_I_TYPE TYPE_I64 KI64 n) as (u'&v&E&NM&G); auto using good_i64; try discriminate.
      { intros h w Ec. cbn. unfold payload64. rewrite Ec, B. cbn. eexists. split; [eauto|]. rewrite sgn_mod_id; lia. }
      rewrite (CK _ _ _ _ E NM). eauto.
    + destruct A1 as (a&->&NA&UA); [cbn; rewrite B; auto|].
      destruct (enc_64_on_32_ok u i fl' a rest (n mod 2 ^ 64) SYM_IND_I_TYPE TYPE_I64 KI64 n) as (u'&v&E&NM&G); auto using good_i64; try discriminate.
      { intros h w Ec. cbn. eexists. split; [eauto|]. rewrite sgn_mod_id; lia. }
      rewrite (CK _ _ _ _ E NM). eauto.
  - cbn [app]. first_step. rewrite extract8. cbn [bind]. rewrite app_snoc. unfold enc_u64. rewrite Z.mod_small by auto.
    destruct ALL as (i&fl'&->); [auto|]. destruct b64 eqn:B.
    + rewrite A0, <- R0 by (auto; try (apply A0; cbn; rewrite B; auto); cbn; rewrite B; auto).
      destruct (enc_raw_ok u i fl' n SYM_RAW_U_TYPE TYPE_U64 KU64 n) as (u'&v&E&NM&G); auto using good_u64; try discriminate.
      { intros h w Ec. cbn. unfold payload64. rewrite Ec, B. cbn. eexists. split; [eauto|]. rewrite wrap_small; auto. }
      rewrite (CK _ _ _ _ E NM). eauto.
    + destruct A1 as (a&->&NA&UA); [cbn; rewrite B; auto|].
      destruct (enc_64_on_32_ok u i fl' a rest n SYM_IND_U_TYPE TYPE_U64 KU64 n) as (u'&v&E&NM&G); auto using good_u64; try discriminate.
      { intros h w Ec. cbn. eexists. split; [eauto|]. rewrite wrap_small; auto. }
      rewrite (CK _ _ _ _ E NM). eauto.
  - cbn [app]. first_step. rewrite extract4. cbn [bind]. rewrite app_snoc. unfold enc_float. rewrite A0, <- R0 by auto.
    rewrite Z.mod_small by auto. destruct b64 eqn:B.
    + destruct (u32_imm B n R) as (_&_&_&IP&IT&IR). rewrite (CK _ _ u (enc_float_imm n)); auto.
      2:{ intros X. rewrite X in IT. revert IT. clear -B. destruct A; [|discriminate]. vm_compute. discriminate. }
      do 3 eexists. split; [reflexivity|]. rewrite (ust_eta u) at 2. apply imm_gives; auto; [discriminate|]. cbn. rewrite B. reflexivity.
    + destruct ALL as (i&fl'&->); [cbn; rewrite B; auto|].
      destruct (enc_raw_ok u i fl' n SYM_RAW_F_TYPE TYPE_FLOAT KFloat n) as (u'&v&E&NM&G); auto using good_float; try discriminate.
      { apply CB. cbn. rewrite B. auto. }
      { intros h w Ec. cbn. unfold payload32. rewrite B. auto. }
      rewrite (CK _ _ _ _ E NM). eauto.
  - cbn [app]. first_step. rewrite extract8. cbn [bind]. rewrite app_snoc. unfold enc_double. rewrite Z.mod_small by auto.
    destruct ALL as (i&fl'&->); [auto|]. destruct b64 eqn:B.
    + rewrite A0, <- R0 by (auto; try (apply A0; cbn; rewrite B; auto); cbn; rewrite B; auto).
      destruct (enc_raw_ok u i fl' n SYM_RAW_F_TYPE TYPE_DOUBLE KDouble n) as (u'&v&E&NM&G); auto using good_double; try discriminate.
      { intros h w Ec. cbn. unfold payload64. rewrite Ec, B. cbn. auto. }
      rewrite (CK _ _ _ _ E NM). eauto.
    + destruct A1 as (a&->&NA&UA); [cbn; rewrite B; auto|].
      destruct (enc_64_on_32_ok u i fl' a rest n SYM_IND_F_TYPE TYPE_DOUBLE KDouble n) as (u'&v&E&NM&G); auto using good_double; try discriminate.
      { intros h w Ec. split; auto. }
      rewrite (CK _ _ _ _ E NM). eauto.
Qed.


(* ---- arrays ---- *)
Lemma WB_pos2 : 0 < WB. Proof. apply WB_pos. Qed.

Definition array_ty (bytes : bool) := if bytes then TYPE_ARRAY else TYPE_LISPARRAY.
Lemma good_array_ty b : good_tag (array_ty b).
Proof. destruct b; [apply good_array|apply good_lisparray]. Qed.

Lemma alloc_array_ok u b num i fl a d rest : heap_ok (uh u) (i :: fl) -> up u = a :: d :: rest -> a <> 0 -> d <> 0 ->
  0 < num -> (b = false -> WB * num < 2 ^ W) ->
  exists h1 q, let w := set_ptr_type (enc_cons_ptr i) (array_ty b) in
    let o := if b then OByte d (repeat 0 (Z.to_nat num)) else OLisp d (WB * num) (repeat 0 (Z.to_nat num)) 0 in
    alloc_array u b num = Ok (mkU (set_obj h1 a (Some o)) rest (us u) (uk u), w) /\
    heap_ok h1 fl /\ cell h1 i = Some (a, q) /\ same_but [i] (uh u) h1 /\ ccells h1 = ccells (uh u) /\ mem h1 = mem (uh u) /\
    0 <= i < 2 ^ (W - 8).
Proof.
  intros OK U NA ND Pn Sm. pose proof (good_array_ty b) as G.
  destruct (alloc_cell_ok (uh u) i fl (array_ty b) a (enc_sym (if b then SYM_ARRAY_TYPE else SYM_LISPARRAY_TYPE)) OK (good_ptr_tag _ G))
    as (h1&E&OK1&C&S&Sz&Cc&M&_&_&R&_).
  assert (R8 : 0 <= i < 2 ^ (W - 8)) by (pose proof (ok_size _ _ OK); lia).
  destruct (tagged_facts i (array_ty b) R8 G) as (P&I&K&T&NM).
  exists h1. eexists. cbv zeta. split; [|split; [exact OK1|split; [exact C|auto]]].
  unfold alloc_array, malloc. rewrite U. cbn [up]. destruct (Z.eqb_spec a 0); [congruence|].
  pose proof WB_pos as WP.
  assert (SZ : (if b then num else wrap W (WB * num)) = if b then num else WB * num).
  { destruct b; auto. apply wrap_small. specialize (Sm eq_refl). lia. }
  rewrite SZ. assert (SP : ((if b then num else WB * num) >? 0) = true) by (destruct b; lia).
  rewrite SP. cbn [uh]. destruct (Z.eqb_spec d 0); [congruence|]. cbn [andb]. cbv iota. cbn [uh].
  unfold array_ty in E. rewrite E. cbn [bind]. fold (array_ty b). rewrite merror_neq by auto.
  unfold set_h. cbn [up us uk]. do 5 f_equal. destruct b; auto.
  f_equal. rewrite Z.mul_comm, Z.div_mul by lia. reflexivity.
Qed.

Lemma un_bytes f0 nm u bs pre post fl ads rest : flat_ok (interned (us u) nm) (Bytes bs) -> heap_ok (uh u) fl ->
  (1 <= length fl)%nat -> up u = ads ++ rest -> length ads = 2%nat -> Forall (fun a => a <> 0) ads -> Z.of_nat (length bs) < 2 ^ 31 ->
  exists u' v fl', unflatten (S f0) u (at_pos pre (ser nm (Bytes bs) ++ post)) =
    Ok (u', at_pos (pre ++ ser nm (Bytes bs)) post, UOk v) /\ gives (Bytes bs) u u' v ads rest fl fl'.
Proof.
  intros FO OK CL UP LA NZ B. inversion FO as [| |b0 NE FB|]; subst.
  destruct fl as [|i fl]; [simpl in CL; lia|]. destruct ads as [|a [|d [|]]]; try discriminate LA.
  inversion NZ as [|? ? NA NZ']; subst. inversion NZ' as [|? ? ND _]; subst. cbn [app] in UP.
  assert (LB : 0 < Z.of_nat (length bs)) by (destruct bs; [congruence|simpl; lia]).
  destruct (alloc_array_ok u true (Z.of_nat (length bs)) i fl a d rest OK UP NA ND LB ltac:(discriminate)) as (h1&q&E&OK1&C&S&Cc&M&R8).
  cbv zeta in E. destruct (tagged_facts i (array_ty true) R8 (good_array_ty true)) as (P&I&K&T&NM). set (w := set_ptr_type _ _) in *.
  cbn [ser app]. first_step. rewrite <- app_assoc, extract4, Z.mod_small by lia. cbn [bind]. rewrite E. cbn [bind].
  rewrite merror_neq by auto. cbn [uh].
  rewrite (car_ptr _ _ a q P). 2:{ rewrite ref_cell_rw, I by auto. change (cell (set_obj h1 a ?o) i) with (cell h1 i). rewrite C. reflexivity. }
  cbn [bind]. cbn [mem set_obj set_mem]. rewrite Z.eqb_refl. cbn [uh].
  assert (SL : forall p, slice (buf (at_pos p (bs ++ post))) (pos (at_pos p (bs ++ post))) (Z.of_nat (length bs)) = Ok bs).
  { intros p. unfold slice, at_pos. cbn [buf pos]. rewrite !app_length.
    match goal with |- (if ?c then _ else _) = _ => replace c with true by lia end.
    rewrite !Nat2Z.id, skipn_app, skipn_all2, Nat.sub_diag by lia. cbn [skipn app]. rewrite firstn_app, Nat.sub_diag, firstn_all. cbn. rewrite app_nil_r. reflexivity. }
  rewrite SL. cbn [bind]. eexists. exists w, fl. split.
  { match goal with |- Ok (_, ?x, _) = Ok (_, ?y, _) => assert (x = y) as ->; [|reflexivity] end.
    unfold at_pos. cbn [buf pos]. f_equal; [rewrite <- !app_assoc; reflexivity|]. rewrite !app_length. cbn [length]. rewrite app_length. lia. }
  cbn [up us]. constructor; cbn [uh set_h us up]; auto.
  - apply set_obj_ok, set_obj_ok. eauto.
  - apply incl_tl, incl_refl.
  - intros j J. change (cell h1 j = cell (uh u) j). apply S. intros [->|[]]. apply J; left; auto.
  - intros x X. cbn. destruct (Z.eqb_spec x a); [exfalso; apply X; left; auto|]. rewrite M. reflexivity.
  - intros Ph D. apply den_bytes with (p := a) (q := q) (x := d); auto.
    + intros _ _. rewrite I. pose proof (ok_nodup _ _ OK) as NDp. inversion NDp; auto.
    + rewrite ref_hide, ref_cell_rw, I by auto. change (match cell h1 i with Some c => Ok c | None => UB end = Ok (a, q)). rewrite C. reflexivity.
    + cbn. rewrite D by (left; auto). rewrite Z.eqb_refl. reflexivity.
Qed.

(* hidden by [P], or in the list *)
Definition also (P : Z -> bool) (l : list Z) (x : Z) : bool := P x || existsb (Z.eqb x) l.
Lemma also_in P l x : In x l -> also P l x = true.
Proof. intros H. unfold also. apply orb_true_iff. right. apply existsb_exists. exists x. split; auto. apply Z.eqb_refl. Qed.
Lemma also_out P l x : P x = false -> ~ In x l -> also P l x = false.
Proof.
  intros H N. unfold also. rewrite H. cbn. destruct (existsb (Z.eqb x) l) eqn:E; auto. apply existsb_exists in E.
  destruct E as (y&I&Q). apply Z.eqb_eq in Q. subst. contradiction.
Qed.
Lemma also_false P l x : also P l x = false -> P x = false /\ ~ In x l.
Proof.
  unfold also. intros H. apply orb_false_iff in H. destruct H as (H&E). split; auto. intros I.
  assert (existsb (Z.eqb x) l = true) by (apply existsb_exists; exists x; split; auto; apply Z.eqb_refl). congruence.
Qed.

(* a value unflattened earlier is still there *)
Lemma den_later t u u' v ads rest fl fl' t0 v0 P : gives t u u' v ads rest fl fl' ->
  den fl (hide (also P ads) (uh u)) v0 t0 -> den fl' (hide P (uh u')) v0 t0.
Proof.
  intros G D. eapply den_grows; [|apply (g_incl _ _ _ _ _ _ _ _ G)|exact D]. split; [|split].
  - intros i I. apply (g_cells _ _ _ _ _ _ _ _ G). auto.
  - apply (g_cc _ _ _ _ _ _ _ _ G).
  - cbn. intros a o. destruct (also P ads a) eqn:Al; [discriminate|]. apply also_false in Al. destruct Al as (Pa&Na). rewrite Pa.
    intros M. rewrite (g_mem _ _ _ _ _ _ _ _ G); auto.
Qed.


Lemma den_kept l fl fl' h h' (P Q : Z -> bool) v0 t0 : incl fl' fl -> same_but fl h h' -> ccells h' = ccells h ->
  (forall x, ~ In x l -> mem h' x = mem h x) -> (forall x, Q x = false -> P x = false /\ ~ In x l) ->
  den fl (hide Q h) v0 t0 -> den fl' (hide P h') v0 t0.
Proof.
  intros I S Cc M PQ D. eapply den_grows; [|exact I|exact D]. split; [exact S|split; [exact Cc|]].
  cbn. intros a o. destruct (Q a) eqn:E; [discriminate|]. destruct (PQ _ E) as (Pa&Na). rewrite Pa, M; auto.
Qed.

(* unflattening the tree [t] with [rec] works *)
Definition works (s : syms) (nm : Z -> name) (rec : ust -> fv -> res (ust * fv * un)) (t : tree) : Prop :=
  forall u pre post fl ads rest, us u = s -> heap_ok (uh u) fl -> (cells_of t <= length fl)%nat -> up u = ads ++ rest ->
    length ads = blocks_of t -> Forall (fun a => a <> 0) ads -> NoDup ads -> Z.of_nat (length (ser nm t)) < 2 ^ 31 ->
    exists u' v fl', rec u (at_pos pre (ser nm t ++ post)) = Ok (u', at_pos (pre ++ ser nm t) post, UOk v) /\ gives t u u' v ads rest fl fl'.

Lemma NoDup_app_inv {T} (l l' : list T) : NoDup (l ++ l') -> NoDup l /\ NoDup l' /\ forall x, In x l -> ~ In x l'.
Proof.
  induction l as [|x l IH]; cbn; intros H; [repeat split; auto; constructor|]. inversion H as [|? ? N ND]; subst.
  destruct (IH ND) as (N1&N2&N3). repeat split; auto.
  - constructor; auto. intros X. apply N. apply in_or_app; auto.
  - intros y [->|I]; auto. intros X. apply N. apply in_or_app; auto.
Qed.

Lemma upd_front vs v n : upd (vs ++ 0 :: repeat 0 n) (length vs) v = (vs ++ [v]) ++ repeat 0 n.
Proof. rewrite upd_mid, <- app_assoc. reflexivity. Qed.

Lemma un_elts s nm rec a d sz ix : forall ts fuel vs u pre post r fl ads rest, Forall (works s nm rec) ts -> us u = s ->
  (length ts <= fuel)%nat -> heap_ok (uh u) fl -> (list_sum (map cells_of ts) <= length fl)%nat -> up u = ads ++ rest ->
  length ads = list_sum (map blocks_of ts) -> Forall (fun a => a <> 0) ads -> NoDup ads -> ~ In a ads ->
  Z.of_nat (length (flat_map (ser nm) ts)) < 2 ^ 31 -> mem (uh u) a = Some (OLisp d sz (vs ++ repeat 0 (length ts)) ix) ->
  exists u' vs' fl' r', unflatten_elts rec fuel (Z.of_nat (length vs)) (Z.of_nat (length vs + length ts)) a u (at_pos pre (flat_map (ser nm) ts ++ post)) r =
      Ok (u', at_pos (pre ++ flat_map (ser nm) ts) post, r') /\
    (ts = [] -> r' = r) /\ (ts <> [] -> exists v, r' = UOk v) /\
    mem (uh u') a = Some (OLisp d sz (vs ++ vs') ix) /\ heap_ok (uh u') fl' /\ incl fl' fl /\
    length fl = (list_sum (map cells_of ts) + length fl')%nat /\ same_but fl (uh u) (uh u') /\ ccells (uh u') = ccells (uh u) /\
    (forall x, ~ In x (a :: ads) -> mem (uh u') x = mem (uh u) x) /\ us u' = s /\ up u' = rest /\
    forall P, (forall x, In x ads -> P x = false) -> P a = true -> Forall2 (den fl' (hide P (uh u'))) vs' ts.
Proof.
  induction ts as [|t ts IH]; intros fuel vs u pre post r fl ads rest Wk Us Fu OK CL UP LA NZ ND NI B M.
  - exists u, [], fl, r. cbn [length repeat map list_sum fold_right flat_map] in *. destruct ads; [|discriminate LA]. rewrite Nat.add_0_r.
    split; [|split; [auto|split; [congruence|split; [exact M|split; [exact OK|split; [apply incl_refl|repeat split; auto]]]]]].
    destruct fuel; cbn [unflatten_elts]; rewrite Z.ltb_irrefl, app_nil_r; reflexivity.
  - cbn [length repeat map list_sum fold_right flat_map] in *. fold (list_sum (map cells_of ts)) in *. fold (list_sum (map blocks_of ts)) in *.
    destruct fuel as [|fuel]; [lia|]. inversion Wk as [|? ? W1 W2]; subst. rewrite app_length in B.
    destruct (split_len ads (blocks_of t)) as (ads1&ads2&->&L1); [lia|]. rewrite app_length in LA. apply Forall_app in NZ. destruct NZ as (NZ1&NZ2).
    destruct (NoDup_app_inv _ _ ND) as (ND1&ND2&DJ). rewrite <- app_assoc in UP.
    destruct (W1 u pre (flat_map (ser nm) ts ++ post) fl ads1 (ads2 ++ rest) eq_refl OK ltac:(lia) UP L1 NZ1 ND1 ltac:(lia)) as (u1&v&fl1&E1&G1).
    assert (NI1 : ~ In a ads1) by (intros X; apply NI, in_or_app; auto). assert (NI2 : ~ In a ads2) by (intros X; apply NI, in_or_app; auto).
    assert (M1 : mem (uh u1) a = Some (OLisp d sz (vs ++ 0 :: repeat 0 (length ts)) ix)) by (rewrite (g_mem _ _ _ _ _ _ _ _ G1); auto).
    set (u2 := set_h u1 (set_obj (uh u1) a (Some (OLisp d sz ((vs ++ [v]) ++ repeat 0 (length ts)) ix)))).
    destruct (IH fuel (vs ++ [v]) u2 (pre ++ ser nm t) post (UOk v) fl1 ads2 rest W2) as (u3&vs'&fl3&r3&E3&R0&R1&M3&OK3&I3&L3&S3&C3&X3&U3&P3&D3); auto.
    { apply (g_syms _ _ _ _ _ _ _ _ G1). }
    { lia. }
    { apply set_obj_ok, (g_ok _ _ _ _ _ _ _ _ G1). }
    { pose proof (g_len _ _ _ _ _ _ _ _ G1). lia. }
    { apply (g_pool _ _ _ _ _ _ _ _ G1). }
    { lia. }
    { lia. }
    { cbn. rewrite Z.eqb_refl. reflexivity. }
    exists u3, (v :: vs'), fl3, r3. split; [|split; [|split; [|split]]].
    + cbn [unflatten_elts]. destruct (Z.ltb_spec (Z.of_nat (length vs)) (Z.of_nat (length vs + S (length ts)))); [|lia].
      rewrite <- app_assoc, E1. cbn [bind]. rewrite M1. rewrite wr_ok by (rewrite app_length; simpl; lia). cbn [bind]. rewrite Nat2Z.id, upd_front.
      fold u2. replace (Z.of_nat (length vs) + 1) with (Z.of_nat (length (vs ++ [v]))) by (rewrite app_length; simpl; lia).
      replace (length vs + S (length ts))%nat with (length (vs ++ [v]) + length ts)%nat by (rewrite app_length; simpl; lia).
      rewrite E3. rewrite <- app_assoc. reflexivity.
    + discriminate.
    + intros _. destruct ts; [rewrite R0 by auto; eauto|]. apply R1. discriminate.
    + rewrite M3, <- app_assoc. reflexivity.
    + split; auto. split. { eapply incl_tran; eauto. apply (g_incl _ _ _ _ _ _ _ _ G1). }
      split. { pose proof (g_len _ _ _ _ _ _ _ _ G1). lia. }
      split. { intros i Ni. rewrite S3. { apply (g_cells _ _ _ _ _ _ _ _ G1). auto. } intros X. apply Ni, (g_incl _ _ _ _ _ _ _ _ G1). auto. }
      split. { rewrite C3. apply (g_cc _ _ _ _ _ _ _ _ G1). }
      split. { intros x Nx. rewrite X3. 2:{ intros [->|X]; apply Nx; [left; auto|right; apply in_or_app; auto]. }
        cbn. destruct (Z.eqb_spec x a); [exfalso; apply Nx; left; auto|]. apply (g_mem _ _ _ _ _ _ _ _ G1). intros X. apply Nx. right. apply in_or_app; auto. }
      split; auto. split; auto. intros P DP Pa. constructor; [|apply D3; auto; intros; apply DP, in_or_app; auto].
      apply (den_kept (a :: ads2) fl1 fl3 (uh u1) (uh u3) P (also P ads2)); auto.
      * intros x Nx. rewrite X3 by auto. cbn. destruct (Z.eqb_spec x a); [exfalso; apply Nx; left; auto|]. reflexivity.
      * intros x Qx. apply also_false in Qx. destruct Qx as (Px&Nx). split; auto. intros [->|X]; [congruence|auto].
      * apply (g_den _ _ _ _ _ _ _ _ G1). intros x X. apply also_out; [apply DP, in_or_app; auto|auto].
Qed.

Lemma flat_map_len nm ts : (length ts <= length (flat_map (ser nm) ts))%nat.
Proof. induction ts as [|t ts IH]; cbn; auto. rewrite app_length. pose proof (ser_pos nm t). lia. Qed.
Lemma ser_two nm t : (2 <= length (ser nm t))%nat.
Proof.
  destruct t as [k n|a d|bs|ts]; [destruct k|..]; cbn [ser]; try (destruct b64); cbn [length]; rewrite ?app_length, ?length_bytes; cbn [length]; try lia;
  pose proof (ser_pos nm a); pose proof (ser_pos nm d); lia.
Qed.
Lemma flat_map_len2 nm ts : (2 * length ts <= length (flat_map (ser nm) ts))%nat.
Proof. induction ts as [|t ts IH]; cbn [flat_map length]; auto. rewrite app_length. pose proof (ser_two nm t). lia. Qed.

Lemma un_ok s nm : forall t fuel, flat_ok (interned s nm) t -> (depth t <= fuel)%nat -> works s nm (unflatten fuel) t.
Proof.
  induction t as [k n|ta td IHa IHd|bs|ts IH] using tree_rec_depth; intros fuel FO DP u pre post fl ads rest Us OK CL UP LA NZ ND B;
    (destruct fuel as [|fuel]; [simpl in DP; lia|]); subst s.
  - apply un_leaf; auto.
  - inversion FO as [|? ? F1 F2| |]; subst. cbn [depth] in DP. cbn [ser] in B |- *. cbn [length] in B. rewrite app_length in B. cbn [cells_of] in CL. cbn [blocks_of] in LA.
    destruct (split_len ads (blocks_of ta)) as (ads1&ads2&->&L1); [lia|]. rewrite app_length in LA. apply Forall_app in NZ. destruct NZ as (NZ1&NZ2).
    destruct (NoDup_app_inv _ _ ND) as (ND1&ND2&DJ). rewrite <- app_assoc in UP.
    destruct (IHa fuel F1 ltac:(lia) u (pre ++ [1]) (ser nm td ++ post) fl ads1 (ads2 ++ rest) eq_refl OK ltac:(lia) UP L1 NZ1 ND1 ltac:(lia)) as (u1&v1&fl1&E1&G1).
    pose proof (g_len _ _ _ _ _ _ _ _ G1) as GL1.
    destruct (IHd fuel F2 ltac:(lia) u1 ((pre ++ [1]) ++ ser nm ta) post fl1 ads2 rest (g_syms _ _ _ _ _ _ _ _ G1) (g_ok _ _ _ _ _ _ _ _ G1) ltac:(lia)
      (g_pool _ _ _ _ _ _ _ _ G1) ltac:(lia) NZ2 ND2 ltac:(lia)) as (u2&v2&fl2&E2&G2).
    pose proof (g_len _ _ _ _ _ _ _ _ G2) as GL2. destruct fl2 as [|i fl2]; [simpl in GL2; lia|].
    destruct (cons_ok _ i fl2 v1 v2 (g_ok _ _ _ _ _ _ _ _ G2)) as (h3&E3&OK3&C3&S3&Sz3&Cc3&M3&_&R8).
    cbn [app]. first_step. rewrite <- app_assoc, E1. cbn [bind]. rewrite E2. cbn [bind]. rewrite E3. cbn [bind]. unfold checked. cbn [fst snd].
    rewrite <- (cons_enc i R8). destruct (tagged_facts i TYPE_CONS R8 good_cons) as (P&I&K&T&NM). rewrite merror_neq by auto.
    do 2 eexists. exists fl2. split. { rewrite <- !app_assoc. reflexivity. }
    pose proof (g_incl _ _ _ _ _ _ _ _ G1) as I1. pose proof (g_incl _ _ _ _ _ _ _ _ G2) as I2.
    constructor; cbn [uh set_h us up]; auto.
    + eapply incl_tran; [|exact I1]. eapply incl_tran; [|exact I2]. apply incl_tl, incl_refl.
    + cbn [cells_of]. simpl in GL2. lia.
    + intros j J. rewrite S3. 2:{ intros [->|[]]. apply J, I1, I2. left; auto. }
      rewrite (g_cells _ _ _ _ _ _ _ _ G2) by auto. apply (g_cells _ _ _ _ _ _ _ _ G1). auto.
    + rewrite Cc3, (g_cc _ _ _ _ _ _ _ _ G2). apply (g_cc _ _ _ _ _ _ _ _ G1).
    + intros x X. rewrite M3, (g_mem _ _ _ _ _ _ _ _ G2), (g_mem _ _ _ _ _ _ _ _ G1); auto; intros Y; apply X, in_or_app; auto.
    + rewrite (g_syms _ _ _ _ _ _ _ _ G2). apply (g_syms _ _ _ _ _ _ _ _ G1).
    + apply (g_pool _ _ _ _ _ _ _ _ G2).
    + intros Ph D. apply den_pair with (a := v1) (d := v2); auto.
      * intros _ _. rewrite I. pose proof (ok_nodup _ _ (g_ok _ _ _ _ _ _ _ _ G2)) as NDp. inversion NDp; auto.
      * rewrite ref_hide, ref_cell_rw, I, C3 by auto. reflexivity.
      * apply (den_kept [] (i :: fl2) fl2 (uh u2) h3 Ph Ph); auto using incl_tl, incl_refl.
        { intros j J. apply S3. intros [->|[]]. apply J; left; auto. } { intros. rewrite M3. auto. }
        eapply den_later; eauto. apply (g_den _ _ _ _ _ _ _ _ G1). intros x X. apply also_out; [apply D, in_or_app; auto|auto].
      * apply (den_kept [] (i :: fl2) fl2 (uh u2) h3 Ph Ph); auto using incl_tl, incl_refl.
        { intros j J. apply S3. intros [->|[]]. apply J; left; auto. } { intros. rewrite M3. auto. }
        apply (g_den _ _ _ _ _ _ _ _ G2). intros x X. apply D, in_or_app; auto.
  - apply un_bytes; auto. cbn [ser length] in B. rewrite app_length in B. lia.
  - inversion FO as [| | |? NE FB]; subst. cbn [ser] in B |- *. cbn [length] in B. rewrite app_length, length_bytes in B. cbn [cells_of] in CL. cbn [blocks_of] in LA.
    destruct ads as [|a [|d ads]]; try discriminate LA. destruct fl as [|i fl]; [simpl in CL; lia|].
    inversion NZ as [|? ? NA NZ']; subst. inversion NZ' as [|? ? NDd NZs]; subst. cbn [app] in UP.
    inversion ND as [|? ? NIa ND']; subst. inversion ND' as [|? ? NId NDs]; subst.
    assert (LB : 0 < Z.of_nat (length ts)) by (destruct ts; [congruence|simpl; lia]). pose proof (flat_map_len2 nm ts) as FL2.
    destruct (alloc_array_ok u false (Z.of_nat (length ts)) i fl a d (ads ++ rest) OK UP NA NDd LB) as (h1&q&E&OK1&C&S&Cc&M&R8).
    { intros _. assert (W32 : WB * 2 ^ 30 <= 2 ^ W) by (clear; destruct A; vm_compute; discriminate). pose proof WB_pos.
      assert (Z.of_nat (length ts) < 2 ^ 30) by lia. nia. }
    cbv zeta in E. destruct (tagged_facts i (array_ty false) R8 (good_array_ty false)) as (P&I&K&T&NM). set (w := set_ptr_type _ _) in *.
    cbn [app]. first_step. rewrite <- app_assoc, extract4, Z.mod_small by lia. cbn [bind]. rewrite E. cbn [bind]. cbn [uh].
    rewrite (car_ptr _ _ a q P). 2:{ rewrite ref_cell_rw, I by auto. change (cell (set_obj h1 a ?o) i) with (cell h1 i). rewrite C. reflexivity. }
    cbn [bind]. cbn [mem set_obj set_mem]. rewrite Z.eqb_refl. rewrite merror_neq by auto. rewrite Nat2Z.id.
    match goal with |- context [unflatten_elts (unflatten fuel) ?f 0 _ a ?u1 ?fv UBad] =>
      destruct (un_elts (us u) nm (unflatten fuel) a d (WB * Z.of_nat (length ts)) 0 ts f [] u1 ((pre ++ [31]) ++ bytes 4 (Z.of_nat (length ts))) post UBad fl ads rest)
        as (u3&vs'&fl3&r3&E3&R0&R1&M3&OK3&I3&L3&S3&C3&X3&U3&P3&D3) end; auto.
    { apply Forall_forall. intros t It. rewrite Forall_forall in IH, FB. apply IH; auto. pose proof (depth_in _ _ It). lia. }
    { cbn [buf at_pos]. rewrite !app_length. lia. }
    { apply set_obj_ok. auto. }
    { simpl in CL. lia. }
    { simpl in LA. lia. }
    { intros X. apply NIa. right. auto. }
    { lia. }
    { cbn. rewrite Z.eqb_refl. reflexivity. }
    cbn [length] in E3. change (Z.of_nat 0) with 0 in E3. rewrite Nat.add_0_l in E3. change (@nil Z ++ ?x) with x in M3.
    rewrite E3.     cbn [bind]. destruct (R1 NE) as (v3&->).
    exists u3, w, fl3. split. { rewrite <- !app_assoc. reflexivity. }
    constructor; auto.
    + intros x X. right. auto.
    + cbn [cells_of length]. lia.
    + intros j J. rewrite S3. 2:{ intros X; apply J; right; auto. } change (cell h1 j = cell (uh u) j). apply S. intros [->|[]]. apply J; left; auto.
    + rewrite C3. cbn. auto.
    + intros x X. rewrite X3. 2:{ intros [->|Y]; apply X; [left; auto|right; right; auto]. }
      cbn. destruct (Z.eqb_spec x a); [exfalso; apply X; left; auto|]. rewrite M. reflexivity.
    + intros Ph D. apply den_arr with (p := a) (q := q) (x := d) (size := WB * Z.of_nat (length ts)) (elts := vs') (ix := 0); auto.
      * intros _ _. rewrite I. intros X. apply I3 in X. pose proof (ok_nodup _ _ OK) as NDp. inversion NDp; auto.
      * rewrite ref_hide, ref_cell_rw, I by auto. rewrite S3. 2:{ pose proof (ok_nodup _ _ OK) as NDp. inversion NDp; auto. }
        change (match cell h1 i with Some c => Ok c | None => UB end = Ok (a, q)). rewrite C. reflexivity.
      * cbn. rewrite D by (left; auto). exact M3.
      * pose proof (D3 (also Ph [a])) as D3'. rewrite (Forall2_length _ _ _ (D3' ltac:(intros x X; apply also_out; [apply D; right; right; auto|intros [->|[]]; apply NIa; right; auto]) ltac:(apply also_in; left; auto))). lia.
      * assert (D4 : Forall2 (den fl3 (hide (also Ph [a]) (uh u3))) vs' ts).
        { apply D3; [|apply also_in; left; auto]. intros x X. apply also_out; [apply D; right; right; auto|]. intros [->|[]]. apply NIa; right; auto. }
        clear -D4. induction D4 as [|x y l l' H D4 IH]; constructor; auto.
        apply (den_kept [] fl3 fl3 (uh u3) (uh u3) Ph (also Ph [a])); auto using incl_refl.
        { intros j _. reflexivity. } { intros z Q. apply also_false in Q. split; [tauto|intros []]. }
Qed.

End Arch.
