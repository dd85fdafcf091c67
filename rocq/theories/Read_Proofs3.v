(* Running the reader: strings, arrays and lists. *)
From Coq Require Import String.
From Verif Require Import Base Value_Model Heap_Model Value_Proofs Value_Proofs2 Value_Props Heap_Spec Heap_Proofs Heap_Proofs2 List_Proofs Env_Proofs
  GC_Model Eq_Model Eq_Spec Eq_Props Sym_Model Sym_Props Flat_Model Flat_Spec Flat_Proofs Flat_Proofs2 Flat_Proofs3 QQ_Model Tok_Model Print_Spec
  Read_Model Read_Spec Read_Proofs Read_Proofs2.
From Verif Require Tok_Props.
Import List.
Local Open Scope Z_scope.

Section Arch.
Context {A : Arch} {L : Libc}.

(* ---- values that are no markers of the reader ---- *)
Lemma plain_neq v i : tokenizer_symbol v = false -> TOKENIZER_SYMBOLS_START <= i <= TOKENIZER_SYMBOLS_END -> (v =? enc_sym i) = false.
Proof.
  intros T R. apply Z.eqb_neq. intros ->. rewrite tokenizer_sym in T; unfold TOKENIZER_SYMBOLS_START, TOKENIZER_SYMBOLS_END in *; lia.
Qed.
Lemma plain_close v : tokenizer_symbol v = false -> (v =? CLOSEPAR) = false.
Proof. intros T. apply plain_neq; auto. unfold SYM_CLOSEPAR, TOKENIZER_SYMBOLS_START, TOKENIZER_SYMBOLS_END. lia. Qed.
Lemma plain_dot v : tokenizer_symbol v = false -> (v =? DOT) = false.
Proof. intros T. apply plain_neq; auto. unfold SYM_DOT, TOKENIZER_SYMBOLS_START, TOKENIZER_SYMBOLS_END. lia. Qed.
Lemma close_type : (type_of CLOSEPAR =? TYPE_SYMBOL) = true.
Proof. unfold CLOSEPAR. arch; reflexivity. Qed.
Lemma dot_type : (type_of DOT =? TYPE_SYMBOL) = true.
Proof. unfold DOT. arch; reflexivity. Qed.
Lemma dot_not_close : (DOT =? CLOSEPAR) = false.
Proof. unfold DOT, CLOSEPAR. arch; reflexivity. Qed.
Lemma nil_not_cons : (type_of NIL =? TYPE_CONS) = false.
Proof. rewrite NIL_0. exact type_zero. Qed.

Lemma codes_chars str : Sym_Model.chars str = codes str.
Proof.
  induction str as [|a str IH]; [reflexivity|]. cbn [Sym_Model.chars]. rewrite IH. unfold codes. cbn [list_ascii_of_string List.map]. f_equal. unfold Ascii.nat_of_ascii. apply N_nat_Z.
Qed.
Lemma special_known b s str i : inv b s -> In (str, i) special_symbols -> get_symbol_by_name s (codes str) = Ok (Some i).
Proof.
  intros I H. assert (S : sentry (codes str) i) by (exists str; split; [exact H|apply codes_chars]). destruct (sentry_ok _ _ S) as (N&_).
  rewrite (lookup_total _ _ _ I N). f_equal. apply (symbol_entry _ _ _ _ I N). left. auto.
Qed.
Lemma special_built c m y u fl str i : wf c m y u fl -> In (str, i) special_symbols -> 0 <= i < TOKENIZER_SYMBOLS_START \/ TOKENIZER_SYMBOLS_END < i < 2 ^ 28 ->
  built (Sy (codes str)) c m y u u fl fl (enc_sym i).
Proof.
  intros Wf I R. destruct (w_sym _ _ _ _ _ Wf) as (b&Iv&_).
  assert (R' : 0 <= i < 2 ^ 28) by (unfold TOKENIZER_SYMBOLS_START, TOKENIZER_SYMBOLS_END in R; lia). constructor; auto.
  - apply grows_refl.
  - apply incl_refl.
  - apply kept_refl.
  - exists (Leaf KSym i). split; [constructor; eapply special_known; eauto|]. intros X _. apply den_sym; auto.
  - rewrite tokenizer_sym by auto. lia.
Qed.

(* ---- byte arrays ---- *)
(* two states with the same memory but for the block [a] *)
Definition mem_at (a : Z) (o : obj) (u u' : ust) : Prop :=
  exists m', u' = set_h u (set_mem (uh u) m') /\ m' a = Some o /\ forall x, x <> a -> m' x = mem (uh u) x.
Lemma set_obj_mem_at u a o : mem_at a o u (set_h u (set_obj (uh u) a (Some o))).
Proof. eexists. split; [reflexivity|]. split; [rewrite Z.eqb_refl; auto|]. intros x N. destruct (Z.eqb_spec x a); congruence. Qed.
Lemma mem_at_trans a o1 o2 u u1 u2 : mem_at a o1 u u1 -> mem_at a o2 u1 u2 -> mem_at a o2 u u2.
Proof.
  intros (m1&->&M1&O1) (m2&->&M2&O2). exists m2. split; [reflexivity|]. split; auto. intros x N. rewrite O2 by auto. cbn. auto.
Qed.

Lemma bytes_built bs c m y u fl i fl' a blk h1 q u1 u' d : wf c m y u fl -> fl = i :: fl' ->
  NoDup (a :: blk) -> Forall (fun x => x <> 0 /\ mem (uh u) x = None) (a :: blk) ->
  heap_ok h1 fl' -> cell h1 i = Some (a, q) -> same_but [i] (uh u) h1 -> ccells h1 = ccells (uh u) -> mem h1 = mem (uh u) -> 0 <= i < 2 ^ (W - 8) ->
  uh u1 = h1 -> us u1 = us u -> uk u1 = uk u -> mem_at a (OByte d bs) u1 u' ->
  forall c' m', (c' <= List.length fl')%nat -> (exists blk' rest, up u1 = blk' ++ rest /\ (m' <= List.length blk')%nat /\ incl blk' blk /\ NoDup blk') ->
  built (By bs) c' m' y u u' fl fl' (set_ptr_type (enc_cons_ptr i) TYPE_ARRAY).
Proof.
  intros Wf -> ND F OK C Sb Cc M R E1 E2 E3 (mm&->&Ma&Mo) c' m' Lc (blk'&rest&Up&Lm&Ib&Nb).
  destruct (tagged_facts i TYPE_ARRAY R good_array) as (P&I&K&T&NM).
  assert (NI : ~ In i fl') by (pose proof (ok_nodup _ _ (w_heap _ _ _ _ _ Wf)) as X; inversion X; auto).
  assert (NA : ~ In a blk) by (inversion ND; auto).
  assert (MG : forall x o, mem (uh u) x = Some o -> mm x = Some o).
  { intros x o Mx. rewrite Mo. - rewrite E1, M. auto. - intros ->. inversion F as [|? ? (_&X) _]; subst. congruence. }
  constructor.
  - destruct Wf as [W1 W2 W3 W4 W5]. constructor; cbn [uh up us uk set_h].
    + destruct OK as [S1 S2 S3 S4]. rewrite E1. constructor; auto. eapply chain_frame; eauto.
    + auto.
    + exists blk', rest. split; [auto|split; [auto|split; [auto|]]]. apply Forall_forall. intros x X. inversion F as [|? ? _ F']; subst.
      rewrite Forall_forall in F'. destruct (F' x (Ib _ X)) as (N0&M0). split; auto. cbn. rewrite Mo; [|intros ->; auto]. rewrite M. auto.
    + rewrite E3. auto.
    + rewrite E2. auto.
  - split; [|split]; cbn [uh set_h].
    + intros j J. change (cell (set_mem (uh u1) mm) j) with (cell (uh u1) j). rewrite E1. apply Sb. intros [->|[]]. apply J. left; auto.
    + cbn. rewrite E1. auto.
    + exact MG.
  - intros x X. right; auto.
  - cbn [us set_h]. rewrite E2. apply kept_refl.
  - exists (Bytes bs). split; [constructor|]. intros X OX. eapply den_bytes with (p := a) (q := q) (x := d); auto.
    + intros _ _ H. rewrite I in H. apply in_app_or in H. destruct H as [H|H]; [|auto]. exact (OX _ H (or_introl eq_refl)).
    + rewrite ref_cell_rw, I by auto. cbn [uh set_h]. change (cell (set_mem (uh u1) mm) i) with (cell (uh u1) i). rewrite E1, C. reflexivity.
  - apply tokenizer_ptr. auto.
Qed.

(* an allocated array: the cell, the header block *)
Lemma ref_array h i a q : 0 <= i < 2 ^ (W - 8) -> cell h i = Some (a, q) -> ref_cell h (set_ptr_type (enc_cons_ptr i) TYPE_ARRAY) = Ok (a, q).
Proof. intros R C. destruct (tagged_facts i TYPE_ARRAY R good_array) as (P&I&K&T&NM). rewrite ref_cell_rw, I, C by auto. reflexivity. Qed.

Lemma wf_two c m y u fl : wf (S c) (S (S m)) y u fl -> exists i fl' a d blk rest, fl = i :: fl' /\ (c <= List.length fl')%nat /\
  up u = a :: d :: blk ++ rest /\ NoDup (a :: d :: blk) /\ Forall (fun x => x <> 0 /\ mem (uh u) x = None) (a :: d :: blk) /\ (m <= List.length blk)%nat.
Proof.
  intros [W1 W2 (blk&rest&W3&W4&W5&W6) _ _]. destruct fl as [|i fl]; [cbn in W2; lia|]. destruct blk as [|a [|d blk]]; cbn in W4; try lia.
  exists i, fl, a, d, blk, rest. cbn in W2. repeat split; auto; lia.
Qed.

Lemma nodup_skip (a d : Z) blk : NoDup (a :: d :: blk) -> NoDup (a :: blk) /\ NoDup blk.
Proof.
  intros ND. inversion ND as [|? ? N1 N2]; subst. inversion N2; subst. split; auto. constructor; auto. intros X. apply N1. right; auto.
Qed.
Lemma forall_skip (P : Z -> Prop) a d blk : Forall P (a :: d :: blk) -> Forall P (a :: blk).
Proof. intros F. inversion F as [|? ? X1 X2]; subst. inversion X2; subst. constructor; auto. Qed.

Lemma read_string_ok c m y u fl str K : wf (c + cells (By (str ++ [0]))) (m + blocks (By (str ++ [0]))) y u fl ->
  exists u' fl' v, (forall rest fr K0 r, read_string (mkR u rest false false fr K0 r) K str = Ok (RGo (mkR u' rest false false fr K v))) /\
    built (By (str ++ [0])) c m y u u' fl fl' v.
Proof.
  intros Wf. replace (c + cells (By (str ++ [0%Z])))%nat with (S c) in Wf by (cbn; lia).
  replace (m + blocks (By (str ++ [0%Z])))%nat with (S (S m)) in Wf by (destruct str; cbn; lia).
  destruct (wf_two _ _ _ _ _ Wf) as (i&fl'&a&d&blk&rest&->&Lc&Up&ND&F&Lm).
  inversion F as [|? ? (NA&_) F']; subst. inversion F' as [|? ? (Nd&_) _]; subst.
  destruct (alloc_array_ok u true (Z.of_nat (List.length str) + 1) i fl' a d (blk ++ rest)) as (h1&q&E&OK&C&S1&Cc&M&R); auto; try lia; try discriminate.
  { apply Wf. }
  cbv zeta in E. change (array_ty true) with TYPE_ARRAY in E. destruct (tagged_facts i TYPE_ARRAY R good_array) as (P&I&Kc&T&NM).
  set (v := set_ptr_type (enc_cons_ptr i) TYPE_ARRAY) in *. set (u1 := mkU (set_obj h1 a (Some (OByte d (repeat 0 (Z.to_nat (Z.of_nat (List.length str) + 1)))))) (blk ++ rest) (us u) (uk u)) in E.
  exists (set_h u1 (set_obj (uh u1) a (Some (OByte d (str ++ [0]))))), fl', v. split.
  - intros. unfold read_string. cbn [ru]. rewrite E. cbn [bind]. rewrite P. unfold set_bytes.
    assert (RC : ref_cell (uh u1) v = Ok (a, q)) by (apply ref_array; auto). rewrite RC. cbn [bind fst].
    replace (mem (uh u1) a) with (Some (OByte d (repeat 0 (Z.to_nat (Z.of_nat (List.length str) + 1))))) by (cbn; rewrite Z.eqb_refl; auto).
    cbn [bind]. reflexivity.
  - apply (bytes_built (str ++ [0]) (Datatypes.S c) (Datatypes.S (Datatypes.S m)) y u (i :: fl') i fl' a blk h1 q (mkU h1 (blk ++ rest) (us u) (uk u)) _ d); auto.
    + apply (nodup_skip a d blk ND).
    + apply (forall_skip _ a d blk F).
    + apply mem_at_trans with (o1 := OByte d (repeat 0 (Z.to_nat (Z.of_nat (List.length str) + 1)))) (u1 := u1); apply (set_obj_mem_at (mkU _ _ _ _)) || apply set_obj_mem_at.
    + exists blk, rest. cbn [up]. split; [auto|split; [auto|split; [apply incl_refl|]]]. apply (nodup_skip a d blk ND).
Qed.

Lemma empty_array_ok c m y u fl K : wf (c + cells (By [])) (m + blocks (By [])) y u fl ->
  exists u' fl' v, (forall s, ru s = u -> value_or_error s K (alloc_array u true 0) = Ok (RGo (set_k (set_u s u') K v))) /\ built (By []) c m y u u' fl fl' v.
Proof.
  intros Wf. cbn [cells blocks] in Wf. destruct (w_mem _ _ _ _ _ Wf) as (blk&rest&Up&Lm&ND&F). pose proof (w_cells _ _ _ _ _ Wf) as Lc.
  destruct fl as [|i fl]; [cbn in Lc; lia|]. destruct blk as [|a blk]; [cbn in Lm; lia|]. inversion F as [|? ? (NA&Ma) F']; subst.
  destruct (alloc_cell_ok (uh u) i fl TYPE_ARRAY a (enc_sym SYM_ARRAY_TYPE) (w_heap _ _ _ _ _ Wf) (good_ptr_tag _ good_array)) as (h1&E&OK&C&S1&Sz&Cc&M&_&_&R&_).
  assert (R8 : 0 <= i < 2 ^ (W - 8)) by (pose proof (ok_size _ _ (w_heap _ _ _ _ _ Wf)); lia).
  destruct (tagged_facts i TYPE_ARRAY R8 good_array) as (P&I&Kc&T&NM). cbn in Lc, Lm.
  exists (mkU (set_obj h1 a (Some (OByte 0 []))) (blk ++ rest) (us u) (uk u)), fl, (set_ptr_type (enc_cons_ptr i) TYPE_ARRAY). split.
  - intros s Es. unfold alloc_array, malloc. rewrite Up. cbn [app up]. destruct (Z.eqb_spec a 0); [congruence|]. change (0 >? 0) with false. cbn [andb]. cbv iota. cbn [uh].
    unfold value_or_error. rewrite E. cbn [bind]. rewrite merror_neq by auto. cbn [bind]. rewrite merror_neq by auto. reflexivity.
  - apply (bytes_built [] (c + 1)%nat (m + 1)%nat y u (i :: fl) i fl a blk h1 (enc_sym SYM_ARRAY_TYPE) (mkU h1 (blk ++ rest) (us u) (uk u)) _ 0); auto; try lia.
    + apply (set_obj_mem_at (mkU h1 (blk ++ rest) (us u) (uk u))).
    + exists blk, rest. cbn [up]. split; [auto|split; [lia|split; [apply incl_refl|]]]. inversion ND; auto.
Qed.

Lemma number_facts k n h : k = KI \/ k = KU \/ k = KChar -> in_range k n ->
  is_number (imm k n) = true /\ (imm k n =? CLOSEBRACK) = false /\ exists b, dec_as_u32 h (imm k n) = Ok b /\ wrap 8 b = n mod 256.
Proof.
  intros H R. pose proof (enc_kinds n) as (T1&T2&T3&T4&P1&P2&P3&P4&_).
  assert (NP : is_ptr (imm k n) = false) by (destruct H as [->|[->| ->]]; auto).
  assert (TY : type_of (imm k n) = kind_tag k) by (destruct H as [->|[->| ->]]; auto).
  assert (NN : is_number (imm k n) = true).
  { revert NP TY. unfold is_number, is_ptr, type_of. intros NP. destruct (Z.land (imm k n) PTR_BIT =? 0) eqn:E; [|discriminate].
    intros TY. destruct (Z.eqb_spec (Z.land (imm k n) VAL_TYPE_MASK) 0) as [Z0|]; auto. exfalso.
    destruct H as [->|[->| ->]]; rewrite Z0 in TY; revert TY; clear; arch; discriminate. }
  assert (NC : imm k n <> CLOSEBRACK).
  { intros X. rewrite X in TY. destruct H as [->|[->| ->]]; revert TY; unfold CLOSEBRACK; clear; arch; discriminate. }
  split; [auto|split; [apply Z.eqb_neq; auto|]]. unfold dec_as_u32. rewrite functional_nonptr, TY by auto.
  assert (MM : forall x, wrap 8 (wrap 32 x) = x mod 256).
  { intros x. unfold wrap. change (2 ^ 32) with (256 * 2 ^ 24). change (2 ^ 8) with 256.
    rewrite Z.rem_mul_r by lia. rewrite Z.mul_comm, Z.mod_add by lia. apply Z.mod_mod. lia. }
  destruct H as [->|[->| ->]]; cbn [in_range] in R; cbn [kind_tag imm].
  - replace (TYPE_I =? TYPE_CHAR) with false by (arch; reflexivity). rewrite Z.eqb_refl. eexists. split; [reflexivity|]. rewrite enc_i_roundtrip by auto. apply MM.
  - replace (TYPE_U =? TYPE_CHAR) with false by (arch; reflexivity). replace (TYPE_U =? TYPE_I) with false by (arch; reflexivity). rewrite Z.eqb_refl.
    eexists. split; [reflexivity|]. rewrite enc_u_roundtrip, Z.mod_small by auto. apply MM.
  - rewrite Z.eqb_refl. eexists. split; [reflexivity|]. rewrite enc_char_roundtrip by auto. reflexivity.
Qed.

Lemma brack_facts : is_number CLOSEBRACK = false /\ is_symbol CLOSEBRACK = true.
Proof. unfold CLOSEBRACK. arch; split; reflexivity. Qed.

Lemma firstn_upd {T} (l : list T) n x : (n < List.length l)%nat -> firstn (S n) (upd l n x) = firstn n l ++ [x].
Proof.
  revert n. induction l as [|a l IH]; intros n Ln; cbn in Ln; [lia|]. destruct n as [|n]; [reflexivity|].
  cbn [upd firstn app]. f_equal. apply IH. lia.
Qed.

(* storing an item *)
Lemma store_ok v i a q d bs0 size ix u x k n rest K : k = KI \/ k = KU \/ k = KChar -> in_range k n ->
  v = set_ptr_type (enc_cons_ptr i) TYPE_ARRAY -> 0 <= i < 2 ^ (W - 8) ->
  cell (uh u) i = Some (a, q) -> mem (uh u) a = Some (OByte d bs0) -> (ix < List.length bs0)%nat -> Z.of_nat ix < size - 1 -> x = imm k n ->
  exists u' bs1, goes u rest (FArray v size (Z.of_nat ix) :: K) x u' rest (FNext :: FArray v size (Z.of_nat (S ix)) :: K) x /\
    mem_at a (OByte d bs1) u u' /\ List.length bs1 = List.length bs0 /\ firstn (S ix) bs1 = firstn ix bs0 ++ [n mod 256].
Proof.
  intros H R -> Ri C Ma Lx Ls ->. destruct (number_facts k n (uh u) H R) as (NN&_&b&Db&Eb).
  exists (set_h u (set_obj (uh u) a (Some (OByte d (upd bs0 ix (n mod 256)))))), (upd bs0 ix (n mod 256)).
  split; [|split; [apply set_obj_mem_at|split; [apply length_upd|apply firstn_upd; auto]]].
  apply goes_step. intros f fr. exists fr. split; [auto|]. unfold rstep. cbn [rk]. unfold read_append_array. cbn [rr ru].
  destruct (Z.geb_spec (Z.of_nat ix) (size - 1)); [lia|]. rewrite NN, Db. cbn [bind]. unfold set_bytes. rewrite (ref_array _ _ _ _ Ri C). cbn [bind fst].
  rewrite Ma, wr_ok by lia. rewrite Nat2Z.id, Eb. cbn [bind]. unfold set_k, set_u. cbn. do 5 f_equal. f_equal; lia.
Qed.

Lemma array_nonempty s bs : array_text s bs -> s <> [].
Proof.
  induction 1 as [b B|b s k n rest0 bs B N H E T IH]; intros X; apply app_eq_nil in X; destruct X as (_&X); [discriminate|].
  apply app_eq_nil in X. tauto.
Qed.
Lemma array_ends rest0 rest bs : array_text rest0 bs -> ends rest0 -> ends (rest0 ++ rest).
Proof. intros T E. pose proof (array_nonempty _ _ T). destruct rest0; [congruence|exact E]. Qed.

Lemma array_run s bs : array_text s bs -> forall v i a q d bs0 size ix u rest K r, v = set_ptr_type (enc_cons_ptr i) TYPE_ARRAY -> 0 <= i < 2 ^ (W - 8) ->
  cell (uh u) i = Some (a, q) -> mem (uh u) a = Some (OByte d bs0) -> (ix + List.length bs < List.length bs0)%nat -> Z.of_nat (ix + List.length bs) < size - 1 ->
  exists u', goes u (s ++ rest) (FNext :: FArray v size (Z.of_nat ix) :: K) r u' rest K v /\ mem_at a (OByte d (firstn ix bs0 ++ bs)) u u'.
Proof.
  induction 1 as [b B|b s k n rest0 bs B N H E T IH]; intros v i a q d bs0 size ix u rest K r Ev Ri C Ma L1 L2.
  - exists (set_h u (set_obj (uh u) a (Some (OByte d (firstn ix bs0))))). rewrite app_nil_r. split; [|apply set_obj_mem_at].
    rewrite <- app_assoc. eapply goes_trans.
    { apply (syntax_goes b 93 4 rest u _ _ _ CLOSEBRACK B); [cbn; tauto|]. intros s0 _. reflexivity. }
    apply goes_step. intros f fr. exists fr. split; [auto|]. unfold rstep. cbn [rk]. unfold read_append_array. cbn [rr ru]. cbn [List.length] in L2.
    destruct (Z.geb_spec (Z.of_nat ix) (size - 1)); [lia|]. destruct brack_facts as (BF1&BF2). rewrite BF1, BF2, Z.eqb_refl. cbn [andb].
    unfold set_bytes. subst v. rewrite (ref_array _ _ _ _ Ri C). cbn [bind fst]. rewrite Ma, Nat2Z.id. reflexivity.
  - assert (E' : ends (rest0 ++ rest)) by eauto using array_ends.
    destruct (integer_token s k n (rest0 ++ rest) N E') as (neg&val&Tk&En&Rg&_&St). cbn [List.length] in L1, L2.
    destruct (store_ok v i a q d bs0 size ix u (imm k n) k n (rest0 ++ rest) K) as (u1&bs1&G1&M1&Lb&Fb); auto; try lia.
    destruct M1 as (m1&->&Ma1&Mo1).
    destruct (IH v i a q d bs1 size (S ix) (set_h u (set_mem (uh u) m1)) rest K (imm k n)) as (u2&G2&M2); auto; try lia.
    exists u2. split.
    + rewrite <- !app_assoc. eapply goes_trans; [|eapply goes_trans; [exact G1|exact G2]].
      eapply token_goes; eauto. intros fr. cbn [read_token]. rewrite (read_int_imm k neg val n) by auto. reflexivity.
    + replace (firstn ix bs0 ++ n mod 256 :: bs) with (firstn (S ix) bs1 ++ bs) by (rewrite Fb, <- app_assoc; reflexivity).
      eapply mem_at_trans; [|exact M2]. exists m1. split; [reflexivity|]. split; [exact Ma1|exact Mo1].
Qed.

Lemma array_goes s bs c m y u fl b rest K r : array_text s bs -> (forall u, Z.of_nat (List.length bs) + 2 <= array_room u) -> blank b ->
  wf (c + cells (By bs)) (m + blocks (By bs)) y u fl ->
  exists u' fl' v, goes u (b ++ (codes "[" ++ s) ++ rest) (FNext :: K) r u' rest K v /\ built (By bs) c m y u u' fl fl' v.
Proof.
  intros T Rm B Wf.
  assert (ST : goes u (b ++ (codes "[" ++ s) ++ rest) (FNext :: K) r u (s ++ rest) (FNext :: FStartArray :: K) (enc_sym SYM_OPENBRACK)).
  { apply (syntax_goes b 91 3 (s ++ rest) u K r _ _ B); [cbn; tauto|]. intros s0 _. reflexivity. }
  inversion T as [b0 B0 E0|b0 s0 k n rest0 bs0 B0 N H E T0 E0]; subst.
  - destruct (empty_array_ok c m y u fl K Wf) as (u'&fl'&v&G&Bu). exists u', fl', v. split; auto. eapply goes_trans; [exact ST|].
    rewrite <- app_assoc. eapply goes_trans.
    { apply (syntax_goes b0 93 4 rest u _ _ (FStartArray :: K) CLOSEBRACK B0); [cbn; tauto|]. intros s0 _. reflexivity. }
    apply goes_step. intros f fr. exists fr. split; [auto|]. unfold rstep. cbn [rk]. unfold read_start_array. cbn [rr ru]. rewrite Z.eqb_refl. rewrite G by reflexivity. reflexivity.
  - assert (E' : ends (rest0 ++ rest)) by eauto using array_ends.
    destruct (integer_token s0 k n (rest0 ++ rest) N E') as (neg&val&Tk&En&Rg&_&St).
    replace (c + cells (By ((n mod 256)%Z :: bs0)))%nat with (S c) in Wf by (cbn; lia).
    replace (m + blocks (By ((n mod 256)%Z :: bs0)))%nat with (S (S m)) in Wf by (cbn; lia).
    destruct (wf_two _ _ _ _ _ Wf) as (i&fl'&a&d&blk&rest1&->&Lc&Up&ND&F&Lm).
    assert (NA : a <> 0) by (inversion F as [|? ? (X&_) _]; exact X). assert (Nd : d <> 0) by (inversion F as [|? ? _ F']; inversion F' as [|? ? (X&_) _]; exact X).
    pose proof (Rm u) as Ru. cbn [List.length] in Ru.
    destruct (alloc_array_ok u true (array_room u) i fl' a d (blk ++ rest1)) as (h1&q&EA&OK&C&S1&Cc&M&R); auto; try lia; try discriminate.
    { apply Wf. }
    cbv zeta in EA. change (array_ty true) with TYPE_ARRAY in EA. destruct (tagged_facts i TYPE_ARRAY R good_array) as (P&I&Kc&Ty&NM).
    set (v := set_ptr_type (enc_cons_ptr i) TYPE_ARRAY) in *. set (u1 := mkU (set_obj h1 a (Some (OByte d (repeat 0 (Z.to_nat (array_room u)))))) (blk ++ rest1) (us u) (uk u)) in EA.
    destruct (store_ok v i a q d (repeat 0 (Z.to_nat (array_room u))) (array_room u) 0 u1 (imm k n) k n (rest0 ++ rest) K) as (u2&bs1&G1&M1&Lb&Fb); auto; try lia.
    { cbn. rewrite Z.eqb_refl. auto. } { rewrite repeat_length. lia. }
    pose proof M1 as (m1&Eu2&Ma1&Mo1).
    destruct (array_run rest0 bs0 T0 v i a q d bs1 (array_room u) 1%nat u2 rest K (imm k n)) as (u3&G2&M2); auto.
    { rewrite Eu2. exact C. } { rewrite Eu2. exact Ma1. } { rewrite Lb, repeat_length. lia. } { lia. }
    exists u3, fl', v. split.
    + eapply goes_trans; [exact ST|]. rewrite <- !app_assoc. eapply goes_trans.
      { eapply token_goes with (u' := u) (K' := FStartArray :: K) (r' := imm k n); eauto. intros fr. cbn [read_token]. rewrite (read_int_imm k neg val n) by auto. reflexivity. }
      eapply goes_trans; [|eapply goes_trans; [exact G1|exact G2]].
      apply goes_step. intros f fr. exists fr. split; [auto|]. unfold rstep. cbn [rk]. unfold read_start_array. cbn [rr ru].
      destruct (number_facts k n (uh u) H Rg) as (NN&NC&_). rewrite NC, NN. destruct (Z.eqb_spec (array_room u) 0); [lia|].
      rewrite EA. cbn [bind]. rewrite merror_neq by auto. reflexivity.
    + apply (bytes_built (n mod 256 :: bs0) (S c) (S (S m)) y u (i :: fl') i fl' a blk h1 q (mkU h1 (blk ++ rest1) (us u) (uk u)) _ d); auto.
      * apply (nodup_skip a d blk ND).
      * apply (forall_skip _ a d blk F).
      * rewrite Fb in M2. cbn [firstn app] in M2.
        apply mem_at_trans with (o1 := OByte d (repeat 0 (Z.to_nat (array_room u)))) (u1 := u1); [apply (set_obj_mem_at (mkU h1 (blk ++ rest1) (us u) (uk u)))|].
        eapply mem_at_trans; eauto.
      * exists blk, rest1. cbn [up]. split; [auto|split; [auto|split; [apply incl_refl|]]]. apply (nodup_skip a d blk ND).
Qed.

End Arch.
