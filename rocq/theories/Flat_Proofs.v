(* Flattening: size and bytes written. *)
From Verif Require Import Base Value_Model Heap_Model Value_Proofs Value_Proofs2 Value_Props Heap_Spec Heap_Proofs List_Proofs
  GC_Model Eq_Model Eq_Spec Eq_Props Set_Props Sym_Model Flat_Model Flat_Spec.
Local Open Scope Z_scope.

(* ---- bytes ---- *)
Lemma length_bytes k n : length (bytes k n) = k.
Proof. induction k; simpl; auto. Qed.

Lemma byte_at_div w k : 0 <= k -> byte_at w k = (w / 2 ^ k) mod 256.
Proof. intros. unfold byte_at, wrap. rewrite Z.shiftr_div_pow2 by auto. reflexivity. Qed.

Lemma word4_bytes n : word4 n = bytes 4 n.
Proof. unfold word4, map. rewrite !byte_at_div by lia. reflexivity. Qed.
Lemma word8_bytes n : word8 n = bytes 8 n.
Proof. unfold word8, map. rewrite !byte_at_div by lia. reflexivity. Qed.

Lemma byte_mod n i j : 0 <= i -> i < j -> (n mod 256 ^ j / 256 ^ i) mod 256 = (n / 256 ^ i) mod 256.
Proof.
  intros I J. assert (P : 0 < 256 ^ i) by (apply Z.pow_pos_nonneg; lia).
  replace (256 ^ j) with (256 ^ i * (256 * 256 ^ (j - i - 1))).
  2:{ rewrite <- Z.pow_succ_r, <- Z.pow_add_r by lia. f_equal. lia. }
  set (M := 256 ^ (j - i - 1)). assert (0 < M) by (apply Z.pow_pos_nonneg; lia).
  rewrite Z.rem_mul_r by lia. rewrite (Z.mul_comm (256 ^ i) ((n / 256 ^ i) mod _)), Z.div_add, Z.div_small, Z.add_0_l by (try apply Z.mod_pos_bound; lia).
  rewrite Z.rem_mul_r by lia. rewrite (Z.mul_comm 256), Z.mod_add, Z.mod_mod by lia. reflexivity.
Qed.

Lemma bytes_mod k j n : (k <= j)%nat -> bytes k (n mod 256 ^ Z.of_nat j) = bytes k n.
Proof.
  intros L. induction k; simpl; auto. rewrite IHk by lia. f_equal. apply byte_mod; lia.
Qed.
Lemma bytes4_wrap n : bytes 4 (wrap 32 n) = bytes 4 n.
Proof. apply (bytes_mod 4 4). lia. Qed.
Lemma bytes8_wrap n : bytes 8 (wrap 64 n) = bytes 8 n.
Proof. apply (bytes_mod 8 8). lia. Qed.
Lemma wrap_sgn w n : 0 < w -> wrap w (sgn w n) = wrap w n.
Proof. intros. destruct (sgn_spec w n H) as (_&k&->). unfold wrap. apply Z.mod_add. lia. Qed.

(* ---- writing ---- *)
Lemma store_bytes_ok bs : forall pre old post, length old = length bs ->
  store_bytes (pre ++ old ++ post) (Z.of_nat (length pre)) bs = Ok (pre ++ bs ++ post).
Proof.
  induction bs as [|x bs IH]; intros pre old post L; destruct old as [|o old]; try discriminate L; auto.
  cbn [store_bytes]. rewrite wr_ok by (rewrite !app_length; simpl; lia). cbn [bind]. rewrite Nat2Z.id.
  cbn [app]. rewrite upd_mid. replace (pre ++ x :: old ++ post) with ((pre ++ [x]) ++ old ++ post) by (rewrite <- app_assoc; reflexivity).
  replace (Z.of_nat (length pre) + 1) with (Z.of_nat (length (pre ++ [x]))) by (rewrite app_length; simpl; lia).
  rewrite IH by (simpl in L; lia). rewrite <- app_assoc. reflexivity.
Qed.

Definition at_pos (pre rest : list Z) : fv := mkF (pre ++ rest) (Z.of_nat (length pre)).

Lemma at_pos_app pre a b : mkF (pre ++ a ++ b) (Z.of_nat (length pre) + Z.of_nat (length a)) = at_pos (pre ++ a) b.
Proof. unfold at_pos. rewrite app_length, <- app_assoc. f_equal. lia. Qed.

Lemma put_ok pre old post bs : length old = length bs ->
  put (at_pos pre (old ++ post)) bs = Ok (true, at_pos (pre ++ bs) post).
Proof.
  intros L. unfold put, blen, at_pos at 1 2. cbn [buf pos].
  destruct (Z.geb_spec (Z.of_nat (length (pre ++ old ++ post))) (Z.of_nat (length pre) + Z.of_nat (length bs))) as [_|N].
  2:{ rewrite !app_length in N. lia. }
  unfold at_pos at 1. cbn [buf pos]. rewrite store_bytes_ok by auto. cbn [bind]. cbn [pos at_pos]. rewrite at_pos_app. reflexivity.
Qed.

Lemma split_len {T} (l : list T) n : (n <= length l)%nat -> exists a b, l = a ++ b /\ length a = n.
Proof. intros. exists (firstn n l), (skipn n l). rewrite firstn_skipn, firstn_length. split; auto. lia. Qed.

Lemma f_tag_ok pre old post tag bs : length old = S (length bs) ->
  f_tag (at_pos pre (old ++ post)) tag bs = Ok (true, at_pos (pre ++ tag :: bs) post).
Proof.
  intros L. destruct old as [|o old]; [discriminate L|]. unfold f_tag. change (o :: old) with ([o] ++ old).
  rewrite <- app_assoc, put_ok by auto. cbn [bind]. rewrite put_ok by (simpl in L; lia). rewrite <- app_assoc. reflexivity.
Qed.

Lemma f_lbm_array_ok pre old post num bs : length old = (5 + length bs)%nat ->
  f_lbm_array (at_pos pre (old ++ post)) num bs = Ok (true, at_pos (pre ++ 13 :: bytes 4 num ++ bs) post).
Proof.
  intros L. destruct (split_len old 5) as (o1&o2&->&L1); [lia|]. destruct o1 as [|x o1]; [discriminate L1|].
  rewrite app_length in L. unfold f_lbm_array. change (x :: o1) with ([x] ++ o1). rewrite <- !app_assoc, put_ok by auto. cbn [bind].
  rewrite word4_bytes, put_ok by (rewrite length_bytes; simpl in *; lia). cbn [bind].
  rewrite put_ok by (simpl in *; lia). rewrite <- !app_assoc. reflexivity.
Qed.

Section Arch.
Context {A : Arch}.

Lemma ser_pos nm t : (1 <= length (ser nm t))%nat.
Proof. destruct t as [k n| | |]; [destruct k|..]; simpl; arch; simpl; lia. Qed.

(* ---- types ---- *)
Lemma functional_ptr v : is_ptr v = true -> type_of_functional v = Z.land (type_of v) (wnot PTR_TO_CONSTANT_BIT).
Proof.
  unfold is_ptr, type_of_functional, type_of. destruct (Z.land v PTR_BIT =? 0); [discriminate|]. intros _.
  rewrite (Z.land_comm (wnot _)), Z.land_assoc. reflexivity.
Qed.
Lemma functional_nonptr v : is_ptr v = false -> type_of_functional v = type_of v.
Proof. unfold is_ptr, type_of_functional, type_of. destruct (Z.land v PTR_BIT =? 0); [auto|discriminate]. Qed.

Definition ptr_tags : list Z :=
  [TYPE_CONS; TYPE_LISPARRAY; TYPE_CHAR; TYPE_U; TYPE_I; TYPE_U32; TYPE_I32; TYPE_U64; TYPE_I64; TYPE_FLOAT; TYPE_DOUBLE; TYPE_ARRAY].

Definition chk (k : Z) : bool :=
  let T := k * 2 ^ (W - 6) in
  implb (existsb (Z.eqb (Z.land T (wnot PTR_TO_CONSTANT_BIT))) ptr_tags) ((POINTER_TYPE_FIRST <=? T) && (T <? POINTER_TYPE_LAST)).
End Arch.

Section Arch.
Context {A : Arch}.

Lemma chk_all : forallb chk (map Z.of_nat (seq 0 64)) = true.
Proof. destruct A; vm_compute; reflexivity. Qed.

Lemma flat_type_ptr v : is_ptr v = true -> In (type_of_functional v) ptr_tags -> flat_type v = type_of_functional v.
Proof.
  intros P I. rewrite functional_ptr in * by auto. unfold flat_type.
  assert (E : exists k, 0 <= k < 64 /\ type_of v = k * 2 ^ (W - 6)).
  { unfold type_of. unfold is_ptr in P. destruct (Z.land v PTR_BIT =? 0); [discriminate|].
    exists (v / 2 ^ (W - 6) mod 2 ^ 6). split; [apply Z.mod_pos_bound; lia|].
    rewrite <- land_field by (arch; lia). arch; reflexivity. }
  destruct E as (k&R&E). rewrite E in *.
  pose proof chk_all as C.
  rewrite forallb_forall in C. specialize (C k). unfold chk in C. cbv zeta in C.
  assert (X : existsb (Z.eqb (Z.land (k * 2 ^ (W - 6)) (wnot PTR_TO_CONSTANT_BIT))) ptr_tags = true).
  { apply existsb_exists. eexists. split; [exact I|]. apply Z.eqb_refl. }
  rewrite X in C. cbn [implb] in C. rewrite C; auto.
  apply in_map_iff. exists (Z.to_nat k). split; [lia|]. apply in_seq. lia.
Qed.

Lemma flat_type_nonptr v : is_ptr v = false -> flat_type v = type_of_functional v.
Proof.
  intros P. rewrite functional_nonptr by auto. unfold flat_type.
  pose proof (val_type_mask_small v). rewrite (type_of_nonptr _ P). destruct (Z.leb_spec POINTER_TYPE_FIRST (Z.land v VAL_TYPE_MASK)); auto.
  exfalso. clear -H H0. revert H H0. arch; lia.
Qed.

Lemma flat_type_den fl h v t : den fl h v t -> flat_type v = type_of_functional v.
Proof.
  intros D. destruct (is_ptr v) eqn:P; [|apply flat_type_nonptr; auto]. apply flat_type_ptr; auto.
  inversion D as [v0 k n _ Sy T|v0 a d ta td _ _ T|v0 p q bs x _ _ T|v0 p q x size elts ix ts _ _ T]; subst; rewrite T; simpl; auto 20.
  destruct k; simpl; auto 20. rewrite is_symbol_not_ptr in P by auto. discriminate.
Qed.


(* ---- the writer ---- *)
Definition named_in (s : syms) (nm : Z -> name) (n : Z) : Prop :=
  get_name_by_symbol s n = Ok (Some (nm n)).

(* decide the comparisons of type tags *)
Ltac tagdec := repeat match goal with
  | |- context [?a =? ?b] =>
    first [replace (a =? b) with false by (clear; destruct A; reflexivity)
          |replace (a =? b) with true by (clear; destruct A; reflexivity)]
  end; cbn [orb].

Lemma flatten_leaf n0 s nm h f v k n fl pre old post : den fl h v (Leaf k n) -> flat_ok (named_in s nm) (Leaf k n) ->
  f = at_pos pre (old ++ post) -> length old = length (ser nm (Leaf k n)) ->
  flatten_c (S n0) s h f v = Ok (F_OK, at_pos (pre ++ ser nm (Leaf k n)) post).
Proof.
  intros D FO -> L. pose proof (flat_type_den _ _ _ _ D) as FT. inversion D as [v0 k0 m Hd Sy T Rd| | |]; subst. clear D.
  inversion FO as [k1 n1 R Nm| | |]; subst. rewrite T in FT. clear T.
  assert (G : forall r pre', r = Ok (true, at_pos pre' post) -> (let! r := r in Ok (code r)) = Ok (F_OK, at_pos pre' post)).
  { intros r pre' ->. reflexivity. }
  cbn [flatten_c]. rewrite FT. clear FT. cbv zeta.
  destruct k; cbn [reads] in Rd; cbn [ser] in L |- *; cbv [kind_tag]; tagdec.
  - subst n. unfold named_in in Nm. rewrite Nm by auto. cbn [bind f_sym_string]. apply G. apply f_tag_ok. exact L.
  - subst n. apply G. apply f_tag_ok. exact L.
  - subst n. apply G. unfold f_i. destruct b64; rewrite ?word8_bytes, ?bytes8_wrap, ?word4_bytes, ?bytes4_wrap; apply f_tag_ok; exact L.
  - subst n. apply G. unfold f_u. destruct b64; rewrite ?word8_bytes, ?bytes8_wrap, ?word4_bytes, ?bytes4_wrap; apply f_tag_ok; exact L.
  - destruct Rd as (x&E&->). rewrite E. cbn [bind]. apply G. unfold f_i32. rewrite word4_bytes, bytes4_wrap. apply f_tag_ok; exact L.
  - destruct Rd as (x&E&->). rewrite E. cbn [bind]. apply G. unfold f_u32. rewrite word4_bytes. apply f_tag_ok; exact L.
  - destruct Rd as (x&E&->). rewrite E. cbn [bind]. apply G. unfold f_i64. rewrite word8_bytes, bytes8_wrap. apply f_tag_ok; exact L.
  - destruct Rd as (x&E&->). rewrite E. cbn [bind]. apply G. unfold f_u64. rewrite word8_bytes. apply f_tag_ok; exact L.
  - destruct Rd as [Rd _]. rewrite Rd. cbn [bind]. apply G. unfold f_float. rewrite word4_bytes. apply f_tag_ok; exact L.
  - destruct Rd as [Rd _]. rewrite Rd. cbn [bind]. apply G. unfold f_double. rewrite word8_bytes. apply f_tag_ok; exact L.
Qed.

Lemma flatten_elts_ok (rec : fv -> Z -> res (Z * fv)) nm : forall ts es done pre old post,
  Forall2 (fun e t => forall pre old post, length old = length (ser nm t) ->
     rec (at_pos pre (old ++ post)) e = Ok (F_OK, at_pos (pre ++ ser nm t) post)) es ts ->
  length old = length (flat_map (ser nm) ts) ->
  flatten_elts rec (length ts) (Z.of_nat (length done)) (done ++ es) (at_pos pre (old ++ post)) =
    Ok (F_OK, at_pos (pre ++ flat_map (ser nm) ts) post).
Proof.
  induction ts as [|t ts IH]; intros es done pre old post F L; inversion F as [|e t' es' ts' H1 H2]; subst; cbn [length flatten_elts flat_map].
  - destruct old; [|discriminate L]. rewrite app_nil_r. reflexivity.
  - cbn [flat_map] in L. rewrite app_length in L. destruct (split_len old (length (ser nm t))) as (o1&o2&->&L1); [lia|].
    rewrite app_length in L. rewrite (rd_nth _ _ e) by (try lia; rewrite Nat2Z.id, nth_error_app2, Nat.sub_diag by lia; reflexivity).
    cbn [bind]. rewrite <- app_assoc, H1 by auto. cbn [bind]. cbn [Z.eqb F_OK].
    change (F_OK =? F_OK) with true. cbv iota.
    replace (done ++ e :: es') with ((done ++ [e]) ++ es') by (rewrite <- app_assoc; reflexivity).
    replace (Z.of_nat (length done) + 1) with (Z.of_nat (length (done ++ [e]))) by (rewrite app_length; simpl; lia).
    rewrite (IH es' (done ++ [e])) by (auto; lia). rewrite <- app_assoc. reflexivity.
Qed.

Lemma WB_pos : 0 < WB. Proof. arch; lia. Qed.

(* addresses of memory blocks are not NULL *)
Definition no_null (h : heap) : Prop := mem h 0 = None.

Lemma flatten_ok s nm fl h : no_null h -> forall t v fuel pre old post, den fl h v t -> flat_ok (named_in s nm) t ->
  (depth t <= fuel)%nat -> length old = length (ser nm t) ->
  flatten_c fuel s h (at_pos pre (old ++ post)) v = Ok (F_OK, at_pos (pre ++ ser nm t) post).
Proof.
  intros N0. induction t as [k n|a d IHa IHd|bs|ts IH] using tree_rec_depth; intros v fuel pre old post D FO DP L;
    (destruct fuel as [|fuel]; [simpl in DP; lia|]).
  - eapply flatten_leaf; eauto.
  - pose proof (flat_type_den _ _ _ _ D) as FT. inversion D as [|v0 x y ta td P Hd T Rc Da Dd| |]; subst.
    inversion FO; subst. cbn [flatten_c]. rewrite FT, T. cbv zeta. tagdec. cbn [ser] in L |- *. destruct old as [|o old]; [discriminate L|].
    unfold f_cons. change (o :: old) with ([o] ++ old). rewrite <- app_assoc, put_ok by auto. cbn [bind].
    rewrite (car_ptr _ _ _ _ P Rc), (cdr_ptr _ _ _ _ P Rc). cbn [bind].
    simpl in L. injection L as L. rewrite app_length in L. destruct (split_len old (length (ser nm a))) as (o1&o2&->&L1); [lia|].
    rewrite app_length in L. cbn [depth] in DP. rewrite <- app_assoc, IHa by (auto; lia). cbn [bind]. change (F_OK =? F_OK) with true. cbv iota.
    rewrite IHd by (auto; lia). rewrite <- !app_assoc. reflexivity.
  - pose proof (flat_type_den _ _ _ _ D) as FT. inversion D as [| |v0 p q bs0 x P Hd T Rc M|]; subst.
    inversion FO as [| |bs0 NE FB|]; subst. cbn [flatten_c]. rewrite FT, T. cbv zeta. tagdec. cbn [ser] in L |- *.
    unfold byte_array. rewrite (car_ptr _ _ _ _ P Rc). cbn [bind]. unfold is_symbol_nil.
    destruct (Z.eqb_spec p 0) as [->|_]; [unfold no_null in N0; congruence|]. rewrite M. cbn [bind].
    destruct (Z.gtb_spec (Z.of_nat (length bs)) 0) as [_|X]; [|destruct bs; [congruence|simpl in X; lia]].
    rewrite f_lbm_array_ok by (rewrite L; simpl; rewrite ?app_length, ?length_bytes; simpl; lia). rewrite bytes4_wrap. reflexivity.
  - pose proof (flat_type_den _ _ _ _ D) as FT. inversion D as [| | |v0 p q x size elts ix ts0 P Hd T Rc M SZ F2]; subst.
    inversion FO as [| | |ts0 NE FB]; subst. cbn [flatten_c]. rewrite FT, T. cbv zeta. tagdec. cbn [ser] in L |- *.
    rewrite (car_ptr _ _ _ _ P Rc). cbn [bind]. rewrite M. pose proof WB_pos as WP. rewrite Z.div_mul by lia.
    simpl in L. destruct (split_len old 5) as (o1&o2&->&L1); [lia|]. rewrite !app_length in L. unfold f_lisp_array.
    rewrite <- app_assoc, f_tag_ok by (rewrite L1; reflexivity). cbn [bind]. rewrite word4_bytes, bytes4_wrap, Nat2Z.id.
    rewrite (Forall2_length _ _ _ F2).
    change S_LBM_LISP_ARRAY with 31. change 0 with (Z.of_nat (length (@nil Z))) at 1. change elts with ([] ++ elts) at 1.
    rewrite (flatten_elts_ok (flatten_c fuel s h) nm ts elts []);[|..].
    + rewrite <- !app_assoc. reflexivity.
    + assert (DP' : Forall (fun t => (depth t <= fuel)%nat) ts).
      { apply Forall_forall. intros t I. pose proof (depth_in _ _ I). lia. }
      clear -F2 IH FB DP'. revert IH FB DP'. induction F2; intros IH FB DP'; constructor; inversion IH; subst; inversion FB; subst; inversion DP'; subst; auto.
    + simpl in L1. lia.
Qed.

(* ---- the size ---- *)
Lemma int_add_ok a b : 0 <= a -> 0 <= b -> a + b < 2 ^ 31 -> int_add a b = Ok (a + b).
Proof. intros. unfold int_add. destruct (Z.leb_spec (- 2 ^ 31) (a + b)); [|lia]. destruct (Z.ltb_spec (a + b) (2 ^ 31)); [|lia]. reflexivity. Qed.

Lemma sum_sizes_ok rec nm : forall ts es done acc, 0 <= acc ->
  Forall2 (fun e t => Z.of_nat (length (ser nm t)) < 2 ^ 31 -> rec e = Ok (Ret (Z.of_nat (length (ser nm t))))) es ts ->
  acc + Z.of_nat (length (flat_map (ser nm) ts)) < 2 ^ 31 ->
  sum_sizes rec (length ts) (Z.of_nat (length done)) (done ++ es) acc = Ok (Ret (acc + Z.of_nat (length (flat_map (ser nm) ts)))).
Proof.
  induction ts as [|t ts IH]; intros es done acc PA F B; inversion F as [|e t' es' ts' H1 H2]; subst; cbn [length sum_sizes flat_map].
  - rewrite Z.add_0_r. reflexivity.
  - cbn [flat_map] in B. rewrite app_length in B |- *.
    rewrite (rd_nth _ _ e) by (try lia; rewrite Nat2Z.id, nth_error_app2, Nat.sub_diag by lia; reflexivity). cbn [bind].
    rewrite H1 by lia. cbn [bind]. rewrite int_add_ok by lia. cbn [bind].
    replace (done ++ e :: es') with ((done ++ [e]) ++ es') by (rewrite <- app_assoc; reflexivity).
    replace (Z.of_nat (length done) + 1) with (Z.of_nat (length (done ++ [e]))) by (rewrite app_length; simpl; lia).
    rewrite IH by (auto; lia). do 2 f_equal. lia.
Qed.

Lemma size_ok s nm fl h maxd : no_null h -> forall t v fuel dep, den fl h v t -> flat_ok (named_in s nm) t ->
  (depth t <= fuel)%nat -> dep + Z.of_nat (depth t) <= maxd + 1 -> Z.of_nat (length (ser nm t)) < 2 ^ 31 ->
  size_internal fuel maxd s h v dep = Ok (Ret (Z.of_nat (length (ser nm t)))).
Proof.
  intros N0. induction t as [k n|a d IHa IHd|bs|ts IH] using tree_rec_depth; intros v fuel dep D FO DP DM B;
    pose proof (flat_type_den _ _ _ _ D) as FT; (destruct fuel as [|fuel]; [simpl in DP; lia|]); cbn [size_internal].
  - destruct (Z.gtb_spec dep maxd); [simpl in DM; lia|]. inversion D as [v0 k0 m Hd Sy T Rd| | |]; subst. rewrite FT, T. cbv zeta.
    inversion FO as [k1 n1 R Nm| | |]; subst.
    destruct k; cbv [kind_tag]; tagdec; cbn [ser length]; rewrite ?length_bytes; try reflexivity.
    + rewrite Sy by auto. cbn [reads] in Rd. subst n. unfold named_in in Nm. rewrite Nm by auto. cbn [bind].
      rewrite app_length. cbn [length]. apply f_equal. apply f_equal. lia.
    + destruct b64; reflexivity.
    + destruct b64; reflexivity.
  - cbn [depth] in DM, DP. destruct (Z.gtb_spec dep maxd); [lia|]. inversion D as [|v0 x y ta td P Hd T Rc Da Dd| |]; subst. rewrite FT, T. cbv zeta. tagdec.
    inversion FO; subst. rewrite (car_ptr _ _ _ _ P Rc), (cdr_ptr _ _ _ _ P Rc). cbn [bind]. cbn [ser length] in B |- *. rewrite app_length in B |- *.
    pose proof (ser_pos nm a). pose proof (ser_pos nm d).
    rewrite IHa by (auto; lia). cbn [bind]. destruct (Z.gtb_spec (Z.of_nat (length (ser nm a))) 0); [|lia].
    rewrite IHd by (auto; lia). cbn [bind]. destruct (Z.gtb_spec (Z.of_nat (length (ser nm d))) 0); [|lia].
    rewrite int_add_ok by lia. cbn [bind]. rewrite int_add_ok by lia. cbn [bind]. do 2 f_equal. lia.
  - destruct (Z.gtb_spec dep maxd); [simpl in DM; lia|]. inversion D as [| |v0 p q bs0 x P Hd T Rc M|]; subst.
    inversion FO as [| |bs0 NE FB|]; subst. rewrite FT, T. cbv zeta. tagdec. cbn [ser length] in B |- *. rewrite app_length, length_bytes in B |- *.
    unfold byte_array. rewrite (car_ptr _ _ _ _ P Rc). cbn [bind]. unfold is_symbol_nil.
    destruct (Z.eqb_spec p 0) as [->|_]; [unfold no_null in N0; congruence|]. rewrite M. cbn [bind].
    destruct (Z.gtb_spec (Z.of_nat (length bs)) 0) as [_|X]; [|destruct bs; [congruence|simpl in X; lia]].
    rewrite int_add_ok by lia. cbn [bind]. do 2 f_equal. lia.
  - destruct (Z.gtb_spec dep maxd); [cbn [depth] in DM; lia|]. inversion D as [| | |v0 p q x size elts ix ts0 P Hd T Rc M SZ F2]; subst.
    inversion FO as [| | |ts0 NE FB]; subst. rewrite FT, T. cbv zeta. tagdec. cbn [ser length] in B |- *. rewrite app_length, length_bytes in B |- *.
    rewrite (car_ptr _ _ _ _ P Rc). cbn [bind]. rewrite M. pose proof WB_pos as WP. rewrite Z.div_mul by lia. rewrite Nat2Z.id.
    rewrite (Forall2_length _ _ _ F2). change 0 with (Z.of_nat (length (@nil Z))). change elts with ([] ++ elts).
    rewrite sum_sizes_ok with (nm := nm).
    + do 2 f_equal. lia.
    + lia.
    + assert (DP' : Forall (fun t => (depth t <= fuel)%nat /\ dep + 1 + Z.of_nat (depth t) <= maxd + 1) ts).
      { apply Forall_forall. intros t I. pose proof (depth_in _ _ I). lia. }
      clear -F2 IH FB DP'. revert IH FB DP'. induction F2; intros IH FB DP'; constructor; inversion IH; subst; inversion FB; subst; inversion DP'; subst; auto.
      intros. apply H2; auto; tauto.
    + lia.
Qed.

Lemma value_size_ok s nm fl h maxd t v : no_null h -> den fl h v t -> flat_ok (named_in s nm) t ->
  Z.of_nat (depth t) <= maxd + 1 -> Z.of_nat (length (ser nm t)) < 2 ^ 31 ->
  value_size maxd s h v = Ok (Z.of_nat (length (ser nm t))).
Proof.
  intros. unfold value_size. erewrite size_ok; eauto; try lia. reflexivity.
Qed.

End Arch.
