(* Arguments of the array extensions, and their loops over bytes. *)
From Verif Require Import Base Value_Model Heap_Model Value_Proofs Value_Proofs2 Value_Props Heap_Spec Heap_Proofs GC_Model Eq_Model Eq_Spec
  Flat_Model Flat_Spec Flat_Proofs Flat_Proofs2 Read_Model ArrExt_Model ArrExt_Spec.
Local Open Scope Z_scope.

(* compute the arguments *)
Ltac args := repeat match goal with |- context [arg ?l ?i] =>
  let r := eval cbv [arg rd Z.ltb Z.compare Z.to_nat nth_error Pos.to_nat Pos.iter_op Nat.add] in (arg l i) in change (arg l i) with r; cbn [bind] end.
Ltac count := cbn [length Z.of_nat Pos.of_succ_nat Pos.succ Z.eqb Pos.eqb orb andb Z.leb Z.compare Pos.compare Pos.compare_cont].

Section Arch.
Context {A : Arch} {L : Libc} {C : Conv}.

(* ---- integers ---- *)
Lemma functional_cases v k : type_of_functional v = kind_tag k -> integer_kind k -> is_number v = true.
Proof.
  intros T (N1&N2&N3). unfold type_of_functional, is_number in *. destruct (Z.land v PTR_BIT =? 0) eqn:E.
  - destruct (Z.eqb_spec (Z.land v VAL_TYPE_MASK) 0) as [Z0|]; auto. rewrite Z0 in T. exfalso. revert T. destruct k; try congruence; clear; arch; discriminate.
  - set (M := Z.land (wnot PTR_TO_CONSTANT_BIT) PTR_TYPE_MASK) in *.
    assert (X : Z.land v NUMBER_MASK = Z.land (kind_tag k) NUMBER_MASK).
    { rewrite <- T, <- Z.land_assoc. f_equal. unfold M. clear. arch; reflexivity. }
    assert (Y : Z.land (kind_tag k) M = kind_tag k) by (rewrite <- T, <- Z.land_assoc, Z.land_diag; auto).
    rewrite X. unfold M in Y. revert Y. destruct k; try congruence; clear; arch; solve [reflexivity|discriminate].
Qed.

Lemma wrap_sgn_le w n : 32 <= w -> wrap 32 (sgn w n) = wrap 32 n.
Proof.
  intros H. destruct (sgn_spec w n ltac:(lia)) as (_&k&->). unfold wrap. replace (2 ^ w) with (2 ^ (w - 32) * 2 ^ 32).
  - rewrite Z.mul_assoc. apply Z.mod_add. lia.
  - rewrite <- Z.pow_add_r by lia. f_equal. lia.
Qed.
Lemma wrap_wrap_le w n : 32 <= w -> wrap 32 (wrap w n) = wrap 32 n.
Proof.
  intros H. unfold wrap. replace (2 ^ w) with (2 ^ 32 * 2 ^ (w - 32)).
  - rewrite Z.rem_mul_r by (try apply Z.pow_pos_nonneg; try apply Z.pow_nonzero; lia). rewrite Z.mul_comm, Z.mod_add, Z.mod_mod by lia. auto.
  - rewrite <- Z.pow_add_r by lia. f_equal. lia.
Qed.
Lemma sgn_cong w x y : wrap w x = wrap w y -> sgn w x = sgn w y.
Proof. unfold wrap, sgn. cbv zeta. intros ->. auto. Qed.

Lemma integer_arg fl h v n : integer fl h v n ->
  is_number v = true /\ dec_as_u32 h v = Ok (wrap 32 n) /\ dec_as_i32 h v = Ok (sgn 32 n).
Proof.
  intros (k&IK&D). inversion D as [v' k' n' Hd Sy T R| | |]; subst. split; [eapply functional_cases; eauto|].
  unfold dec_as_u32, dec_as_i32. rewrite T. destruct IK as (N1&N2&N3).
  assert (CH : 0 <= dec_char v < 256) by (unfold dec_char, wrap; apply Z.mod_pos_bound; lia).
  destruct k; try congruence; cbn [kind_tag reads] in *.
  - subst n. rewrite Z.eqb_refl. split; f_equal; symmetry.
    + apply wrap_small. lia.
    + unfold sgn. rewrite Z.mod_small by lia. destruct (Z.ltb_spec (dec_char v) (2 ^ (32 - 1))); lia.
  - subst n. replace (TYPE_I =? TYPE_CHAR) with false by (arch; reflexivity). rewrite Z.eqb_refl. auto.
  - subst n. replace (TYPE_U =? TYPE_CHAR) with false by (arch; reflexivity). replace (TYPE_U =? TYPE_I) with false by (arch; reflexivity). rewrite Z.eqb_refl. auto.
  - destruct R as (x&P&->). rewrite P.
    replace (TYPE_I32 =? TYPE_CHAR) with false by (arch; reflexivity). replace (TYPE_I32 =? TYPE_I) with false by (arch; reflexivity).
    replace (TYPE_I32 =? TYPE_U) with false by (arch; reflexivity). rewrite Z.eqb_refl. cbn [orb bind].
    split; f_equal; [symmetry; apply wrap_sgn_le; lia|apply sgn_cong; symmetry; apply wrap_sgn_le; lia].
  - destruct R as (x&P&->). rewrite P.
    replace (TYPE_U32 =? TYPE_CHAR) with false by (arch; reflexivity). replace (TYPE_U32 =? TYPE_I) with false by (arch; reflexivity).
    replace (TYPE_U32 =? TYPE_U) with false by (arch; reflexivity). rewrite Z.eqb_refl, orb_true_r. cbn [bind].
    split; f_equal; [symmetry; apply wrap_wrap_le; lia|apply sgn_cong; symmetry; apply wrap_wrap_le; lia].
  - destruct R as (x&P&->). rewrite P.
    replace (TYPE_I64 =? TYPE_CHAR) with false by (arch; reflexivity). replace (TYPE_I64 =? TYPE_I) with false by (arch; reflexivity).
    replace (TYPE_I64 =? TYPE_U) with false by (arch; reflexivity). replace (TYPE_I64 =? TYPE_I32) with false by (arch; reflexivity).
    replace (TYPE_I64 =? TYPE_U32) with false by (arch; reflexivity). replace (TYPE_I64 =? TYPE_FLOAT) with false by (arch; reflexivity).
    rewrite Z.eqb_refl. cbn [orb bind].
    split; f_equal; [symmetry; apply wrap_sgn_le; lia|apply sgn_cong; symmetry; apply wrap_sgn_le; lia].
  - destruct R as (x&P&->). rewrite P.
    replace (TYPE_U64 =? TYPE_CHAR) with false by (arch; reflexivity). replace (TYPE_U64 =? TYPE_I) with false by (arch; reflexivity).
    replace (TYPE_U64 =? TYPE_U) with false by (arch; reflexivity). replace (TYPE_U64 =? TYPE_I32) with false by (arch; reflexivity).
    replace (TYPE_U64 =? TYPE_U32) with false by (arch; reflexivity). replace (TYPE_U64 =? TYPE_FLOAT) with false by (arch; reflexivity).
    rewrite Z.eqb_refl, orb_true_r. cbn [orb bind].
    split; f_equal; [symmetry; apply wrap_wrap_le; lia|apply sgn_cong; symmetry; apply wrap_wrap_le; lia].
Qed.

Lemma endian_arg fl h little v t be : den fl h v t -> (be = false <-> t = Leaf KSym little) -> endian little v = be.
Proof.
  intros D E. unfold endian.
  assert (Z0 : type_of v = TYPE_SYMBOL -> type_of_functional v = 0).
  { unfold type_of, type_of_functional, TYPE_SYMBOL. destruct (Z.land v PTR_BIT =? 0); auto. intros X. rewrite Z.land_comm, <- Z.land_assoc, (Z.land_comm _ v), X. apply Z.land_0_r. }
  inversion D as [v' k' n' Hd Sy T R|v' a d ta td P Hd T R|v' p q bs x P Hd T R M|v' p q x size elts ix ts P Hd T]; subst.
  2-4: destruct (Z.eqb_spec (type_of v) TYPE_SYMBOL) as [X|]; [rewrite (Z0 X) in T; exfalso; revert T; clear; arch; discriminate|];
    cbn [andb negb]; destruct be; auto; discriminate (proj1 E eq_refl).
  destruct (Z.eqb_spec (type_of v) TYPE_SYMBOL) as [X|X].
  - assert (k' = KSym) as -> by (rewrite (Z0 X) in T; destruct k'; auto; exfalso; revert T; clear; arch; discriminate).
    cbn [reads] in R. subst n'. cbn [andb]. destruct (Z.eqb_spec (dec_sym v) little) as [Q|Q]; destruct be; auto.
    + rewrite Q in E. discriminate (proj2 E eq_refl).
    + exfalso. apply Q. injection (proj1 E eq_refl). auto.
  - cbn [andb negb]. destruct be; auto. injection (proj1 E eq_refl) as -> ->. exfalso. apply X.
    specialize (Sy eq_refl). revert Sy. unfold is_symbol, type_of, TYPE_SYMBOL. intros Sy. apply Z.eqb_eq in Sy.
    replace (Z.land v PTR_BIT) with (Z.land (Z.land v LOW_RESERVED_BITS) PTR_BIT) by (rewrite <- Z.land_assoc; f_equal; clear; arch; reflexivity).
    rewrite Sy, Z.land_0_l. cbn. replace (Z.land v VAL_TYPE_MASK) with (Z.land (Z.land v LOW_RESERVED_BITS) VAL_TYPE_MASK) by (rewrite <- Z.land_assoc; f_equal; clear; arch; reflexivity).
    rewrite Sy. apply Z.land_0_l.
Qed.

(* ---- arrays ---- *)
Lemma array_facts fl h v bs : no_null h -> den fl h v (Bytes bs) -> exists p d q, ref_cell h v = Ok (p, q) /\ mem h p = Some (OByte d bs) /\
  is_array_r h v = Ok true /\ array_of h v = Ok (p, d, bs) /\ (is_const_ptr v = false -> is_array_rw h v = Ok true) /\ (is_const_ptr v = true -> is_array_rw h v = Ok false).
Proof.
  intros NN D. inversion D as [| |v' p q bs' d P Hd T R M|]; subst. exists p, d, q. split; [auto|]. split; [auto|].
  assert (V : array_valid h v = Ok true).
  { unfold array_valid, car. rewrite P, R. cbn [bind fst]. unfold is_symbol_nil. destruct (Z.eqb_spec p 0) as [->|]; auto. unfold no_null in NN. congruence. }
  rewrite functional_ptr in T by auto. unfold is_array_r, is_array_rw, array_of. rewrite T, Z.eqb_refl. split; [auto|]. split.
  { unfold car. rewrite P, R. cbn [bind fst]. rewrite M. auto. }
  split; intros K; rewrite K.
  - replace (type_of v =? TYPE_ARRAY) with true; auto. symmetry. apply Z.eqb_eq. rewrite <- T.
    unfold is_const_ptr in K. apply negb_false_iff, Z.eqb_eq in K. revert P K. unfold is_ptr, type_of. destruct (Z.land v PTR_BIT =? 0); [discriminate|]. intros _ K.
    replace PTR_TYPE_MASK with (Z.lor (Z.land PTR_TYPE_MASK (wnot PTR_TO_CONSTANT_BIT)) PTR_TO_CONSTANT_BIT) at 1 by (clear; arch; reflexivity).
    rewrite Z.land_lor_distr_r, K, Z.lor_0_r. apply Z.land_assoc.
  - rewrite andb_false_r. auto.
Qed.

Lemma rewritten_put fl u v bs bs' p q d : writable fl (uh u) v bs -> ref_cell (uh u) v = Ok (p, q) -> mem (uh u) p = Some (OByte d bs) ->
  rewritten fl (uh u) v bs' (uh (put_array u p d bs')).
Proof.
  intros (D&K) R M. inversion D as [| |v' p' q' bs0 d' P Hd T R' M'|]; subst. rewrite R in R'. injection R' as <- <-. split.
  - split; auto. apply (den_bytes fl _ v p q bs' d); auto. cbn. rewrite Z.eqb_refl. auto.
  - eexists. split; [reflexivity|]. intros x N. cbn beta. destruct (Z.eqb_spec x p) as [->|]; auto. exfalso. eapply N; eauto.
Qed.

(* ---- storing ---- *)
Lemma wr_app (pre l : list Z) o x : 0 <= o < Z.of_nat (length l) ->
  wr (pre ++ l) (Z.of_nat (length pre) + o) x = Ok (pre ++ upd l (Z.to_nat o) x).
Proof.
  intros H. rewrite wr_ok by (rewrite app_length; lia). f_equal. rewrite upd_app_r by lia. do 2 f_equal. lia.
Qed.
Lemma rd_app (pre l : list Z) o : 0 <= o < Z.of_nat (length l) -> rd (pre ++ l) (Z.of_nat (length pre) + o) = Ok (nth (Z.to_nat o) l 0).
Proof.
  intros H. rewrite (rd_ok _ _ 0) by (rewrite app_length; lia). f_equal. rewrite app_nth2 by lia. f_equal. lia.
Qed.

Lemma W_big : 2 ^ 32 <= 2 ^ W.
Proof. arch; lia. Qed.

Lemma split_at (bs : list Z) i n : (i + n <= length bs)%nat -> exists pre mid post, bs = pre ++ mid ++ post /\ length pre = i /\ length mid = n.
Proof.
  intros H. exists (firstn i bs), (firstn n (skipn i bs)), (skipn n (skipn i bs)).
  rewrite !firstn_skipn. split; [auto|]. split; [apply firstn_length_le; lia|]. apply firstn_length_le. rewrite skipn_length. lia.
Qed.
Lemma put_at_split pre mid post new : length mid = length new -> put_at (length pre) new (pre ++ mid ++ post) = pre ++ new ++ post.
Proof.
  intros E. unfold put_at. rewrite firstn_app, Nat.sub_diag, firstn_all, firstn_O, app_nil_r. do 2 f_equal.
  rewrite <- E, <- app_length, app_assoc, skipn_app, Nat.sub_diag, skipn_all. reflexivity.
Qed.
Lemma slice_split pre mid post n : length mid = n -> slice (length pre) n (pre ++ mid ++ post) = mid.
Proof.
  intros <-. unfold slice. rewrite skipn_app, skipn_all, Nat.sub_diag. cbn [app skipn]. rewrite firstn_app, Nat.sub_diag, firstn_all, firstn_O. apply app_nil_r.
Qed.

Lemma byte_eq x j : 0 <= j -> byte x (8 * j) = (x / 256 ^ j) mod 256.
Proof. intros H. unfold byte, wrap. rewrite Z.shiftr_div_pow2 by lia. rewrite Z.pow_mul_r by lia. reflexivity. Qed.

Ltac nats := change (Z.to_nat 0) with 0%nat; change (Z.to_nat 1) with 1%nat; change (Z.to_nat 2) with 2%nat; change (Z.to_nat 3) with 3%nat.

Lemma append_bytes_ok bs be i n x : (1 <= n <= 4)%nat -> (i + n <= length bs)%nat -> Z.of_nat (length bs) <= 2 ^ W ->
  buffer_append_bytes bs be (Z.of_nat i) (Z.of_nat n) x = Ok (Some (put_at i (order be (bytes n x)) bs)).
Proof.
  intros N I S. unfold buffer_append_bytes. rewrite wrap_small by lia.
  destruct (Z.ltb_spec (Z.of_nat i + (Z.of_nat n - 1)) (Z.of_nat (length bs))); [|lia].
  destruct (split_at bs i n I) as (pre&mid&post&->&Lp&Lm). subst i. rewrite !app_length in S.
  assert (LB : length (order be (bytes n x)) = n) by (destruct be; cbn [order]; rewrite ?rev_length; apply length_bytes).
  rewrite put_at_split by congruence.
  assert (B0 : byte x 0 = (x / 256 ^ 0) mod 256) by (apply (byte_eq x 0); lia).
  assert (B1 : byte x 8 = (x / 256 ^ 1) mod 256) by (apply (byte_eq x 1); lia).
  assert (B2 : byte x 16 = (x / 256 ^ 2) mod 256) by (apply (byte_eq x 2); lia).
  assert (B3 : byte x 24 = (x / 256 ^ 3) mod 256) by (apply (byte_eq x 3); lia).
  assert (N4 : n = 1%nat \/ n = 2%nat \/ n = 3%nat \/ n = 4%nat) by lia.
  destruct N4 as [->|[->|[->| ->]]];
    (destruct mid as [|m0 mid]; [discriminate|]); cbn [length] in Lm;
    repeat (destruct mid as [|? mid]; cbn [length] in Lm; [try discriminate|try discriminate]);
    destruct be; cbn [Z.of_nat Pos.of_succ_nat Pos.succ stores Z.eqb Pos.eqb store_all order bytes rev app] in *;
    repeat (rewrite wrap_small by (cbn [length] in S; lia); rewrite wr_app by (cbn [length]; rewrite ?app_length; cbn [length]; lia); cbn [bind]; nats; cbn [upd]);
    rewrite ?B0, ?B1, ?B2, ?B3; reflexivity.
Qed.

Lemma append_bytes_none bs be i n x : (1 <= n)%nat -> (length bs < i + n)%nat -> Z.of_nat (i + n) <= 2 ^ W ->
  buffer_append_bytes bs be (Z.of_nat i) (Z.of_nat n) x = Ok None.
Proof.
  intros N I S. unfold buffer_append_bytes. rewrite wrap_small by lia.
  destruct (Z.ltb_spec (Z.of_nat i + (Z.of_nat n - 1)) (Z.of_nat (length bs))); [lia|]. auto.
Qed.
Lemma bytes_cong n x y : (n <= 4)%nat -> wrap 32 x = wrap 32 y -> bytes n x = bytes n y.
Proof. intros N E. rewrite <- (bytes_mod n 4 x), <- (bytes_mod n 4 y) by auto. unfold wrap in E. change (256 ^ Z.of_nat 4) with (2 ^ 32). rewrite E. auto. Qed.

(* ---- loading ---- *)
Lemma lor_up b r k : 0 <= k -> 0 <= b < 256 -> Z.lor (Z.shiftl b k) (Z.shiftl r (k + 8)) = Z.shiftl (r * 256 + b) k.
Proof.
  intros K B. replace (Z.shiftl r (k + 8)) with (Z.shiftl (r * 2 ^ 8) k).
  - rewrite <- Z.shiftl_lor, Z.lor_comm, lor_add by lia. reflexivity.
  - rewrite !Z.shiftl_mul_pow2, Z.pow_add_r by lia. lia.
Qed.

Lemma get_uint_ok bs be i n : (1 <= n <= 4)%nat -> (i + n <= length bs)%nat -> Z.of_nat (length bs) <= 2 ^ W -> Forall (fun b => 0 <= b < 256) bs ->
  buffer_get_uint bs be (Z.of_nat i) (Z.of_nat n) = Ok (Some (number (order be (slice i n bs)))).
Proof.
  intros N I S B. unfold buffer_get_uint. rewrite wrap_small by lia.
  destruct (Z.ltb_spec (Z.of_nat i + (Z.of_nat n - 1)) (Z.of_nat (length bs))); [|lia].
  destruct (split_at bs i n I) as (pre&mid&post&->&Lp&Lm). subst i. rewrite !app_length in S. rewrite slice_split by auto.
  apply Forall_app in B. destruct B as (_&B). apply Forall_app in B. destruct B as (B&_).
  assert (N4 : n = 1%nat \/ n = 2%nat \/ n = 3%nat \/ n = 4%nat) by lia.
  destruct N4 as [->|[->|[->| ->]]];
    (destruct mid as [|m0 mid]; [discriminate|]); cbn [length] in Lm;
    repeat (destruct mid as [|? mid]; cbn [length] in Lm; [try discriminate|try discriminate]);
    repeat (apply Forall_cons_iff in B; destruct B as (? & B));
    destruct be; cbn [Z.of_nat Pos.of_succ_nat Pos.succ stores Z.eqb Pos.eqb load_all order rev app] in *;
    repeat (rewrite wrap_small by (cbn [length] in S; lia); rewrite rd_app by (cbn [length]; rewrite ?app_length; cbn [length]; lia); cbn [bind]; nats; cbn [nth]);
    rewrite Z.lor_0_r; repeat (rewrite lor_up by lia); rewrite Z.shiftl_0_r; unfold number; cbn [fold_left]; do 2 f_equal; lia.
Qed.
Lemma get_uint_none bs be i n : (1 <= n)%nat -> (length bs < i + n)%nat -> Z.of_nat (i + n) <= 2 ^ W ->
  buffer_get_uint bs be (Z.of_nat i) (Z.of_nat n) = Ok None.
Proof.
  intros N I S. unfold buffer_get_uint. rewrite wrap_small by lia.
  destruct (Z.ltb_spec (Z.of_nat i + (Z.of_nat n - 1)) (Z.of_nat (length bs))); [lia|]. auto.
Qed.

Lemma number_range l : Forall (fun b => 0 <= b < 256) l -> 0 <= number l < 256 ^ Z.of_nat (length l).
Proof.
  intros H. unfold number. assert (G : forall l a j, Forall (fun b => 0 <= b < 256) l -> 0 <= a < 256 ^ Z.of_nat j -> 0 <= fold_left (fun a b => a * 256 + b) l a < 256 ^ Z.of_nat (length l + j)).
  { clear. induction l as [|b l IH]; intros a j F R; [auto|]. inversion F; subst. cbn [fold_left length]. replace (S (length l) + j)%nat with (length l + S j)%nat by lia. apply IH; auto.
    rewrite Nat2Z.inj_succ, Z.pow_succ_r by lia. nia. }
  rewrite <- (Nat.add_0_r (length l)) at 1. apply G; auto. cbn. lia.
Qed.
Lemma number_bytes n x : number (bytes n x) = x mod 256 ^ Z.of_nat n.
Proof.
  assert (P : forall l a, fold_left (fun a b => a * 256 + b) l a = a * 256 ^ Z.of_nat (length l) + number l).
  { clear. induction l as [|b l IH]; intros a; unfold number; [cbn; lia|]. cbn [fold_left length]. rewrite IH. rewrite (IH (0 * 256 + b)). rewrite Nat2Z.inj_succ, Z.pow_succ_r by lia. lia. }
  induction n as [|n IH]; [cbn; rewrite Z.mod_1_r; auto|]. unfold number. cbn [bytes fold_left]. rewrite P, length_bytes, IH.
  rewrite Nat2Z.inj_succ, Z.pow_succ_r by lia. rewrite (Z.mul_comm 256), Z.rem_mul_r by (try apply Z.pow_nonzero; lia). lia.
Qed.

(* ---- encoding ---- *)
Lemma den_int fl h n : -2 ^ (payload A - 1) <= n < 2 ^ (payload A - 1) -> den fl h (enc_i n) (Leaf KI n).
Proof.
  intros R. pose proof (enc_kinds n) as (T1&T2&T3&T4&P1&P2&P3&P4&_). constructor.
  - intros X. congruence.
  - discriminate.
  - rewrite functional_nonptr by auto. auto.
  - cbn. symmetry. apply enc_i_roundtrip. auto.
Qed.
Lemma payload_big : 28 <= payload A.
Proof. destruct A; vm_compute; discriminate. Qed.
End Arch.
