(* C29-C32, C52: integer arithmetic, comparison and bitwise operations. *)
From Verif Require Import Base Value_Model Arith_Model.
Local Open Scope Z_scope.

(* ---- Specification ---- *)
Section Spec.
Context {A : Arch}.

(* bits of a value of the type: 28 or 56 for the tagged i and u *)
Definition bits (t : nty) : Z :=
  match t with TChar => 8 | TI | TU => if b64 then 56 else 28 | TI32 | TU32 => 32 | TI64 | TU64 => 64 end.
Definition signed (t : nty) : bool := match t with TI | TI32 | TI64 => true | _ => false end.
Definition in_range (t : nty) (x : Z) : Prop :=
  if signed t then - 2 ^ (bits t - 1) <= x < 2 ^ (bits t - 1) else 0 <= x < 2 ^ bits t.
Definition wf (n : num) : Prop := in_range (fst n) (snd n).

(* the ranks of the comment at fundamental.c 33-40 *)
Definition rank (t : nty) : Z :=
  match t with
  | TChar => 0
  | TI => if b64 then 3 else 1 | TU => if b64 then 4 else 2
  | TI32 => if b64 then 1 else 3 | TU32 => if b64 then 2 else 4
  | TI64 => 5 | TU64 => 6
  end.
(* the type of higher rank *)
Definition join (s t : nty) : nty := if rank s <? rank t then t else s.

(* [n] is [x] reduced to type [t] *)
Definition reduced (t : nty) (x : Z) (n : num) : Prop :=
  fst n = t /\ in_range t (snd n) /\ snd n mod 2 ^ bits t = x mod 2 ^ bits t.

(* both operands have a value of the promoted type *)
Definition fit (a b : num) : Prop :=
  in_range (join (fst a) (fst b)) (snd a) /\ in_range (join (fst a) (fst b)) (snd b).

(* Width of the C type in which the operation is done. *)
Definition cbits (t : nty) : Z :=
  match t with TChar => 32 | TI | TU => W | TI32 | TU32 => 32 | TI64 | TU64 => 64 end.

End Spec.

(* ---- Proofs ---- *)
Section Proofs.
Context {A : Arch}.
Lemma bits_pos t : 0 < bits t. Proof. unfold bits. destruct t, b64; lia. Qed.
Lemma cbits_bits t : bits t <= cbits t.
Proof. unfold bits, cbits, W, sel. destruct t, A; cbn; lia. Qed.
Lemma VS_bits : W - VAL_SHIFT = bits TI /\ W - VAL_SHIFT = bits TU.
Proof. unfold bits, W, VAL_SHIFT, sel. destruct A; cbn; lia. Qed.

Lemma sgn_range w x : 0 < w -> - 2 ^ (w - 1) <= sgn w x < 2 ^ (w - 1).
Proof.
  intros H. unfold sgn. cbv zeta.
  assert (P : 2 ^ w = 2 * 2 ^ (w - 1)) by (replace w with (1 + (w - 1)) at 1 by lia; rewrite Z.pow_add_r by lia; reflexivity).
  pose proof (Z.mod_pos_bound x (2 ^ w) ltac:(apply Z.pow_pos_nonneg; lia)).
  destruct (Z.ltb_spec (x mod 2 ^ w) (2 ^ (w - 1))); lia.
Qed.
Lemma sgn_cong w x : 0 < w -> sgn w x mod 2 ^ w = x mod 2 ^ w.
Proof.
  intros H. unfold sgn. cbv zeta. assert (2 ^ w <> 0) by (apply Z.pow_nonzero; lia).
  destruct (x mod 2 ^ w <? 2 ^ (w - 1)); [apply Z.mod_mod; auto|].
  replace (x mod 2 ^ w - 2 ^ w) with (x mod 2 ^ w + (-1) * 2 ^ w) by lia. rewrite Z.mod_add, Z.mod_mod; auto.
Qed.
Lemma sgn_id w x : 0 < w -> - 2 ^ (w - 1) <= x < 2 ^ (w - 1) -> sgn w x = x.
Proof.
  intros H R. pose proof (sgn_range w x H) as R2. pose proof (sgn_cong w x H) as C.
  assert (P : 2 ^ w = 2 * 2 ^ (w - 1)) by (replace w with (1 + (w - 1)) at 1 by lia; rewrite Z.pow_add_r by lia; reflexivity).
  set (y := sgn w x) in *. clearbody y. rewrite P in C. 
  assert (0 < 2 ^ (w - 1)) by (apply Z.pow_pos_nonneg; lia). set (M := 2 ^ (w - 1)) in *. clearbody M.
  pose proof (Z.div_mod y (2 * M) ltac:(lia)). pose proof (Z.div_mod x (2 * M) ltac:(lia)).
  assert (y - x = 2 * M * (y / (2 * M) - x / (2 * M))) by lia.
  assert (y / (2 * M) - x / (2 * M) = 0) by nia. nia.
Qed.
Lemma cong_le k w x y : 0 <= k <= w -> x mod 2 ^ w = y mod 2 ^ w -> x mod 2 ^ k = y mod 2 ^ k.
Proof.
  intros K E. assert (D : 2 ^ w = 2 ^ k * 2 ^ (w - k)) by (rewrite <- Z.pow_add_r by lia; f_equal; lia).
  assert (P : 0 < 2 ^ k) by (apply Z.pow_pos_nonneg; lia). assert (Q : 0 < 2 ^ (w - k)) by (apply Z.pow_pos_nonneg; lia).
  rewrite <- (Z.mod_mod x (2 ^ k)) by lia. 
  assert (L : forall z, (z mod 2 ^ w) mod 2 ^ k = z mod 2 ^ k).
  { intros z. rewrite D. rewrite Z.rem_mul_r by lia. rewrite (Z.mul_comm (2 ^ k)), Z.mod_add, Z.mod_mod by lia. auto. }
  rewrite <- (L x), <- (L y), E. rewrite Z.mod_mod by lia. auto.
Qed.
Lemma wrap_cong w x : 0 < w -> wrap w x mod 2 ^ w = x mod 2 ^ w.
Proof. intros. unfold wrap. apply Z.mod_mod, Z.pow_nonzero; lia. Qed.
Lemma wrap_range w x : 0 < w -> 0 <= wrap w x < 2 ^ w.
Proof. intros. unfold wrap. apply Z.mod_pos_bound, Z.pow_pos_nonneg; lia. Qed.

Lemma promote_join a b : promote a b = join (fst a) (fst b).
Proof. unfold promote, join. destruct (fst a), (fst b), A; reflexivity. Qed.
Lemma swap_join a b : exists x y, promote_swap a b = (join (fst a) (fst b), x, y) /\ fst x = join (fst a) (fst b) /\
  (x = a /\ y = b \/ x = b /\ y = a).
Proof.
  unfold promote_swap. change (tag (fst a) <? tag (fst b)) with (tag (fst a) <? tag (fst b)).
  pose proof (promote_join a b) as P. unfold promote in P. destruct (tag (fst a) <? tag (fst b)); rewrite <- P; eauto 10.
Qed.

(* encoding into type t *)
Definition enc (t : nty) (x : Z) : nres :=
  match t with TChar => e_char x | TI => e_i x | TU => e_u x | TI32 => e_i32 x | TU32 => e_u32 x | TI64 => e_i64 x | TU64 => e_u64 x end.
Lemma enc_reduced t x y : x mod 2 ^ bits t = y mod 2 ^ bits t -> exists n, enc t x = Num n /\ reduced t y n.
Proof.
  intros E. destruct VS_bits as [V1 V2]. pose proof (bits_pos t) as BP.
  destruct t; unfold enc, e_char, e_i, e_u, e_i32, e_u32, e_i64, e_u64; (eexists; split; [reflexivity|]); unfold reduced, in_range, signed; cbn [fst snd];
    rewrite ?V1, ?V2; (split; [reflexivity|]); rewrite <- E;
    (split; [first [apply sgn_range; exact BP|apply wrap_range; exact BP]|first [apply sgn_cong; exact BP|apply wrap_cong; exact BP]]).
Qed.

(* C value of an operand converted for an operation in type t *)
Definition conv (t : nty) (n : num) : Z :=
  match t with TChar => d_char n | TI => as_i n | TU => as_u n | TI32 => as_i32 n | TU32 => as_u32 n | TI64 => as_i64 n | TU64 => as_u64 n end.
Lemma conv_cong t n : conv t n mod 2 ^ bits t = snd n mod 2 ^ bits t.
Proof.
  unfold conv, d_char, as_i, as_u, as_i32, as_u32, as_i64, as_u64. 
  destruct t; try (apply wrap_cong; reflexivity); try (apply sgn_cong; reflexivity); unfold bits; destruct b64;
  first [apply (cong_le _ 64); [lia|first [apply wrap_cong; lia|apply sgn_cong; lia]]
        |apply (cong_le _ 32); [lia|first [apply wrap_cong; lia|apply sgn_cong; lia]]].
Qed.
Lemma pow_mono_lt a b c x : x < 2 ^ a -> 0 <= a <= b -> 2 ^ b <= c -> x < c.
Proof. intros X L M. assert (2 ^ a <= 2 ^ b) by (apply Z.pow_le_mono_r; lia). lia. Qed.

Lemma conv_id t n : in_range t (snd n) -> conv t n = snd n.
Proof.
  destruct n as [s x]. unfold conv, in_range, d_char, as_i, as_u, as_i32, as_u32, as_i64, as_u64, bits, signed. cbn [snd].
  destruct t; try destruct b64; intros R; first [apply sgn_id; [lia|] | apply wrap_small]; cbn in *; lia.
Qed.
(* the operand that has the type already is decoded directly *)
Definition direct (t : nty) (n : num) : Z :=
  match t with TChar => d_char n | TI => d_i n | TU => d_u n | TI32 => d_i32 n | TU32 => d_u32 n | TI64 => d_i64 n | TU64 => d_u64 n end.
Lemma direct_id t n : in_range t (snd n) -> direct t n = snd n.
Proof.
  destruct n as [s x]. unfold direct, in_range, d_char, d_i, d_u, d_i32, d_u32, d_i64, d_u64. cbn [snd].
  destruct VS_bits as [V1 V2]. pose proof (bits_pos t) as BP. intros R.
  destruct t; rewrite ?V1, ?V2; first [apply sgn_id; [exact BP|exact R]|apply wrap_small; exact R].
Qed.

Lemma mod_op (f : Z -> Z -> Z) m x x' y y' :
  f = Z.add \/ f = Z.sub \/ f = Z.mul -> m <> 0 -> x mod m = x' mod m -> y mod m = y' mod m -> f x y mod m = f x' y' mod m.
Proof.
  intros [->|[->| ->]] M X Y.
  - rewrite Zplus_mod, X, Y, <- Zplus_mod; auto.
  - rewrite Zminus_mod, X, Y, <- Zminus_mod; auto.
  - rewrite Zmult_mod, X, Y, <- Zmult_mod; auto.
Qed.

(* the common shape of add2, sub2 and mul2 *)
Definition shape (wv : bool) (t : nty) (x : Z) : res nres :=
  if signed t then let! r := sint wv (cbits t) x in Ok (enc t r) else Ok (enc t (wrap (match t with TChar => 8 | _ => cbits t end) x)).

Lemma shape_reduced t x y : x mod 2 ^ bits t = y mod 2 ^ bits t -> exists n, shape true t x = Ok (Num n) /\ reduced t y n.
Proof.
  intros E. unfold shape, sint. pose proof (cbits_bits t) as CB. pose proof (bits_pos t) as BP. destruct (signed t) eqn:S.
  - destruct (_ && _); cbn [bind].
    + destruct (enc_reduced t x y E) as (n&->&R). eauto.
    + destruct (enc_reduced t (sgn (cbits t) x) y) as (n&->&R); eauto.
      rewrite <- E. apply (cong_le _ (cbits t)); [lia|]. apply sgn_cong. lia.
  - destruct (enc_reduced t (wrap (match t with TChar => 8 | _ => cbits t end) x) y) as (n&->&R); eauto.
    rewrite <- E. apply (cong_le _ (match t with TChar => 8 | _ => cbits t end)).
    + destruct t; try lia. cbn. lia.
    + apply wrap_cong. destruct t; lia.
Qed.
Lemma shape_strict t x : shape false t x = shape true t x \/
  signed t = true /\ ~ (- 2 ^ (cbits t - 1) <= x < 2 ^ (cbits t - 1)) /\ shape false t x = UB.
Proof.
  unfold shape, sint. destruct (signed t); auto.
  destruct (Z.leb_spec (- 2 ^ (cbits t - 1)) x), (Z.ltb_spec x (2 ^ (cbits t - 1))); cbn [andb bind]; auto; right; repeat split; auto; lia.
Qed.

Lemma mul_shape wv a b : wf a -> wf b -> exists x y, mul2 wv a b = shape wv (join (fst a) (fst b)) (x * y) /\
  (fit a b -> x * y = snd a * snd b) /\ (x * y) mod 2 ^ bits (join (fst a) (fst b)) = (snd a * snd b) mod 2 ^ bits (join (fst a) (fst b)).
Proof.
  intros HA HB. unfold mul2. destruct (swap_join a b) as (x&y&->&T&C). unfold fit. set (t := join (fst a) (fst b)) in *.
  exists (direct t x), (conv t y). 
  assert (DX : direct t x = snd x). { apply direct_id. rewrite <- T. destruct C as [[-> ->]|[-> ->]]; auto. }
  split; [destruct t; reflexivity|]. rewrite DX. split.
  - intros [FA FB]. rewrite conv_id; destruct C as [[-> ->]|[-> ->]]; auto; lia.
  - assert (N : 2 ^ bits t <> 0) by (apply Z.pow_nonzero; pose proof (bits_pos t); lia).
    rewrite (mod_op Z.mul (2 ^ bits t) (snd x) (snd x) (conv t y) (snd y)); auto using conv_cong.
    destruct C as [[-> ->]|[-> ->]]; f_equal; lia.
Qed.
Lemma add_shape wv a b : wf a -> wf b -> exists x y, add2 wv a b = shape wv (join (fst a) (fst b)) (x + y) /\
  (fit a b -> x + y = snd a + snd b) /\ (x + y) mod 2 ^ bits (join (fst a) (fst b)) = (snd a + snd b) mod 2 ^ bits (join (fst a) (fst b)).
Proof.
  intros HA HB. unfold add2. destruct (swap_join a b) as (x&y&->&T&C). unfold fit. set (t := join (fst a) (fst b)) in *.
  exists (direct t x), (conv t y). 
  assert (DX : direct t x = snd x). { apply direct_id. rewrite <- T. destruct C as [[-> ->]|[-> ->]]; auto. }
  split; [destruct t; reflexivity|]. rewrite DX. split.
  - intros [FA FB]. rewrite conv_id; destruct C as [[-> ->]|[-> ->]]; auto; lia.
  - assert (N : 2 ^ bits t <> 0) by (apply Z.pow_nonzero; pose proof (bits_pos t); lia).
    rewrite (mod_op Z.add (2 ^ bits t) (snd x) (snd x) (conv t y) (snd y)); auto using conv_cong.
    destruct C as [[-> ->]|[-> ->]]; f_equal; lia.
Qed.
Lemma sub_shape wv a b : exists x y, sub2 wv a b = shape wv (join (fst a) (fst b)) (x - y) /\
  (fit a b -> x - y = snd a - snd b) /\ (x - y) mod 2 ^ bits (join (fst a) (fst b)) = (snd a - snd b) mod 2 ^ bits (join (fst a) (fst b)).
Proof.
  unfold sub2. rewrite promote_join. unfold fit. set (t := join (fst a) (fst b)) in *. exists (conv t a), (conv t b).
  split; [destruct t; reflexivity|]. split.
  - intros [FA FB]. rewrite !conv_id; auto.
  - apply (mod_op Z.sub); auto using conv_cong. apply Z.pow_nonzero; pose proof (bits_pos t); lia.
Qed.

Inductive aop := OpAdd | OpSub | OpMul.
Definition code_op (o : aop) (wv : bool) : num -> num -> res nres :=
  match o with OpAdd => add2 wv | OpSub => sub2 wv | OpMul => mul2 wv end.
Definition math_op (o : aop) : Z -> Z -> Z := match o with OpAdd => Z.add | OpSub => Z.sub | OpMul => Z.mul end.

Lemma op_shape o wv a b : wf a -> wf b -> exists z, code_op o wv a b = shape wv (join (fst a) (fst b)) z /\
  (fit a b -> z = math_op o (snd a) (snd b)) /\
  z mod 2 ^ bits (join (fst a) (fst b)) = math_op o (snd a) (snd b) mod 2 ^ bits (join (fst a) (fst b)).
Proof.
  intros HA HB. destruct o; cbn [code_op math_op].
  - destruct (add_shape wv a b HA HB) as (x&y&H). eauto.
  - destruct (sub_shape wv a b) as (x&y&H). eauto.
  - destruct (mul_shape wv a b HA HB) as (x&y&H). eauto.
Qed.

(* C29, with wrapping signed arithmetic: the result has the promoted type and
   is the mathematical result reduced to that type. *)
Theorem arith_exact : forall o a b, wf a -> wf b ->
  exists n, code_op o true a b = Ok (Num n) /\ reduced (join (fst a) (fst b)) (math_op o (snd a) (snd b)) n.
Proof.
  intros o a b HA HB. destruct (op_shape o true a b HA HB) as (z&->&_&E). apply shape_reduced. exact E.
Qed.

(* With standard C signed arithmetic: the same result, or undefined; undefined
   only if the promoted type is signed and the result does not fit. *)
Lemma op_shape2 o a b : wf a -> wf b -> exists z, (forall wv, code_op o wv a b = shape wv (join (fst a) (fst b)) z) /\
  (fit a b -> z = math_op o (snd a) (snd b)).
Proof.
  intros HA HB. destruct o; cbn [code_op math_op].
  - unfold add2. destruct (swap_join a b) as (x&y&->&T&C). unfold fit. set (t := join (fst a) (fst b)) in *.
    exists (direct t x + conv t y). split; [intros wv; destruct t; reflexivity|]. intros [FA FB].
    assert (DX : direct t x = snd x). { apply direct_id. rewrite <- T. destruct C as [[-> ->]|[-> ->]]; auto. }
    rewrite DX, conv_id; destruct C as [[-> ->]|[-> ->]]; auto; lia.
  - unfold sub2. rewrite promote_join. unfold fit. set (t := join (fst a) (fst b)) in *. exists (conv t a - conv t b).
    split; [intros wv; destruct t; reflexivity|]. intros [FA FB]. rewrite !conv_id; auto.
  - unfold mul2. destruct (swap_join a b) as (x&y&->&T&C). unfold fit. set (t := join (fst a) (fst b)) in *.
    exists (direct t x * conv t y). split; [intros wv; destruct t; reflexivity|]. intros [FA FB].
    assert (DX : direct t x = snd x). { apply direct_id. rewrite <- T. destruct C as [[-> ->]|[-> ->]]; auto. }
    rewrite DX, conv_id; destruct C as [[-> ->]|[-> ->]]; auto; lia.
Qed.

Theorem arith_strict : forall o a b, wf a -> wf b ->
  code_op o false a b = code_op o true a b \/
  (code_op o false a b = UB /\ signed (join (fst a) (fst b)) = true /\
   (fit a b -> ~ in_range (join (fst a) (fst b)) (math_op o (snd a) (snd b)))).
Proof.
  intros o a b HA HB. destruct (op_shape2 o a b HA HB) as (z&E&F). rewrite !E.
  destruct (shape_strict (join (fst a) (fst b)) z) as [->|(S&R&->)]; auto. right. split; auto. split; auto.
  intros FT. rewrite <- (F FT). unfold in_range. rewrite S. intros B. apply R.
  pose proof (cbits_bits (join (fst a) (fst b))) as CB. pose proof (bits_pos (join (fst a) (fst b))).
  assert (2 ^ (bits (join (fst a) (fst b)) - 1) <= 2 ^ (cbits (join (fst a) (fst b)) - 1)) by (apply Z.pow_le_mono_r; lia). lia.
Qed.

(* ---- the variadic sum, product and difference ---- *)
(* All partial results fit their promoted type. *)
Fixpoint all_fit (o : aop) (acc : num) (args : list num) : Prop :=
  match args with
  | [] => True
  | b :: t => let j := join (fst acc) (fst b) in
    fit acc b /\ in_range j (math_op o (snd acc) (snd b)) /\ all_fit o (j, math_op o (snd acc) (snd b)) t
  end.
Definition loop (o : aop) : bool -> num -> list num -> res nres :=
  match o with OpAdd => add_loop | OpSub => sub_loop | OpMul => mul_loop end.
Definition total (o : aop) (acc : Z) (args : list num) : Z := fold_left (fun s n => math_op o s (snd n)) args acc.
Definition join_all (t : nty) (args : list num) : nty := fold_left (fun s n => join s (fst n)) args t.

Lemma reduced_fits t x n : reduced t x n -> in_range t x -> n = (t, x).
Proof.
  intros (T&R&E) X. destruct n as [s y]. cbn [fst snd] in *. subst s. f_equal.
  unfold in_range in *. pose proof (bits_pos t) as BP.
  assert (P : 2 ^ bits t = 2 * 2 ^ (bits t - 1)) by (replace (bits t) with (1 + (bits t - 1)) at 1 by lia; rewrite Z.pow_add_r by lia; reflexivity).
  destruct (signed t).
  - rewrite <- (sgn_id (bits t) x), <- (sgn_id (bits t) y) by auto. unfold sgn. cbv zeta. rewrite E. reflexivity.
  - rewrite !Z.mod_small in E by auto. auto.
Qed.

Lemma loop_cons o wv acc b t : loop o wv acc (b :: t) =
  let! r := code_op o wv acc b in match r with Num s => loop o wv s t | e => Ok e end.
Proof. destruct o; reflexivity. Qed.

Theorem arith_variadic : forall o wv args acc, wf acc -> Forall wf args -> all_fit o acc args ->
  loop o wv acc args = Ok (Num (join_all (fst acc) args, total o (snd acc) args)).
Proof.
  intros o wv args. induction args as [|b t IH]; intros acc HA HS FT.
  - destruct o, acc; reflexivity.
  - inversion HS as [|? ? HB HS']; subst. cbn [all_fit] in FT. destruct FT as (F1&F2&F3). rewrite loop_cons.
    assert (E : code_op o wv acc b = Ok (Num (join (fst acc) (fst b), math_op o (snd acc) (snd b)))).
    { destruct (arith_exact o acc b HA HB) as (n&E&R). rewrite (reduced_fits _ _ _ R F2) in E. destruct wv; auto.
      destruct (arith_strict o acc b HA HB) as [->|(_&_&N)]; auto. destruct (N F1 F2). }
    rewrite E. cbn [bind]. rewrite IH; auto.
Qed.

(* what the Lisp functions +, * and - mean on integers: - of one argument negates *)
Definition meant (o : aop) (args : list num) : Z :=
  match o with
  | OpAdd => fold_right (fun n s => snd n + s) 0 args
  | OpMul => fold_right (fun n s => snd n * s) 1 args
  | OpSub => match args with
             | [] => 0
             | [a] => - snd a
             | a :: t => snd a - fold_right (fun n s => snd n + s) 0 t
             end
  end.
Definition fundamental (o : aop) : bool -> list num -> res nres :=
  match o with OpAdd => fundamental_add | OpSub => fundamental_sub | OpMul => fundamental_mul end.
(* the value the function starts from and the arguments it then works through *)
Definition start_of (o : aop) (args : list num) : num * list num :=
  match o, args with
  | OpAdd, _ => ((TChar, 0), args)
  | OpMul, _ => ((TChar, 1), args)
  | OpSub, a :: b :: t => (a, b :: t)
  | OpSub, _ => ((TChar, 0), args)
  end.

Lemma total_add args : forall x, total OpAdd x args = x + fold_right (fun n s => snd n + s) 0 args.
Proof. unfold total. induction args as [|b t IH]; intros x; cbn [fold_left fold_right math_op]; [lia|]. rewrite IH. lia. Qed.
Lemma total_mul args : forall x, total OpMul x args = x * fold_right (fun n s => snd n * s) 1 args.
Proof. unfold total. induction args as [|b t IH]; intros x; cbn [fold_left fold_right math_op]; [lia|]. rewrite IH. lia. Qed.
Lemma total_sub args : forall x, total OpSub x args = x - fold_right (fun n s => snd n + s) 0 args.
Proof. unfold total. induction args as [|b t IH]; intros x; cbn [fold_left fold_right math_op]; [lia|]. rewrite IH. lia. Qed.

Theorem arith_functions : forall o wv args, Forall wf args ->
  all_fit o (fst (start_of o args)) (snd (start_of o args)) ->
  fundamental o wv args = Ok (Num (join_all TChar args, meant o args)).
Proof.
  assert (W0 : wf (TChar, 0)) by (red; cbn; lia). assert (W1 : wf (TChar, 1)) by (red; cbn; lia).
  assert (J0 : forall t, join TChar t = t) by (intros []; unfold join, rank; destruct b64; reflexivity).
  intros o wv args F FT. destruct o.
  - cbn [start_of fst snd] in FT. rewrite (arith_variadic OpAdd wv args (TChar, 0) W0 F FT : fundamental OpAdd wv args = _).
    cbn [fst snd]. rewrite total_add. reflexivity.
  - destruct args as [|a [|b t]].
    + destruct wv; reflexivity.
    + cbn [start_of fst snd] in FT. pose proof (arith_variadic OpSub wv [a] (TChar, 0) W0 F FT) as E.
      rewrite loop_cons in E. cbn [fundamental fundamental_sub]. change (sub2 wv (TChar, 0) a) with (code_op OpSub wv (TChar, 0) a).
      unfold meant. rewrite total_sub in E. cbn [fold_right snd] in E. rewrite Z.add_0_r, Z.sub_0_l in E.
      destruct (code_op OpSub wv (TChar, 0) a) as [r| |]; cbn [bind] in E; try discriminate E.
      destruct r; cbn [loop sub_loop] in E; exact E.
    + cbn [start_of fst snd] in FT. inversion F as [|? ? HA F']; subst.
      change (fundamental OpSub wv (a :: b :: t)) with (loop OpSub wv a (b :: t)). rewrite arith_variadic; auto.
      rewrite total_sub. unfold join_all. cbn [fold_left]. rewrite J0. reflexivity.
  - cbn [start_of fst snd] in FT. rewrite (arith_variadic OpMul wv args (TChar, 1) W1 F FT : fundamental OpMul wv args = _).
    cbn [fst snd]. rewrite total_mul. rewrite Z.mul_1_l. reflexivity.
Qed.

(* ---- C30: division ---- *)
(* where the code deviates, below refuted: a dividend of a 64-bit type is cut
   to 32 bits by div2, and the 64-bit build tests only 32 bits of a [u] divisor *)
Definition div_dividend_ok (t : nty) (x : Z) : Prop :=
  match t with TI64 => - 2 ^ 31 <= x < 2 ^ 31 | TU64 => 0 <= x < 2 ^ 32 | _ => True end.
Definition zero_test_ok (t : nty) (y : Z) : Prop :=
  match t with TU => b64 = true -> y mod 2 ^ 32 = 0 -> y = 0 | _ => True end.
(* the one quotient that does not fit the C type *)
Definition no_quot_overflow (t : nty) (x y : Z) : Prop :=
  match t with TI32 => ~ (x = - 2 ^ 31 /\ y = -1) | TI64 => ~ (x = - 2 ^ 63 /\ y = -1) | _ => True end.

Lemma quot_pos x y : 0 <= x -> 0 < y -> Z.quot x y = x / y.
Proof. intros. apply Z.quot_div_nonneg; lia. Qed.
Lemma rem_pos x y : 0 <= x -> 0 < y -> Z.rem x y = x mod y.
Proof. intros. apply Z.rem_mod_nonneg; lia. Qed.

Lemma enc_red t x : exists n, enc t x = Num n /\ reduced t x n.
Proof. apply enc_reduced. reflexivity. Qed.

Lemma range_u t y : signed t = false -> in_range t y -> 0 <= y < 2 ^ bits t.
Proof. unfold in_range. intros ->. auto. Qed.

Lemma cq w x y : y <> 0 -> ~ (x = - 2 ^ (w - 1) /\ y = -1) -> cquot w x y = Ok (Z.quot x y).
Proof.
  intros Y N. unfold cquot. destruct (Z.eqb_spec y 0); [contradiction|].
  destruct (Z.eqb_spec x (- 2 ^ (w - 1))), (Z.eqb_spec y (-1)); auto. destruct N; auto.
Qed.
Lemma cr w x y : y <> 0 -> ~ (x = - 2 ^ (w - 1) /\ y = -1) -> crem w x y = Ok (Z.rem x y).
Proof.
  intros Y N. unfold crem. destruct (Z.eqb_spec y 0); [contradiction|].
  destruct (Z.eqb_spec x (- 2 ^ (w - 1))), (Z.eqb_spec y (-1)); auto. destruct N; auto.
Qed.
Lemma uq x y : 0 <= x -> 0 < y -> uquot x y = Ok (Z.quot x y).
Proof. intros. unfold uquot. destruct (Z.eqb_spec y 0); [lia|]. rewrite quot_pos by lia. auto. Qed.
Lemma ur x y : 0 <= x -> 0 < y -> urem x y = Ok (Z.rem x y).
Proof. intros. unfold urem. destruct (Z.eqb_spec y 0); [lia|]. rewrite rem_pos by lia. auto. Qed.

(* the divisor test of the code *)
Definition ztest (t : nty) (b : num) : bool :=
  match t with TChar => d_char b =? 0 | TI => d_i b =? 0 | TU => as_u32 b =? 0 | TU32 => as_u32 b =? 0
  | TI32 => as_i32 b =? 0 | TU64 => as_u64 b =? 0 | TI64 => as_i64 b =? 0 end.
Lemma ztest_ok t b : in_range t (snd b) -> zero_test_ok t (snd b) -> ztest t b = (snd b =? 0).
Proof.
  intros R Z. destruct t; cbn [ztest].
  - pose proof (conv_id TChar b R) as E. cbn [conv] in E. rewrite E. auto.
  - pose proof (direct_id TI b R) as E. cbn [direct] in E. rewrite E. auto.
  - unfold zero_test_ok in Z. unfold as_u32, wrap. unfold in_range, bits in R. cbn [signed] in R.
    destruct b64.
    + destruct (Z.eqb_spec (snd b mod 2 ^ 32) 0), (Z.eqb_spec (snd b) 0) as [E|E]; auto.
      * destruct E. apply Z; auto.
      * rewrite E in *. destruct n. reflexivity.
    + rewrite Z.mod_small; auto. split; [lia|]. eapply Z.lt_trans; [apply R|]. reflexivity.
  - pose proof (conv_id TI32 b R) as E. cbn [conv] in E. rewrite E. auto.
  - pose proof (conv_id TU32 b R) as E. cbn [conv] in E. rewrite E. auto.
  - pose proof (conv_id TI64 b R) as E. cbn [conv] in E. rewrite E. auto.
  - pose proof (conv_id TU64 b R) as E. cbn [conv] in E. rewrite E. auto.
Qed.

Theorem div_exact : forall a b, let t := join (fst a) (fst b) in
  fit a b -> zero_test_ok t (snd b) ->
  (snd b = 0 -> div2 a b = Ok DivZero) /\
  (snd b <> 0 -> div_dividend_ok t (snd a) -> no_quot_overflow t (snd a) (snd b) ->
   exists n, div2 a b = Ok (Num n) /\ reduced t (Z.quot (snd a) (snd b)) n).
Proof.
  intros a b t [FA FB] ZT. fold t in FA, FB. unfold div2. rewrite promote_join. fold t.
  pose proof (ztest_ok t b FB ZT) as ZE. pose proof (conv_id t a FA) as CA. pose proof (conv_id t b FB) as CB.
  clearbody t. destruct (enc_red t (Z.quot (snd a) (snd b))) as (n&EN&RN).
  split.
  - intros Z0. rewrite Z0 in ZE. change (0 =? 0) with true in ZE. destruct t; cbn [ztest] in ZE; rewrite ZE; reflexivity.
  - intros NZ DD NQ. apply Z.eqb_neq in NZ as NZ'. rewrite NZ' in ZE.
    exists n. split; auto. unfold in_range in FA, FB. destruct t; cbn [ztest] in ZE; rewrite ZE; cbn [conv] in CA, CB; rewrite ?CA, ?CB; cbn [signed] in FA, FB.
    + rewrite cq; [cbn [bind]; rewrite <- EN; reflexivity|lia|lia].
    + rewrite cq; [cbn [bind]; rewrite <- EN; reflexivity|lia|]. unfold bits, W, sel in *. destruct A; cbn in *; lia.
    + rewrite uq; [cbn [bind]; rewrite <- EN; reflexivity|lia|lia].
    + rewrite cq; [cbn [bind]; rewrite <- EN; reflexivity|lia|exact NQ].
    + rewrite uq; [cbn [bind]; rewrite <- EN; reflexivity|lia|lia].
    + cbn [div_dividend_ok] in DD. unfold as_i32. rewrite sgn_id by (cbn; lia).
      rewrite cq; [cbn [bind]; rewrite <- EN; reflexivity|lia|exact NQ].
    + cbn [div_dividend_ok] in DD. unfold as_u32. rewrite wrap_small by lia.
      rewrite uq; [cbn [bind]; rewrite <- EN; reflexivity|lia|lia].
Qed.

Theorem mod_exact : forall a b, let t := join (fst a) (fst b) in
  fit a b -> zero_test_ok t (snd b) ->
  (snd b = 0 -> mod2 a b = Ok DivZero) /\
  (snd b <> 0 -> no_quot_overflow t (snd a) (snd b) ->
   exists n, mod2 a b = Ok (Num n) /\ reduced t (Z.rem (snd a) (snd b)) n).
Proof.
  intros a b t [FA FB] ZT. fold t in FA, FB. unfold mod2. rewrite promote_join. fold t.
  pose proof (ztest_ok t b FB ZT) as ZE. pose proof (conv_id t a FA) as CA. pose proof (conv_id t b FB) as CB.
  clearbody t. destruct (enc_red t (Z.rem (snd a) (snd b))) as (n&EN&RN).
  split.
  - intros Z0. rewrite Z0 in ZE. change (0 =? 0) with true in ZE. destruct t; cbn [ztest] in ZE; rewrite ZE; reflexivity.
  - intros NZ NQ. apply Z.eqb_neq in NZ as NZ'. rewrite NZ' in ZE.
    exists n. split; auto. unfold in_range in FA, FB. destruct t; cbn [ztest] in ZE; rewrite ZE; cbn [conv] in CA, CB; rewrite ?CA, ?CB; cbn [signed] in FA, FB.
    + unfold as_i32. rewrite sgn_id by (cbn in *; lia). rewrite cr; [cbn [bind]; rewrite <- EN; reflexivity|lia|lia].
    + rewrite cr; [cbn [bind]; rewrite <- EN; reflexivity|lia|]. unfold bits, W, sel in *. destruct A; cbn in *; lia.
    + rewrite ur; [cbn [bind]; rewrite <- EN; reflexivity|lia|lia].
    + rewrite cr; [cbn [bind]; rewrite <- EN; reflexivity|lia|exact NQ].
    + rewrite ur; [cbn [bind]; rewrite <- EN; reflexivity|lia|lia].
    + rewrite cr; [cbn [bind]; rewrite <- EN; reflexivity|lia|exact NQ].
    + rewrite ur; [cbn [bind]; rewrite <- EN; reflexivity|lia|lia].
Qed.

(* ---- C31: comparison ---- *)
Theorem compare_exact : forall a b, fit a b ->
  compare_num a b = match Z.compare (snd a) (snd b) with Lt => -1 | Eq => 0 | Gt => 1 end.
Proof.
  intros a b [FA FB]. unfold compare_num. rewrite promote_join. set (t := join (fst a) (fst b)) in *.
  pose proof (conv_id t a FA) as CA. pose proof (conv_id t b FB) as CB. clearbody t.
  assert (C : forall x y, CMP x y = match Z.compare x y with Lt => -1 | Eq => 0 | Gt => 1 end).
  { intros x y. unfold CMP, Z.gtb, Z.ltb. destruct (x ?= y); reflexivity. }
  destruct t; cbn [conv] in CA, CB; rewrite CA, CB; apply C.
Qed.

(* operands of one type always fit *)
Lemma same_fit a b : wf a -> wf b -> fst a = fst b -> fit a b.
Proof.
  intros HA HB E. unfold fit, wf in *. rewrite <- E in *. unfold join. rewrite Z.ltb_irrefl. auto.
Qed.

(* ---- C31, C32: the variadic predicates ---- *)
Definition vals (bs : list num) : list (option num) := map Some bs.

Lemma cmp_sign a b : fit a b -> (compare_num a b <=? 0) = (snd a <=? snd b) /\ (compare_num a b >=? 0) = (snd b <=? snd a) /\
  (compare_num a b =? 0) = (snd a =? snd b).
Proof.
  intros F. rewrite compare_exact by auto. destruct (Z.compare_spec (snd a) (snd b)); cbn; repeat split; lia.
Qed.

Lemma ord_all test (p : num -> bool) a bs : Forall (fun b => test (compare_num a b) = p b) bs -> forall r,
  ord_loop test a r (vals bs) = if r && forallb p bs then BTrue else BNil.
Proof.
  induction 1 as [|b t E F IH]; intros r; cbn [vals map ord_loop forallb].
  - rewrite andb_true_r. auto.
  - fold (vals t). rewrite IH, E, andb_assoc. auto.
Qed.

Definition answer (b : bool) : bres := if b then BTrue else BNil.

Theorem comparisons_exact : forall a bs, Forall (fit a) bs ->
  fundamental_leq (Some a) (vals bs) = answer (forallb (fun b => snd a <=? snd b) bs) /\
  fundamental_geq (Some a) (vals bs) = answer (forallb (fun b => snd b <=? snd a) bs) /\
  fundamental_numeq (Some a) (vals bs) = answer (forallb (fun b => snd a =? snd b) bs) /\
  fundamental_num_not_eq (Some a) (vals bs) = answer (existsb (fun b => negb (snd a =? snd b)) bs) /\
  (* < and > hold when SOME argument is greater, smaller *)
  fundamental_lt (Some a) (vals bs) = answer (existsb (fun b => snd a <? snd b) bs) /\
  fundamental_gt (Some a) (vals bs) = answer (existsb (fun b => snd b <? snd a) bs).
Proof.
  intros a bs F.
  assert (L : fundamental_leq (Some a) (vals bs) = answer (forallb (fun b => snd a <=? snd b) bs)).
  { unfold fundamental_leq. rewrite (ord_all _ (fun b => snd a <=? snd b)); auto. eapply Forall_impl; [|exact F].
    intros b H. apply (cmp_sign a b H). }
  assert (G : fundamental_geq (Some a) (vals bs) = answer (forallb (fun b => snd b <=? snd a) bs)).
  { unfold fundamental_geq. rewrite (ord_all _ (fun b => snd b <=? snd a)); auto. eapply Forall_impl; [|exact F].
    intros b H. apply (cmp_sign a b H). }
  assert (N : fundamental_numeq (Some a) (vals bs) = answer (forallb (fun b => snd a =? snd b) bs)).
  { unfold fundamental_numeq. clear L G. induction F as [|b t H F IH]; auto. cbn [vals map numeq_loop forallb]. fold (vals t).
    rewrite IH. destruct (cmp_sign a b H) as (_&_&->). destruct (snd a =? snd b); reflexivity. }
  assert (D : forall p q : num -> bool, (forall b, q b = negb (p b)) -> flip (answer (forallb p bs)) = answer (existsb q bs)).
  { intros p q H. clear - H. induction bs as [|b t IH]; auto. cbn [forallb existsb]. rewrite H. destruct (p b); auto. }
  split; auto. split; auto. split; auto.
  unfold fundamental_num_not_eq, fundamental_lt, fundamental_gt. rewrite L, G, N.
  split; [|split]; apply D; intros; try reflexivity; lia.
Qed.

(* C32 for one argument after the first: the ordinary comparison *)
Theorem lt_two : forall a b, fit a b ->
  fundamental_lt (Some a) [Some b] = answer (snd a <? snd b) /\ fundamental_gt (Some a) [Some b] = answer (snd b <? snd a).
Proof.
  intros a b F. destruct (comparisons_exact a [b] ltac:(auto)) as (_&_&_&_&L&G). cbn [vals map existsb] in *. rewrite !orb_false_r in *. auto.
Qed.

(* ---- C52: bitwise operations ---- *)
Lemma cong_bits w x y : 0 <= w -> x mod 2 ^ w = y mod 2 ^ w <-> (forall i, 0 <= i < w -> Z.testbit x i = Z.testbit y i).
Proof.
  intros P. split.
  - intros E i I. rewrite <- (Z.mod_pow2_bits_low x w i), <- (Z.mod_pow2_bits_low y w i) by lia. congruence.
  - intros H. apply Z.bits_inj'. intros i I. destruct (Z.ltb_spec i w).
    + rewrite !Z.mod_pow2_bits_low by lia. apply H. lia.
    + rewrite !Z.mod_pow2_bits_high by lia. auto.
Qed.

Definition op_bits (f : Z -> Z -> Z) (g : bool -> bool -> bool) : Prop :=
  forall x y i, 0 <= i -> Z.testbit (f x y) i = g (Z.testbit x i) (Z.testbit y i).

Theorem bitwise_exact : forall f g a b, In (f, g) [(Z.land, andb); (Z.lor, orb); (Z.lxor, xorb)] ->
  wf a -> fst a <> TChar ->
  exists n, bitwise f a b = Ok (Num n) /\ fst n = fst a /\ in_range (fst a) (snd n) /\
  forall i, 0 <= i < bits (fst a) -> Z.testbit (snd n) i = g (Z.testbit (snd a) i) (Z.testbit (snd b) i).
Proof.
  intros f g a b I HA NC.
  assert (OB : op_bits f g).
  { destruct I as [E|[E|[E|[]]]]; injection E as <- <-; intros x y i P; [apply Z.land_spec|apply Z.lor_spec|apply Z.lxor_spec]. }
  destruct a as [t x]. unfold wf in HA. cbn [fst snd] in *.
  assert (E : bitwise f (t, x) b = Ok (enc t (f (direct t (t, x)) (conv t b)))) by (destruct t; auto; congruence).
  rewrite E, direct_id by auto. cbn [snd]. destruct (enc_red t (f x (conv t b))) as (n&->&T&R&C). exists n. split; auto. split; auto. split; auto.
  intros i Hi. pose proof (bits_pos t) as BP. rewrite (proj1 (cong_bits _ _ _ (Z.lt_le_incl _ _ BP)) C i Hi), OB by lia. f_equal.
  apply (proj1 (cong_bits _ _ _ (Z.lt_le_incl _ _ BP)) (conv_cong t b) i Hi).
Qed.

Theorem bitwise_not_exact : forall a, wf a -> fst a <> TChar ->
  exists n, bitwise_not a = Ok (Num n) /\ fst n = fst a /\ in_range (fst a) (snd n) /\
  forall i, 0 <= i < bits (fst a) -> Z.testbit (snd n) i = negb (Z.testbit (snd a) i).
Proof.
  intros [t x] HA NC. unfold wf in HA. cbn [fst snd] in *. pose proof (cbits_bits t) as CB. pose proof (bits_pos t) as BP.
  pose proof (direct_id t (t, x) HA) as D. cbn [snd] in D.
  assert (E : exists z, bitwise_not (t, x) = Ok (enc t z) /\ z mod 2 ^ bits t = Z.lnot x mod 2 ^ bits t).
  { destruct t; try congruence; cbn [direct] in D; unfold bitwise_not; cbn [fst]; rewrite D; eexists; (split; [reflexivity|]); auto;
    apply (cong_le _ _ _ _ (conj (Z.lt_le_incl _ _ BP) CB)); apply wrap_cong; lia. }
  destruct E as (z&->&EZ). destruct (enc_reduced t z _ EZ) as (n&->&T&R&C). exists n. split; auto. split; auto. split; auto.
  intros i Hi. rewrite (proj1 (cong_bits _ _ _ (Z.lt_le_incl _ _ BP)) C i Hi). apply Z.lnot_spec. lia.
Qed.

(* shifts by less than the width of the C type, signed shifts wrapping *)
Theorem shl_exact : forall a b, wf a -> fst a <> TChar -> 0 <= snd b < cbits (fst a) ->
  exists n, shl true a b = Ok (Num n) /\ reduced (fst a) (snd a * 2 ^ snd b) n.
Proof.
  intros [t x] [s k] HA NC K. unfold wf in HA. cbn [fst snd] in *. pose proof (cbits_bits t) as CB. pose proof (bits_pos t) as BP.
  pose proof (direct_id t (t, x) HA) as D. cbn [snd] in D.
  assert (AK : as_u32 (s, k) = k).
  { unfold as_u32. cbn [snd]. apply wrap_small. assert (cbits t <= 64) by (unfold cbits, W, sel; destruct t, A; cbn; lia). cbn. lia. }
  assert (LT : (k <? cbits t) = true) by lia.
  assert (E : shl true (t, x) (s, k) = shape true t (x * 2 ^ k)).
  { destruct t; try congruence; cbn [direct] in D; unfold shl; cbn [fst]; rewrite D, AK; unfold sshl, ushl, shape; cbn [cbits signed negb] in *;
    rewrite LT, ?andb_false_r; reflexivity. }
  rewrite E. apply shape_reduced. reflexivity.
Qed.

Theorem shr_exact : forall a b, wf a -> fst a <> TChar -> 0 <= snd b < cbits (fst a) ->
  shr a b = Ok (Num (fst a, snd a / 2 ^ snd b)).
Proof.
  intros [t x] [s k] HA NC K. unfold wf in HA. cbn [fst snd] in *. pose proof (bits_pos t) as BP.
  pose proof (direct_id t (t, x) HA) as D. cbn [snd] in D.
  assert (AK : as_u32 (s, k) = k).
  { unfold as_u32. cbn [snd]. apply wrap_small. assert (cbits t <= 64) by (unfold cbits, W, sel; destruct t, A; cbn; lia). cbn. lia. }
  assert (LT : (k <? cbits t) = true) by lia.
  assert (E : shr (t, x) (s, k) = Ok (enc t (x / 2 ^ k))).
  { destruct t; try congruence; cbn [direct] in D; unfold shr; cbn [fst]; rewrite D, AK; unfold cshr; cbn [cbits] in *; rewrite LT; reflexivity. }
  rewrite E. destruct (enc_red t (x / 2 ^ k)) as (n&->&R). rewrite (reduced_fits _ _ _ R); auto.
  assert (P : 1 <= 2 ^ k) by (assert (0 < 2 ^ k) by (apply Z.pow_pos_nonneg; lia); lia).
  set (M := 2 ^ k) in *. clearbody M. pose proof (Z.div_mod x M ltac:(lia)) as DM. pose proof (Z.mod_pos_bound x M ltac:(lia)) as MB.
  unfold in_range in *. destruct (signed t).
  - set (N := 2 ^ (bits t - 1)) in *. assert (0 < N) by (apply Z.pow_pos_nonneg; lia). clearbody N. nia.
  - set (N := 2 ^ bits t) in *. clearbody N. nia.
Qed.

End Proofs.

(* ---- Refutations ---- *)
(* C29: 100000 * 100000 in the 32-bit build, and 2147483647i32 + 1: signed overflow, undefined in C *)
Theorem arith_exact_refuted : exists a b c d,
  wf (A := A32) a /\ wf (A := A32) b /\ mul2 (A := A32) false a b = UB /\
  (forall A : Arch, wf c /\ wf d /\ add2 false c d = UB).
Proof.
  exists (TI, 100000), (TI, 100000), (TI32, 2147483647), (TI32, 1).
  split; [vm_compute; split; congruence|]. split; [vm_compute; split; congruence|]. split; [vm_compute; reflexivity|].
  intros [|]; (split; [vm_compute; split; congruence|]); (split; [vm_compute; split; congruence|]); vm_compute; reflexivity.
Qed.

(* C30: (/ 5000000000i64 1i64) is 705032704, and the same for u64 *)
Theorem div64_refuted : forall A : Arch, 
  fit (TI64, 5000000000) (TI64, 1) /\ div2 (TI64, 5000000000) (TI64, 1) = Ok (Num (TI64, 705032704)) /\
  fit (TU64, 5000000000) (TU64, 1) /\ div2 (TU64, 5000000000) (TU64, 1) = Ok (Num (TU64, 705032704)).
Proof. intros [|]; repeat split; vm_compute; congruence. Qed.

(* C30: in the 64-bit build 2^32 as a divisor of type u counts as zero *)
Theorem div_zero_refuted :
  fit (A := A64) (TU, 1) (TU, 2 ^ 32) /\ div2 (A := A64) (TU, 1) (TU, 2 ^ 32) = Ok DivZero /\
  mod2 (A := A64) (TU, 1) (TU, 2 ^ 32) = Ok DivZero.
Proof. repeat split; vm_compute; congruence. Qed.

(* C30: the least i32 divided by -1 is undefined; the same for the remainder of i64 *)
Theorem div_overflow_refuted : forall A : Arch,
  fit (TI32, - 2 ^ 31) (TI32, -1) /\ div2 (TI32, - 2 ^ 31) (TI32, -1) = UB /\ mod2 (TI32, - 2 ^ 31) (TI32, -1) = UB /\
  fit (TI64, - 2 ^ 63) (TI64, -1) /\ mod2 (TI64, - 2 ^ 63) (TI64, -1) = UB.
Proof. intros [|]; repeat split; vm_compute; congruence. Qed.

(* C31, operands that do not fit: -1 is not less than 1u *)
Theorem compare_mixed_refuted : forall A : Arch, wf (TI, -1) /\ wf (TU, 1) /\ fundamental_lt (Some (TI, -1)) [Some (TU, 1)] = BNil.
Proof. intros [|]; repeat split; vm_compute; congruence. Qed.

(* C32: (< 1 0 2) is true although 1 < 0 is not; (< 1) is nil *)
Theorem lt_variadic_refuted : forall A : Arch, wf (TI, 1) /\ wf (TI, 0) /\ wf (TI, 2) /\
  fundamental_lt (Some (TI, 1)) [Some (TI, 0); Some (TI, 2)] = BTrue /\
  fundamental_gt (Some (TI, 1)) [Some (TI, 2); Some (TI, 0)] = BTrue /\
  fundamental_lt (Some (TI, 1)) [] = BNil.
Proof. intros [|]; repeat split; vm_compute; congruence. Qed.

(* C52: a shift by the width or more, or by a negative amount, is undefined; bytes are rejected *)
Theorem shift_refuted : forall A : Arch, wf (TI32, 1) /\ shl true (TI32, 1) (TI, 32) = UB /\ shr (TU32, 1) (TI, -1) = UB /\
  shl true (TChar, 1) (TI, 1) = Ok TypeErr /\ bitwise Z.land (TChar, 7) (TI, 1) = Ok TypeErr.
Proof. intros [|]; repeat split; vm_compute; congruence. Qed.

(* ---- Non-vacuity ---- *)
Example arith_case : wf (A := A32) (TI, -3) /\ wf (A := A32) (TU32, 4294967295) /\
  code_op (A := A32) OpMul true (TI, -3) (TU32, 4294967295) = Ok (Num (TU32, 3)) /\
  code_op (A := A64) OpMul true (TI, -3) (TU32, 4294967295) = Ok (Num (TI, -12884901885)) /\
  all_fit (A := A32) OpAdd (TChar, 0) [(TChar, 200); (TI, 100); (TI64, 5000000000)] /\
  fundamental_add (A := A32) false [(TChar, 200); (TI, 100); (TI64, 5000000000)] = Ok (Num (TI64, 5000000300)) /\
  all_fit (A := A32) OpSub (TChar, 0) [(TI, 7)] /\ fundamental_sub (A := A32) false [(TI, 7)] = Ok (Num (TI, -7)) /\
  fundamental_sub (A := A32) false [(TI, 7); (TI32, 9); (TChar, 1)] = Ok (Num (TI32, -3)).
Proof. repeat split; vm_compute; congruence. Qed.
Example div_case : fit (A := A32) (TI, -7) (TI32, 2) /\ div2 (A := A32) (TI, -7) (TI32, 2) = Ok (Num (TI32, -3)) /\
  mod2 (A := A32) (TI, -7) (TI32, 2) = Ok (Num (TI32, -1)) /\ zero_test_ok (A := A32) TI32 2 /\ no_quot_overflow TI32 (-7) 2.
Proof. repeat split; vm_compute; intuition congruence. Qed.
Example compare_case : Forall (fit (A := A64) (TI, -5)) [(TI, 3); (TI64, -6); (TChar, 9)] /\
  fundamental_leq (A := A64) (Some (TI, -5)) (vals [(TI, 3); (TI64, -6)]) = BNil.
Proof. split; [repeat constructor; vm_compute; congruence|vm_compute; reflexivity]. Qed.
Example bits_case : bitwise (A := A32) Z.land (TI, -2) (TU32, 0xff) = Ok (Num (TI, 254)) /\
  bitwise_not (A := A32) (TU, 0) = Ok (Num (TU, 0xfffffff)) /\
  shl (A := A32) true (TU, 0xfffffff) (TI, 4) = Ok (Num (TU, 0xffffff0)) /\ shr (A := A32) (TI, -5) (TI, 1) = Ok (Num (TI, -3)).
Proof. repeat split; vm_compute; reflexivity. Qed.

Print Assumptions arith_exact.
Print Assumptions arith_strict.
Print Assumptions arith_variadic.
Print Assumptions arith_functions.
Print Assumptions arith_exact_refuted.
Print Assumptions div_exact.
Print Assumptions mod_exact.
Print Assumptions div64_refuted.
Print Assumptions div_zero_refuted.
Print Assumptions div_overflow_refuted.
Print Assumptions compare_exact.
Print Assumptions comparisons_exact.
Print Assumptions compare_mixed_refuted.
Print Assumptions lt_two.
Print Assumptions lt_variadic_refuted.
Print Assumptions bitwise_exact.
Print Assumptions bitwise_not_exact.
Print Assumptions shl_exact.
Print Assumptions shr_exact.
Print Assumptions shift_refuted.
