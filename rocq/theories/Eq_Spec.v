(* The trees values denote, independent of struct_eq. *)
From Verif Require Import Base Value_Model Heap_Model Value_Proofs Heap_Spec Eq_Model.
Local Open Scope Z_scope.

Inductive kind := KSym | KChar | KI | KU | KI32 | KU32 | KI64 | KU64 | KFloat | KDouble.

(* a number, character or symbol of a kind (a float as its bit pattern), a pair,
   a byte array, an array of values *)
Inductive tree :=
| Leaf (k : kind) (n : Z)
| Pair (a d : tree)
| Bytes (bs : list Z)
| Arr (ts : list tree).

(* What a floating point number of [e] exponent and [m] fraction bits (IEEE 754)
   stands for: bit pattern [x] is sign, exponent and fraction.  A finite number
   is a whole multiple of the smallest positive one; [Finite] gives the factor. *)
Inductive ieee := NaN | Infinite (negative : bool) | Finite (multiple : Z).
Definition ieee_value (e m x : Z) : ieee :=
  let fraction := x mod 2 ^ m in
  let exponent := x / 2 ^ m mod 2 ^ e in
  let negative := 2 ^ (e + m) <=? x in
  if exponent =? 2 ^ e - 1 then if fraction =? 0 then Infinite negative else NaN
  else let n := if exponent =? 0 then fraction else (2 ^ m + fraction) * 2 ^ (exponent - 1) in
       Finite (if negative then - n else n).
Definition ieee_same (e m x y : Z) : Prop := ieee_value e m x <> NaN /\ ieee_value e m x = ieee_value e m y.

(* the same datum: same kind and equal number (equal as IEEE numbers for
   floats), pairs and arrays componentwise *)
Definition num_same (k : kind) (x y : Z) : Prop :=
  match k with
  | KFloat => ieee_same 8 23 x y
  | KDouble => ieee_same 11 52 x y
  | _ => x = y
  end.
Inductive same : tree -> tree -> Prop :=
| same_leaf k x y : num_same k x y -> same (Leaf k x) (Leaf k y)
| same_pair a d a' d' : same a a' -> same d d' -> same (Pair a d) (Pair a' d')
| same_bytes bs : same (Bytes bs) (Bytes bs)
| same_arr ts ts' : Forall2 same ts ts' -> same (Arr ts) (Arr ts').

(* no NaN inside *)
Inductive no_nan : tree -> Prop :=
| nn_leaf k x : (k = KFloat -> ieee_value 8 23 x <> NaN) -> (k = KDouble -> ieee_value 11 52 x <> NaN) -> no_nan (Leaf k x)
| nn_pair a d : no_nan a -> no_nan d -> no_nan (Pair a d)
| nn_bytes bs : no_nan (Bytes bs)
| nn_arr ts : Forall no_nan ts -> no_nan (Arr ts).

(* no float at all inside *)
Inductive no_float : tree -> Prop :=
| nf_leaf k x : k <> KFloat -> k <> KDouble -> no_float (Leaf k x)
| nf_pair a d : no_float a -> no_float d -> no_float (Pair a d)
| nf_bytes bs : no_float (Bytes bs)
| nf_arr ts : Forall no_float ts -> no_float (Arr ts).

Fixpoint depth (t : tree) : nat :=
  match t with
  | Leaf _ _ | Bytes _ => 1
  | Pair a d => S (Nat.max (depth a) (depth d))
  | Arr ts => S (fold_right (fun t n => Nat.max (depth t) n) 0%nat ts)
  end.

Section Arch.
Context {A : Arch}.

Definition kind_tag (k : kind) : Z :=
  match k with
  | KSym => TYPE_SYMBOL | KChar => TYPE_CHAR | KI => TYPE_I | KU => TYPE_U | KI32 => TYPE_I32 | KU32 => TYPE_U32
  | KI64 => TYPE_I64 | KU64 => TYPE_U64 | KFloat => TYPE_FLOAT | KDouble => TYPE_DOUBLE
  end.

(* the number a word of kind [k] stands for *)
Definition reads (h : heap) (v : Z) (k : kind) (n : Z) : Prop :=
  match k with
  | KSym => n = dec_sym v
  | KChar => n = dec_char v
  | KI => n = dec_i v
  | KU => n = dec_u v
  | KI32 => exists x, payload32 h v = Ok x /\ n = sgn 32 x
  | KU32 => exists x, payload32 h v = Ok x /\ n = wrap 32 x
  | KFloat => payload32 h v = Ok n /\ 0 <= n < 2 ^ 32
  | KI64 => exists x, payload64 h v = Ok x /\ n = sgn 64 x
  | KU64 => exists x, payload64 h v = Ok x /\ n = wrap 64 x
  | KDouble => payload64 h v = Ok n /\ 0 <= n < 2 ^ 64
  end.

(* a pointer not to one of the free cells [fl] *)
Definition held (fl : list Z) (v : Z) : Prop := is_ptr v = true -> is_const_ptr v = false -> ~ In (f_ix v) fl.

(* the word [v] denotes the tree in heap [h]; none of its cells is in [fl] *)
Inductive den (fl : list Z) (h : heap) : Z -> tree -> Prop :=
| den_leaf v k n : held fl v -> (k = KSym -> is_symbol v = true) -> type_of_functional v = kind_tag k -> reads h v k n -> den fl h v (Leaf k n)
| den_pair v a d ta td : is_ptr v = true -> held fl v -> type_of_functional v = TYPE_CONS -> ref_cell h v = Ok (a, d) ->
    den fl h a ta -> den fl h d td -> den fl h v (Pair ta td)
| den_bytes v p q bs x : is_ptr v = true -> held fl v -> type_of_functional v = TYPE_ARRAY -> ref_cell h v = Ok (p, q) ->
    mem h p = Some (OByte x bs) -> den fl h v (Bytes bs)
| den_arr v p q x size elts ix ts : is_ptr v = true -> held fl v -> type_of_functional v = TYPE_LISPARRAY ->
    ref_cell h v = Ok (p, q) -> mem h p = Some (OLisp x size elts ix) -> size = Z.of_nat (length elts) * WB ->
    Forall2 (den fl h) elts ts -> den fl h v (Arr ts).

End Arch.
