(* Model of the integer part of src/fundamental.c: arithmetic, comparison and
   bitwise operations on typed numbers.

   A number is its type and its value.  That encoding a value of a type and
   decoding it again is the identity is C07 (immediates) and the definition of
   the boxed encodings (heap.c 94-165: the raw bits are stored in a cell or a
   memory block and read back unchanged); boxing is assumed to find the memory.
   Float and double operands are not modelled. *)
From Verif Require Import Base Value_Model.
Local Open Scope Z_scope.

Inductive nty := TChar | TI | TU | TI32 | TU32 | TI64 | TU64.
Definition num : Type := nty * Z.
Inductive nres := Num (n : num) | DivZero | TypeErr.

Section Arith.
Context {A : Arch}.
(* Whether signed overflow wraps (as with gcc -fwrapv) or is undefined (as in
   the C standard; the makefiles in /repo do not pass -fwrapv). *)
Variable wrapv : bool.

(* lbm_defines.h 42-82 and 99-139: the tags of numbers; heap.h 668-672 lbm_type_of_functional *)
Definition tag (t : nty) : Z :=
  match t with
  | TChar => TYPE_CHAR | TI => TYPE_I | TU => TYPE_U | TI32 => TYPE_I32 | TU32 => TYPE_U32
  | TI64 => TYPE_I64 | TU64 => TYPE_U64
  end.

(* result of a signed C operation of width w *)
Definition sint (w x : Z) : res Z :=
  if (- 2 ^ (w - 1) <=? x) && (x <? 2 ^ (w - 1)) then Ok x
  else if wrapv then Ok (sgn w x) else UB.

(* encoders: heap.h lbm_enc_char, lbm_enc_i, lbm_enc_u (shift left by VAL_SHIFT
   drops the high bits), heap.c 94-113, 145-163 *)
Definition e_char (x : Z) : nres := Num (TChar, wrap 8 x).
Definition e_i (x : Z) : nres := Num (TI, sgn (W - VAL_SHIFT) x).
Definition e_u (x : Z) : nres := Num (TU, wrap (W - VAL_SHIFT) x).
Definition e_i32 (x : Z) : nres := Num (TI32, sgn 32 x).
Definition e_u32 (x : Z) : nres := Num (TU32, wrap 32 x).
Definition e_i64 (x : Z) : nres := Num (TI64, sgn 64 x).
Definition e_u64 (x : Z) : nres := Num (TU64, wrap 64 x).

(* heap.c 283-380 lbm_dec_as_u32, lbm_dec_as_i32, lbm_dec_as_i64,
   lbm_dec_as_u64 on integers: a C conversion of the value (conversion to a
   signed type of a value out of its range is modular, as gcc defines it) *)
Definition as_u32 (n : num) : Z := wrap 32 (snd n).
Definition as_i32 (n : num) : Z := sgn 32 (snd n).
Definition as_i64 (n : num) : Z := sgn 64 (snd n).
Definition as_u64 (n : num) : Z := wrap 64 (snd n).

(* heap.h 750-760 decoders of immediates applied to a number that is an
   immediate: the payload bits *)
Definition d_i (n : num) : Z := sgn (W - VAL_SHIFT) (snd n).
Definition d_u (n : num) : Z := wrap (W - VAL_SHIFT) (snd n).
Definition d_char (n : num) : Z := wrap 8 (snd n).
(* heap.h 779-799, heap.c 209-229 *)
Definition d_u32 (n : num) : Z := wrap 32 (snd n).
Definition d_i32 (n : num) : Z := sgn 32 (snd n).
Definition d_u64 (n : num) : Z := wrap 64 (snd n).
Definition d_i64 (n : num) : Z := sgn 64 (snd n).

(* fundamental.c 45-68 PROMOTE_SWAP, on numbers that are not floats *)
Definition promote_swap (a b : num) : nty * num * num :=
  if tag (fst a) <? tag (fst b) then (fst b, b, a) else (fst a, a, b).
(* fundamental.c 70-91 PROMOTE *)
Definition promote (a b : num) : nty := if tag (fst a) <? tag (fst b) then fst b else fst a.

(* the #ifdef LBM64 lines: dec_as_i64 on 64 bit, dec_as_i32 on 32 bit *)
Definition as_i (n : num) : Z := if b64 then as_i64 n else as_i32 n.
Definition as_u (n : num) : Z := if b64 then as_u64 n else as_u32 n.

(* fundamental.c 101-126 mul2 *)
Definition mul2 (a b : num) : res nres :=
  let '(t, a, b) := promote_swap a b in
  match t with
  | TChar => Ok (e_char (wrap 8 (d_char a * d_char b)))
  | TI => let! r := sint W (d_i a * as_i b) in Ok (e_i r)
  | TU => Ok (e_u (wrap W (d_u a * as_u b)))
  | TU32 => Ok (e_u32 (wrap 32 (d_u32 a * as_u32 b)))
  | TI32 => let! r := sint 32 (d_i32 a * as_i32 b) in Ok (e_i32 r)
  | TU64 => Ok (e_u64 (wrap 64 (d_u64 a * as_u64 b)))
  | TI64 => let! r := sint 64 (d_i64 a * as_i64 b) in Ok (e_i64 r)
  end.

(* fundamental.c 358-400: one iteration of the loop of fundamental_add *)
Definition add2 (a b : num) : res nres :=
  let '(t, a, b) := promote_swap a b in
  match t with
  | TChar => Ok (e_char (wrap 8 (d_char a + d_char b)))
  | TI => let! r := sint W (d_i a + as_i b) in Ok (e_i r)
  | TU => Ok (e_u (wrap W (d_u a + as_u b)))
  | TU32 => Ok (e_u32 (wrap 32 (d_u32 a + as_u32 b)))
  | TI32 => let! r := sint 32 (d_i32 a + as_i32 b) in Ok (e_i32 r)
  | TU64 => Ok (e_u64 (wrap 64 (d_u64 a + as_u64 b)))
  | TI64 => let! r := sint 64 (d_i64 a + as_i64 b) in Ok (e_i64 r)
  end.

(* fundamental.c 182-207 sub2 *)
Definition sub2 (a b : num) : res nres :=
  match promote a b with
  | TChar => Ok (e_char (wrap 8 (d_char a - d_char b)))
  | TI => let! r := sint W (as_i a - as_i b) in Ok (e_i r)
  | TU => Ok (e_u (wrap W (as_u a - as_u b)))
  | TU32 => Ok (e_u32 (wrap 32 (as_u32 a - as_u32 b)))
  | TI32 => let! r := sint 32 (as_i32 a - as_i32 b) in Ok (e_i32 r)
  | TU64 => Ok (e_u64 (wrap 64 (as_u64 a - as_u64 b)))
  | TI64 => let! r := sint 64 (as_i64 a - as_i64 b) in Ok (e_i64 r)
  end.

(* C division and remainder: a zero divisor is undefined, and so is the
   quotient that does not fit (C11 6.5.5: a%b too; -fwrapv does not change
   that the machine instruction traps) *)
Definition cquot (w x y : Z) : res Z :=
  if y =? 0 then UB else if (x =? - 2 ^ (w - 1)) && (y =? -1) then UB else Ok (Z.quot x y).
Definition crem (w x y : Z) : res Z :=
  if y =? 0 then UB else if (x =? - 2 ^ (w - 1)) && (y =? -1) then UB else Ok (Z.rem x y).
Definition uquot (x y : Z) : res Z := if y =? 0 then UB else Ok (x / y).
Definition urem (x y : Z) : res Z := if y =? 0 then UB else Ok (x mod y).

(* fundamental.c 128-153 div2; the TU64 and TI64 lines decode the dividend
   with lbm_dec_as_u32 and lbm_dec_as_i32, and the TU line tests the divisor
   with lbm_dec_as_u32 in both builds *)
Definition div2 (a b : num) : res nres :=
  match promote a b with
  | TChar => if d_char b =? 0 then Ok DivZero else let! r := cquot 32 (d_char a) (d_char b) in Ok (e_char r)
  | TI => if d_i b =? 0 then Ok DivZero else let! r := cquot W (as_i a) (as_i b) in Ok (e_i r)
  | TU => if as_u32 b =? 0 then Ok DivZero else let! r := uquot (as_u a) (as_u b) in Ok (e_u r)
  | TU32 => if as_u32 b =? 0 then Ok DivZero else let! r := uquot (as_u32 a) (as_u32 b) in Ok (e_u32 r)
  | TI32 => if as_i32 b =? 0 then Ok DivZero else let! r := cquot 32 (as_i32 a) (as_i32 b) in Ok (e_i32 r)
  | TU64 => if as_u64 b =? 0 then Ok DivZero else let! r := uquot (as_u32 a) (as_u64 b) in Ok (e_u64 r)
  | TI64 => if as_i64 b =? 0 then Ok DivZero else let! r := cquot 64 (as_i32 a) (as_i64 b) in Ok (e_i64 r)
  end.

(* fundamental.c 155-180 mod2 *)
Definition mod2 (a b : num) : res nres :=
  match promote a b with
  | TChar => if d_char b =? 0 then Ok DivZero else let! r := crem 32 (d_char a) (as_i32 b) in Ok (e_char r)
  | TI => if d_i b =? 0 then Ok DivZero else let! r := crem W (as_i a) (as_i b) in Ok (e_i r)
  | TU => if as_u32 b =? 0 then Ok DivZero else let! r := urem (as_u a) (as_u b) in Ok (e_u r)
  | TU32 => if as_u32 b =? 0 then Ok DivZero else let! r := urem (as_u32 a) (as_u32 b) in Ok (e_u32 r)
  | TI32 => if as_i32 b =? 0 then Ok DivZero else let! r := crem 32 (as_i32 a) (as_i32 b) in Ok (e_i32 r)
  | TU64 => if as_u64 b =? 0 then Ok DivZero else let! r := urem (as_u64 a) (as_u64 b) in Ok (e_u64 r)
  | TI64 => if as_i64 b =? 0 then Ok DivZero else let! r := crem 64 (as_i64 a) (as_i64 b) in Ok (e_i64 r)
  end.

(* fundamental.c 358-400 fundamental_add *)
Fixpoint add_loop (sum : num) (args : list num) : res nres :=
  match args with
  | [] => Ok (Num sum)
  | v :: t =>
    let! r := add2 sum v in
    match r with Num s => add_loop s t | e => Ok e end
  end.
Definition fundamental_add (args : list num) : res nres := add_loop (TChar, 0) args.

(* fundamental.c 432-443 fundamental_mul *)
Fixpoint mul_loop (p : num) (args : list num) : res nres :=
  match args with
  | [] => Ok (Num p)
  | v :: t =>
    let! r := mul2 p v in
    match r with Num s => mul_loop s t | e => Ok e end
  end.
Definition fundamental_mul (args : list num) : res nres := mul_loop (TChar, 1) args.

(* fundamental.c 402-430 fundamental_sub *)
Fixpoint sub_loop (p : num) (args : list num) : res nres :=
  match args with
  | [] => Ok (Num p)
  | v :: t =>
    let! r := sub2 p v in
    match r with Num s => sub_loop s t | e => Ok e end
  end.
Definition fundamental_sub (args : list num) : res nres :=
  match args with
  | [] => Ok (Num (TChar, 0))
  | [a] => sub2 (TChar, 0) a
  | a :: t => sub_loop a t
  end.

(* lbm_utils.h 48 CMP *)
Definition CMP (x y : Z) : Z := (if x >? y then 1 else 0) - (if x <? y then 1 else 0).

(* fundamental.c 285-308 compare_num *)
Definition compare_num (a b : num) : Z :=
  match promote a b with
  | TChar => CMP (d_char a) (d_char b)
  | TI => CMP (as_i a) (as_i b)
  | TU => CMP (as_u a) (as_u b)
  | TU32 => CMP (as_u32 a) (as_u32 b)
  | TI32 => CMP (as_i32 a) (as_i32 b)
  | TU64 => CMP (as_u64 a) (as_u64 b)
  | TI64 => CMP (as_i64 a) (as_i64 b)
  end.

(* the argument loops of fundamental.c 495-602; arguments are numbers (None is
   one that is not) and the first argument exists *)
Inductive bres := BTrue | BNil | BTypeErr.
(* 495-516 fundamental_numeq *)
Fixpoint numeq_loop (a : num) (bs : list (option num)) : bres :=
  match bs with
  | [] => BTrue
  | None :: _ => BTypeErr
  | Some b :: t => if (if compare_num a b =? 0 then 1 else 0) =? 0 then BNil else numeq_loop a t
  end.
Definition fundamental_numeq (a : option num) (bs : list (option num)) : bres :=
  match a with None => BTypeErr | Some a => numeq_loop a bs end.
Definition flip (r : bres) : bres := match r with BNil => BTrue | BTrue => BNil | r => r end.
(* 518-526 *)
Definition fundamental_num_not_eq a bs := flip (fundamental_numeq a bs).
(* 528-557 fundamental_leq, 559-588 fundamental_geq *)
Fixpoint ord_loop (test : Z -> bool) (a : num) (r : bool) (bs : list (option num)) : bres :=
  match bs with
  | [] => if r then BTrue else BNil
  | None :: _ => BTypeErr
  | Some b :: t => ord_loop test a (r && test (compare_num a b)) t
  end.
Definition fundamental_leq (a : option num) bs : bres :=
  match a with None => BTypeErr | Some a => ord_loop (fun c => c <=? 0) a true bs end.
Definition fundamental_geq (a : option num) bs : bres :=
  match a with None => BTypeErr | Some a => ord_loop (fun c => c >=? 0) a true bs end.
(* 590-602 *)
Definition fundamental_lt a bs := flip (fundamental_geq a bs).
Definition fundamental_gt a bs := flip (fundamental_leq a bs).

(* fundamental.c 1099-1122, 1124-1147, 1149-1172: the three differ only in the C operator *)
Definition bitwise (f : Z -> Z -> Z) (a b : num) : res nres :=
  match fst a with
  | TI => Ok (e_i (f (d_i a) (as_i b)))
  | TU => Ok (e_u (f (d_u a) (as_u b)))
  | TU32 => Ok (e_u32 (f (d_u32 a) (as_u32 b)))
  | TI32 => Ok (e_i32 (f (d_i32 a) (as_i32 b)))
  | TI64 => Ok (e_i64 (f (d_i64 a) (as_i64 b)))
  | TU64 => Ok (e_u64 (f (d_u64 a) (as_u64 b)))
  | TChar => Ok TypeErr
  end.
(* fundamental.c 1174-1192 *)
Definition bitwise_not (a : num) : res nres :=
  match fst a with
  | TI => Ok (e_i (Z.lnot (d_i a)))
  | TU => Ok (e_u (wrap W (Z.lnot (d_u a))))
  | TU32 => Ok (e_u32 (wrap 32 (Z.lnot (d_u32 a))))
  | TI32 => Ok (e_i32 (Z.lnot (d_i32 a)))
  | TI64 => Ok (e_i64 (Z.lnot (d_i64 a)))
  | TU64 => Ok (e_u64 (wrap 64 (Z.lnot (d_u64 a))))
  | TChar => Ok TypeErr
  end.

(* C shifts of width w: an amount of w or more is undefined; so is a signed left
   shift of a negative number or one that overflows (defined with -fwrapv) *)
Definition ushl (w x n : Z) : res Z := if n <? w then Ok (wrap w (x * 2 ^ n)) else UB.
Definition sshl (w x n : Z) : res Z :=
  if n <? w then if (x <? 0) && negb wrapv then UB else sint w (x * 2 ^ n) else UB.
Definition cshr (w x n : Z) : res Z := if n <? w then Ok (x / 2 ^ n) else UB.

(* fundamental.c 1059-1077 fundamental_shl *)
Definition shl (a b : num) : res nres :=
  match fst a with
  | TI => let! r := sshl W (d_i a) (as_u32 b) in Ok (e_i r)
  | TU => let! r := ushl W (d_u a) (as_u32 b) in Ok (e_u r)
  | TU32 => let! r := ushl 32 (d_u32 a) (as_u32 b) in Ok (e_u32 r)
  | TI32 => let! r := sshl 32 (d_i32 a) (as_u32 b) in Ok (e_i32 r)
  | TI64 => let! r := sshl 64 (d_i64 a) (as_u32 b) in Ok (e_i64 r)
  | TU64 => let! r := ushl 64 (d_u64 a) (as_u32 b) in Ok (e_u64 r)
  | TChar => Ok TypeErr
  end.
(* fundamental.c 1079-1097 fundamental_shr (gcc: arithmetic on signed) *)
Definition shr (a b : num) : res nres :=
  match fst a with
  | TI => let! r := cshr W (d_i a) (as_u32 b) in Ok (e_i r)
  | TU => let! r := cshr W (d_u a) (as_u32 b) in Ok (e_u r)
  | TU32 => let! r := cshr 32 (d_u32 a) (as_u32 b) in Ok (e_u32 r)
  | TI32 => let! r := cshr 32 (d_i32 a) (as_u32 b) in Ok (e_i32 r)
  | TI64 => let! r := cshr 64 (d_i64 a) (as_u32 b) in Ok (e_i64 r)
  | TU64 => let! r := cshr 64 (d_u64 a) (as_u32 b) in Ok (e_u64 r)
  | TChar => Ok TypeErr
  end.

End Arith.
