(* Flattening of values into byte buffers and back: src/lbm_flat_value.c (with
   include/lbm_flat_value.h 31-62), the boxed encoders of src/heap.c 94-165 and
   the array allocation of heap.c 1204-1267.

   Simplifications.
   - What lbm_malloc answers is an input: the state carries the list of answers
     still to come (0 is NULL, an empty list answers NULL).  The allocator itself
     is the subject of Mem_Model.  Likewise the list of answers whether the
     allocations inside lbm_add_symbol succeed.
   - An array header and its data are one object, as in Heap_Model; the header
     of a flattened value comes into being when it is filled in (lines 477-479).
   - The flat buffer is a list of bytes, buf_size its length.  Any read outside
     it is undefined behaviour here (in C the buffer usually lies inside
     lbm_memory, so that the read hits whatever is stored next).
   - buf_pos + n does not wrap: buffers are smaller than 2^31 bytes.
   - A memcpy of no bytes to NULL is taken to be harmless.
   - Floats are their bit patterns.
   - Recursion takes fuel. *)
From Verif Require Import Base Value_Model Heap_Model GC_Model Eq_Model Sym_Model.
Local Open Scope Z_scope.

(* include/lbm_flat_value.h 31-46 *)
Definition S_CONS := 0x01.
Definition S_SYM_VALUE := 0x02.
Definition S_SYM_STRING := 0x03.
Definition S_BYTE_VALUE := 0x04.
Definition S_I28_VALUE := 0x05.
Definition S_U28_VALUE := 0x06.
Definition S_I32_VALUE := 0x07.
Definition S_U32_VALUE := 0x08.
Definition S_FLOAT_VALUE := 0x09.
Definition S_I64_VALUE := 0x0A.
Definition S_U64_VALUE := 0x0B.
Definition S_DOUBLE_VALUE := 0x0C.
Definition S_LBM_ARRAY := 0x0D.
Definition S_I56_VALUE := 0x0E.
Definition S_U56_VALUE := 0x0F.
Definition S_LBM_LISP_ARRAY := 0x1F.

(* include/lbm_flat_value.h 51-62 *)
Definition F_OK := 0.
Definition F_CANNOT := -1.
Definition F_TOO_SMALL := -2.
Definition F_ARRAY := -3.
Definition F_CIRCULAR := -4.
Definition F_DEPTH := -5.
Definition F_NO_MEM := -6.
Definition F_FATAL := -7.

(* lbm_flat_value.h 64-68 lbm_flat_value_t: buffer and buf_pos *)
Record fv := mkF { buf : list Z; pos : Z }.
Definition blen (v : fv) : Z := Z.of_nat (length (buf v)).

(* the stores of one write function: [bs] to buf[pos], buf[pos+1], .. *)
Fixpoint store_bytes (b : list Z) (p : Z) (bs : list Z) : res (list Z) :=
  match bs with
  | [] => Ok b
  | x :: t => let! b1 := wr b p x in store_bytes b1 (p + 1) t
  end.
(* lbm_flat_value.c 57-102 write_byte, write_bytes, write_word, write_dword *)
Definition put (v : fv) (bs : list Z) : res (bool * fv) :=
  let n := Z.of_nat (length bs) in
  if blen v >=? pos v + n then
    let! b := store_bytes (buf v) (pos v) bs in Ok (true, mkF b (pos v + n))
  else Ok (false, v).

(* (uint8_t)(w >> k), most significant first *)
Definition byte_at (w k : Z) : Z := wrap 8 (Z.shiftr w k).
Definition word4 (w : Z) : list Z := map (byte_at w) [24; 16; 8; 0].
Definition word8 (w : Z) : list Z := map (byte_at w) [56; 48; 40; 32; 24; 16; 8; 0].

(* a tag byte and then data: lbm_flat_value.c 104-242 f_b .. f_sym_string *)
Definition f_tag (v : fv) (tag : Z) (bs : list Z) : res (bool * fv) :=
  let! (r, v1) := put v [tag] in
  if r then put v1 bs else Ok (false, v1).

Section Arch.
Context {A : Arch}.

(* lbm_flat_value.c 104-111 f_cons, 113-119 f_lisp_array *)
Definition f_cons (v : fv) : res (bool * fv) := put v [S_CONS].
Definition f_lisp_array (v : fv) (size : Z) : res (bool * fv) := f_tag v S_LBM_LISP_ARRAY (word4 (wrap 32 size)).
(* lbm_flat_value.c 132-142 f_sym_string: the name and its terminator *)
Definition f_sym_string (v : fv) (str : option name) : res (bool * fv) :=
  match str with
  | None => Ok (false, v)
  | Some n => f_tag v S_SYM_STRING (n ++ [0])
  end.
(* lbm_flat_value.c 159-179 f_i, f_u *)
Definition f_i (v : fv) (i : Z) : res (bool * fv) :=
  if b64 then f_tag v S_I56_VALUE (word8 (wrap 64 i)) else f_tag v S_I28_VALUE (word4 (wrap 32 i)).
Definition f_u (v : fv) (u : Z) : res (bool * fv) :=
  if b64 then f_tag v S_U56_VALUE (word8 (wrap 64 u)) else f_tag v S_U28_VALUE (word4 (wrap 32 u)).
(* lbm_flat_value.c 181-233 f_b, f_i32, f_u32, f_float, f_double, f_i64, f_u64 *)
Definition f_b (v : fv) (b : Z) := f_tag v S_BYTE_VALUE [b].
Definition f_i32 (v : fv) (w : Z) := f_tag v S_I32_VALUE (word4 (wrap 32 w)).
Definition f_u32 (v : fv) (w : Z) := f_tag v S_U32_VALUE (word4 w).
Definition f_float (v : fv) (w : Z) := f_tag v S_FLOAT_VALUE (word4 w).
Definition f_double (v : fv) (w : Z) := f_tag v S_DOUBLE_VALUE (word8 w).
Definition f_i64 (v : fv) (w : Z) := f_tag v S_I64_VALUE (word8 (wrap 64 w)).
Definition f_u64 (v : fv) (w : Z) := f_tag v S_U64_VALUE (word8 w).
(* lbm_flat_value.c 237-242 f_lbm_array *)
Definition f_lbm_array (v : fv) (num : Z) (data : list Z) : res (bool * fv) :=
  let! (r, v1) := put v [S_LBM_ARRAY] in
  if r then
    let! (r, v2) := put v1 (word4 num) in
    if r then put v2 data else Ok (false, v2)
  else Ok (false, v1).

(* lbm_flat_value.c 259-263 and 333-337: the type with the constant bit cleared *)
Definition flat_type (v : Z) : Z :=
  let t := type_of v in
  if (POINTER_TYPE_FIRST <=? t) && (t <? POINTER_TYPE_LAST) then Z.land t (wnot PTR_TO_CONSTANT_BIT) else t.

(* heap.c 1297-1308 lbm_heap_array_get_size and 1310-1317
   lbm_heap_array_get_data_ro of a value of type LBM_TYPE_ARRAY: None when the
   header is NULL (heap.h 850-861), when the size is -1 *)
Definition byte_array (h : heap) (v : Z) : res (option (list Z)) :=
  let! c := car h v in
  if is_symbol_nil c then Ok None
  else match mem h c with Some (OByte _ bs) => Ok (Some bs) | _ => UB end.

(* C int: overflow is undefined *)
Definition int_add (a b : Z) : res Z :=
  let s := a + b in if (-2 ^ 31 <=? s) && (s <? 2 ^ 31) then Ok s else UB.

(* the value returned, or the value longjmp was called with *)
Inductive jmp := Ret (n : Z) | Jump (e : Z).

(* lbm_flat_value.c 279-281: sum += size of each element *)
Fixpoint sum_sizes (rec : Z -> res jmp) (n : nat) (i : Z) (elts : list Z) (sum : Z) : res jmp :=
  match n with
  | O => Ok (Ret sum)
  | S k =>
    let! x := rd elts i in
    let! r := rec x in
    match r with
    | Jump e => Ok (Jump e)
    | Ret s => let! sum := int_add sum s in sum_sizes rec k (i + 1) elts sum
    end
  end.

(* lbm_flat_value.c 254-320 flatten_value_size_internal *)
Fixpoint size_internal (fuel : nat) (maxd : Z) (s : syms) (h : heap) (v depth : Z) : res jmp :=
  match fuel with
  | O => Fuel
  | S n =>
    if depth >? maxd then Ok (Jump F_DEPTH) else
    let t := flat_type v in
    if t =? TYPE_CONS then
      let! a := car h v in
      let! r1 := size_internal n maxd s h a (depth + 1) in
      match r1 with
      | Jump e => Ok (Jump e)
      | Ret s1 =>
        if s1 >? 0 then
          let! d := cdr h v in
          let! r2 := size_internal n maxd s h d (depth + 1) in
          match r2 with
          | Jump e => Ok (Jump e)
          | Ret s2 =>
            if s2 >? 0 then let! x := int_add 1 s1 in let! y := int_add x s2 in Ok (Ret y)
            else Ok (Ret 0)
          end
        else Ok (Ret 0)
      end
    else if t =? TYPE_LISPARRAY then
      let! c := car h v in
      match mem h c with
      | Some (OLisp _ size elts _) =>
        sum_sizes (fun x => size_internal n maxd s h x (depth + 1)) (Z.to_nat (size / WB)) 0 elts 5
      | _ => UB
      end
    else if t =? TYPE_CHAR then Ok (Ret 2)
    else if (t =? TYPE_U) || (t =? TYPE_I) then Ok (Ret (if b64 then 9 else 5))
    else if (t =? TYPE_U32) || (t =? TYPE_I32) || (t =? TYPE_FLOAT) then Ok (Ret 5)
    else if (t =? TYPE_U64) || (t =? TYPE_I64) || (t =? TYPE_DOUBLE) then Ok (Ret 9)
    else if t =? TYPE_SYMBOL then
      (* 146-157 f_sym_string_bytes *)
      if is_symbol v then
        let! o := get_name_by_symbol s (dec_sym v) in
        match o with
        | Some nm => Ok (Ret (1 + (Z.of_nat (length nm) + 1)))
        | None => Ok (Jump F_FATAL)
        end
      else Ok (Jump F_FATAL)
    else if t =? TYPE_ARRAY then
      let! o := byte_array h v in
      match o with
      | None => Ok (Jump (-1))
      | Some bs =>
        let n := Z.of_nat (length bs) in
        if n >? 0 then let! r := int_add 5 n in Ok (Ret r) else Ok (Jump n)
      end
    else Ok (Ret F_CANNOT)
  end.

(* lbm_flat_value.c 322-329 flatten_value_size; longjmp with 0 makes setjmp
   return 1.  A depth of at most [maxd] + 1 is reached. *)
Definition value_size (maxd : Z) (s : syms) (h : heap) (v : Z) : res Z :=
  let! r := size_internal (Z.to_nat (maxd + 2)) maxd s h v 0 in
  match r with
  | Ret n => Ok n
  | Jump e => Ok (if e =? 0 then 1 else e)
  end.

Definition code (r : bool * fv) : Z * fv := (if fst r then F_OK else F_TOO_SMALL, snd r).

(* lbm_flat_value.c 362-367 *)
Fixpoint flatten_elts (rec : fv -> Z -> res (Z * fv)) (n : nat) (i : Z) (elts : list Z) (v : fv) : res (Z * fv) :=
  match n with
  | O => Ok (F_OK, v)
  | S k =>
    let! x := rd elts i in
    let! (c, v1) := rec v x in
    if c =? F_OK then flatten_elts rec k (i + 1) elts v1 else Ok (c, v1)
  end.

(* lbm_flat_value.c 331-431 flatten_value_c *)
Fixpoint flatten_c (fuel : nat) (s : syms) (h : heap) (f : fv) (v : Z) : res (Z * fv) :=
  match fuel with
  | O => Fuel
  | S n =>
    let t := flat_type v in
    if t =? TYPE_CONS then
      let! (r, f1) := f_cons f in
      if r then
        let! a := car h v in
        let! (c, f2) := flatten_c n s h f1 a in
        if c =? F_OK then let! d := cdr h v in flatten_c n s h f2 d
        else Ok (c, f2)
      else Ok (F_TOO_SMALL, f1)
    else if t =? TYPE_LISPARRAY then
      let! c := car h v in
      match mem h c with
      | Some (OLisp _ size elts _) =>
        let! (r, f1) := f_lisp_array f (size / WB) in
        if r then flatten_elts (flatten_c n s h) (Z.to_nat (size / WB)) 0 elts f1 else Ok (F_NO_MEM, f1)
      | _ => UB
      end
    else if t =? TYPE_CHAR then let! r := f_b f (dec_char v) in Ok (code r)
    else if t =? TYPE_U then let! r := f_u f (dec_u v) in Ok (code r)
    else if t =? TYPE_I then let! r := f_i f (dec_i v) in Ok (code r)
    else if t =? TYPE_U32 then let! x := payload32 h v in let! r := f_u32 f (wrap 32 x) in Ok (code r)
    else if t =? TYPE_I32 then let! x := payload32 h v in let! r := f_i32 f (sgn 32 x) in Ok (code r)
    else if t =? TYPE_U64 then let! x := payload64 h v in let! r := f_u64 f (wrap 64 x) in Ok (code r)
    else if t =? TYPE_I64 then let! x := payload64 h v in let! r := f_i64 f (sgn 64 x) in Ok (code r)
    else if t =? TYPE_FLOAT then let! x := payload32 h v in let! r := f_float f x in Ok (code r)
    else if t =? TYPE_DOUBLE then let! x := payload64 h v in let! r := f_double f x in Ok (code r)
    else if t =? TYPE_SYMBOL then
      let! o := get_name_by_symbol s (dec_sym v) in
      let! r := f_sym_string f o in Ok (code r)
    else if t =? TYPE_ARRAY then
      let! o := byte_array h v in
      match o with
      | None => Ok (F_ARRAY, f)
      | Some bs =>
        if Z.of_nat (length bs) >? 0 then
          let! r := f_lbm_array f (wrap 32 (Z.of_nat (length bs))) bs in Ok (code r)
        else Ok (F_ARRAY, f)
      end
    else Ok (F_CANNOT, f)
  end.

(* lbm_flat_value.c 433-448 handle_flatten_error *)
Definition handle_flatten_error (e : Z) : Z :=
  if e =? F_CANNOT then EERROR
  else if (e =? F_TOO_SMALL) || (e =? F_FATAL) then FATAL_ERROR
  else if (e =? F_CIRCULAR) || (e =? F_DEPTH) then EERROR
  else if (e =? F_ARRAY) || (e =? F_NO_MEM) then MERROR
  else NIL.

(* Heap, answers of lbm_malloc to come, symbol table, answers of the
   allocations for new symbols *)
Record ust := mkU { uh : heap; up : list Z; us : syms; uk : list bool }.
Definition set_h (u : ust) (h : heap) : ust := mkU h (up u) (us u) (uk u).

Definition malloc (u : ust) : ust * Z :=
  match up u with
  | [] => (u, 0)
  | a :: r => (mkU (uh u) r (us u) (uk u), a)
  end.

(* lbm_flat_value.c 450-494 flatten_value *)
Definition flatten_value (fuel : nat) (maxd : Z) (u : ust) (v : Z) : res (ust * Z) :=
  let! (h1, cell) := alloc_cell (uh u) TYPE_CONS NIL (enc_sym SYM_ARRAY_TYPE) in
  let u1 := set_h u h1 in
  if cell =? MERROR then Ok (u1, cell) else
  let! size := value_size maxd (us u) h1 v in
  let fail (u : ust) (v : Z) :=
    let! (h, _) := set_car_and_cdr (uh u) cell NIL NIL in Ok (set_h u h, v) in
  if size >? 0 then
    let '(u2, a) := malloc u1 in
    if a =? 0 then fail u2 MERROR else
    let '(u3, b) := malloc u2 in
    if b =? 0 then fail (set_h u3 (mem_free (uh u3) a)) MERROR else
    let! (c, f) := flatten_c fuel (us u) (uh u3) (mkF (repeat 0 (Z.to_nat size)) 0) v in
    if c =? F_OK then
      let h2 := set_obj (uh u3) a (Some (OByte b (buf f))) in
      let! (h3, _) := set_car h2 cell a in
      Ok (set_h u3 h3, set_ptr_type cell TYPE_ARRAY)
    else fail u3 (handle_flatten_error size)
  else fail u1 (handle_flatten_error size).

(* ---- Unflattening ---- *)

(* the boxed numbers on a 32 bit build of 32 bits, on a 64 bit build of 64 bits:
   heap.c 94-126 and 146-165 *)
Definition enc_raw (u : ust) (x qual ty : Z) : res (ust * Z) :=
  let! (h, c) := cons (uh u) x (enc_sym qual) in
  if type_of c =? TYPE_SYMBOL then Ok (set_h u h, c) else Ok (set_h u h, set_ptr_type c ty).

(* heap.c 129-142 enc_64_on_32 *)
Definition enc_64_on_32 (u : ust) (x qual ty : Z) : res (ust * Z) :=
  let! (h, c) := cons (uh u) NIL NIL in
  let u1 := set_h u h in
  if negb (type_of c =? TYPE_SYMBOL) then
    let '(u2, a) := malloc u1 in
    if negb (a =? 0) then
      let h2 := set_obj (uh u2) a (Some (OBox x)) in
      let! (h3, _) := set_car_and_cdr h2 c a (enc_sym qual) in
      Ok (set_h u2 h3, set_ptr_type c ty)
    else Ok (u2, MERROR)
  else Ok (u1, c).

(* heap.c 94-126: the argument is the unsigned 32 bit pattern *)
Definition enc_i32 (u : ust) (x : Z) : res (ust * Z) :=
  if b64 then Ok (u, enc_i32_imm (sgn 32 x)) else enc_raw u x SYM_RAW_I_TYPE TYPE_I32.
Definition enc_u32 (u : ust) (x : Z) : res (ust * Z) :=
  if b64 then Ok (u, enc_u32_imm x) else enc_raw u x SYM_RAW_U_TYPE TYPE_U32.
Definition enc_float (u : ust) (x : Z) : res (ust * Z) :=
  if b64 then Ok (u, enc_float_imm x) else enc_raw u x SYM_RAW_F_TYPE TYPE_FLOAT.
(* heap.c 146-165: the argument is the 64 bit pattern *)
Definition enc_i64 (u : ust) (x : Z) : res (ust * Z) :=
  if b64 then enc_raw u x SYM_RAW_I_TYPE TYPE_I64 else enc_64_on_32 u x SYM_IND_I_TYPE TYPE_I64.
Definition enc_u64 (u : ust) (x : Z) : res (ust * Z) :=
  if b64 then enc_raw u x SYM_RAW_U_TYPE TYPE_U64 else enc_64_on_32 u x SYM_IND_U_TYPE TYPE_U64.
Definition enc_double (u : ust) (x : Z) : res (ust * Z) :=
  if b64 then enc_raw u x SYM_RAW_F_TYPE TYPE_DOUBLE else enc_64_on_32 u x SYM_IND_F_TYPE TYPE_DOUBLE.

(* heap.c 1204-1257 lbm_heap_allocate_array_base; [num]: the elements wanted *)
Definition alloc_array (u : ust) (bytes : bool) (num : Z) : res (ust * Z) :=
  let size := if bytes then num else wrap W (WB * num) in
  let '(u1, a) := malloc u in
  if a =? 0 then Ok (u1, MERROR) else
  let '(u2, d) := if size >? 0 then malloc u1 else (u1, 0) in
  if (size >? 0) && (d =? 0) then Ok (set_h u2 (mem_free (uh u2) a), MERROR) else
  let o := if bytes then OByte d (repeat 0 (Z.to_nat size))
           else OLisp d size (repeat 0 (Z.to_nat (size / WB))) 0 in
  let! (h, c) := alloc_cell (uh u2) (if bytes then TYPE_ARRAY else TYPE_LISPARRAY) a
                   (enc_sym (if bytes then SYM_ARRAY_TYPE else SYM_LISPARRAY_TYPE)) in
  if c =? MERROR then Ok (set_h u2 (mem_free (mem_free h d) a), MERROR)
  else Ok (set_h u2 (set_obj h a (Some o)), c).

(* lbm_flat_value.c 497-536 extract_byte, extract_word, extract_dword: the next
   [k] bytes as a big endian number *)
Fixpoint be (b : list Z) (p : Z) (k : nat) (acc : Z) : res Z :=
  match k with
  | O => Ok acc
  | S n => let! x := rd b p in be b (p + 1) n (Z.lor (Z.shiftl acc 8) x)
  end.
Definition extract (v : fv) (k : Z) : res (option Z * fv) :=
  if blen v >=? pos v + k then
    let! x := be (buf v) (pos v) (Z.to_nat k) 0 in Ok (Some x, mkF (buf v) (pos v + k))
  else Ok (None, v).

(* memcpy from buf + pos *)
Definition slice (b : list Z) (p n : Z) : res (list Z) :=
  if (0 <=? p) && (p + n <=? Z.of_nat (length b)) then Ok (firstn (Z.to_nat n) (skipn (Z.to_nat p) b)) else UB.

(* the C string at buf + pos; running past the end is undefined *)
Fixpoint c_string (b : list Z) : res name :=
  match b with
  | [] => UB
  | x :: t => if x =? 0 then Ok [] else let! n := c_string t in Ok (x :: n)
  end.

(* UNFLATTEN_OK with the value, UNFLATTEN_MALFORMED, UNFLATTEN_GC_RETRY *)
Inductive un := UOk (v : Z) | UBad | URetry.

(* an encoder's answer checked with lbm_is_symbol_merror *)
Definition checked (f : fv) (r : ust * Z) : res (ust * fv * un) :=
  Ok (fst r, f, if snd r =? MERROR then URetry else UOk (snd r)).

(* lbm_flat_value.c 572-579, the elements of an array: [hd] is the header *)
Fixpoint unflatten_elts (rec : ust -> fv -> res (ust * fv * un)) (fuel : nat) (i size hd : Z) (u : ust) (f : fv) (r : un) :
  res (ust * fv * un) :=
  if i <? size then
    match fuel with
    | O => Fuel
    | S k =>
      let! (u1, f1, r1) := rec u f in
      match r1 with
      | UOk a =>
        match mem (uh u1) hd with
        | Some (OLisp d s es ix) =>
          let! es1 := wr es i a in
          unflatten_elts rec k (i + 1) size hd (set_h u1 (set_obj (uh u1) hd (Some (OLisp d s es1 ix)))) f1 r1
        | _ => UB
        end
      | _ => Ok (u1, f1, r1)
      end
    end
  else Ok (u, f, r).

(* lbm_flat_value.c 539-763 lbm_unflatten_value_internal *)
Fixpoint unflatten (fuel : nat) (u : ust) (f : fv) : res (ust * fv * un) :=
  match fuel with
  | O => Fuel
  | S n =>
    if blen f =? pos f then Ok (u, f, UBad) else
    let! curr := rd (buf f) (pos f) in
    let f := mkF (buf f) (pos f + 1) in
    let num (k : Z) (enc : ust -> Z -> res (ust * Z)) (chk : fv -> ust * Z -> res (ust * fv * un)) :=
      let! (o, f1) := extract f k in
      match o with
      | None => Ok (u, f1, UBad)
      | Some x => let! r := enc u x in chk f1 r
      end in
    let plain (f : fv) (r : ust * Z) : res (ust * fv * un) := Ok (fst r, f, UOk (snd r)) in
    let imm (enc : Z -> Z) (u : ust) (x : Z) : res (ust * Z) := Ok (u, enc x) in
    if curr =? S_CONS then
      let! (u1, f1, r1) := unflatten n u f in
      match r1 with
      | UOk a =>
        let! (u2, f2, r2) := unflatten n u1 f1 in
        match r2 with
        | UOk b => let! (h, c) := cons (uh u2) a b in checked f2 (set_h u2 h, c)
        | _ => Ok (u2, f2, r2)
        end
      | _ => Ok (u1, f1, r1)
      end
    else if curr =? S_LBM_LISP_ARRAY then
      let! (o, f1) := extract f 4 in
      match o with
      | None => Ok (u, f1, UBad)
      | Some size =>
        let! (u1, arr) := alloc_array u false size in
        let! hd := car (uh u1) arr in
        match mem (uh u1) hd with
        | Some (OLisp _ _ _ _) =>
          if arr =? MERROR then Ok (u1, f1, URetry) else
          let! (u2, f2, r) := unflatten_elts (unflatten n) (S (length (buf f))) 0 size hd u1 f1 UBad in
          Ok (u2, f2, match r with UOk _ => UOk arr | _ => r end)
        | _ => UB
        end
      end
    else if curr =? S_SYM_VALUE then num (if b64 then 8 else 4) (imm enc_sym) plain
    else if curr =? S_BYTE_VALUE then num 1 (imm enc_char) plain
    else if curr =? S_I28_VALUE then num 4 (imm (fun x => enc_i (sgn 32 x))) plain
    else if curr =? S_U28_VALUE then num 4 (imm enc_u) plain
    else if curr =? S_I56_VALUE then num 8 (if b64 then imm (fun x => enc_i (sgn 64 x)) else enc_i64) plain
    else if curr =? S_U56_VALUE then num 8 (if b64 then imm enc_u else enc_u64) plain
    else if curr =? S_FLOAT_VALUE then num 4 enc_float checked
    else if curr =? S_DOUBLE_VALUE then num 8 enc_double checked
    else if curr =? S_I32_VALUE then num 4 enc_i32 checked
    else if curr =? S_U32_VALUE then num 4 enc_u32 checked
    else if curr =? S_I64_VALUE then num 8 enc_i64 checked
    else if curr =? S_U64_VALUE then num 8 enc_u64 checked
    else if curr =? S_LBM_ARRAY then
      let! (o, f1) := extract f 4 in
      match o with
      | None => Ok (u, f1, UBad)
      | Some num =>
        let! (u1, arr) := alloc_array u true num in
        if arr =? MERROR then Ok (u1, f1, URetry) else
        let! c := car (uh u1) arr in
        match mem (uh u1) c with
        | Some (OByte d _) =>
          let! bs := slice (buf f1) (pos f1) num in
          Ok (set_h u1 (set_obj (uh u1) c (Some (OByte d bs))), mkF (buf f1) (pos f1 + num), UOk arr)
        | _ => UB
        end
      end
    else if curr =? S_SYM_STRING then
      let! nm := c_string (skipn (Z.to_nat (pos f)) (buf f)) in
      let! (s1, o) := add_symbol (us u) Memory nm (hd false (uk u)) in
      let u1 := mkU (uh u) (up u) s1 (tl (uk u)) in
      match o with
      | Some id => Ok (u1, mkF (buf f) (pos f + (Z.of_nat (length nm) + 1)), UOk (enc_sym id))
      | None => Ok (u1, f, URetry)
      end
    else Ok (u, f, UBad)
  end.

(* lbm_flat_value.c 765-788 lbm_unflatten_value, [gc] being lbm_perform_gc *)
Definition unflatten_value (fuel : nat) (gc : ust -> res ust) (u : ust) (f : fv) : res (ust * bool * Z) :=
  let! (u1, f1, r1) := unflatten fuel u f in
  let! (u2, r2) :=
    match r1 with
    | URetry =>
      let! u2 := gc u1 in
      let! (u3, _, r3) := unflatten fuel u2 (mkF (buf f1) 0) in
      Ok (u3, r3)
    | _ => Ok (u1, r1)
    end in
  Ok (match r2 with
      | UOk v => (u2, true, v)
      | UBad => (u2, false, EERROR)
      | URetry => (u2, false, MERROR)
      end).

End Arch.
