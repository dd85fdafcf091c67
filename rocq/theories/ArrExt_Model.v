(* src/extensions/array_extensions.c: reading and writing numbers in byte arrays.

   Simplifications.
   - bufset-f32, bufget-f32 and the conversions they use (291-352, 554-568) are not
     modelled.
   - The symbol little-endian is a parameter [little]: the number it got when it
     was added to the symbol table (56).
   - The size of an array is the number of its bytes; a pointer to the data is the
     list of the bytes.  An access outside of them is undefined.
   - Arguments are a list; [argn] is its length. *)
From Verif Require Import Base Value_Model Heap_Model GC_Model Eq_Model Flat_Model Read_Model.
Local Open Scope Z_scope.

(* heap.c 307-330: conversions of floats to int32_t, None where undefined *)
Class Conv := { f32_i32 : Z -> option Z; f64_i32 : Z -> option Z }.

Section Arch.
Context {A : Arch} {L : Libc} {C : Conv}.

Definition TRUE : Z := enc_sym SYM_TRUE.

(* heap.c 307-330 lbm_dec_as_i32 *)
Definition dec_as_i32 (h : heap) (a : Z) : res Z :=
  let t := type_of_functional a in
  if t =? TYPE_CHAR then Ok (dec_char a)
  else if t =? TYPE_I then Ok (sgn 32 (dec_i a))
  else if t =? TYPE_U then Ok (sgn 32 (dec_u a))
  else if (t =? TYPE_I32) || (t =? TYPE_U32) then let! x := payload32 h a in Ok (sgn 32 x)
  else if t =? TYPE_FLOAT then let! x := payload32 h a in match f32_i32 (wrap 32 x) with Some y => Ok (sgn 32 y) | None => UB end
  else if (t =? TYPE_I64) || (t =? TYPE_U64) then let! x := payload64 h a in Ok (sgn 32 x)
  else if t =? TYPE_DOUBLE then let! x := payload64 h a in match f64_i32 (wrap 64 x) with Some y => Ok (sgn 32 y) | None => UB end
  else Ok 0.

(* heap.h 850-852 lbm_heap_array_valid *)
Definition array_valid (h : heap) (v : Z) : res bool := let! c := car h v in Ok (negb (is_symbol_nil c)).
(* heap.h 858-867 lbm_is_array_r, lbm_is_array_rw *)
Definition is_array_r (h : heap) (v : Z) : res bool :=
  if Z.land (type_of v) (wnot PTR_TO_CONSTANT_BIT) =? TYPE_ARRAY then array_valid h v else Ok false.
Definition is_array_rw (h : heap) (v : Z) : res bool :=
  if (type_of v =? TYPE_ARRAY) && negb (is_const_ptr v) then array_valid h v else Ok false.

(* array->data through (lbm_array_header_t * )lbm_car(v); the address of the header *)
Definition array_of (h : heap) (v : Z) : res (Z * Z * list Z) :=
  let! a := car h v in
  match mem h a with Some (OByte d bs) => Ok (a, d, bs) | _ => UB end.
Definition put_array (u : ust) (a d : Z) (bs : list Z) : ust := set_h u (set_obj (uh u) a (Some (OByte d bs))).

Definition arg (args : list Z) (i : Z) : res Z := rd args i.

(* 101-128 decode_append_args: the error, or big endian, the array and the index *)
Inductive dec := DErr (e : Z) | DArr (be : bool) (a d : Z) (bs : list Z) (index : Z).
Definition endian (little : Z) (v : Z) : bool := negb ((type_of v =? TYPE_SYMBOL) && (dec_sym v =? little)).
Definition decode_append_args (little : Z) (h : heap) (args : list Z) : res dec :=
  let argn := Z.of_nat (length args) in
  if (argn =? 4) || (argn =? 3) then
    let! be := (if argn =? 4 then let! v := arg args 3 in Ok (endian little v) else Ok true) in
    let! a0 := arg args 0 in let! a1 := arg args 1 in let! a2 := arg args 2 in
    let! w := is_array_rw h a0 in
    if w && is_number a1 && is_number a2 then
      let! (p, bs) := array_of h a0 in
      let! i := dec_as_u32 h a1 in
      Ok (DArr be (fst p) (snd p) bs i)
    else Ok (DErr TERROR)
  else Ok (DErr EERROR).

(* (uint8_t)(value >> k) *)
Definition byte (value k : Z) : Z := wrap 8 (Z.shiftr value k).
(* 130-176 buffer_append_bytes: the stores in the order of the code, as pairs of
   offset and shift *)
Definition stores (be : bool) (nbytes : Z) : list (Z * Z) :=
  if nbytes =? 1 then [(0, 0)]
  else if nbytes =? 2 then if be then [(1, 0); (0, 8)] else [(0, 0); (1, 8)]
  else if nbytes =? 3 then if be then [(2, 0); (1, 8); (0, 16)] else [(0, 0); (1, 8); (2, 16)]
  else if be then [(3, 0); (2, 8); (1, 16); (0, 24)] else [(0, 0); (1, 8); (2, 16); (3, 24)].
Fixpoint store_all (bs : list Z) (index value : Z) (l : list (Z * Z)) : res (list Z) :=
  match l with
  | [] => Ok bs
  | (o, k) :: t => let! bs := wr bs (wrap W (index + o)) (byte value k) in store_all bs index value t
  end.
Definition buffer_append_bytes (bs : list Z) (be : bool) (index nbytes value : Z) : res (option (list Z)) :=
  let last_index := wrap W (index + (nbytes - 1)) in
  if last_index <? Z.of_nat (length bs) then let! bs := store_all bs index value (stores be nbytes) in Ok (Some bs)
  else Ok None.

(* 178-289: bufset-i8, -i16, -i32 ([sg]), bufset-u8, -u16, -u24, -u32 *)
Definition bufset (little : Z) (sg : bool) (nbytes : Z) (u : ust) (args : list Z) : res (ust * Z) :=
  let! d := decode_append_args little (uh u) args in
  match d with
  | DErr e => Ok (u, e)
  | DArr be a d bs index =>
    let! v := arg args 2 in
    let! x := (if sg then let! x := dec_as_i32 (uh u) v in Ok (wrap W x) else dec_as_u32 (uh u) v) in
    let! o := buffer_append_bytes bs be index nbytes x in
    match o with
    | Some bs => Ok (put_array u a d bs, TRUE)
    | None => Ok (u, EERROR)
    end
  end.

(* 354-379 decode_get_args *)
Definition decode_get_args (little : Z) (h : heap) (args : list Z) : res dec :=
  let argn := Z.of_nat (length args) in
  if (argn =? 3) || (argn =? 2) then
    let! be := (if argn =? 3 then let! v := arg args 2 in Ok (endian little v) else Ok true) in
    let! a0 := arg args 0 in let! a1 := arg args 1 in
    let! w := is_array_r h a0 in
    if w && is_number a1 then
      let! (p, bs) := array_of h a0 in
      let! i := dec_as_u32 h a1 in
      Ok (DArr be (fst p) (snd p) bs i)
    else Ok (DErr TERROR)
  else Ok (DErr EERROR).

(* 381-440 buffer_get_uint *)
Fixpoint load_all (bs : list Z) (index : Z) (l : list (Z * Z)) : res Z :=
  match l with
  | [] => Ok 0
  | (o, k) :: t => let! b := rd bs (wrap W (index + o)) in let! r := load_all bs index t in Ok (Z.lor (Z.shiftl b k) r)
  end.
Definition buffer_get_uint (bs : list Z) (be : bool) (index nbytes : Z) : res (option Z) :=
  let last_index := wrap W (index + (nbytes - 1)) in
  if last_index <? Z.of_nat (length bs) then let! x := load_all bs index (stores be nbytes) in Ok (Some x)
  else Ok None.

(* 442-552: bufget-i8, -i16, -i32, -u8, -u16, -u24, -u32 *)
Inductive getter := GI8 | GI16 | GI32 | GU8 | GU16 | GU24 | GU32.
Definition get_bytes (g : getter) : Z := match g with GI8 | GU8 => 1 | GI16 | GU16 => 2 | GU24 => 3 | GI32 | GU32 => 4 end.
Definition encode (g : getter) (u : ust) (x : Z) : res (ust * Z) :=
  match g with
  | GI8 => Ok (u, enc_i (sgn 8 x))
  | GI16 => Ok (u, enc_i (sgn 16 x))
  | GI32 => Ok (u, enc_i (sgn 32 x))
  | GU8 => Ok (u, enc_i (wrap 8 x))
  | GU16 => Ok (u, enc_i (wrap 16 x))
  | GU24 => Ok (u, enc_i (sgn 32 x))
  | GU32 => enc_u32 u (wrap 32 x)
  end.
Definition bufget (little : Z) (g : getter) (u : ust) (args : list Z) : res (ust * Z) :=
  let! d := decode_get_args little (uh u) args in
  match d with
  | DErr e => Ok (u, e)
  | DArr be _ _ bs index =>
    let! o := buffer_get_uint bs be index (get_bytes g) in
    match o with
    | Some x => encode g u x
    | None => Ok (u, EERROR)
    end
  end.

(* 570-580 array_extension_buffer_length *)
Definition buflen (u : ust) (args : list Z) : res (ust * Z) :=
  if Z.of_nat (length args) =? 1 then
    let! a0 := arg args 0 in
    let! r := is_array_r (uh u) a0 in
    if r then let! (_, bs) := array_of (uh u) a0 in Ok (u, enc_i (Z.of_nat (length bs))) else Ok (u, EERROR)
  else Ok (u, EERROR).

(* memset(data + start, b, len) *)
Definition memset (bs : list Z) (start b len : Z) : res (list Z) :=
  if (0 <=? start) && (0 <=? len) && (start + len <=? Z.of_nat (length bs)) then
    Ok (firstn (Z.to_nat start) bs ++ repeat b (Z.to_nat len) ++ skipn (Z.to_nat (start + len)) bs)
  else UB.
(* 582-626 array_extensions_bufclear *)
Definition bufclear (u : ust) (args : list Z) : res (ust * Z) :=
  let argn := Z.of_nat (length args) in
  let h := uh u in
  let number i k := (if argn >? i then let! v := arg args i in if is_number v then let! x := dec_as_u32 h v in k (Some x) else Ok (u, TERROR) else k None) in
  if (1 <=? argn) && (argn <=? 4) then
    let! a0 := arg args 0 in
    let! w := is_array_rw h a0 in
    if negb w then Ok (u, TERROR) else
    let! (p, bs) := array_of h a0 in
    let size := Z.of_nat (length bs) in
    number 1 (fun x =>
    let clear_byte := match x with Some x => wrap 8 x | None => 0 end in
    number 2 (fun x =>
    match (match x with Some s => if s <? size then Some s else None | None => Some 0 end) with
    | None => Ok (u, TERROR)
    | Some start =>
      let len := wrap 32 (wrap 32 size - start) in
      number 3 (fun x =>
      let len := match x with Some l => if l <=? len then l else len | None => len end in
      let! bs := memset bs start clear_byte len in
      Ok (put_array u (fst p) (snd p) bs, TRUE))
    end))
  else Ok (u, EERROR).

(* memcpy(dst + start1, src + start2, len); overlapping ranges are undefined *)
Definition memcpy (same : bool) (dst : list Z) (start1 : Z) (src : list Z) (start2 len : Z) : res (list Z) :=
  if (start1 + len <=? Z.of_nat (length dst)) && (start2 + len <=? Z.of_nat (length src)) &&
     negb (same && (start1 <? start2 + len) && (start2 <? start1 + len)) then
    Ok (firstn (Z.to_nat start1) dst ++ firstn (Z.to_nat len) (skipn (Z.to_nat start2) src) ++ skipn (Z.to_nat (start1 + len)) dst)
  else UB.
(* 628-658 array_extensions_bufcpy *)
Definition bufcpy (u : ust) (args : list Z) : res (ust * Z) :=
  let h := uh u in
  if Z.of_nat (length args) =? 5 then
    let! a0 := arg args 0 in let! a1 := arg args 1 in let! a2 := arg args 2 in let! a3 := arg args 3 in let! a4 := arg args 4 in
    let! w := is_array_rw h a0 in
    let! r := is_array_r h a2 in
    if w && is_number a1 && r && is_number a3 && is_number a4 then
      let! (p1, bs1) := array_of h a0 in
      let! start1 := dec_as_u32 h a1 in
      let! (p2, bs2) := array_of h a2 in
      let! start2 := dec_as_u32 h a3 in
      let! len := dec_as_u32 h a4 in
      let size1 := Z.of_nat (length bs1) in let size2 := Z.of_nat (length bs2) in
      if (start1 <? size1) && (start2 <? size2) then
        let len := if len >? size1 - start1 then wrap 32 (wrap 32 size1 - start1) else len in
        let len := if len >? size2 - start2 then wrap 32 (wrap 32 size2 - start2) else len in
        let! bs := memcpy (fst p1 =? fst p2) bs1 start1 bs2 start2 len in
        Ok (put_array u (fst p1) (snd p1) bs, TRUE)
      else Ok (u, TRUE)
    else Ok (u, TERROR)
  else Ok (u, EERROR).

(* 660-687 array_extensions_bufset_bit *)
Definition bufset_bit (u : ust) (args : list Z) : res (ust * Z) :=
  let h := uh u in
  if Z.of_nat (length args) =? 3 then
    let! a0 := arg args 0 in let! a1 := arg args 1 in let! a2 := arg args 2 in
    let! w := is_array_rw h a0 in
    if w && is_number a1 && is_number a2 then
      let! (p, bs) := array_of h a0 in
      let! pos := dec_as_u32 h a1 in
      let! b := dec_as_u32 h a2 in
      let bit := if b =? 0 then 0 else 1 in
      let bytepos := pos / 8 in
      if bytepos <? Z.of_nat (length bs) then
        let bitpos := pos mod 8 in
        let! x := rd bs bytepos in
        let x := Z.land x (wrap 8 (Z.lnot (Z.shiftl 1 bitpos))) in
        let x := Z.lor x (wrap 8 (Z.shiftl bit bitpos)) in
        let! bs := wr bs bytepos x in
        Ok (put_array u (fst p) (snd p) bs, TRUE)
      else Ok (u, TRUE)
    else Ok (u, TERROR)
  else Ok (u, EERROR).

(* heap.c 1346-1364 lbm_heap_explicit_free_array; 85-99 array_extension_unsafe_free_array *)
Definition SYM_ARRAY_TYPE_ENC : Z := enc_sym SYM_ARRAY_TYPE.
Definition free_array (h : heap) (v : Z) : res (heap * bool) :=
  let! w := is_array_rw h v in
  if w then
    let! q := cdr h v in
    if q =? SYM_ARRAY_TYPE_ENC then
      let! p := car h v in
      match mem h p with
      | Some (OByte d _) =>
        let h := set_obj (mem_free (mem_free h d) p) p None in
        let v := set_ptr_type v TYPE_CONS in
        let! (h, _) := set_car h v NIL in
        let! (h, _) := set_cdr h v NIL in
        Ok (h, true)
      | _ => UB
      end
    else Ok (h, false)
  else Ok (h, false).
Definition free_ext (u : ust) (args : list Z) : res (ust * Z) :=
  if Z.of_nat (length args) =? 1 then
    let! a0 := arg args 0 in
    let! w := is_array_rw (uh u) a0 in
    if w then let! (h, b) := free_array (uh u) a0 in Ok (set_h u h, if b : bool then TRUE else NIL) else Ok (u, TERROR)
  else Ok (u, EERROR).

End Arch.
