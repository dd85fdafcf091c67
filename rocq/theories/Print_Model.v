(* Model of src/print.c: the printer, writing to the string channel that
   lbm_print_value makes.

   Simplifications.
   - snprintf is the C library's: %d, %u print the decimal numeral; what %f and
     %lf print is the parameter [Fmt], as is the descriptor of a custom type.
   - EMIT_OK and EMIT_FAILED are [true] and [false].
   - A character of a byte array is its value 0 .. 255; isprint is that of the C
     locale. *)
From Verif Require Import Base Value_Model Heap_Model Stack_Model Sym_Model Chan_Model Eq_Model.
Local Open Scope Z_scope.

(* print.c 168-178: the text of "%f" of a bit pattern (32 and 64 bits), before
   any truncation; 211-220: the descriptor of a custom value, None when NULL *)
Class Fmt := { fmt_float : Z -> list Z; fmt_double : Z -> list Z; custom_descriptor : Z -> option (list Z) }.

(* print.c 32-40 *)
Definition PRINT := 1.
Definition PRINT_SPACE := 2.
Definition START_LIST := 3.
Definition CONTINUE_LIST := 4.
Definition END_LIST := 5.
Definition PRINT_DOT := 6.
Definition START_ARRAY := 7.
Definition CONTINUE_ARRAY := 8.
Definition END_ARRAY := 9.

(* print.c 152, 158: the C library's %u of a number below 10^k, the digits as characters *)
Fixpoint udec (k : nat) (n : Z) : list Z :=
  match k with
  | O => []
  | S j => if n <? 10 then [48 + n] else udec j (n / 10) ++ [48 + n mod 10]
  end.
(* print.c 152, 188: %d *)
Definition sdec (k : nat) (n : Z) : list Z := if n <? 0 then 45 :: udec k (- n) else udec k n.

(* print.c 101 EMIT_BUFFER_SIZE: snprintf into it keeps 29 characters *)
Definition snprintf (s : list Z) : list Z := firstn 29 s.

(* print.c 106-114 print_emit_string of the C string [s] (up to a zero) *)
Fixpoint emit_string (c : schan) (s : list Z) : res (schan * bool) :=
  match s with
  | [] => Ok (c, true)
  | x :: t =>
    if x =? 0 then Ok (c, true) else
    let! (c1, r) := string_write c x in
    match r with SUCCESS => emit_string c1 t | _ => Ok (c1, false) end
  end.

(* print.c 116-121 print_emit_char *)
Definition emit_char (c : schan) (x : Z) : res (schan * bool) :=
  let! (c1, r) := string_write c x in
  Ok (c1, match r with SUCCESS => true | _ => false end).

(* print.c 124-134 emit_escape *)
Definition emit_escape (c : schan) (x : Z) : res (schan * bool) :=
  if x =? 34 then emit_string c [92; 34]
  else if x =? 10 then emit_string c [92; 110]
  else if x =? 13 then emit_string c [92; 114]
  else if x =? 9 then emit_string c [92; 116]
  else if x =? 92 then emit_string c [92; 92]
  else emit_char c x.

(* print.c 136-143 print_emit_string_value: reads on until a zero *)
Fixpoint emit_string_value (c : schan) (s : list Z) : res (schan * bool) :=
  match s with
  | [] => UB
  | x :: t =>
    if x =? 0 then Ok (c, true) else
    let! (c1, r) := emit_escape c x in
    if r then emit_string_value c1 t else Ok (c1, false)
  end.

(* isprint((unsigned char)x) || (8 <= x && x <= 13), print.c 71: as a signed or
   an unsigned char, the answer is the same *)
Definition printable (x : Z) : bool := ((32 <=? x) && (x <=? 126)) || ((8 <=? x) && (x <=? 13)).

(* print.c 67-75: where the loop stops, and what is_a_string then is *)
Fixpoint scan (bs : list Z) (i : Z) : Z * bool :=
  match bs with
  | [] => (i, true)
  | x :: t => if x =? 0 then (i, true) else if printable x then scan t (i + 1) else (i, false)
  end.

(* print.c 58-82 lbm_value_is_printable_string, of the bytes of a valid array *)
Definition is_printable_string (bs : list Z) : res bool :=
  let size := Z.of_nat (length bs) in
  let '(i, is_a_string) := match bs with
                           | x :: _ => if x =? 0 then (0, false) else scan bs 0
                           | [] => (0, false)
                           end in
  if i =? size - 1 then Ok is_a_string
  else let! x := rd bs (i - 1) in
       if x =? 0 then Ok is_a_string else Ok false.

Section Arch.
Context {A : Arch} {F : Fmt}.

(* print.c 47-56 push_n: the test is strict *)
Definition push_n (s : stack) (vs : list Z) : res (stack * bool) :=
  if s_sp s + Z.of_nat (length vs) <? s_size s then
    let! d := store_at (s_data s) (s_sp s) vs in
    Ok (mkst d (s_sp s + Z.of_nat (length vs)) (s_size s), true)
  else Ok (s, false).

(* print.c 145-148 print_emit_symbol; 107 of NULL fails *)
Definition emit_symbol (c : schan) (sy : syms) (v : Z) : res (schan * bool) :=
  let! n := get_name_by_symbol sy (dec_sym v) in
  match n with Some s => emit_string c s | None => Ok (c, false) end.

(* print.c 150-202: the numbers *)
Definition emit_i (c : schan) (v : Z) := emit_string c (snprintf (sdec 20 v)).
Definition emit_num (c : schan) (s : list Z) (suffix : list Z) := emit_string c (snprintf (s ++ suffix)).

(* print.c 204-209 print_emit_continuation *)
Definition emit_continuation (c : schan) (v : Z) : res (schan * bool) :=
  emit_string c (snprintf ([67; 79; 78; 84; 91] ++ udec 20 (Z.shiftr (Z.land v (wnot CONTINUATION_INTERNAL)) ADDRESS_SHIFT) ++ [93])).

(* print.c 211-220 print_emit_custom: the car is never NULL in the model *)
Definition emit_custom (c : schan) (h : heap) (v : Z) : res (schan * bool) :=
  let! p := car h v in
  match custom_descriptor p with
  | Some s => emit_string c s
  | None => emit_string c [73; 78; 86; 65; 76; 73; 68; 95; 67; 85; 83; 84; 79; 77; 95; 84; 89; 80; 69]
  end.

(* print.c 238-246: the loop over the bytes; a failure is remembered, not acted on *)
Fixpoint emit_bytes (c : schan) (bs : list Z) (r : bool) : res (schan * bool) :=
  match bs with
  | [] => Ok (c, r)
  | x :: t =>
    let! (c1, r1) := emit_num c (udec 3 x) [] in
    if r1 && negb (length t =? 0)%nat then
      let! (c2, r2) := emit_char c1 32 in emit_bytes c2 t r2
    else emit_bytes c1 t r1
  end.

(* print.c 232-252 print_emit_array_data *)
Definition emit_array_data (c : schan) (bs : list Z) : res (schan * bool) :=
  let! (c1, r) := emit_char c 91 in
  if r then
    let! (c2, r2) := emit_bytes c1 bs r in
    if r2 then emit_char c2 93 else Ok (c2, false)
  else Ok (c1, false).

(* print.c 254-274 print_emit_bytearray; heap.h 850-861: an array whose header
   is NULL is not valid *)
Definition emit_bytearray (c : schan) (h : heap) (v : Z) : res (schan * bool) :=
  let! p := car h v in
  if is_symbol_nil p then emit_string c [91; 73; 78; 86; 65; 76; 73; 68; 95; 65; 82; 82; 65; 89; 93]
  else match mem h p with
  | Some (OByte _ bs) =>
    let! b := is_printable_string bs in
    if b then
      let! (c1, r) := emit_char c 34 in
      if r then
        let! (c2, r2) := emit_string_value c1 bs in
        if r2 then emit_char c2 34 else Ok (c2, false)
      else Ok (c1, false)
    else emit_array_data c bs
  | _ => UB
  end.

(* print.c 349-350 and 382-383: a pair, constant or not *)
Definition cons_typed (v : Z) : bool := (type_of v =? TYPE_CONS) || (type_of v =? Z.lor TYPE_CONS PTR_TO_CONSTANT_BIT).

(* print.c 348-365 and 381-398: what is left to print after the car [a] of a
   list with cdr [d]; false when the stack is too small *)
Definition push_rest (st : stack) (a d : Z) : res (stack * bool) :=
  let! (st1, r) := (if cons_typed d then push_n st [d; CONTINUE_LIST]
                    else if (type_of d =? TYPE_SYMBOL) && (d =? NIL) then push st END_LIST
                    else push_n st [END_LIST; d; PRINT; PRINT_DOT]) in
  if r then push_n st1 [a; PRINT] else Ok (st1, false).

(* lbm_defines.h 66, 120 LBM_CONTINUATION_INTERNAL_TYPE *)
Definition CONT_TYPE : Z := sel 0xF8000000 0xF800000000000000.

(* print.c 416-418: constants are printed normally *)
Definition print_type (v : Z) : Z := if is_ptr v then Z.land (type_of v) (wnot PTR_TO_CONSTANT_BIT) else type_of v.

(* print.c 287-488: what one turn of the loop does next: go on with (channel, stack, r), or
   return *)
Inductive pstep := PGo (c : schan) (st : stack) (r : bool) | PRet (c : schan) (r : bool).

(* print.c 308-311, 333-336, 363-366, 396-399: go on, or return when the stack was too small *)
Definition pushed (c : schan) (r : bool) (p : stack * bool) : res pstep :=
  Ok (if snd p then PGo c (fst p) r else PRet c false).
(* print.c 338-341, 430-474: go on whatever the outcome; 401-412: only on success *)
Definition emitted (st : stack) (e : schan * bool) : res pstep := Ok (PGo (fst e) st (snd e)).
Definition emitted_ok (st : stack) (e : schan * bool) : res pstep := Ok (if snd e then PGo (fst e) st true else PRet (fst e) false).

(* print.c 421-429 and 475-483: no room for the frame of a compound value *)
Definition push_compound (c : schan) (r : bool) (st : stack) (v instr : Z) : res pstep :=
  let! (st1, ok) := push_n st [v; instr] in
  if ok then Ok (PGo c st1 r)
  else let! (c1, _) := emit_string c [32; 46; 46; 46] in Ok (PRet c1 true).

(* print.c 413-486 case PRINT *)
Definition print_value_step (h : heap) (sy : syms) (c : schan) (st : stack) (r : bool) (v : Z) : res pstep :=
  let t := print_type v in
  let num s suffix := let! e := emit_num c s suffix in emitted st e in
  if t =? TYPE_CONS then push_compound c r st v START_LIST
  else if t =? TYPE_SYMBOL then let! e := emit_symbol c sy v in emitted st e
  else if t =? TYPE_I then let! e := emit_i c (dec_i v) in emitted st e
  else if t =? TYPE_U then num (udec 20 (dec_u v)) [117]
  else if t =? TYPE_CHAR then num (udec 20 (dec_char v)) [98]
  else if t =? TYPE_FLOAT then let! x := payload32 h v in num (fmt_float x) [102; 51; 50]
  else if t =? TYPE_DOUBLE then let! x := payload64 h v in num (fmt_double x) [102; 54; 52]
  else if t =? TYPE_U32 then let! x := payload32 h v in num (udec 20 (wrap 32 x)) [117; 51; 50]
  else if t =? TYPE_I32 then let! x := payload32 h v in num (sdec 20 (sgn 32 x)) [105; 51; 50]
  else if t =? TYPE_U64 then let! x := payload64 h v in num (udec 20 (wrap 64 x)) [117; 54; 52]
  else if t =? TYPE_I64 then let! x := payload64 h v in num (sdec 20 (sgn 64 x)) [105; 54; 52]
  else if t =? CONT_TYPE then let! e := emit_continuation c v in emitted st e
  else if t =? TYPE_CUSTOM then let! e := emit_custom c h v in emitted st e
  else if t =? TYPE_CHANNEL then let! e := emit_string c [126; 67; 72; 65; 78; 78; 69; 76; 126] in emitted st e
  else if t =? TYPE_ARRAY then let! e := emit_bytearray c h v in emitted st e
  else if t =? TYPE_DEFRAG_MEM then let! e := emit_string c [68; 77] in emitted st e
  else if t =? TYPE_LISPARRAY then push_compound c r st v START_ARRAY
  else Ok (PRet c false).

(* print.c 294-296 and 319-321: the header an array's car points to *)
Definition lisp_array (h : heap) (p : Z) : res (Z * list Z) :=
  match mem h p with Some (OLisp _ size elts _) => Ok (size / WB, elts) | _ => UB end.

(* print.c 288-488: one turn of the loop *)
Definition print_step (h : heap) (sy : syms) (c : schan) (st : stack) (r : bool) : res pstep :=
  let! (st, instr) := pop st in
  if instr =? START_ARRAY then                                       (* 290-312 *)
    let! (st, curr) := pop st in
    let! (c, r) := emit_char c 91 in
    let! arr := car h curr in
    let! (size, elts) := lisp_array h arr in
    if 1 <=? size then let! x := rd elts 0 in let! p := push_n st [1; arr; CONTINUE_ARRAY; x; PRINT] in pushed c r p
    else let! p := push st END_LIST in pushed c r p
  else if instr =? CONTINUE_ARRAY then                               (* 313-337 *)
    let! (st, (arr, ix)) := pop_2 st in
    let! (size, elts) := lisp_array h arr in
    if ix <? size then
      let! (c, r) := emit_char c 32 in
      let! x := rd elts ix in
      let! p := push_n st [wrap W (ix + 1); arr; CONTINUE_ARRAY; x; PRINT] in pushed c r p
    else let! p := push st END_ARRAY in pushed c r p
  else if instr =? END_ARRAY then let! e := emit_char c 93 in emitted st e
  else if instr =? START_LIST then                                   (* 342-366 *)
    let! (st, curr) := pop st in
    let! (c, r) := emit_char c 40 in
    if r then
      let! a := car h curr in
      let! d := cdr h curr in
      let! p := push_rest st a d in pushed c r p
    else Ok (PRet c false)
  else if instr =? CONTINUE_LIST then                                (* 367-400 *)
    let! (st, curr) := pop st in
    if (type_of curr =? TYPE_SYMBOL) && (curr =? NIL) then Ok (PGo c st r) else
    let! a := car h curr in
    let! d := cdr h curr in
    let! (c, r) := emit_char c 32 in
    if r then let! p := push_rest st a d in pushed c r p
    else Ok (PRet c false)
  else if instr =? END_LIST then let! e := emit_char c 41 in emitted_ok st e
  else if instr =? PRINT_SPACE then let! e := emit_char c 32 in emitted_ok st e
  else if instr =? PRINT_DOT then let! e := emit_string c [32; 46; 32] in emitted_ok st e
  else if instr =? PRINT then let! (st, curr) := pop st in print_value_step h sy c st r curr
  else Ok (PGo c st r).

(* print.c 287 the loop; chan_full is never set *)
Fixpoint print_loop (fuel : nat) (h : heap) (sy : syms) (c : schan) (st : stack) (r : bool) : res (schan * bool) :=
  if s_sp st =? 0 then Ok (c, r)
  else match fuel with
  | O => Fuel
  | S k =>
    let! s := print_step h sy c st r in
    match s with
    | PGo c st r => print_loop k h sy c st r
    | PRet c r => Ok (c, r)
    end
  end.

(* print.c 277-490 lbm_print_internal with the print stack [st] *)
Definition print_internal (fuel : nat) (h : heap) (sy : syms) (st : stack) (c : schan) (v : Z) : res (schan * bool) :=
  let! (st1, _) := push_n (stack_clear st) [v; PRINT] in
  print_loop fuel h sy c st1 false.

(* print.c 492-502 lbm_print_value into a buffer of [len] bytes: the bytes it
   then holds, and whether the result is 1 *)
Definition print_value (fuel : nat) (h : heap) (sy : syms) (st : stack) (len : Z) (v : Z) : res (list Z * bool) :=
  let! (c, r) := print_internal fuel h sy st (string_create_size (repeat 0 (Z.to_nat len)) len) v in
  Ok (c_str c, r).

End Arch.
