(* The reader: the continuations of src/eval_cps.c that build values from the
   tokens of a channel, 2351-2425 and 3685-4374.

   Simplifications.
   - The stack K is a list of frames: a continuation and the words that belong to
     it (without the stream, which is the same for all of them).  Stack overflow is
     not modelled.  The stack tests of read_finish (3717-3727), which compare
     words of the stack, are tests of the frames these words belong to.
   - The channel is the characters to come and whether more can come (Tok_Model),
     its comment flag, and whether nothing was dropped from it yet: then and only
     then are both row and column 1 (lbm_channel.c 157-174 and 314-347).  row0 and
     row1 of the context are not modelled.
   - Reading and evaluating incrementally (READ_EVAL_CONTINUE, 4238-4273) is not
     modelled; so symbols are never added to flash.
   - Collections (WITH_GC, gc) are not modelled: what would run out of memory after
     one does so at once.
   - error_ctx and read_error_ctx, which leave the evaluator by longjmp, are the
     outcome [RErr].
   - The sizes of arrays are less than 2^28, so encoding and decoding them on the
     stack is the identity.
   - Backquote: the expansion is QQ_Model. *)
From Coq Require Import String.
From Verif Require Import Base Value_Model Heap_Model GC_Model Eq_Model Sym_Model Flat_Model QQ_Model Tok_Model.
Import List.
Local Open Scope Z_scope.

(* lbm_defines.h 206, 207, 212, 216, 217, 149, 183, 231 *)
Definition SYM_OPENPAR := 0x70.
Definition SYM_CLOSEPAR := 0x71.
Definition SYM_DOT := 0x76.
Definition SYM_OPENBRACK := 0x80.
Definition SYM_CLOSEBRACK := 0x81.
Definition SYM_DONTCARE := 0x9.
Definition SYM_MATCH_ANY := 0x41.
Definition SYM_PROGN := 0x102.
(* lbm_defines.h 205, 221 *)
Definition TOKENIZER_SYMBOLS_START := 0x70.
Definition TOKENIZER_SYMBOLS_END := 0x85.

(* What the C library and the memory allocator contribute: strtod of a text as a
   float and as a double, given as bit patterns (3931-3944); the conversion of
   those to uint32_t (heap.c 295-302), None where it is undefined; and the bytes in 0.9 times the longest
   free block of memory (4094-4105). *)
Class Libc := { to_f32 : list Z -> Z; to_f64 : list Z -> Z; f32_u32 : Z -> option Z; f64_u32 : Z -> option Z; array_room : ust -> Z }.

Section Arch.
Context {A : Arch} {L : Libc}.

Definition CLOSEPAR : Z := enc_sym SYM_CLOSEPAR.
Definition DOT : Z := enc_sym SYM_DOT.
Definition CLOSEBRACK : Z := enc_sym SYM_CLOSEBRACK.

(* READ_NEXT_TOKEN, READ_APPEND_CONTINUE (first and last cell), READ_DOT_TERMINATE
   (the same), READ_EXPECT_CLOSEPAR (the list), WRAP_RESULT (the wrapper),
   READ_START_ARRAY, READ_APPEND_ARRAY (array, size, next index), the
   continuations of quasi-quotation, READ_DONE (2351-2352: reading an expression
   or a program) *)
Inductive mode := Expression | Program.
Inductive rframe :=
| FNext | FItems (first last : Z) | FDot (first last : Z) | FClose (res : Z) | FWrap (w : Z)
| FStartArray | FArray (array size ix : Z) | FQuasi (f : frame) | FDone (m : mode).

Record rst := mkR {
  ru : ust;
  rtext : list Z; rmore : bool; rcomment : bool; rfresh : bool;
  rk : list rframe;
  rr : Z }.
Definition set_k (s : rst) (k : list rframe) (r : Z) : rst := mkR (ru s) (rtext s) (rmore s) (rcomment s) (rfresh s) k r.
Definition set_u (s : rst) (u : ust) : rst := mkR u (rtext s) (rmore s) (rcomment s) (rfresh s) (rk s) (rr s).
Definition set_text (s : rst) (t : list Z) (c : bool) : rst :=
  mkR (ru s) t (rmore s) c (rfresh s && (length t =? length (rtext s))%nat) (rk s) (rr s).

(* continue; the value read, with the text left; an error; wait for more text *)
Inductive rout := RGo (s : rst) | RDone (u : ust) (rest : list Z) (v : Z) | RErr | RWait (s : rst).

(* 3708-3714 and 4352-4359 *)
Definition tokenizer_symbol (r : Z) : bool :=
  is_symbol r && (TOKENIZER_SYMBOLS_START <=? dec_sym r) && (dec_sym r <=? TOKENIZER_SYMBOLS_END).

(* 3685-3741 read_finish *)
Definition read_finish (s : rst) : rout :=
  if tokenizer_symbol (rr s) then RErr else
  match rk s with
  | FItems _ _ :: FDone Program :: _ => RGo (set_k s (rk s) CLOSEPAR)
  | _ => if rfresh s then RGo (set_k s (rk s) NIL) else RErr
  end.

(* heap.c 283-305 lbm_dec_as_u32 *)
Definition dec_as_u32 (h : heap) (a : Z) : res Z :=
  let t := type_of_functional a in
  if t =? TYPE_CHAR then Ok (dec_char a)
  else if t =? TYPE_I then Ok (wrap 32 (dec_i a))
  else if t =? TYPE_U then Ok (wrap 32 (dec_u a))
  else if (t =? TYPE_I32) || (t =? TYPE_U32) then let! x := payload32 h a in Ok (wrap 32 x)
  else if t =? TYPE_FLOAT then let! x := payload32 h a in match f32_u32 (wrap 32 x) with Some y => Ok (wrap 32 y) | None => UB end
  else if (t =? TYPE_I64) || (t =? TYPE_U64) then let! x := payload64 h a in Ok (wrap 32 x)
  else if t =? TYPE_DOUBLE then let! x := payload64 h a in match f64_u32 (wrap 64 x) with Some y => Ok (wrap 32 y) | None => UB end
  else Ok 0.

(* 440-442 assume_array and a store to its data: [f] makes the new bytes *)
Definition set_bytes (u : ust) (v : Z) (f : list Z -> res (list Z)) : res ust :=
  let! c := ref_cell (uh u) v in
  match mem (uh u) (fst c) with
  | Some (OByte d bs) => let! bs := f bs in Ok (set_h u (set_obj (uh u) (fst c) (Some (OByte d bs))))
  | _ => UB
  end.

(* a value from an encoder, with WITH_GC (133-147) *)
Definition value_or_error (s : rst) (K : list rframe) (m : res (ust * Z)) : res rout :=
  let! (u, v) := m in Ok (if v =? MERROR then RErr else RGo (set_k (set_u s u) K v)).

(* 3901-3925: a string token *)
Definition read_string (s : rst) (K : list rframe) (str : list Z) : res rout :=
  let! (u, v) := alloc_array (ru s) true (Z.of_nat (length str) + 1) in
  if is_ptr v then
    let! u := set_bytes u v (fun _ => Ok (str ++ [0])) in Ok (RGo (set_k (set_u s u) K v))
  else Ok RErr.

(* 3947-3974: an integer token *)
Definition read_int (s : rst) (K : list rframe) (neg : bool) (val type : Z) : res rout :=
  match int_literal W neg val type with
  | None => Ok RErr
  | Some x =>
    if type =? TOKTYPEBYTE then Ok (RGo (set_k s K (enc_char x)))
    else if type =? TOKTYPEI then Ok (RGo (set_k s K (enc_i x)))
    else if type =? TOKTYPEU then Ok (RGo (set_k s K (enc_u x)))
    else value_or_error s K
      (if type =? TOKTYPEI32 then enc_i32 (ru s) (wrap 32 x)
       else if type =? TOKTYPEU32 then enc_u32 (ru s) x
       else if type =? TOKTYPEI64 then enc_i64 (ru s) (wrap 64 x)
       else enc_u64 (ru s) x)
  end.

(* 3984-4037: a symbol token; a new name is added to the extensions if it starts
   with "ext-", to the symbols otherwise *)
Definition ext_name (n : name) : bool := (4 <? length n)%nat && (if list_eq_dec Z.eq_dec (firstn 4 n) (Tok_Model.chars "ext-") then true else false).
Definition read_symbol (s : rst) (K : list rframe) (n : name) : res rout :=
  let u := ru s in
  let! o := get_symbol_by_name (us u) n in
  match o with
  | Some i => Ok (RGo (set_k s K (enc_sym i)))
  | None =>
    if ext_name n then
      let '(u, a) := malloc u in
      if a =? 0 then Ok RErr else
      let! (sy, ok) := add_extension (us u) n default_fn in
      let! e := lookup_extension_id sy n in
      let s := set_u s (mkU (uh u) (up u) sy (uk u)) in
      match e with
      | None => Ok RErr
      | Some i => Ok (if ok : bool then RGo (set_k s K (enc_sym i)) else RErr)
      end
    else
      let '(sy, o) := add_symbol_base (us u) Memory n (hd false (uk u)) in
      let s := set_u s (mkU (uh u) (up u) sy (tl (uk u))) in
      match o with
      | None => Ok RErr
      | Some i => Ok (RGo (set_k s K (enc_sym i)))
      end
  end.

(* 3789-3896: a syntax token; the text is behind the token *)
Definition read_syntax (s : rst) (K : list rframe) (tok : Z) : rout :=
  if tok =? 1 then RGo (set_k s (FNext :: FItems NIL NIL :: K) (enc_sym SYM_OPENPAR))
  else if (tok =? 2) || (tok =? 13) then RGo (set_k s K CLOSEPAR)
  else if tok =? 3 then RGo (set_k s (FNext :: FStartArray :: K) (enc_sym SYM_OPENBRACK))
  else if tok =? 4 then RGo (set_k s K CLOSEBRACK)
  else if tok =? 5 then RGo (set_k s K DOT)
  else if tok =? 6 then RGo (set_k s K (enc_sym SYM_DONTCARE))
  else if tok =? 7 then RGo (set_k s (FNext :: FWrap QUOTE :: K) (rr s))
  else if tok =? 8 then RGo (set_k s (FNext :: FQuasi FStart :: K) (rr s))
  else if tok =? 9 then RGo (set_k s (FNext :: FWrap COMMAAT :: K) (rr s))
  else if tok =? 10 then RGo (set_k s (FNext :: FWrap COMMA :: K) (rr s))
  else if tok =? 11 then RGo (set_k s K (enc_sym SYM_MATCH_ANY))
  else if tok =? 12 then RGo (set_k s (FItems NIL NIL :: K) (enc_sym SYM_PROGN))
  else if (tok =? 14) || (tok =? 15) then RGo (set_k s (FNext :: K) (rr s))
  else RErr.

(* 3787-4058: what is done with a token; the text is behind it *)
Definition read_token (s : rst) (K : list rframe) (t : token) : res rout :=
  match t with
  | KSyntax tok => Ok (read_syntax s K tok)
  | KString str => read_string s K str
  | KDouble text type =>
    if type =? TOKTYPEF32 then value_or_error s K (enc_float (ru s) (to_f32 text))
    else let! (u, v) := enc_double (ru s) (to_f64 text) in Ok (RGo (set_k (set_u s u) K v))
  | KInt neg val type => read_int s K neg val type
  | KSymbol n => read_symbol s K n
  | KCharacter c => Ok (RGo (set_k s K (enc_char (wrap 8 c))))
  end.

(* 3747-4070 cont_read_next_token *)
Definition read_next (s : rst) (K : list rframe) : res rout :=
  let at_end (s : rst) := negb (rmore s) && match rtext s with [] => true | _ => false end in
  if at_end s then Ok (read_finish (set_k s K (rr s))) else
  let '(clean, txt, com) := clean_whitespace (rcomment s) (rtext s) (rmore s) in
  let s := set_text s txt com in
  if negb clean then Ok (RWait (set_k s (FNext :: K) (rr s))) else
  if at_end s then Ok (read_finish (set_k s K (rr s))) else
  let! t := next_token (mkChan (rtext s) (rmore s)) in
  match t with
  | NMore => Ok (RWait (set_k s (FNext :: K) (rr s)))
  | NErr => Ok RErr
  | NTok t n => read_token (set_text s (skipn (Z.to_nat n) (rtext s)) (rcomment s)) K t
  end.

(* 4072-4136 cont_read_start_array *)
Definition read_start_array (s : rst) (K : list rframe) : res rout :=
  let r := rr s in
  if r =? CLOSEBRACK then value_or_error s K (alloc_array (ru s) true 0)
  else if is_number r then
    let size := array_room (ru s) in
    if size =? 0 then Ok RErr else
    let! (u, v) := alloc_array (ru s) true size in
    Ok (if v =? MERROR then RErr else RGo (set_k (set_u s u) (FArray v size 0 :: K) r))
  else Ok RErr.

(* 4138-4177 cont_read_append_array *)
Definition read_append_array (s : rst) (K : list rframe) (v size ix : Z) : res rout :=
  let r := rr s in
  if ix >=? size - 1 then Ok RErr
  else if is_number r then
    let! b := dec_as_u32 (uh (ru s)) r in
    let! u := set_bytes (ru s) v (fun bs => wr bs ix (wrap 8 b)) in
    Ok (RGo (set_k (set_u s u) (FNext :: FArray v size (ix + 1) :: K) r))
  else if is_symbol r && (r =? CLOSEBRACK) then
    let! u := set_bytes (ru s) v (fun bs => Ok (firstn (Z.to_nat ix) bs)) in
    Ok (RGo (set_k (set_u s u) K v))
  else Ok RErr.

(* 4179-4236 cont_read_append_continue *)
Definition read_append (s : rst) (K : list rframe) (first last : Z) : res rout :=
  let r := rr s in
  let h := uh (ru s) in
  if (type_of r =? TYPE_SYMBOL) && (r =? CLOSEPAR) then
    if type_of last =? TYPE_CONS then
      let! (h, _) := set_cdr h last NIL in
      Ok (RGo (set_k (set_u s (set_h (ru s) h)) K first))
    else Ok (RGo (set_k s K NIL))
  else if (type_of r =? TYPE_SYMBOL) && (r =? DOT) then Ok (RGo (set_k s (FNext :: FDot first last :: K) r))
  else
    let! o := consg h r NIL in
    match o with
    | None => Ok RErr
    | Some (h, cell) =>
      if type_of last =? TYPE_CONS then
        let! (h, _) := set_cdr h last cell in
        Ok (RGo (set_k (set_u s (set_h (ru s) h)) (FNext :: FItems first cell :: K) r))
      else Ok (RGo (set_k (set_u s (set_h (ru s) h)) (FNext :: FItems cell cell :: K) r))
    end.

(* 4275-4295 cont_read_expect_closepar *)
Definition read_expect_close (s : rst) (K : list rframe) (v : Z) : rout :=
  if (type_of (rr s) =? TYPE_SYMBOL) && (rr s =? CLOSEPAR) then RGo (set_k s K v) else RErr.

(* 4297-4334 cont_read_dot_terminate *)
Definition read_dot (s : rst) (K : list rframe) (first last : Z) : res rout :=
  let r := rr s in
  if (type_of r =? TYPE_SYMBOL) && ((r =? CLOSEPAR) || (r =? DOT)) then Ok RErr
  else if is_cons last then
    let! (h, _) := set_cdr (uh (ru s)) last r in
    Ok (RGo (set_k (set_u s (set_h (ru s) h)) (FNext :: FClose first :: K) first))
  else Ok RErr.

(* 4364-4373 cont_wrap_result *)
Definition read_wrap (s : rst) (K : list rframe) (w : Z) : res rout :=
  let! (h, v) := alloc_list_init (uh (ru s)) [w; rr s] in
  Ok (if v =? MERROR then RErr else RGo (set_k (set_u s (set_h (ru s) h)) K v)).

(* 4336-4362 cont_read_done *)
Definition read_done (s : rst) : rout :=
  if tokenizer_symbol (rr s) then RErr else RDone (ru s) (rtext s) (rr s).

(* 5164-5182 evaluation_step with app_cont set; [f]: fuel of the list functions of
   quasi-quotation *)
Definition rstep (f : nat) (s : rst) : res rout :=
  match rk s with
  | [] => UB
  | fr :: K =>
    match fr with
    | FNext => read_next s K
    | FItems a b => read_append s K a b
    | FDot a b => read_dot s K a b
    | FClose v => Ok (read_expect_close s K v)
    | FWrap w => read_wrap s K w
    | FStartArray => read_start_array s K
    | FArray v size ix => read_append_array s K v size ix
    | FQuasi q =>
      let! o := qq_step f (uh (ru s)) q [] (rr s) in
      match o with
      | None => Ok RErr
      | Some (h, fs, r) => Ok (RGo (set_k (set_u s (set_h (ru s) h)) (map FQuasi fs ++ K) r))
      end
    | FDone _ => Ok (read_done s)
    end
  end.

Fixpoint read_run (fuel : nat) (s : rst) : res rout :=
  match fuel with
  | O => Fuel
  | S n =>
    let! o := rstep n s in
    match o with
    | RGo s => read_run n s
    | _ => Ok o
    end
  end.

(* 2355-2416 apply_read_base on a channel *)
Definition read_start (m : mode) (u : ust) (text : list Z) (more : bool) : rst :=
  mkR u text more false true (FNext :: (match m with Expression => [] | Program => [FItems NIL NIL] end) ++ [FDone m]) NIL.
(* a string: nothing comes after it *)
Definition read (m : mode) (fuel : nat) (u : ust) (text : list Z) : res rout := read_run fuel (read_start m u text false).

End Arch.
