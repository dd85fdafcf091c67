(* The tokenizer, src/tokpar.c, and the order in which the reader tries the
   kinds of token, src/eval_cps.c 3747-4070.

   A channel is the characters that can be peeked and whether more can come;
   string_peek (lbm_channel.c 285-296) and buffered_peek (112-137, see
   Chan_Model) are of this form.  Simplifications: characters are codes 0..255,
   isspace and tolower are those of the C locale, positions do not wrap at 2^32,
   the text of a float is returned instead of strtod's result.  Buffers are
   written in ascending order from 0: they are lists that grow, and a store
   beyond the end of the C array is UB.  A variable that lbm_channel_peek did
   not write keeps its value. *)
From Coq Require Import String Ascii.
From Verif Require Import Base.
Local Open Scope Z_scope.

Record chan := mkChan { ch_data : list Z; ch_more : bool }.

Definition chars (s : string) : list Z := List.map (fun a => Z.of_N (N_of_ascii a)) (list_ascii_of_string s).
Definition char_of (a : ascii) : Z := Z.of_N (N_of_ascii a).

(* lbm_channel.c 29-31: the result code, and the variable [c] afterwards *)
Inductive pk := PSucc | PMore | PEnd.
Definition peek (ch : chan) (n : nat) (c : Z) : pk * Z :=
  match nth_error (ch_data ch) n with
  | Some x => (PSucc, x)
  | None => ((if ch_more ch then PMore else PEnd), c)
  end.

(* tokpar.h 63-67 *)
Definition NO_TOKEN : Z := 0.
Definition NEED_MORE : Z := -1.
Definition STRING_ERROR : Z := -2.
Definition CHAR_ERROR : Z := -3.
Definition SYMBOL_ERROR : Z := -4.

(* tokpar.h 25-49 *)
Definition TOKTYPEBYTE : Z := 100.
Definition TOKTYPEI : Z := 101.
Definition TOKTYPEU : Z := 102.
Definition TOKTYPEI32 : Z := 103.
Definition TOKTYPEU32 : Z := 104.
Definition TOKTYPEI64 : Z := 105.
Definition TOKTYPEU64 : Z := 106.
Definition TOKTYPEF32 : Z := 107.
Definition TOKTYPEF64 : Z := 108.

(* 68-85.  The array has 16 elements and 15 initialisers: the last is zero *)
Definition fixed_size_tokens : list (list Z * Z) :=
  [(chars "(", 1); (chars ")", 2); (chars "[", 3); (chars "]", 4); (chars ".", 5); (chars "_", 6); (chars "'", 7);
   (chars "`", 8); (chars ",@", 9); (chars ",", 10); (chars "?", 11); (chars "{", 12); (chars "}", 13);
   (chars "@const-start", 14); (chars "@const-end", 15); ([], 0)].

(* 87-98 *)
Definition type_qual_table : list (list Z * Z) :=
  [(chars "f64", TOKTYPEF64); (chars "f32", TOKTYPEF32); (chars "i64", TOKTYPEI64); (chars "u64", TOKTYPEU64);
   (chars "i32", TOKTYPEI32); (chars "u32", TOKTYPEU32); (chars "i", TOKTYPEI); (chars "u", TOKTYPEU); (chars "b", TOKTYPEBYTE)].

(* 107-117: the loop over the characters of one token *)
Inductive ms := MFull | MMore | MNo.
Fixpoint match_str (ch : chan) (pos : nat) (str : list Z) : ms :=
  match str with
  | [] => MFull
  | x :: r =>
    match peek ch pos 0 with
    | (PSucc, c) => if c =? x then match_str ch (S pos) r else MNo
    | (PMore, _) => MMore
    | (PEnd, _) => MNo
    end
  end.

(* 100-124 tok_match_fixed_size_tokens: return value and *res *)
Fixpoint match_tokens (ch : chan) (start : nat) (m : list (list Z * Z)) : Z * Z :=
  match m with
  | [] => (NO_TOKEN, 0)
  | (str, tok) :: r =>
    match match_str ch start str with
    | MFull => (Z.of_nat (length str), tok)
    | MMore => (NEED_MORE, 0)
    | MNo => match_tokens ch start r
    end
  end.

(* 126-128 *)
Definition tok_syntax (ch : chan) : Z * Z := match_tokens ch 0 fixed_size_tokens.

(* 130-161 *)
Definition alpha_char (c : Z) : bool := ((97 <=? c) && (c <=? 122)) || ((65 <=? c) && (c <=? 90)).
Definition num_char (c : Z) : bool := (48 <=? c) && (c <=? 57).
Definition symchar0 (c : Z) : bool := alpha_char c || existsb (Z.eqb c) (chars "+-*/=<>#!").
Definition symchar (c : Z) : bool := alpha_char c || num_char c || existsb (Z.eqb c) (chars "+-*/=<>!?_").
Definition tolower (c : Z) : Z := if (65 <=? c) && (c <=? 90) then c + 32 else c.

(* store at the next position of a buffer of [cap] characters *)
Definition push (cap : nat) (buf : list Z) (x : Z) : res (list Z) :=
  if (length buf <? cap)%nat then Ok (buf ++ [x]) else UB.

(* 69: TOKENIZER_MAX_SYMBOL_AND_STRING_LENGTH; tokpar_sym_str has one more *)
Definition MAXLEN : nat := 256.

(* 180-188 *)
Fixpoint sym_loop (fuel : nat) (ch : chan) (len : nat) (r : pk) (c : Z) (buf : list Z) : res (Z * list Z) :=
  match r with
  | PSucc =>
    if symchar c then
      match fuel with
      | O => Fuel
      | S k =>
        if (255 <=? len)%nat then Ok (SYMBOL_ERROR, buf)
        else
          let c := tolower c in
          let! buf := (if (len <? MAXLEN)%nat then push (MAXLEN + 1) buf c else Ok buf) in
          let '(r, c) := peek ch (S len) c in
          sym_loop k ch (S len) r c buf
      end
    else let! b := push (MAXLEN + 1) buf 0 in Ok (Z.of_nat len, buf)
  | PMore => Ok (NEED_MORE, buf)
  | PEnd => let! b := push (MAXLEN + 1) buf 0 in Ok (Z.of_nat len, buf)
  end.

(* 163-192 tok_symbol: the return value and the name *)
Definition tok_symbol (ch : chan) : res (Z * list Z) :=
  match peek ch 0 0 with
  | (PMore, _) => Ok (NEED_MORE, [])
  | (PEnd, _) => Ok (NO_TOKEN, [])
  | (PSucc, c) =>
    if negb (symchar0 c) then Ok (NO_TOKEN, [])
    else
      let! buf := push (MAXLEN + 1) [] (tolower c) in
      let '(r, c) := peek ch 1 c in
      sym_loop (S (length (ch_data ch))) ch 1 r c buf
  end.

(* 194-204 *)
Definition translate_escape_char (c : Z) : Z :=
  if c =? 92 then 92 else if c =? 110 then 10 else if c =? 114 then 13 else if c =? 116 then 9
  else if c =? 48 then 0 else if c =? 34 then 34 else 92.

(* 223-240 *)
Fixpoint str_loop (fuel : nat) (ch : chan) (n : nat) (r : pk) (c : Z) (encode : bool) (buf : list Z) : res (Z * list Z) :=
  let fin := match r with
             | PMore => Ok (NEED_MORE, buf)
             | _ => if c =? 34 then Ok (Z.of_nat (S n), buf) else Ok (STRING_ERROR, buf)
             end in
  match r with
  | PSucc =>
    if (negb (c =? 34) || encode) && (length buf <? MAXLEN)%nat then
      match fuel with
      | O => Fuel
      | S k =>
        let! st := (if (c =? 92) && negb encode then Ok (buf, true)
                    else let! b := push (MAXLEN + 1) buf (if encode then translate_escape_char c else c) in Ok (b, false)) in
        let '(buf, encode) := st in
        let '(r, c) := peek ch (S n) c in
        str_loop k ch (S n) r c encode buf
      end
    else fin
  | _ => fin
  end.

(* 206-244 tok_string: the return value and the characters *)
Definition tok_string (ch : chan) : res (Z * list Z) :=
  match peek ch 0 0 with
  | (PMore, _) => Ok (NEED_MORE, [])
  | (PEnd, _) => Ok (NO_TOKEN, [])
  | (PSucc, c) =>
    if negb (c =? 34) then Ok (NO_TOKEN, [])
    else
      let '(r, c) := peek ch 1 c in
      str_loop (S (length (ch_data ch))) ch 1 r c false []
  end.

(* 54-66 *)
Definition special_chars : list (Z * Z) :=
  [(97, 7); (98, 8); (116, 9); (110, 10); (118, 11); (102, 12); (114, 13); (101, 27); (115, 32); (92, 92); (100, 127)].

(* 246-287 tok_char: the return value and *res *)
Definition tok_char (ch : chan) : Z * Z :=
  match peek ch 0 0 with
  | (PMore, _) => (NEED_MORE, 0)
  | (PEnd, _) => (NO_TOKEN, 0)
  | (PSucc, c) =>
    if negb (c =? 92) then (NO_TOKEN, 0) else
    match peek ch 1 c with
    | (PMore, _) => (NEED_MORE, 0)
    | (PEnd, _) => (NO_TOKEN, 0)
    | (PSucc, c) =>
      if negb (c =? 35) then (NO_TOKEN, 0) else
      match peek ch 2 c with
      | (PMore, _) => (NEED_MORE, 0)
      | (PEnd, _) => (NO_TOKEN, 0)
      | (PSucc, c) =>
        if c =? 92 then
          match peek ch 3 c with
          | (PMore, _) => (NEED_MORE, 0)
          | (PEnd, _) => (NO_TOKEN, 0)
          | (PSucc, c) =>
            match find (fun p => fst p =? c) special_chars with
            | Some p => (4, snd p)
            | None => (CHAR_ERROR, 0)
            end
          end
        else (3, c)
      end
    end
  end.

(* The loops 314-320, 333-339, 348-354 of tok_double over characters with [ok]:
   position, last character and buffer after it, None when more is needed *)
Fixpoint dbl_loop (fuel : nat) (ok : Z -> bool) (ch : chan) (n : nat) (c : Z) (buf : list Z) : res (option (nat * Z * list Z)) :=
  if ok c then
    match fuel with
    | O => Fuel
    | S k =>
      let! buf := push 128 buf c in
      match peek ch (S n) c with
      | (PMore, _) => Ok None
      | (PEnd, c) => Ok (Some (S n, c, buf))
      | (PSucc, c) => dbl_loop k ok ch (S n) c buf
      end
    end
  else Ok (Some (n, c, buf)).

(* 289-381 tok_double: the return value, the text and the type *)
Definition tok_double (ch : chan) : res (Z * list Z * Z) :=
  let fuel := S (length (ch_data ch)) in
  let more := Ok (NEED_MORE, [], 0) in
  let no := Ok (NO_TOKEN, [], 0) in
  match peek ch 0 0 with
  | (PMore, _) => more
  | (PEnd, _) => no
  | (PSucc, c) =>
    let neg := c =? 45 in
    let n := if neg then 1%nat else 0%nat in
    let! buf := (if neg then push 128 [] 45 else Ok []) in
    match peek ch n c with
    | (PMore, _) => more
    | (PEnd, _) => no
    | (PSucc, c) =>
      let! d1 := dbl_loop fuel num_char ch n c buf in
      match d1 with
      | None => more
      | Some (n, c, buf) =>
        if negb (c =? 46) then no else
        let! buf := push 128 buf c in
        let n := S n in
        match peek ch n c with
        | (PMore, _) => more
        | (PEnd, _) => no
        | (PSucc, c) =>
          if negb (num_char c) then no else
          let! d2 := dbl_loop fuel num_char ch n c buf in
          match d2 with
          | None => more
          | Some (n, c, buf) =>
            let! d3 :=
              (if c =? 101 then
                 let! buf := push 128 buf c in
                 let n := S n in
                 match peek ch n c with
                 | (PMore, _) => Ok (inl NEED_MORE)
                 | (PEnd, _) => Ok (inl NO_TOKEN)
                 | (PSucc, c) =>
                   if negb (num_char c || (c =? 45)) then Ok (inl NO_TOKEN) else
                   let! d := dbl_loop fuel (fun c => num_char c || (c =? 45)) ch n c buf in
                   match d with
                   | None => Ok (inl NEED_MORE)
                   | Some x => Ok (inr x)
                   end
                 end
               else Ok (inr (n, c, buf))) in
            match d3 with
            | inl code => Ok (code, [], 0)
            | inr (n, c, buf) =>
              let '(type_len, tok) := match_tokens ch n type_qual_table in
              if type_len =? NEED_MORE then more else
              let type := if type_len =? NO_TOKEN then TOKTYPEF32 else tok in
              let valid := if neg then (1 <? n)%nat else (0 <? n)%nat in
              if (127 <? n)%nat then no
              else if valid then Ok (Z.of_nat n + type_len, buf, type)
              else no
            end
          end
        end
      end
    end
  end.

(* 383-430 tok_clean_whitespace: the return value, the characters left and the
   comment flag.  406-409: a ';' is not dropped but the comment loop, which is
   next, drops it. *)
Definition isspace (c : Z) : bool := (c =? 32) || ((9 <=? c) && (c <=? 13)).
Fixpoint clean_whitespace (comment : bool) (data : list Z) (more : bool) : bool * list Z * bool :=
  match data with
  | [] => if more then (false, [], comment) else (true, [], false)
  | c :: r =>
    if comment then clean_whitespace (negb (c =? 10)) r more
    else if c =? 59 then clean_whitespace true r more
    else if isspace c then clean_whitespace false r more
    else (true, data, false)
  end.

(* 469-486 and 491-497 of tok_integer: position and number, None when more is needed *)
Definition hex_char (c : Z) : bool := num_char c || ((97 <=? c) && (c <=? 102)) || ((65 <=? c) && (c <=? 70)).
Definition hex_val (c : Z) : Z :=
  if (97 <=? c) && (c <=? 102) then 10 + c - 97 else if (65 <=? c) && (c <=? 70) then 10 + (c - 65) else c - 48.
Fixpoint int_loop (fuel : nat) (ok : Z -> bool) (val : Z -> Z) (base : Z) (ch : chan) (n : nat) (c acc : Z) : res (option (nat * Z)) :=
  if ok c then
    match fuel with
    | O => Fuel
    | S k =>
      let acc := wrap 64 (acc * base + val c) in
      match peek ch (S n) c with
      | (PMore, _) => Ok None
      | (PEnd, _) => Ok (Some (S n, acc))
      | (PSucc, c) => int_loop k ok val base ch (S n) c acc
      end
    end
  else Ok (Some (n, acc)).

(* 432-521 tok_integer: the return value, sign, number and type *)
Record tint := mkInt { ti_len : Z; ti_neg : bool; ti_val : Z; ti_type : Z }.
Definition tok_integer (ch : chan) : res tint :=
  let fuel := S (length (ch_data ch)) in
  let more := Ok (mkInt NEED_MORE false 0 0) in
  let no := Ok (mkInt NO_TOKEN false 0 0) in
  match peek ch 0 0 with
  | (PMore, _) => more
  | (PEnd, _) => no
  | (PSucc, c) =>
    let neg := c =? 45 in
    let n := if neg then 1%nat else 0%nat in
    (* 452-463: Some hex, or more is needed *)
    let '(hex, c) :=
      match peek ch n c with
      | (PSucc, c) =>
        if c =? 48 then
          match peek ch (S n) c with
          | (PSucc, c) => (Some ((c =? 120) || (c =? 88)), c)
          | (PMore, c) => (None, c)
          | (PEnd, c) => (Some false, c)
          end
        else (Some false, c)
      | (PMore, c) => (None, c)
      | (PEnd, c) => (Some false, c)
      end in
    match hex with
    | None => more
    | Some hex =>
      let! d :=
        (if hex then
           let n := S (S n) in
           match peek ch n c with
           | (PMore, _) => Ok (inl NEED_MORE)
           | (PEnd, _) => Ok (inl NO_TOKEN)
           | (PSucc, c) =>
             let! d := int_loop fuel hex_char hex_val 16 ch n c 0 in
             Ok (match d with None => inl NEED_MORE | Some x => inr x end)
           end
         else
           match peek ch n c with
           | (PMore, _) => Ok (inl NEED_MORE)
           | (_, c) =>
             let! d := int_loop fuel num_char (fun c => c - 48) 10 ch n c 0 in
             Ok (match d with None => inl NEED_MORE | Some x => inr x end)
           end) in
      match d with
      | inl code => Ok (mkInt code false 0 0)
      | inr (n, acc) =>
        if (n =? 0)%nat then no else
        let '(type_len, tok) := match_tokens ch n type_qual_table in
        if type_len =? NEED_MORE then more else
        let type := if type_len =? NO_TOKEN then TOKTYPEI else tok in
        if negb neg || (1 <? n)%nat then Ok (mkInt (Z.of_nat n + type_len) neg acc type)
        else no
      end
    end
  end.

(* ---- the order of the attempts, eval_cps.c 3783-4070 ---- *)

Inductive token :=
| KSyntax (tok : Z)
| KString (s : list Z)
| KDouble (text : list Z) (type : Z)
| KInt (neg : bool) (val : Z) (type : Z)
| KSymbol (name : list Z)
| KCharacter (c : Z).
(* a token and the number of characters to drop, wait for more, read error *)
Inductive next := NTok (t : token) (n : Z) | NMore | NErr.
(* 4061-4069 *)
Definition retry_token (n : Z) : next := if n =? NEED_MORE then NMore else NErr.

Definition next_token (ch : chan) : res next :=
  let '(n, tok) := tok_syntax ch in
  if n >? 0 then Ok (NTok (KSyntax tok) n) else if n <? 0 then Ok (retry_token n) else
  let! s := tok_string ch in
  let '(n, str) := s in
  if n >=? 2 then Ok (NTok (KString str) n) else if n <? 0 then Ok (retry_token n) else
  let! d := tok_double ch in
  let '(n, text, type) := d in
  if n >? 0 then Ok (if (type =? TOKTYPEF32) || (type =? TOKTYPEF64) then NTok (KDouble text type) n else NErr)
  else if n <? 0 then Ok (retry_token n) else
  let! i := tok_integer ch in
  if ti_len i >? 0 then
    Ok (if (100 <=? ti_type i) && (ti_type i <=? 106) then NTok (KInt (ti_neg i) (ti_val i) (ti_type i)) (ti_len i) else NErr)
  else if ti_len i <? 0 then Ok (retry_token (ti_len i)) else
  let! s := tok_symbol ch in
  let '(n, name) := s in
  if n >? 0 then Ok (NTok (KSymbol name) n) else if n <? 0 then Ok (retry_token n) else
  let '(n, c) := tok_char ch in
  if n >? 0 then Ok (NTok (KCharacter c) n) else if n <? 0 then Ok (retry_token n) else Ok NErr.

(* 3947-3969: the number given to the encoder for the type of the token: its
   width and whether it is signed.  [w] is the width of lbm_int. *)
Definition int_literal (w : Z) (neg : bool) (val type : Z) : option Z :=
  let v := if neg then wrap 64 (- val) else val in
  if type =? TOKTYPEBYTE then Some (wrap 8 v)
  else if type =? TOKTYPEI then Some (sgn w v)
  else if type =? TOKTYPEU then Some (wrap w v)
  else if type =? TOKTYPEI32 then Some (sgn 32 v)
  else if type =? TOKTYPEU32 then Some (wrap 32 v)
  else if type =? TOKTYPEI64 then Some (sgn 64 v)
  else if type =? TOKTYPEU64 then Some (wrap 64 v)
  else None.
