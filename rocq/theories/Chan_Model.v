(* Model of the character channels of src/lbm_channel.c.
   Every buffered operation runs inside the channel's mutex (or reads a single
   flag), so calls from different threads are an interleaving of these steps.
   Characters are integers; '\n' is 10. *)
From Verif Require Import Base.
Local Open Scope Z_scope.

(* include/lbm_channel.h 27 TOKENIZER_BUFFER_SIZE *)
Definition BUF_SIZE : Z := 257.

(* include/lbm_channel.h 29-34 result codes *)
Inductive code := SUCCESS | MORE | END | FULL | READER_CLOSED.

(* include/lbm_channel.h 38-50 lbm_buffered_channel_state_t, without the lock
   and the comment flag *)
Record bchan := mkbc {
  b_buf : list Z; b_w : Z; b_r : Z; b_more : bool; b_rclosed : bool; b_row : Z; b_col : Z }.

(* lbm_channel.c 222-254 lbm_create_buffered_char_channel; [buf] is the
   uninitialised array of BUF_SIZE characters *)
Definition buffered_create (buf : list Z) : bchan := mkbc buf 0 0 true false 1 1.

(* lbm_channel.c 97-100 and 102-105 *)
Definition buffered_writer_close (c : bchan) : bchan :=
  mkbc (b_buf c) (b_w c) (b_r c) false (b_rclosed c) (b_row c) (b_col c).
Definition buffered_reader_close (c : bchan) : bchan :=
  mkbc (b_buf c) (b_w c) (b_r c) (b_more c) true (b_row c) (b_col c).

(* lbm_channel.c 113-137 buffered_peek; positions are unsigned int *)
Definition buffered_peek (c : bchan) (n : Z) : res (code * option Z) :=
  let pp := wrap 32 (b_r c + n) mod BUF_SIZE in
  let in_data :=
    if b_w c >=? b_r c then (pp <? b_w c) && (pp >=? b_r c)
    else negb ((pp >=? b_w c) && (pp <? b_r c)) in
  if in_data then let! x := rd (b_buf c) pp in Ok (SUCCESS, Some x)
  else if negb (b_more c) then Ok (END, None) else Ok (MORE, None).

(* lbm_channel.c 139-145 buffered_channel_is_empty *)
Definition buffered_is_empty (c : bchan) : bool := b_r c =? b_w c.

(* lbm_channel.c 147-155 buffered_channel_is_full *)
Definition buffered_is_full (c : bchan) : bool :=
  (b_w c =? wrap 32 (b_r c - 1)) || ((b_r c =? 0) && (b_w c =? BUF_SIZE - 1)).

(* lbm_channel.c 157-174 buffered_read *)
Definition buffered_read (c : bchan) : res (bchan * option Z) :=
  if buffered_is_empty c then Ok (c, None) else
  let! x := rd (b_buf c) (b_r c) in
  let col := wrap 32 (b_col c + 1) in
  let (col, row) := if x =? 10 then (0, wrap 32 (b_row c + 1)) else (col, b_row c) in
  Ok (mkbc (b_buf c) (b_w c) (wrap 32 (b_r c + 1) mod BUF_SIZE) (b_more c) (b_rclosed c) row col, Some x).

(* lbm_channel.c 176-185 buffered_drop *)
Fixpoint buffered_drop (c : bchan) (n : nat) : res (bchan * bool) :=
  match n with
  | O => Ok (c, true)
  | S m =>
    let! (c1, x) := buffered_read c in
    match x with Some _ => buffered_drop c1 m | None => Ok (c1, false) end
  end.

(* lbm_channel.c 187-200 buffered_write *)
Definition buffered_write (c : bchan) (x : Z) : res (bchan * code) :=
  if b_rclosed c then Ok (c, READER_CLOSED) else
  if buffered_is_full c then Ok (c, FULL) else
  let! b := wr (b_buf c) (b_w c) x in
  Ok (mkbc b (wrap 32 (b_w c + 1) mod BUF_SIZE) (b_r c) (b_more c) (b_rclosed c) (b_row c) (b_col c), SUCCESS).

(* include/lbm_channel.h 55-65 lbm_string_channel_state_t; the comment flag is
   left out, and reader_closed, which lbm_create_string_char_channel does not
   initialise and the functions below do not use *)
Record schan := mksc {
  c_str : list Z; c_len : Z; c_r : Z; c_w : Z; c_more : bool; c_row : Z; c_col : Z }.

(* lbm_channel.c 384-395 lbm_create_string_char_channel on the C string of the
   characters [s] (none of them zero) *)
Definition string_create (s : list Z) : schan :=
  mksc (s ++ [0]) (wrap 32 (Z.of_nat (length s))) 0 0 false 1 1.

(* lbm_channel.c 416-428 lbm_create_string_char_channel_size *)
Definition string_create_size (mem : list Z) (size : Z) : schan := mksc mem size 0 0 false 1 1.

(* lbm_channel.c 285-296 string_peek *)
Definition string_peek (c : schan) (n : Z) : res (code * option Z) :=
  let pp := wrap 32 (c_r c + n) in
  if pp <? c_len c then let! x := rd (c_str c) pp in Ok (SUCCESS, Some x) else Ok (END, None).

(* lbm_channel.c 299-305 and 307-313 *)
Definition string_is_empty (c : schan) : bool := c_r c =? c_len c.
Definition string_is_full (c : schan) : bool := c_w c =? c_len c.

(* lbm_channel.c 314-333 string_read: always returns true; None: *res is not
   written *)
Definition string_read (c : schan) : res (schan * option Z) :=
  if c_r c <? c_len c then
    let! x := rd (c_str c) (c_r c) in
    let r := wrap 32 (c_r c + 1) in
    if x =? 10 then Ok (mksc (c_str c) (c_len c) r (c_w c) (c_more c) (wrap 32 (c_row c + 1)) 1, Some x)
    else if x =? 0 then Ok (mksc (c_str c) (c_len c) r (c_w c) false (c_row c) (c_col c), Some x)
    else Ok (mksc (c_str c) (c_len c) r (c_w c) (c_more c) (c_row c) (wrap 32 (c_col c + 1)), Some x)
  else Ok (mksc (c_str c) (c_len c) (c_r c) (c_w c) false (c_row c) (c_col c), None).

(* lbm_channel.c 335-346 string_drop *)
Fixpoint string_drop (c : schan) (n : nat) : res schan :=
  match n with
  | O => Ok c
  | S m => let! (c1, _) := string_read c in string_drop c1 m
  end.

(* lbm_channel.c 348-359 string_write: length - 1 is unsigned *)
Definition string_write (c : schan) (x : Z) : res (schan * code) :=
  if c_w c <? wrap 32 (c_len c - 1) then
    let! s := wr (c_str c) (c_w c) x in
    Ok (mksc s (c_len c) (c_r c) (wrap 32 (c_w c + 1)) (c_more c) (c_row c) (c_col c), SUCCESS)
  else Ok (c, FULL).
