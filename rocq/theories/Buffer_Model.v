(* Model of the integer codecs of repl/buffer.c.  A buffer is a list of bytes
   (0..255); the index is the int32_t the callers pass by reference. *)
From Verif Require Import Base.
Local Open Scope Z_scope.

(* (uint8_t)(number >> k); right shift of a negative number is the arithmetic
   shift of every compiler the project supports *)
Definition byte_of (number k : Z) : Z := Z.shiftr number k mod 256.

(* ( *index)++ on an int32_t *)
Definition inc32 (i : Z) : res Z := if i + 1 <? 2 ^ 31 then Ok (i + 1) else UB.

(* one statement  buffer[( *index)++] = (uint8_t)(number >> k); *)
Definition put_byte (buf : list Z) (index number k : Z) : res (list Z * Z) :=
  let! b := wr buf index (byte_of number k) in
  let! i := inc32 index in
  Ok (b, i).

(* the statements of an append function, one per shift *)
Fixpoint put_bytes (buf : list Z) (index number : Z) (ks : list Z) : res (list Z * Z) :=
  match ks with
  | [] => Ok (buf, index)
  | k :: t => let! s := put_byte buf index number k in put_bytes (fst s) (snd s) number t
  end.

(* buffer.c 24-27 and 29-32; 34-39 and 41-46; 48-57 and 59-68 *)
Definition append_int16 (buf : list Z) (n i : Z) := put_bytes buf i n [8; 0].
Definition append_uint16 (buf : list Z) (n i : Z) := put_bytes buf i n [8; 0].
Definition append_int32 (buf : list Z) (n i : Z) := put_bytes buf i n [24; 16; 8; 0].
Definition append_uint32 (buf : list Z) (n i : Z) := put_bytes buf i n [24; 16; 8; 0].
Definition append_int64 (buf : list Z) (n i : Z) := put_bytes buf i n [56; 48; 40; 32; 24; 16; 8; 0].
Definition append_uint64 (buf : list Z) (n i : Z) := put_bytes buf i n [56; 48; 40; 32; 24; 16; 8; 0].

(* b << k for a byte b promoted to a (32 bit) int: shifting into or past the sign
   bit is undefined (C11 6.5.7p4) *)
Definition shl_int (b k : Z) : res Z := if b * 2 ^ k <? 2 ^ 31 then Ok (b * 2 ^ k) else UB.
(* ((uintN_t)b) << k *)
Definition shl_uint (w b k : Z) : res Z := Ok (wrap w (b * 2 ^ k)).

(* buffer[*index + off] << k | ... *)
Fixpoint get_bytes (shl : Z -> Z -> res Z) (buf : list Z) (i : Z) (ks : list Z) : res Z :=
  match ks with
  | [] => Ok 0
  | k :: t =>
    let! b := rd buf i in
    let! x := shl b k in
    let! y := get_bytes shl buf (i + 1) t in
    Ok (Z.lor x y)
  end.

(* *index += n *)
Definition advance (i n : Z) (v : Z) : res (Z * Z) := if i + n <? 2 ^ 31 then Ok (v, i + n) else UB.

(* buffer.c 155-160, 162-167 *)
Definition get_int16 (buf : list Z) (i : Z) : res (Z * Z) :=
  let! v := get_bytes shl_int buf i [8; 0] in advance i 2 (sgn 16 v).
Definition get_uint16 (buf : list Z) (i : Z) : res (Z * Z) :=
  let! v := get_bytes shl_int buf i [8; 0] in advance i 2 (wrap 16 v).
(* buffer.c 169-176: the bytes are shifted as (signed) int *)
Definition get_int32 (buf : list Z) (i : Z) : res (Z * Z) :=
  let! v := get_bytes shl_int buf i [24; 16; 8; 0] in advance i 4 (sgn 32 v).
(* buffer.c 178-185, 187-198, 200-211 *)
Definition get_uint32 (buf : list Z) (i : Z) : res (Z * Z) :=
  let! v := get_bytes (shl_uint 32) buf i [24; 16; 8; 0] in advance i 4 (wrap 32 v).
Definition get_int64 (buf : list Z) (i : Z) : res (Z * Z) :=
  let! v := get_bytes (shl_uint 64) buf i [56; 48; 40; 32; 24; 16; 8; 0] in advance i 8 (sgn 64 v).
Definition get_uint64 (buf : list Z) (i : Z) : res (Z * Z) :=
  let! v := get_bytes (shl_uint 64) buf i [56; 48; 40; 32; 24; 16; 8; 0] in advance i 8 (wrap 64 v).
