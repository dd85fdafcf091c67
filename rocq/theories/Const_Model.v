(* Model of the constant heap of src/heap.c (flash memory), with the write
   function of repl/repl.c as the device. *)
From Verif Require Import Base Value_Model.
Local Open Scope Z_scope.

Section Arch.
Context {A : Arch}.

(* include/heap.h lbm_const_heap_t: the words and the next free index; the
   size is the length of [c_mem] (num_words, even, heap.c 1405).  Addresses
   &heap[ix] are modelled by the index ix. *)
Record cheap := mkch { c_mem : list Z; c_next : Z }.
Definition c_size (c : cheap) : Z := Z.of_nat (length (c_mem c)).

(* heap.h 194-198 lbm_flash_status *)
Inductive fstat := WRITE_OK | FLASH_FULL | WRITE_ERROR.

(* heap.c 1399-1426 lbm_const_heap_init; repl.c 771-772 fills the memory with
   bytes 0xFF *)
Definition const_heap_init (n : nat) : cheap := mkch (repeat (2 ^ W - 1) n) 0.

(* repl.c 179-188 const_heap_write: a word that is 0xffffffff can be written,
   one that has the value already counts as written *)
Definition ERASED : Z := 0xffffffff.
Definition dev_write (c : cheap) (ix w : Z) : res (cheap * bool) :=
  if ix >=? c_size c then Ok (c, false) else
  let! old := rd (c_mem c) ix in
  if old =? ERASED then let! m := wr (c_mem c) ix w in Ok (mkch m (c_next c), true)
  else if old =? w then Ok (c, true)
  else Ok (c, false).

(* heap.c 1428-1447 lbm_allocate_const_cell *)
Definition allocate_const_cell (c : cheap) : cheap * fstat * Z :=
  let next := if c_next c mod 2 =? 1 then wrap W (c_next c + 1) else c_next c in
  if wrap W (next + 1) <? c_size c then
    (mkch (c_mem c) (wrap W (next + 2)), WRITE_OK,
     Z.lor (Z.lor (Z.lor (wrap W (Z.shiftl next ADDRESS_SHIFT)) PTR_BIT) TYPE_CONS) PTR_TO_CONSTANT_BIT)
  else (mkch (c_mem c) next, FLASH_FULL, 0).

(* heap.c 1449-1460 lbm_allocate_const_raw *)
Definition allocate_const_raw (c : cheap) (n : Z) : cheap * fstat * Z :=
  if wrap W (c_next c + n) <? c_size c then
    (mkch (c_mem c) (wrap W (c_next c + n)), WRITE_OK, c_next c)
  else (c, FLASH_FULL, 0).

Fixpoint write_words (c : cheap) (ix : Z) (data : list Z) : res (cheap * bool) :=
  match data with
  | [] => Ok (c, true)
  | w :: t =>
    let! (c1, ok) := dev_write c ix w in
    if ok then write_words c1 (wrap W (ix + 1)) t else Ok (c1, false)
  end.

(* heap.c 1462-1479 lbm_write_const_raw *)
Definition write_const_raw (c : cheap) (data : list Z) : res (cheap * fstat * Z) :=
  let n := Z.of_nat (length data) in
  if wrap W (c_next c + n) <? c_size c then
    let! (c1, ok) := write_words c (c_next c) data in
    if ok then Ok (mkch (c_mem c1) (wrap W (c_next c + n)), WRITE_OK, c_next c)
    else Ok (c1, WRITE_ERROR, 0)
  else Ok (c, FLASH_FULL, 0).

(* heap.c 1481-1492 lbm_const_write with tgt = &heap[ix] *)
Definition const_write (c : cheap) (ix v : Z) : res (cheap * fstat) :=
  let! (c1, ok) := dev_write c ix v in Ok (c1, if ok then WRITE_OK else WRITE_ERROR).

(* heap.c 1494-1499 write_const_cdr, 1501-1506 write_const_car *)
Definition write_const_cdr (c : cheap) (cell v : Z) : res (cheap * fstat) :=
  let! (c1, ok) := dev_write c (wrap W (dec_ptr cell + 1)) v in Ok (c1, if ok then WRITE_OK else WRITE_ERROR).
Definition write_const_car (c : cheap) (cell v : Z) : res (cheap * fstat) :=
  let! (c1, ok) := dev_write c (dec_ptr cell) v in Ok (c1, if ok then WRITE_OK else WRITE_ERROR).

(* heap.c 952-1027 lbm_car/lbm_cdr of a pointer into the constant heap:
   lbm_ref_cell (heap.h 692-699) views the words as cells, two words each *)
Definition const_car (c : cheap) (cell : Z) : res Z := rd (c_mem c) (2 * dec_cons_cell_ptr cell).
Definition const_cdr (c : cheap) (cell : Z) : res Z := rd (c_mem c) (2 * dec_cons_cell_ptr cell + 1).

(* little endian word from up to sizeof(lbm_uint) bytes (memcpy into a zero
   word, or a read through a cast pointer) *)
Fixpoint word_of (bytes : list Z) : Z :=
  match bytes with [] => 0 | b :: t => b + 256 * word_of t end.
Fixpoint words_of (nwords : nat) (bytes : list Z) : list Z :=
  match nwords with
  | O => []
  | S n => word_of (firstn (Z.to_nat WB) bytes) :: words_of n (skipn (Z.to_nat WB) bytes)
  end.

(* eval_cps.c 708-728 lbm_write_const_array_padded *)
Definition write_const_array_padded (c : cheap) (data : list Z) : res (cheap * fstat * Z) :=
  let n := Z.of_nat (length data) in
  let full := n / WB in
  let n_mod := n mod WB in
  if n_mod =? 0 then write_const_raw c (words_of (Z.to_nat full) data) else
  let last := word_of (skipn (Z.to_nat (full * WB)) data) in
  if full >=? 1 then
    let! (c1, s, res) := write_const_raw c (words_of (Z.to_nat full) data) in
    match s with
    | WRITE_OK => let! (c2, s2, _) := write_const_raw c1 [last] in Ok (c2, s2, res)
    | _ => Ok (c1, s, res)
    end
  else write_const_raw c [last].

End Arch.
