(* Model of the cons cell heap: src/heap.c 39-62, 485-650, 952-1200.
   Words are those of Value_Model; a cell is a (car, cdr) pair of words and the
   GC mark is a bit of the cdr word, as in the C code.

   Simplifications.
   - The objects a cell's car may point to in lbm_memory (array headers with
     their data, channels, boxed numbers) are kept in a partial map from
     addresses to objects; the allocator that hands out the addresses is the
     subject of Mem_Model.  Frees are logged in [freed].
   - The constant heap is seen here only through reads (lbm_ref_cell on a
     pointer with the constant bit); a write through such a pointer is
     undefined behaviour here (it would be a store into flash).
   - [heap_size] of the C state is the length of [cells].
   - Statistics that no modelled function reads are left out
     (heap_bytes, gc_num, gc_last_free, gc_least_free). *)
From Verif Require Import Base Value_Model.
Local Open Scope Z_scope.

(* What the car of a non-cons cell can point to.
   heap.h 210-226 (array headers), lbm_channel.h 52-69, heap.c 94-230. *)
Inductive obj :=
| OLisp (data size : Z) (elts : list Z) (index : Z)  (* lbm_array_header_extended_t and its data *)
| OByte (data : Z) (bytes : list Z)                  (* lbm_array_header_t and its data *)
| OChan (state dep : Z)                              (* lbm_char_channel_t *)
| OBox (bits : Z)                                    (* a boxed number *)
| OOther.                                            (* custom type, defrag memory *)

(* heap.h 245-268 lbm_heap_state_t *)
Record heap := mkHeap {
  cells : list (Z * Z);
  ccells : list (Z * Z);            (* lbm_heaps[1] *)
  freelist : Z;
  num_alloc : Z;
  gstack : list Z;                  (* gc_stack, top first: data[sp-1], .., data[0] *)
  gsize : Z;                        (* gc_stack.size *)
  gc_marked : Z;
  gc_recovered : Z;
  gc_recovered_arrays : Z;
  mem : Z -> option obj;
  freed : list Z;                   (* addresses passed to lbm_memory_free, newest first *)
  lost : bool                       (* ghost: a push whose result the code ignores has failed *)
}.

(* updates of one field of lbm_heap_state (heap.h 211-230), of the memory and of
   the ghost field; they model assignments, not functions *)
Definition set_cells (h : heap) c :=
  mkHeap c (ccells h) (freelist h) (num_alloc h) (gstack h) (gsize h)
         (gc_marked h) (gc_recovered h) (gc_recovered_arrays h) (mem h) (freed h) (lost h).
Definition set_free (h : heap) f n :=
  mkHeap (cells h) (ccells h) f n (gstack h) (gsize h)
         (gc_marked h) (gc_recovered h) (gc_recovered_arrays h) (mem h) (freed h) (lost h).
Definition set_gstack (h : heap) s :=
  mkHeap (cells h) (ccells h) (freelist h) (num_alloc h) s (gsize h)
         (gc_marked h) (gc_recovered h) (gc_recovered_arrays h) (mem h) (freed h) (lost h).
Definition set_counts (h : heap) m r a :=
  mkHeap (cells h) (ccells h) (freelist h) (num_alloc h) (gstack h) (gsize h)
         m r a (mem h) (freed h) (lost h).
Definition set_mem (h : heap) m :=
  mkHeap (cells h) (ccells h) (freelist h) (num_alloc h) (gstack h) (gsize h)
         (gc_marked h) (gc_recovered h) (gc_recovered_arrays h) m (freed h) (lost h).
Definition set_freed (h : heap) l :=
  mkHeap (cells h) (ccells h) (freelist h) (num_alloc h) (gstack h) (gsize h)
         (gc_marked h) (gc_recovered h) (gc_recovered_arrays h) (mem h) l (lost h).

Definition set_lost (h : heap) b :=
  mkHeap (cells h) (ccells h) (freelist h) (num_alloc h) (gstack h) (gsize h)
         (gc_marked h) (gc_recovered h) (gc_recovered_arrays h) (mem h) (freed h) b.

Section Arch.
Context {A : Arch}.

(* lbm_defines.h 396-409: ENC_SYM_NIL, ENC_SYM_RECOVERED, ENC_SYM_MERROR and so on *)
Definition NIL := enc_sym SYM_NIL.
Definition RECOVERED := enc_sym SYM_RECOVERED.
Definition MERROR := enc_sym SYM_MERROR.
Definition TERROR := enc_sym SYM_TERROR.
Definition EERROR := enc_sym SYM_EERROR.
Definition NOT_FOUND := enc_sym SYM_NOT_FOUND.
Definition FATAL_ERROR := enc_sym SYM_FATAL_ERROR.

(* heap.h 970-973 lbm_ref_cell, used to read *)
Definition ref_cell (h : heap) (p : Z) : res (Z * Z) :=
  if is_const_ptr p then rd (ccells h) (dec_cons_cell_ptr p)
  else rd (cells h) (dec_cons_cell_ptr p).

(* a store through lbm_ref_cell *)
Definition put_cell (h : heap) (p : Z) (c : Z * Z) : res heap :=
  if is_const_ptr p then UB
  else let! cs := wr (cells h) (dec_cons_cell_ptr p) c in Ok (set_cells h cs).

(* heap.c 485-506 generate_freelist: [t] is the cell of pointer i-1 *)
Fixpoint gen_free (fuel : nat) (i num : Z) (h : heap) : res heap :=
  if i <? num then
    match fuel with
    | O => Fuel
    | S k =>
      let p := enc_cons_ptr (i - 1) in
      let! h1 := put_cell h p (RECOVERED, enc_cons_ptr i) in
      gen_free k (i + 1) num h1
    end
  else Ok h.

Definition generate_freelist (num : Z) (h : heap) : res heap :=
  let h0 := set_free h (enc_cons_ptr 0) (num_alloc h) in
  let! h1 := gen_free (Z.to_nat num) 1 num h0 in
  let p := enc_cons_ptr (num - 1) in
  let! c := ref_cell h1 p in
  put_cell h1 p (fst c, NIL).

(* heap.c 513-556 lbm_heap_init with heap_init_state: the cells are zeroed.
   The GC stack (of gc_stack_size words) is taken to have been allocated. *)
Definition heap_init (num gcs : Z) : res heap :=
  generate_freelist num
    (mkHeap (repeat (0, 0) (Z.to_nat num)) [] 0 0 [] gcs 0 0 0 (fun _ => None) [] false).

(* heap.h: lbm_heap_num_free, heap.c 604-606: heap_size - num_alloc *)
Definition num_free (h : heap) : Z := wrap W (Z.of_nat (length (cells h)) - num_alloc h).

(* heap.c 557-571 lbm_heap_allocate_cell *)
Definition alloc_cell (h : heap) (ty car cdr : Z) : res (heap * Z) :=
  let cell := freelist h in
  if cell =? 0 then Ok (h, MERROR)
  else
    let ix := dec_ptr cell in
    let! c := rd (cells h) ix in
    let h1 := set_free h (snd c) (wrap W (num_alloc h + 1)) in
    let! cs := wr (cells h1) ix (car, cdr) in
    Ok (set_cells h1 cs, set_ptr_type cell ty).

(* heap.c 952-954 lbm_cons *)
Definition cons (h : heap) (a d : Z) : res (heap * Z) := alloc_cell h TYPE_CONS a d.

(* heap.c 573-627: the do-while loops of lbm_heap_allocate_list (all cars nil)
   and of lbm_heap_allocate_list_init_va (cars given).  One round per element
   of [vals]; [last] is the pointer of c_cell. *)
Fixpoint alloc_loop (vals : list Z) (curr last : Z) (h : heap) : res (heap * Z * Z) :=
  match vals with
  | [] => Ok (h, curr, last)
  | v :: t =>
    let! c := ref_cell h curr in
    let! h1 := put_cell h curr (v, snd c) in
    alloc_loop t (snd c) curr h1
  end.

Definition alloc_list_init (h : heap) (vals : list Z) : res (heap * Z) :=
  let n := Z.of_nat (length vals) in
  if n =? 0 then Ok (h, NIL)
  else if num_free h <? n then Ok (h, MERROR)
  else
    let curr := freelist h in
    if type_of curr =? TYPE_CONS then
      let! r := alloc_loop vals curr 0 h in
      let '(h1, fl, last) := r in
      let h2 := set_free h1 fl (num_alloc h1) in
      let! c := ref_cell h2 last in
      let! h3 := put_cell h2 last (fst c, NIL) in
      Ok (set_free h3 fl (wrap W (num_alloc h3 + n)), curr)
    else Ok (h, FATAL_ERROR).

Definition alloc_list (h : heap) (n : Z) : res (heap * Z) :=
  alloc_list_init h (repeat NIL (Z.to_nat n)).

(* heap.c 956-968 lbm_car, 1005-1014 lbm_cdr *)
Definition car (h : heap) (c : Z) : res Z :=
  if is_ptr c then let! x := ref_cell h c in Ok (fst x)
  else if is_symbol_nil c then Ok c
  else Ok TERROR.
Definition cdr (h : heap) (c : Z) : res Z :=
  if is_ptr c then let! x := ref_cell h c in Ok (snd x)
  else if is_symbol_nil c then Ok NIL
  else Ok TERROR.

(* heap.c 972-999 lbm_caar, lbm_cadr *)
Definition caar (h : heap) (c : Z) : res Z :=
  if is_ptr c then
    let! x := ref_cell h c in
    let tmp := fst x in
    if is_ptr tmp then let! y := ref_cell h tmp in Ok (fst y)
    else if is_symbol_nil tmp then Ok tmp
    else Ok TERROR
  else if is_symbol_nil c then Ok c
  else Ok TERROR.
Definition cadr (h : heap) (c : Z) : res Z :=
  if is_ptr c then
    let! x := ref_cell h c in
    let tmp := snd x in
    if is_ptr tmp then let! y := ref_cell h tmp in Ok (fst y)
    else if is_symbol_nil tmp then Ok tmp
    else Ok TERROR
  else if is_symbol_nil c then Ok c
  else Ok TERROR.

(* heap.c 1029-1059 *)
Definition set_car (h : heap) (c v : Z) : res (heap * bool) :=
  if type_of c =? TYPE_CONS then
    let! x := ref_cell h c in
    let! h1 := put_cell h c (v, snd x) in
    Ok (h1, true)
  else Ok (h, false).
Definition set_cdr (h : heap) (c v : Z) : res (heap * bool) :=
  if is_cons_rw c then
    let! x := ref_cell h c in
    let! h1 := put_cell h c (fst x, v) in
    Ok (h1, true)
  else Ok (h, false).
Definition set_car_and_cdr (h : heap) (c a d : Z) : res (heap * bool) :=
  if is_cons_rw c then
    let! x := ref_cell h c in
    let! h1 := put_cell h c (a, d) in
    Ok (h1, true)
  else Ok (h, false).

(* ---- list functions, heap.c 1061-1200.  Every loop is bounded by fuel; the
   theorems show which fuel is enough. ---- *)

(* heap.c 1062-1070 lbm_list_length *)
Fixpoint list_length_loop (fuel : nat) (h : heap) (c len : Z) : res Z :=
  if is_cons c then
    match fuel with
    | O => Fuel
    | S k => let! d := cdr h c in list_length_loop k h d (wrap W (len + 1))
    end
  else Ok len.
Definition list_length fuel h c := list_length_loop fuel h c 0.

(* heap.c 1088-1105 lbm_list_reverse *)
Fixpoint reverse_loop (fuel : nat) (h : heap) (curr acc : Z) : res (heap * Z) :=
  if is_cons curr then
    match fuel with
    | O => Fuel
    | S k =>
      let! a := car h curr in
      let! r := cons h a acc in
      let '(h1, nl) := r in
      if type_of nl =? TYPE_SYMBOL then Ok (h1, MERROR)
      else let! d := cdr h1 curr in reverse_loop k h1 d nl
    end
  else Ok (h, acc).
Definition list_reverse fuel h l :=
  if type_of l =? TYPE_SYMBOL then Ok (h, l) else reverse_loop fuel h l NIL.

(* heap.c 1107-1121 lbm_list_destructive_reverse *)
Fixpoint drev_loop (fuel : nat) (h : heap) (curr last : Z) : res (heap * Z) :=
  if is_cons_rw curr then
    match fuel with
    | O => Fuel
    | S k =>
      let! next := cdr h curr in
      let! r := set_cdr h curr last in
      drev_loop k (fst r) next curr
    end
  else Ok (h, last).
Definition list_destructive_reverse fuel h l :=
  if type_of l =? TYPE_SYMBOL then Ok (h, l) else drev_loop fuel h l NIL.

(* heap.c 1124-1147 lbm_list_copy: [m] is the int the caller passes by
   reference; the result carries its new value. *)
Fixpoint copy_loop (fuel : nat) (h : heap) (curr targ n : Z) : res heap :=
  if is_cons curr && (0 <? n) then
    match fuel with
    | O => Fuel
    | S k =>
      let! v := car h curr in
      let! r := set_car h targ v in
      let! t := cdr (fst r) targ in
      let! c := cdr (fst r) curr in
      copy_loop k (fst r) c t (n - 1)
    end
  else Ok h.
Definition list_copy (fuel : nat) (h : heap) (m l : Z) : res (heap * Z * Z) :=
  let! n := list_length fuel h l in
  let '(copy_n, m') :=
    if (0 <=? m) && (m <? n) then (m, m)
    else if m =? -1 then (n, sgn 32 n) else (n, m) in
  if copy_n =? 0 then Ok (h, NIL, m')
  else
    let! r := alloc_list h copy_n in
    let '(h1, nl) := r in
    if is_symbol nl then Ok (h1, nl, m')
    else let! h2 := copy_loop fuel h1 l nl copy_n in Ok (h2, nl, m').

(* heap.c 1151-1165 lbm_list_append *)
Fixpoint last_cell_loop (fuel : nat) (h : heap) (curr : Z) : res Z :=
  let! d := cdr h curr in
  if type_of d =? TYPE_CONS then
    match fuel with O => Fuel | S k => last_cell_loop k h d end
  else Ok curr.
Definition list_append (fuel : nat) (h : heap) (l1 l2 : Z) : res (heap * Z) :=
  if is_list_rw l1 && is_list l2 then
    let! curr := last_cell_loop fuel h l1 in
    if is_symbol_nil curr then Ok (h, l2)
    else let! r := set_cdr h curr l2 in Ok (fst r, l1)
  else Ok (h, EERROR).

(* heap.c 1167-1175 lbm_list_drop: n is an unsigned int *)
Fixpoint list_drop (fuel : nat) (h : heap) (n curr : Z) : res Z :=
  if (type_of_functional curr =? TYPE_CONS) && (0 <? n) then
    match fuel with
    | O => Fuel
    | S k => let! d := cdr h curr in list_drop k h (n - 1) d
    end
  else Ok curr.

(* heap.c 1177-1196 lbm_index_list: n is an int32_t *)
Fixpoint index_loop (fuel : nat) (h : heap) (curr n : Z) : res Z :=
  if is_cons curr && (0 <? n) then
    match fuel with
    | O => Fuel
    | S k => let! d := cdr h curr in index_loop k h d (n - 1)
    end
  else if is_cons curr then car h curr
  else Ok NIL.
Definition index_list (fuel : nat) (h : heap) (l n : Z) : res Z :=
  if n <? 0 then
    let! len := list_length fuel h l in
    let n1 := sgn 32 len + n in
    if n1 <? - 2 ^ 31 then UB          (* signed overflow *)
    else if n1 <? 0 then Ok NIL
    else index_loop fuel h l n1
  else index_loop fuel h l n.

End Arch.
