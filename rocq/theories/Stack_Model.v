(* Model of src/stack.c and of the stack frame accessors of src/eval_cps.c.
   A stack is the array [data] with the stack pointer; pointers into the array
   that the accessors return are used at once, so each accessor is modelled
   together with the reads or writes its callers do through the pointer. *)
From Verif Require Import Base Value_Model.
Local Open Scope Z_scope.

Section Arch.
Context {A : Arch}.

(* include/stack.h 36-40 lbm_stack_t *)
Record stack := mkst { s_data : list Z; s_sp : Z; s_size : Z }.

(* stack.c 25-30 STACK_UNUSED_BYTE repeated *)
Definition UNUSED_WORD : Z := sel 0x55555555 0x5555555555555555.

(* stack.c 44-50 lbm_stack_create on an array of [n] words (and 32-42
   lbm_stack_allocate once the memory was allocated) *)
Definition stack_create (n : nat) : stack :=
  mkst (repeat UNUSED_WORD n) 0 (Z.of_nat n).

(* stack.c 70-72 lbm_stack_clear *)
Definition stack_clear (s : stack) : stack := mkst (s_data s) 0 (s_size s).

(* stack.c 74-80 lbm_stack_drop *)
Definition stack_drop (s : stack) (n : Z) : stack * bool :=
  if n >? s_sp s then (s, false)
  else (mkst (s_data s) (s_sp s - n) (s_size s), true).

(* stack.c 82-89 lbm_push *)
Definition push (s : stack) (v : Z) : res (stack * bool) :=
  if s_sp s =? s_size s then Ok (s, false) else
  let! d := wr (s_data s) (s_sp s) v in
  Ok (mkst d (wrap W (s_sp s + 1)) (s_size s), true).

(* stack.c 91-95 lbm_pop: no check for an empty stack *)
Definition pop (s : stack) : res (stack * Z) :=
  let sp := wrap W (s_sp s - 1) in
  let! v := rd (s_data s) sp in
  Ok (mkst (s_data s) sp (s_size s), v).

(* stack.c 97-102 lbm_pop_2 *)
Definition pop_2 (s : stack) : res (stack * (Z * Z)) :=
  let sp := wrap W (s_sp s - 1) in
  let! r0 := rd (s_data s) sp in
  let sp := wrap W (sp - 1) in
  let! r1 := rd (s_data s) sp in
  Ok (mkst (s_data s) sp (s_size s), (r0, r1)).

(* stack.c 104-110 lbm_pop_3 *)
Definition pop_3 (s : stack) : res (stack * (Z * Z * Z)) :=
  let sp := wrap W (s_sp s - 1) in
  let! r0 := rd (s_data s) sp in
  let sp := wrap W (sp - 1) in
  let! r1 := rd (s_data s) sp in
  let sp := wrap W (sp - 1) in
  let! r2 := rd (s_data s) sp in
  Ok (mkst (s_data s) sp (s_size s), (r0, r1, r2)).

(* stack.c 52-62 lbm_get_max_stack: the loop from index [i] down; a size of
   2^31 or more makes the cast to int negative and is left out *)
Fixpoint unused_from (d : list Z) (i : nat) (unused : Z) : res Z :=
  match i with
  | O => Ok unused
  | S j =>
    let! v := rd d (Z.of_nat j) in
    if v =? UNUSED_WORD then unused_from d j (unused + 1) else Ok unused
  end.

Definition get_max_stack (s : stack) : res Z :=
  let! u := unused_from (s_data s) (Z.to_nat (s_size s)) 0 in
  Ok (s_size s - u).

(* Reads and writes through a pointer p = &data[base]: p[i], and the writes
   p[0] = v0; p[1] = v1; ... that follow stack_reserve. *)
Fixpoint store_at (d : list Z) (base : Z) (vs : list Z) : res (list Z) :=
  match vs with
  | [] => Ok d
  | v :: t => let! d1 := wr d base v in store_at d1 (base + 1) t
  end.
Fixpoint load_at (d : list Z) (base : Z) (n : nat) : res (list Z) :=
  match n with
  | O => Ok []
  | S m => let! v := rd d base in let! t := load_at d (base + 1) m in Ok (v :: t)
  end.

(* eval_cps.c 469-476 get_stack_ptr followed by reading p[i]; None: the
   context ends with a stack error *)
Definition frame_read (s : stack) (n i : Z) : res (option Z) :=
  if n <=? s_sp s then
    let! v := rd (s_data s) (s_sp s - n + i) in Ok (Some v)
  else Ok None.

(* the same followed by p[i] = v *)
Definition frame_write (s : stack) (n i v : Z) : res (stack * bool) :=
  if n <=? s_sp s then
    let! d := wr (s_data s) (s_sp s - n + i) v in
    Ok (mkst d (s_sp s) (s_size s), true)
  else Ok (s, false).

(* eval_cps.c 480-487 pop_stack_ptr followed by reading p[0] .. p[n-1] *)
Definition frame_pop (s : stack) (n : nat) : res (stack * option (list Z)) :=
  if Z.of_nat n <=? s_sp s then
    let sp := s_sp s - Z.of_nat n in
    let! vs := load_at (s_data s) sp n in
    Ok (mkst (s_data s) sp (s_size s), Some vs)
  else Ok (s, None).

(* eval_cps.c 489-497 stack_reserve of as many words as [vs] followed by
   storing [vs]; the test is strict *)
Definition frame_push (s : stack) (vs : list Z) : res (stack * bool) :=
  let n := Z.of_nat (length vs) in
  if wrap W (s_sp s + n) <? s_size s then
    let! d := store_at (s_data s) (s_sp s) vs in
    Ok (mkst d (wrap W (s_sp s + n)) (s_size s), true)
  else Ok (s, false).

End Arch.
