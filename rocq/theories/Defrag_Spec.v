(* What is promised of a defragmentable memory (C40, C41). *)
From Verif Require Import Base Value_Model Heap_Model Heap_Spec Value_Proofs Defrag_Model.
Local Open Scope Z_scope.

Section Arch.
Context {A : Arch}.

(* an array: the number of its cell, its size in bytes, its data words *)
Record arr := mkArr { a_cell : Z; a_bytes : Z; a_data : list Z }.

(* the words that hold [b] bytes *)
Definition words_for (b : Z) : Z := (b + WB - 1) / WB.

(* the words [xs] are found from word number [i] on *)
Definition found (ws : list Z) (i : Z) (xs : list Z) : Prop :=
  0 <= i /\ firstn (length xs) (skipn (Z.to_nat i) ws) = xs.

(* The array's cell points at a header, at word [i] of the memory, with the size,
   the address of the data that follows and the cell; then come the data.  The
   cell may carry a mark of the collector. *)
Definition array_at (d : dm) (h : heap) (a : arr) (i : Z) : Prop :=
  0 <= i /\ i + 3 + Z.of_nat (length (a_data a)) <= d_size d /\
  (exists q, cell h (a_cell a) = Some (d_base d + WB * i, q) /\
             (q = DEFRAG_ARRAY \/ q = set_gc_mark DEFRAG_ARRAY)) /\
  found (d_words d) i ([a_bytes a; d_base d + WB * (i + 3); enc_cons_ptr (a_cell a)] ++ a_data a).

(* words [i, i + n) and [j, j + m) do not overlap *)
Definition apart (i n j m : Z) : Prop := i + n <= j \/ j + m <= i.
Definition extent (a : arr) : Z := 3 + Z.of_nat (length (a_data a)).

(* The memory is aligned and lies inside the address space, but not at its very
   beginning: no word's address divided by the word size is small enough to be
   a position in the memory. *)
Definition placed (d : dm) : Prop :=
  WB * d_size d <= d_base d /\ d_base d + WB * d_size d <= 2 ^ W.

(* the cell [c] is neither free nor new to the heap *)
Definition in_use (h : heap) (fl : list Z) (c : Z) : Prop := ~ In c fl /\ 0 <= c < hsize h.

(* A history of a memory: the arrays that are live.  In between, anything else
   may happen to the heap, the collector may set and clear marks, and the
   program writes to its arrays. *)
Inductive history (base nbytes : Z) : dm -> heap -> list arr -> Prop :=
| h_create d h fl : dm_create base nbytes = Some d -> heap_ok h fl -> history base nbytes d h []
| h_alloc d h l bytes d' h' v : history base nbytes d h l -> 0 <= bytes < 2 ^ W ->
    dm_alloc d h bytes = Ok (d', h', v) -> v <> MERROR -> v <> EERROR ->
    history base nbytes d' h' (mkArr (f_ix v) bytes (repeat 0 (Z.to_nat (words_for bytes))) :: l)
| h_refused d h l bytes d' h' v : history base nbytes d h l -> 0 <= bytes < 2 ^ W ->
    dm_alloc d h bytes = Ok (d', h', v) -> v = MERROR \/ v = EERROR -> history base nbytes d' h' l
| h_free d h l1 a l2 x d' h' : history base nbytes d h (l1 ++ a :: l2) ->
    cell h (a_cell a) = Some (x, DEFRAG_ARRAY) -> sweep_dm_cell d h (a_cell a) = Ok (d', h') ->
    history base nbytes d' h' (l1 ++ l2)
| h_store d h l1 a l2 k w d' : history base nbytes d h (l1 ++ a :: l2) ->
    (k < length (a_data a))%nat -> array_store d h (a_cell a) (Z.of_nat k) w = Ok d' ->
    history base nbytes d' h (l1 ++ mkArr (a_cell a) (a_bytes a) (upd (a_data a) k w) :: l2)
| h_other d h l h' fl : history base nbytes d h l -> heap_ok h' fl ->
    (forall a, In a l -> ~ In (a_cell a) fl /\
       exists x q q', cell h (a_cell a) = Some (x, q) /\ cell h' (a_cell a) = Some (x, q') /\
         (q' = q \/ q' = set_gc_mark q \/ q' = clr_gc_mark q)) ->
    history base nbytes d h' l.

(* words taken by the live arrays *)
Definition taken (l : list arr) : Z := fold_right (fun a n => extent a + n) 0 l.

End Arch.
