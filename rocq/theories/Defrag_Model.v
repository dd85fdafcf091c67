(* Defragmentable memory: src/lbm_defrag_mem.c and the sweep phase's calls of it
   (src/heap.c 901-903 and 926-929).

   A defragmentable memory is a block of words: two header words (size and
   flags) and the data area [d_words], which is at address [d_base].  Loops take
   fuel, which the theorems exclude.  A pointer into the data area is its
   address; storing through a pointer that is not one of a word of the area is
   undefined.  lbm_uint arithmetic wraps. *)
From Verif Require Import Base Value_Model Heap_Model.
Local Open Scope Z_scope.

Section Arch.
Context {A : Arch}.

Definition DEFRAG_ARRAY : Z := enc_sym SYM_DEFRAG_ARRAY_TYPE.

(* lbm_defrag_mem.c 22-24 bs2ws *)
Definition bs2ws (bs : Z) : Z := if bs mod WB =? 0 then bs / WB else bs / WB + 1.

(* 28-32: the data area with its address, and the flags word *)
Record dm := mkDm { d_base : Z; d_words : list Z; d_flags : Z }.
Definition d_size (d : dm) : Z := Z.of_nat (length (d_words d)).
Definition set_words (d : dm) (ws : list Z) : dm := mkDm (d_base d) ws (d_flags d).
Definition set_flags (d : dm) (f : Z) : dm := mkDm (d_base d) (d_words d) f.

(* 38-57 lbm_defrag_mem_create when the memory, at address [base] - 2 words, is
   obtained *)
Definition dm_create (base nbytes : Z) : option dm :=
  let nwords := bs2ws nbytes in
  if nwords >? 0 then Some (mkDm base (repeat 0 (Z.to_nat nwords)) 0) else None.

(* the address of word [i], and the word an address is of *)
Definition addr (d : dm) (i : Z) : Z := wrap W (d_base d + WB * i).
Definition word_at (d : dm) (a : Z) : res Z :=
  let o := a - d_base d in if o mod WB =? 0 then Ok (o / WB) else UB.

(* [n] words from word [i], and a store of words from word [i] *)
Fixpoint load (ws : list Z) (i : Z) (n : nat) : res (list Z) :=
  match n with
  | O => Ok []
  | S k => let! x := rd ws i in let! r := load ws (i + 1) k in Ok (x :: r)
  end.
Fixpoint store (ws : list Z) (i : Z) (xs : list Z) : res (list Z) :=
  match xs with
  | [] => Ok ws
  | x :: t => let! ws1 := wr ws i x in store ws1 (i + 1) t
  end.
Definition clear (ws : list Z) (i n : Z) : res (list Z) := store ws i (repeat 0 (Z.to_nat n)).

(* 59-79 free_defrag_allocation of the allocation at word [i] *)
Definition free_defrag_allocation (d : dm) (h : heap) (i : Z) : res (dm * heap) :=
  let! size := rd (d_words d) i in
  let nwords := wrap W (bs2ws size + 3) in
  let! c := rd (d_words d) (i + 2) in
  let cell := set_ptr_type c TYPE_CONS in
  let! q := cdr h cell in
  let new_cdr := if get_gc_mark q then Z.lor NIL GC_MARKED else NIL in
  let! (h1, _) := set_car_and_cdr h cell NIL new_cdr in
  let! ws := clear (d_words d) i nwords in
  Ok (set_words d ws, h1).

(* 84-98 lbm_defrag_mem_destroy, without the lbm_free of the memory itself *)
Fixpoint destroy_loop (fuel : nat) (d : dm) (h : heap) (i : Z) : res (dm * heap) :=
  if i <? d_size d then
    match fuel with
    | O => Fuel
    | S k =>
      let! a := rd (d_words d) i in
      if negb (a =? 0) then
        let alloc_words := wrap W (3 + bs2ws a) in
        let! (d1, h1) := free_defrag_allocation d h i in
        destroy_loop k d1 h1 (wrap W (i + alloc_words))
      else destroy_loop k d h (i + 1)
    end
  else Ok (d, h).
Definition dm_destroy (d : dm) (h : heap) : res (dm * heap) := destroy_loop (length (d_words d)) d h 0.

(* 101-139 lbm_defrag_mem_defrag *)
Fixpoint defrag_loop (fuel : nat) (d : dm) (h : heap) (i hole_start until_size : Z) : res (dm * heap) :=
  if i <? d_size d then
    match fuel with
    | O => Fuel
    | S k =>
      let! alloc_bytes := rd (d_words d) i in
      if negb (alloc_bytes =? 0) then
        let alloc_words := bs2ws alloc_bytes in
        let n := wrap W (alloc_words + 3) in
        if hole_start =? i then
          let i1 := wrap W (i + n) in defrag_loop k d h i1 i1 until_size
        else
          let move_dist := wrap W (i - hole_start) in
          if move_dist >=? until_size then Ok (d, h)
          else
            let clear_ix := wrap W (hole_start + n) in
            let! src := load (d_words d) i (Z.to_nat n) in
            let! ws1 := store (d_words d) hole_start src in
            let! ws2 := clear ws1 clear_ix move_dist in
            let! ws3 := wr ws2 (hole_start + 1) (addr d (hole_start + 3)) in
            let! cell := rd ws3 (hole_start + 2) in
            let! (h1, _) := set_car h cell (addr d hole_start) in
            defrag_loop k (set_words d ws3) h1 (wrap W (i + n)) (wrap W (hole_start + n)) until_size
      else defrag_loop k d h (i + 1) hole_start until_size
    end
  else Ok (d, h).
Definition dm_defrag (d : dm) (h : heap) (bytes : Z) : res (dm * heap) :=
  defrag_loop (length (d_words d)) d h 0 0 (wrap W (bs2ws bytes + 3)).

(* 170-204, the search: [st] is None in the state INIT, and the start and the
   length of the free words in the state FREE_LEN *)
Fixpoint search (fuel : nat) (ws : list Z) (i : Z) (st : option (Z * Z)) (alloc_words : Z) : res (option Z) :=
  if i <? Z.of_nat (length ws) then
    match fuel with
    | O => Fuel
    | S k =>
      let! w := rd ws i in
      match st with
      | None =>
        if w =? 0 then search k ws (i + 1) (Some (i, 1)) alloc_words
        else search k ws (wrap W (i + wrap W (bs2ws w + 3))) None alloc_words
      | Some (s, free_words) =>
        if w =? 0 then
          if free_words + 1 >=? alloc_words then Ok (Some s)
          else search k ws (i + 1) (Some (s, free_words + 1)) alloc_words
        else search k ws (i + 1) None alloc_words
      end
    end
  else Ok None.

(* 155-218 lbm_defrag_mem_alloc_internal *)
Definition alloc_internal (d : dm) (h : heap) (bytes : Z) : res (dm * heap * Z) :=
  if bytes =? 0 then Ok (d, h, EERROR) else
  let! (h1, cell) := alloc_cell h TYPE_CONS NIL DEFRAG_ARRAY in
  if cell =? MERROR then Ok (d, h1, cell) else
  let alloc_words := wrap W (bs2ws bytes + 3) in
  let! r := search (length (d_words d) + 2) (d_words d) 0 None alloc_words in
  match r with
  | Some s =>
    let! ws1 := wr (d_words d) s bytes in
    let! ws2 := wr ws1 (s + 1) (addr d (s + 3)) in
    let! ws3 := wr ws2 (s + 2) cell in
    let! (h2, _) := set_car h1 cell (addr d s) in
    Ok (set_words d ws3, h2, set_ptr_type cell TYPE_ARRAY)
  | None =>
    let! (h2, _) := set_car_and_cdr h1 cell NIL NIL in
    Ok (set_flags d 1, h2, MERROR)
  end.

(* 220-231 lbm_defrag_mem_alloc *)
Definition dm_alloc (d : dm) (h : heap) (bytes : Z) : res (dm * heap * Z) :=
  let! (d1, h1, r) := alloc_internal d h bytes in
  if r =? MERROR then
    if negb (d_flags d1 =? 0) then
      let! (d2, h2) := dm_defrag d1 h1 bytes in
      let! (d3, h3, r3) := alloc_internal d2 h2 bytes in
      Ok (set_flags d3 0, h3, r3)
    else Ok (d1, h1, r)
  else Ok (d1, h1, r).

(* 241-247 lbm_defrag_mem_free of the allocation at address [a] *)
Definition dm_free (d : dm) (a : Z) : res dm :=
  let! i := word_at d a in
  let! nbytes := rd (d_words d) i in
  let! ws := clear (d_words d) i (wrap W (3 + bs2ws nbytes)) in
  Ok (set_words d ws).

(* heap.c 889-941: the sweep phase finds the unmarked cell number [c] of an array
   in this memory *)
Definition sweep_dm_cell (d : dm) (h : heap) (c : Z) : res (dm * heap) :=
  let! x := rd (cells h) c in
  let! d1 := (if snd x =? DEFRAG_ARRAY then dm_free d (fst x) else Ok d) in
  let! cs := wr (cells h) c (RECOVERED, freelist h) in
  Ok (d1, set_free (set_cells h cs) (enc_cons_ptr c) (wrap W (num_alloc h - 1))).

(* A program's access to data word [k] of the array with the cell number [c],
   through the header (heap.h lbm_array_header_t: size in bytes, data pointer);
   None: out of range *)
Definition array_word (d : dm) (h : heap) (c k : Z) : res (option Z) :=
  let! x := rd (cells h) c in
  let! i := word_at d (fst x) in
  let! size := rd (d_words d) i in
  let! p := rd (d_words d) (i + 1) in
  if (0 <=? k) && (k <? bs2ws size) then let! j := word_at d (wrap W (p + WB * k)) in Ok (Some j) else Ok None.
Definition array_load (d : dm) (h : heap) (c k : Z) : res (option Z) :=
  let! o := array_word d h c k in
  match o with Some j => let! w := rd (d_words d) j in Ok (Some w) | None => Ok None end.
Definition array_store (d : dm) (h : heap) (c k w : Z) : res dm :=
  let! o := array_word d h c k in
  match o with Some j => let! ws := wr (d_words d) j w in Ok (set_words d ws) | None => Ok d end.

End Arch.
