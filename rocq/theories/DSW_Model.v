(* Model of pointer reversal marking: src/heap.c 652-744 (USE_GC_PTR_REV), the
   alternative to the stack based marking of GC_Model.  The mutex taken around it
   is left out.  [depth] is how many calls of lbm_gc_mark_phase_nm may still be
   nested: the C stack. *)
From Verif Require Import Base Value_Model Heap_Model GC_Model.
Local Open Scope Z_scope.

Section Arch.
Context {A : Arch}.

(* heap.c 673-676 value_assign: the GC bit stays that of the target *)
Definition value_assign (a b : Z) : Z := Z.lor (Z.land a GC_MASK) (Z.land b (wnot GC_MASK)).
(* heap.c 52-62: the flag is the same bit, in the car *)
Definition get_gc_flag (x : Z) : bool := negb (Z.land x GC_MARKED =? 0).
Definition set_gc_flag (x : Z) : Z := Z.lor x GC_MARKED.
Definition clr_gc_flag (x : Z) : Z := Z.land x (wnot GC_MASK).
(* heap.c 683 *)
Definition NULL_PTR : Z := enc_cons_ptr PTR_NULL.

(* which of the two inner loops is running *)
Inductive phase := Down | Up.

(* heap.c 687-690: the condition of the first inner loop *)
Definition down_cond (h : heap) (curr : Z) : res bool :=
  if is_ptr curr && negb (dec_ptr curr =? PTR_NULL) && negb (is_const_ptr curr) then
    let! c := rd (cells h) (dec_ptr curr) in Ok (negb (get_gc_mark (snd c)))
  else Ok false.

(* heap.c 708-710: the loop over the elements of an array *)
Fixpoint mark_elts (f : heap -> Z -> res heap) (es : list Z) (h : heap) : res heap :=
  match es with
  | [] => Ok h
  | e :: t => let! h1 := f h e in mark_elts f t h1
  end.

(* heap.c 685-736: the loops *)
Fixpoint dsw (depth fuel : nat) (h : heap) (curr prev : Z) (p : phase) : res heap :=
  match fuel with
  | O => Fuel
  | S k =>
    match p with
    | Down =>
      let! go := down_cond h curr in
      if go : bool then
        let! c := rd (cells h) (dec_ptr curr) in
        if is_cons_rw curr then
          let next := value_assign 0 (fst c) in
          let! cs := wr (cells h) (dec_ptr curr) (value_assign (fst c) prev, set_gc_mark (snd c)) in
          dsw depth k (set_cells h cs) (value_assign curr next) (value_assign prev curr) Down
        else
          let! h1 := mark_cell h (dec_ptr curr) in
          if type_of curr =? TYPE_LISPARRAY then
            match mem h1 (fst c) with
            | Some (OLisp _ size elts _) =>
              if size / WB <=? Z.of_nat (length elts) then
                match depth with
                | O => UB
                | S d =>
                  let! h2 := mark_elts (fun h e => if is_ptr e then dsw d k h e NULL_PTR Down else Ok h)
                                       (firstn (Z.to_nat (size / WB)) elts) h1 in
                  dsw depth k h2 curr prev Down
                end
              else UB
            | _ => UB
            end
          else dsw depth k h1 curr prev Down
      else dsw depth k h curr prev Up
    | Up =>
      if is_ptr prev then
        if dec_ptr prev =? PTR_NULL then Ok h
        else
          let! c := ref_cell h prev in
          if get_gc_flag (fst c) then
            let next := value_assign 0 (snd c) in
            let! h1 := put_cell h prev (clr_gc_flag (fst c), value_assign (snd c) curr) in
            dsw depth k h1 (value_assign curr prev) (value_assign prev next) Up
          else
            let a := set_gc_flag (fst c) in
            let next := value_assign 0 a in
            let! h1 := put_cell h prev (value_assign a curr, value_assign (snd c) next) in
            dsw depth k h1 (value_assign curr (snd c)) prev Down
      else dsw depth k h curr prev Down
    end
  end.

(* heap.c 678-683, 740-744 lbm_gc_mark_phase *)
Definition dsw_phase (depth fuel : nat) (h : heap) (root : Z) : res heap :=
  if is_ptr root then dsw depth fuel h root NULL_PTR Down else Ok h.

(* heap.c 878-882 lbm_gc_mark_roots *)
Fixpoint dsw_roots (depth fuel : nat) (h : heap) (roots : list Z) : res heap :=
  match roots with
  | [] => Ok h
  | r :: t => let! h1 := dsw_phase depth fuel h r in dsw_roots depth fuel h1 t
  end.

End Arch.
