(* Model of the garbage collector: src/heap.c 762-948 (stack based marking, the
   default), 652-744 (pointer reversal marking, USE_GC_PTR_REV), and the
   collection driver gc() of src/eval_cps.c 1598-1645. *)
From Verif Require Import Base Value_Model Heap_Model.
Local Open Scope Z_scope.

Section Arch.
Context {A : Arch}.

(* stack.c 82-95 on the GC stack *)
Definition gpush (h : heap) (v : Z) : option heap :=
  if Z.of_nat (length (gstack h)) =? gsize h then None else Some (set_gstack h (v :: gstack h)).
Definition gpop (h : heap) : res (heap * Z) :=
  match gstack h with
  | [] => UB
  | v :: s => Ok (set_gstack h s, v)
  end.

(* "lbm_push(s, curr);" with the result thrown away, heap.c 789: the ghost flag
   records a failure *)
Definition gpush_ignored (h : heap) (v : Z) : heap :=
  match gpush h v with Some h1 => h1 | None => set_lost h true end.

(* cell->cdr = lbm_set_gc_mark(cell->cdr) *)
Definition mark_cell (h : heap) (i : Z) : res heap :=
  let! c := rd (cells h) i in
  let! cs := wr (cells h) i (fst c, set_gc_mark (snd c)) in
  Ok (set_cells h cs).

Definition inc_marked (h : heap) : heap :=
  set_counts h (wrap W (gc_marked h + 1)) (gc_recovered h) (gc_recovered_arrays h).

Definition set_obj (h : heap) (a : Z) (o : option obj) : heap :=
  set_mem h (fun x => if x =? a then o else mem h x).

(* where control goes after one round of the loop body of lbm_gc_mark_phase, heap.c 764-844 *)
Inductive next :=
| NPop               (* continue *)
| NGo (w : Z)        (* curr = w; goto mark_shortcut *)
| NCrit.             (* lbm_critical_error(): longjmp out, eval_cps.c 1087 *)

(* heap.c 798-805: does the marker descend into array element [e]? *)
Definition is_followed (e : Z) : bool :=
  is_ptr e && negb (is_const_ptr e) &&
  negb (Z.land e CONTINUATION_INTERNAL =? CONTINUATION_INTERNAL).

(* heap.c 773-842: from mark_shortcut to the end of the loop body *)
Definition mark_body (h : heap) (curr : Z) : res (heap * next) :=
  if negb (is_ptr curr) || is_const_ptr curr then Ok (h, NPop)
  else
    let ix := dec_ptr curr in
    let! c := rd (cells h) ix in
    if get_gc_mark (snd c) then Ok (h, NPop)
    else
      let t := type_of curr in
      if t =? TYPE_LISPARRAY then
        let h1 := gpush_ignored h curr in
        match mem h1 (fst c) with
        | Some (OLisp data size elts index) =>
          let! e := rd elts index in
          let! follow :=
            (if is_followed e then
               let! ec := rd (cells h1) (dec_ptr e) in Ok (negb (get_gc_mark (snd ec)))
             else Ok false) in
          if follow : bool then Ok (h1, NGo e)
          else if index <? wrap W (size / WB - 1) then
            Ok (set_obj h1 (fst c) (Some (OLisp data size elts (wrap 32 (index + 1)))), NPop)
          else
            let h2 := set_obj h1 (fst c) (Some (OLisp data size elts 0)) in
            let! h3 := mark_cell h2 ix in
            let! p := gpop (inc_marked h3) in
            Ok (fst p, NPop)
        | _ => UB
        end
      else if t =? TYPE_CHANNEL then
        let! h1 := mark_cell h ix in
        let h2 := inc_marked h1 in
        if negb (fst c =? NIL) then
          match mem h2 (fst c) with
          | Some (OChan _ dep) => Ok (h2, NGo dep)
          | _ => UB
          end
        else Ok (h2, NPop)
      else
        let! h1 := mark_cell h ix in
        let h2 := inc_marked h1 in
        if t =? TYPE_CONS then
          if is_ptr (snd c) then
            match gpush h2 (set_gc_mark (snd c)) with
            | Some h3 => Ok (h3, NGo (fst c))
            | None => Ok (h2, NCrit)
            end
          else Ok (h2, NGo (fst c))
        else Ok (h2, NPop).

(* the loop; the result is false when it was left by lbm_critical_error *)
Fixpoint mark_run (fuel : nat) (h : heap) (pc : option Z) : res (heap * bool) :=
  match fuel with
  | O => Fuel
  | S k =>
    match pc with
    | None =>
      match gstack h with
      | [] => Ok (h, true)
      | v :: s => mark_run k (set_gstack h s) (Some v)
      end
    | Some w =>
      let! r := mark_body h w in
      match snd r with
      | NPop => mark_run k (fst r) None
      | NGo w' => mark_run k (fst r) (Some w')
      | NCrit => Ok (fst r, false)
      end
    end
  end.

(* heap.c 764-844 lbm_gc_mark_phase: the first push is not checked *)
Definition mark_phase (fuel : nat) (h : heap) (root : Z) : res (heap * bool) :=
  if Z.of_nat (length (gstack h)) <? gsize h
  then mark_run fuel (set_gstack h (root :: gstack h)) None
  else UB.

(* heap.c 878-882 lbm_gc_mark_roots *)
Fixpoint mark_roots (fuel : nat) (h : heap) (roots : list Z) : res (heap * bool) :=
  match roots with
  | [] => Ok (h, true)
  | r :: t =>
    let! m := mark_phase fuel h r in
    if snd m then mark_roots fuel (fst m) t else Ok m
  end.

(* heap.c 864-876 lbm_gc_mark_aux *)
Definition aux_ok (h : heap) (x : Z) : bool :=
  is_ptr x && (POINTER_TYPE_FIRST <=? type_of x) && (type_of x <=? POINTER_TYPE_LAST) &&
  (dec_ptr x <? Z.of_nat (length (cells h))).
Fixpoint mark_aux (fuel : nat) (h : heap) (aux : list Z) : res (heap * bool) :=
  match aux with
  | [] => Ok (h, true)
  | r :: t =>
    if aux_ok h r then
      let! m := mark_phase fuel h r in
      if snd m then mark_aux fuel (fst m) t else Ok m
    else mark_aux fuel h t
  end.

(* c->cdr = lbm_set_gc_mark(c->cdr) where c = lbm_ref_cell(p) *)
Definition mark_ref (h : heap) (p : Z) : res heap :=
  let! c := ref_cell h p in put_cell h p (fst c, set_gc_mark (snd c)).

(* heap.c 848-861 lbm_gc_mark_env.  c->car is not checked to be a pointer: if it
   is not, lbm_ref_cell still computes a cell from its bits. *)
Fixpoint mark_env (fuel : nat) (h : heap) (curr : Z) : res (heap * bool) :=
  if is_ptr curr then
    match fuel with
    | O => Fuel
    | S k =>
      let! h1 := mark_ref h curr in
      let! c := ref_cell h1 curr in
      let! h2 := mark_ref h1 (fst c) in
      let! b := ref_cell h2 (fst c) in
      let! m := mark_phase fuel h2 (snd b) in
      if snd m then
        let h3 := set_counts (fst m) (wrap W (gc_marked (fst m) + 2)) (gc_recovered (fst m)) (gc_recovered_arrays (fst m)) in
        let! c' := ref_cell h3 curr in
        mark_env k h3 (snd c')
      else Ok m
    end
  else Ok (h, true).

Definition mem_free (h : heap) (a : Z) : heap := set_freed h (a :: freed h).

(* heap.c 893-930: release what the unmarked cell (a, d) owns.  The destructor
   of a custom value and the defragmentable memory calls are not modelled. *)
Definition free_payload (h : heap) (a d : Z) : res heap :=
  if type_of d =? TYPE_SYMBOL then
    if (d =? enc_sym SYM_IND_I_TYPE) || (d =? enc_sym SYM_IND_U_TYPE) || (d =? enc_sym SYM_IND_F_TYPE)
    then Ok (set_obj (mem_free h a) a None)
    else if (d =? enc_sym SYM_LISPARRAY_TYPE) || (d =? enc_sym SYM_ARRAY_TYPE) then
      let go data :=
        let h1 := mem_free h data in
        let h2 := set_counts h1 (gc_marked h1) (gc_recovered h1) (wrap W (gc_recovered_arrays h1 + 1)) in
        Ok (set_obj (mem_free h2 a) a None) in
      match mem h a with
      | Some (OLisp data _ _ _) => go data
      | Some (OByte data _) => go data
      | _ => UB
      end
    else if d =? enc_sym SYM_CHANNEL_TYPE then
      match mem h a with
      | Some (OChan st _) => Ok (set_obj (mem_free (mem_free h st) a) a None)
      | _ => UB
      end
    else if d =? enc_sym SYM_CUSTOM_TYPE then
      match mem h a with
      | Some OOther => Ok (set_obj (mem_free h a) a None)
      | _ => UB
      end
    else Ok h
  else Ok h.

(* heap.c 889-941: one round of the sweep loop *)
Definition sweep_cell (h : heap) (i : Z) : res heap :=
  let! c := rd (cells h) i in
  if get_gc_mark (snd c) then
    let! cs := wr (cells h) i (fst c, clr_gc_mark (snd c)) in Ok (set_cells h cs)
  else
    let! h1 := free_payload h (fst c) (snd c) in
    let! cs := wr (cells h1) i (RECOVERED, freelist h1) in
    let h2 := set_free (set_cells h1 cs) (enc_cons_ptr i) (wrap W (num_alloc h1 - 1)) in
    Ok (set_counts h2 (gc_marked h2) (wrap W (gc_recovered h2 + 1)) (gc_recovered_arrays h2)).

(* i is an unsigned int; heap sizes fit in 32 bits *)
Fixpoint sweep_loop (n : nat) (i : Z) (h : heap) : res heap :=
  match n with
  | O => Ok h
  | S k => let! h1 := sweep_cell h i in sweep_loop k (i + 1) h1
  end.
Definition sweep (h : heap) : res heap := sweep_loop (length (cells h)) 0 h.

(* heap.c 508-511 lbm_nil_freelist, 945-949 lbm_gc_state_inc *)
Definition nil_freelist (h : heap) : heap := set_free h NIL (Z.of_nat (length (cells h))).
Definition gc_state_inc (h : heap) : heap := set_counts h 0 0 (gc_recovered_arrays h).

(* eval_cps.c 1598-1606 mark_context: a context is given by its environment, its
   direct roots (curr_exp, program, r, then the mailbox) and its stack *)
Record croots := mkCroots { c_env : Z; c_roots : list Z; c_stack : list Z }.

Definition mark_context (fuel : nat) (h : heap) (c : croots) : res (heap * bool) :=
  let! m1 := mark_env fuel h (c_env c) in
  if snd m1 then
    let! m2 := mark_roots fuel (fst m1) (c_roots c) in
    if snd m2 then mark_aux fuel (fst m2) (c_stack c) else Ok m2
  else Ok m1.

Fixpoint mark_envs (fuel : nat) (h : heap) (envs : list Z) : res (heap * bool) :=
  match envs with
  | [] => Ok (h, true)
  | e :: t =>
    let! m := mark_env fuel h e in
    if snd m then mark_envs fuel (fst m) t else Ok m
  end.
Fixpoint mark_contexts (fuel : nat) (h : heap) (cs : list croots) : res (heap * bool) :=
  match cs with
  | [] => Ok (h, true)
  | c :: t =>
    let! m := mark_context fuel h c in
    if snd m then mark_contexts fuel (fst m) t else Ok m
  end.

(* eval_cps.c 1608-1646 gc, preceded by the WITH_GC_RMBR marking of local roots
   (eval_cps.c 129-170): [pre] are marked before gc() is entered. *)
Definition gc (fuel : nat) (h : heap) (pre genv : list Z) (ctxs : list croots) : res (heap * bool) :=
  let! m0 := mark_roots fuel h pre in
  if snd m0 then
    let h1 := nil_freelist (gc_state_inc (fst m0)) in
    let! m1 := mark_envs fuel h1 genv in
    if snd m1 then
      let! m2 := mark_contexts fuel (fst m1) ctxs in
      if snd m2 then let! h4 := sweep (fst m2) in Ok (h4, true) else Ok m2
    else Ok m1
  else Ok m0.

End Arch.
