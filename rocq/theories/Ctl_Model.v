(* Control: src/eval_cps.c, the special forms trap, atomic and call-cc, the
   application of continuations, and what error_ctx does.

   Simplifications.
   - Everything else is the evaluator of Eval_Model.  Where that has the outcome
     [Err] or [NoMem], what the C code has done before it calls error_ctx is taken
     from [Faults], but for the one case [short_call]: the error value, the words
     that lie on the stack above the frame that is worked on, and the heap.
   - The printing of the error (1058-1066) and the record of where it was are left out.
   - Of the stack's memory above the stack pointer, [x_above] is what is left when
     a step has dropped words.  Words that a step both pushes and drops are not
     recorded.
   - The answers of lbm_malloc are given ([x_pool]). *)
From Verif Require Import Base Value_Model Heap_Model Env_Model Match_Model GC_Model Eval_Model Sym_Model Flat_Model Fund_Model.
Local Open Scope Z_scope.

(* eval_cps.c 1027-1073: what an error has to do with the state that it is raised in *)
Class Faults := mkFaults {
  why : est -> Z;          (* the error value *)
  junk : est -> list Z;    (* what has been pushed *)
  torn : est -> heap;      (* the heap *)
  told : est -> bool;      (* 1034: there are three cells for a message *)
  stops : est -> bool      (* [NoMem] is lbm_critical_error *)
}.

Section Arch.
Context {A : Arch} {HO : Host} {FA : Faults}.

(* eval_cps.c 64, 95 *)
Definition EXIT_ATOMIC := CONT 14.
Definition EXCEPTION_HANDLER := CONT 45.
(* eval_cps.h 41, 45 *)
Definition FLAG_TRAP := 0x01.
Definition FLAG_UNROLL := 0x10.
(* lbm_defines.h 160, 243, 356, 357: SYM_CONT, SYM_EXIT_OK, SYM_EXIT_ERROR, SYM_STACK_ERROR *)
Definition S_CONT : Z := enc_sym 0x10E.
Definition S_EXIT_OK : Z := enc_sym 0x3000B.
Definition S_EXIT_ERROR : Z := enc_sym 0x3000C.
Definition STACK_ERROR : Z := enc_sym SYM_STACK_ERROR.

(* eval_cps.h 63-87 eval_context_t with its flags; eval_cps.c 404 is_atomic *)
Record xst := mkX {
  x_e : est; x_flags : Z; x_atomic : bool;
  x_pool : list Z;     (* the answers of lbm_malloc to come *)
  x_above : list Z     (* K.data[sp], K.data[sp+1], ... *)
}.
(* the same with another [est]: dropped words stay in memory *)
Definition onto (x : xst) (s : est) : xst :=
  mkX s (x_flags x) (x_atomic x) (x_pool x) (skipn (length (e_K s)) (rev (e_K (x_e x)) ++ x_above x)).
Definition set_flags (x : xst) (fl : Z) : xst := mkX (x_e x) fl (x_atomic x) (x_pool x) (x_above x).
Definition set_atomic (x : xst) (b : bool) : xst := mkX (x_e x) (x_flags x) b (x_pool x) (x_above x).
Definition set_pool (x : xst) (p : list Z) : xst := mkX (x_e x) (x_flags x) (x_atomic x) p (x_above x).

(* The outcomes of a step: 1072 and 1055 longjmp to 5340 *)
Inductive xout :=
| Next (x : xst)      (* it was carried out *)
| Jumped (x : xst)    (* a continuation has been applied *)
| Caught (x : xst)    (* there was an error and a handler for it *)
| Ended (err : Z) (atomic : bool)  (* the context ends with the error; is_atomic *)
| Lost (err : Z) (atomic : bool)   (* 1058: the context is in a trap, but no handler was found *)
| Stopped.            (* lbm_critical_error *)

(* 1046-1057: words are popped down to an EXCEPTION_HANDLER.  [None]: none is
   found.  469-476 get_stack_ptr and 489-497 stack_reserve raise an error if there
   are no two words below it or no room to push it again; then the search goes on
   with that error (the store of line 1051 is left out in that case). *)
Fixpoint unwind (sz : Z) (K : list Z) (err : Z) : option (Z * list Z * Z) :=
  match K with
  | [] => None
  | v :: K0 =>
    if v =? EXCEPTION_HANDLER then
      match K0 with
      | _ :: retval :: _ => if Z.of_nat (length K0) + 1 <? sz then Some (retval, K0, err) else unwind sz K0 STACK_ERROR
      | _ => unwind sz K0 STACK_ERROR
      end
    else unwind sz K0 err
  end.

(* 1027-1073 error_ctx_base, with the heap [h] and the stack [K] *)
Definition raise (x : xst) (h : heap) (K : list Z) (err : Z) : res xout :=
  let 'mkE _ g _ sz exp env r _ := x_e x in
  if Z.testbit (x_flags x) 0 && told (x_e x) then Ok (Ended err (x_atomic x))
  else if Z.testbit (x_flags x) 4 && negb (err =? FATAL_ERROR) then
    match unwind sz K err with
    | Some (retval, K0, e) =>
      let! (h1, _) := set_car h retval S_EXIT_ERROR in
      Ok (Caught (onto x (mkE h1 g (EXCEPTION_HANDLER :: K0) sz exp env e true)))
    | None => Ok (Lost err (x_atomic x))
    end
  else Ok (Ended err (x_atomic x)).

(* The words that a continuation works on: 2228-2285, 3107-3317, 3454-3469, 4375-4536 *)
Definition frame_words (k : Z) (K : list Z) : nat :=
  if k =? 5 then match K with count :: _ => 3 + Z.to_nat (dec_u count) | [] => 0 end
  else if (k =? 1) || (k =? 11) then 1
  else if (k =? 13) || (k =? 42) then 5
  else if k =? 2 then 4
  else if k =? 4 then 3
  else if k =? 14 then 0
  else 2.
(* the stack without the frame that is worked on, see [frame_words] *)
Definition below (s : est) : list Z :=
  if e_app s then
    match e_K s with k :: K0 => skipn (frame_words (DEC_CONT k) K0) K0 | [] => [] end
  else e_K s.

(* 4389-4418: a closure that has parameters is applied to nothing.  The four
   words that 4399 has reserved are not written. *)
Definition short_call (x : xst) : res (option (list Z)) :=
  let 'mkE h g K sz exp env r app := x_e x in
  match K with
  | k :: args :: arg_env :: K0 =>
    if app && (DEC_CONT k =? 10) && is_cons r && is_symbol_nil args && (Z.of_nat (length K0) + 6 <? sz) then
      let! (hd, parts) := ref_cell h r in
      if hd =? S_CLOSURE then
        let! (params, body, _, _) := extract_3 h parts in
        if is_symbol_nil params then Ok None
        else Ok (Some (rev (firstn 4 (k :: x_above x)) ++ body :: arg_env :: K0))
      else Ok None
    else Ok None
  | _ => Ok None
  end.
Definition fault_stack (x : xst) : res (list Z) :=
  let! o := short_call x in
  Ok (match o with Some K => K | None => junk (x_e x) ++ below (x_e x) end).

Variable prim : Z -> heap -> list Z -> res (heap * Z).

(* eval_cps.c 5164-5211: a step of the evaluator, with its errors (1027-1073) *)
Definition base (f : nat) (x : xst) : res xout :=
  let! o := step prim f (x_e x) in
  match o with
  | Val s => Ok (Next (onto x s))
  | Err => let! K := fault_stack x in raise x (torn (x_e x)) K (why (x_e x))
  | NoMem => if stops (x_e x) then Ok Stopped else let! K := fault_stack x in raise x (torn (x_e x)) K MERROR
  end.

(* 2069-2081 eval_trap *)
Definition eval_trap (x : xst) : res xout :=
  let 'mkE h g K sz exp env r _ := x_e x in
  let! o := get_cadr h exp in
  match o with
  | None => raise x h K TERROR
  | Some expr =>
    let! (h1, v) := alloc_list h 2 in
    let! o2 := (if v =? MERROR then
                  let! o2 := collect h1 g [] (regs env exp r K) in
                  match o2 with Val h2 => let! p := alloc_list h2 2 in Ok (Some p) | _ => Ok None end
                else Ok (Some (h1, v))) in
    match o2 with
    | None => Ok Stopped
    | Some (h2, retval) =>
      if retval =? MERROR then raise x h2 K MERROR
      else
        let! (h3, _) := set_car h2 retval S_EXIT_OK in
        match reserve sz K [retval; x_flags x; EXCEPTION_HANDLER] with
        | None => raise x h3 K STACK_ERROR
        | Some K1 => Ok (Next (set_flags (onto x (mkE h3 g K1 sz expr env r false)) (Z.lor (x_flags x) FLAG_UNROLL)))
        end
    end
  end.

(* 4969-4977 cont_exception_handler *)
Definition cont_exception_handler (x : xst) (K : list Z) : res xout :=
  let 'mkE h g _ sz exp env r _ := x_e x in
  match K with
  | flags :: retval :: K0 =>
    let! o := get_cdr h retval in
    match o with
    | None => raise x h K0 TERROR
    | Some d =>
      let! (h1, _) := set_car h d r in
      Ok (Next (set_flags (onto x (mkE h1 g K0 sz exp env retval true)) (wrap 32 flags)))
    end
  | _ => raise x h K STACK_ERROR
  end.

(* 1743-1748 eval_atomic, 689-693 atomic_error *)
Definition eval_atomic (f : nat) (x : xst) : res xout :=
  let 'mkE h g K sz exp env r _ := x_e x in
  if x_atomic x then raise (set_atomic x false) h K EERROR
  else
    match reserve sz K [EXIT_ATOMIC] with
    | None => raise x h K STACK_ERROR
    | Some K1 =>
      let x1 := set_atomic (onto x (mkE h g K1 sz exp env r false)) true in
      let! o := eval_progn (x_e x1) in
      match o with
      | Val s => Ok (Next (onto x1 s))
      | _ => raise x1 h K1 (why (x_e x1))
      end
    end.

(* 3389-3392 cont_exit_atomic *)
Definition cont_exit_atomic (x : xst) (K : list Z) : res xout :=
  let 'mkE h g _ sz exp env r _ := x_e x in
  Ok (Next (set_atomic (onto x (mkE h g K sz exp env r true)) false)).

(* 1757-1764: the array for [n] words, with a collection if that fails *)
Definition cont_array (h : heap) (pool g : list Z) (c : croots) (n : Z) : res (out (heap * list Z * Z)) :=
  let! (u1, v1) := alloc_array (mkU h pool (mksy [] 0 [] 0 0) []) false n in
  if v1 =? MERROR then
    let* h2 := collect (uh u1) g [] c in
    let! (u3, v3) := alloc_array (set_h u1 h2) false n in
    Ok (Val (uh u3, up u3, v3))
  else Ok (Val (uh u1, up u1, v1)).

(* 1751-1780 eval_callcc *)
Definition eval_callcc (x : xst) : res xout :=
  let 'mkE h g K sz exp env r _ := x_e x in
  match reserve sz K [if x_atomic x then TRUE else NIL] with
  | None => raise x h K STACK_ERROR
  | Some K1 =>
    let! o := cont_array h (x_pool x) g (regs env exp r K1) (Z.of_nat (length K1)) in
    match o with
    | Val (h1, pool, arr) =>
      let x1 := set_pool x pool in
      if is_ptr arr then
        let! (a, (d, size, elts, i)) := lisp_array_of h1 arr in
        let h2 := set_obj h1 a (Some (OLisp d size (rev K1) i)) in
        let! o2 := (let* '(h3, acont) := cons_gc h2 g [S_CONT; arr; NIL] (regs env exp r K1) S_CONT arr in
                    cons_gc h3 g [acont; NIL; NIL] (regs env exp r K1) acont NIL) in
        match o2 with
        | Val (h4, arg_list) =>
          if Z.of_nat (length K1) + 2 <? sz then
            let! o3 := get_cadr h4 exp in
            match o3 with
            | Some fn => Ok (Next (onto x1 (mkE h4 g (APPLICATION_START :: arg_list :: env :: K) sz fn env r false)))
            | None => raise x1 h4 (APPLICATION_START :: arg_list :: env :: K) TERROR
            end
          else raise x1 h4 K1 STACK_ERROR
        | _ => if stops (x_e x) then Ok Stopped else raise x1 (torn (x_e x)) K1 MERROR
        end
      else raise x1 h1 K1 MERROR
    | _ => Ok Stopped
    end
  end.

(* 4425-4460: a continuation is applied.  The copy of 4451 is into the memory of
   the stack; 4454: lbm_pop of an empty stack leaves [atomic] unset *)
Definition apply_cont (f : nat) (x : xst) (K : list Z) : res xout :=
  let 'mkE h g _ sz exp env r _ := x_e x in
  match K with
  | args :: _ :: _ =>
    let! (_, c) := ref_cell h r in
    if negb (is_lisp_array_r c) then raise x h K FATAL_ERROR
    else
      let! n := list_length f h args in
      if n >? 1 then raise x h K EERROR
      else
        let! arg := (if n =? 0 then Ok (Some NIL) else get_car h args) in
        match arg with
        | None => raise x h K TERROR
        | Some arg =>
          let! (_, (d, size, elts, i)) := lisp_array_of h c in
          if size >? WB * sz then UB
          else
            match rev elts with
            | [] => UB
            | atomic :: K0 =>
              Ok (Jumped (set_atomic (onto x (mkE h g K0 sz arg env r false)) (negb (atomic =? 0))))
            end
        end
  | _ => raise x h K STACK_ERROR
  end.

(* 5164-5211 evaluation_step *)
Definition xstep (f : nat) (x : xst) : res xout :=
  let 'mkE h g K sz exp env r app := x_e x in
  if app then
    match K with
    | k :: K0 =>
      let d := DEC_CONT k in
      if d =? 45 then cont_exception_handler x K0
      else if d =? 14 then cont_exit_atomic x K0
      else if (d =? 10) && is_cons r then
        let! (hd, _) := ref_cell h r in
        if hd =? S_CONT then apply_cont f x K0 else base f x
      else base f x
    | [] => UB
    end
  else if is_cons exp then
    let! (hd, _) := ref_cell h exp in
    if is_symbol hd && (Z.land hd SF_MASK =? SF_BIT) then
      let ix := Z.land (dec_sym hd) 0xFF in
      if ix =? 0x16 then eval_trap x
      else if ix =? 0xB then eval_callcc x
      else if ix =? 0xC then eval_atomic f x
      else base f x
    else base f x
  else base f x.

(* eval_cps.c 5331-5412 lbm_run_eval, for one context: [m] steps, none of which
   raises an error or applies a continuation *)
Fixpoint plain (f m : nat) (x : xst) : res xout :=
  match m with
  | O => Ok (Next x)
  | S k => let! o := xstep f x in match o with Next x1 => plain f k x1 | _ => Ok o end
  end.
(* ... [m] steps of any kind *)
Fixpoint xrun (f m : nat) (x : xst) : res xout :=
  match m with
  | O => Ok (Next x)
  | S k => let! o := xstep f x in
    match o with Next x1 | Jumped x1 | Caught x1 => xrun f k x1 | _ => Ok o end
  end.

End Arch.
