(* The evaluator: src/eval_cps.c, the special forms quote, define, progn, var,
   lambda, if, cond, let, and, or, setq, loop, the application of closures,
   macros and built-in functions, and the continuations that belong to them.

   Simplifications.
   - The stack of continuations is the list of its words, top first; that the
     array with a stack pointer behaves as such a list is C45.
   - error_ctx, which leaves the evaluator by longjmp, is the outcome [Err].  So
     is everything that is not modelled: the special forms and apply functions
     that have no definition below, the dynamic loading of symbols (1669-1703,
     taken to find nothing) and applications of continuation values (4420-4453).
   - [NoMem]: error_ctx(ENC_SYM_MERROR) because cells are missing although a
     collection has been made, or the collector's stack overflows
     (lbm_critical_error, which stops the runtime system).
   - The garbage collector is that of GC_Model.  Of the roots that the running
     context has (1598-1606), the program and the mailbox, which evaluation does
     not touch, are among the [others].
   - The flag for constant code (1794-1796) is off, and CLEAN_UP_CLOSURES and
     LBM_ALWAYS_GC are not defined.
   - What the functions of the tables of fundamentals and extensions compute is
     given by [prim]; an extension does not block.
   - Loops and recursions over heap structures take the fuel [f]. *)
From Verif Require Import Base Value_Model Heap_Model Env_Model Match_Model QQ_Model GC_Model.
Local Open Scope Z_scope.

(* the outcomes of a step; error_ctx and its kin (eval_cps.c 1027-1102) leave it *)
Inductive out (T : Type) := Val (x : T) | Err | NoMem.
Arguments Val {T} _.
Arguments Err {T}.
Arguments NoMem {T}.
Notation "'let*' x := m 'in' k" := (let! o := m in match o with Val x => k | Err => Ok Err | NoMem => Ok NoMem end)
  (at level 200, x name, m at level 100, k at level 200, right associativity).
Notation "'let*' ' p := m 'in' k" := (let! o := m in match o with Val p => k | Err => Ok Err | NoMem => Ok NoMem end)
  (at level 200, p pattern, m at level 100, k at level 200, right associativity).
Notation "'let%' x := m 'in' k" := (let! o := m in match o with None => Ok Err | Some x => k end)
  (at level 200, x name, m at level 100, k at level 200, right associativity).
Notation "'let%' ' p := m 'in' k" := (let! o := m in match o with None => Ok Err | Some p => k end)
  (at level 200, p pattern, m at level 100, k at level 200, right associativity).

(* What the rest of the system contributes to a collection (eval_cps.c 1598-1646): the roots of the other
   contexts; and the words that the memory of the stack holds above the stack
   pointer, from when the stack was higher: [unset K i] is the word i places above
   the stack K *)
Class Host := mkHost { others : list croots; unset : list Z -> nat -> Z }.

Section Arch.
Context {A : Arch} {HO : Host}.

(* lbm_defines.h 148, 158, 229-251, 345, 353, 366, 385 *)
Definition TRUE : Z := enc_sym SYM_TRUE.
Definition S_DEFINE : Z := enc_sym 0x101.
Definition S_PROGN : Z := enc_sym 0x102.
Definition S_LAMBDA : Z := enc_sym 0x103.
Definition S_IF : Z := enc_sym 0x104.
Definition S_LET : Z := enc_sym 0x105.
Definition S_AND : Z := enc_sym 0x106.
Definition S_OR : Z := enc_sym 0x107.
Definition S_MACRO : Z := enc_sym 0x10D.
Definition S_CLOSURE : Z := enc_sym 0x10F.
Definition S_COND : Z := enc_sym 0x110.
Definition S_VAR : Z := enc_sym 0x112.
Definition S_SETQ : Z := enc_sym 0x113.
Definition S_LOOP : Z := enc_sym 0x115.
Definition S_REST_ARGS : Z := enc_sym 0x30015.
Definition RUNTIME_START : Z := 0x40000.

(* lbm_defines.h 257-258 and 263-264: ENC_SPECIAL_FORMS_MASK, ENC_SPECIAL_FORMS_BIT *)
Definition SF_MASK : Z := sel 0xFFFFF000 0xFFFFFFFFFFFF0000.
Definition SF_BIT : Z := sel 0x00001000 0x0000000000010000.

(* eval_cps.c 46-48 DEC_CONTINUATION, CONTINUATION *)
Definition CONT (n : Z) : Z := Z.lor (Z.shiftl n ADDRESS_SHIFT) CONTINUATION_INTERNAL.
Definition DEC_CONT (k : Z) : Z := Z.shiftr (Z.land k (wnot CONTINUATION_INTERNAL)) ADDRESS_SHIFT.

(* eval_cps.c 51-92 *)
Definition SET_GLOBAL_ENV := CONT 1.
Definition BIND_TO_KEY_REST := CONT 2.
Definition IF := CONT 3.
Definition PROGN_REST := CONT 4.
Definition APPLICATION_ARGS := CONT 5.
Definition AND := CONT 6.
Definition OR := CONT 7.
Definition APPLICATION_START := CONT 10.
Definition EVAL_R := CONT 11.
Definition CLOSURE_ARGS := CONT 13.
Definition PROGN_VAR := CONT 26.
Definition SETQ := CONT 27.
Definition LOOP := CONT 38.
Definition LOOP_CONDITION := CONT 39.
Definition CLOSURE_ARGS_REST := CONT 42.

(* eval_cps.h 63-87 eval_context_t, the fields that are used, with the heap and
   the roots of the global environment *)
Record est := mkE {
  e_heap : heap; e_glob : list Z;
  e_K : list Z; e_size : Z;           (* K.data[0..sp-1], top first, and K.size *)
  e_exp : Z; e_env : Z; e_r : Z;      (* curr_exp, curr_env, r *)
  e_app : bool                        (* app_cont *)
}.

(* 489-497 stack_reserve of the words [ws] (sptr[0] first), and their stores *)
Definition reserve (sz : Z) (K ws : list Z) : option (list Z) :=
  if Z.of_nat (length K) + Z.of_nat (length ws) <? sz then Some (rev ws ++ K) else None.

(* continue with an expression, or with the value [r]: ctx->app_cont, eval_cps.c 5164-5180 *)
Definition go (h : heap) (g : list Z) (K : list Z) (sz exp env r : Z) : res (out est) :=
  Ok (Val (mkE h g K sz exp env r false)).
Definition ret (h : heap) (g : list Z) (K : list Z) (sz exp env r : Z) : res (out est) :=
  Ok (Val (mkE h g K sz exp env r true)).

(* 656-667 extract_n for n = 2 and 3: the elements and the rest *)
Definition extract_1 (h : heap) (curr : Z) : res (Z * Z) :=
  if is_ptr curr then ref_cell h curr else Ok (NIL, curr).
Definition extract_2 (h : heap) (curr : Z) : res (Z * Z * Z) :=
  let! (a, c1) := extract_1 h curr in
  let! (b, c2) := extract_1 h c1 in
  Ok (a, b, c2).
Definition extract_3 (h : heap) (curr : Z) : res (Z * Z * Z * Z) :=
  let! (a, c1) := extract_1 h curr in
  let! (b, c2) := extract_1 h c1 in
  let! (c, c3) := extract_1 h c2 in
  Ok (a, b, c, c3).

(* 524-535 get_car_and_cdr *)
Definition get_car_and_cdr (h : heap) (a : Z) : res (option (Z * Z)) :=
  if is_ptr a then let! c := ref_cell h a in Ok (Some c)
  else if is_symbol_nil a then Ok (Some (NIL, NIL)) else Ok None.

(* enough rounds for the collector's loops: one per cell for the walk down an
   environment, and for marking as many as C11 says *)
Definition gc_fuel (h : heap) : nat :=
  ((length (cells h) + 1) * (5 + 2 * Z.to_nat (gsize h)) + length (cells h))%nat.

(* 1608-1646 gc, with [pre] marked before it.  [c]: the roots of the running
   context, which come last *)
Definition collect (h : heap) (g pre : list Z) (c : croots) : res (out heap) :=
  let! (h1, ok) := gc (gc_fuel h) h pre g (others ++ [c]) in
  if ok : bool then Ok (Val h1) else Ok NoMem.
(* 1598-1606 mark_context: curr_env, curr_exp, r and the stack *)
Definition regs (env exp r : Z) (K : list Z) : croots := mkCroots env [exp; r] K.

(* eval_cps.c 576-646: a collection if there are fewer than [n] free cells *)
Definition need (n : Z) (h : heap) (g pre : list Z) (c : croots) : res (out heap) :=
  if num_free h <? n then
    let* h1 := collect h g pre c in
    if num_free h1 <? n then Ok NoMem else Ok (Val h1)
  else Ok (Val h).

(* 576-611 allocate_closure: takes four cells off the free list, as
   lbm_heap_allocate_list_init does *)
Definition allocate_closure (h : heap) (g : list Z) (c : croots) (params body env : Z) : res (out (heap * Z)) :=
  let* h0 := need 4 h g [] c in
  let! r := alloc_list_init h0 [S_CLOSURE; params; body; env] in
  if snd r =? FATAL_ERROR then Ok Err else Ok (Val r).

(* 614-646 allocate_binding: the first two cells of the free list become the
   binding and the list cell *)
Definition allocate_binding (h : heap) (g : list Z) (c : croots) (key val the_cdr : Z) : res (out (heap * Z)) :=
  let* h0 := need 2 h g [key; val; the_cdr] c in
  let! (h1, binding_cell) := cons h0 key val in
  let! r := cons h1 binding_cell the_cdr in
  Ok (Val r).

(* 444-467 cons_with_gc, and the allocation of 3165-3175: a collection if the
   free list is empty *)
Definition cons_gc (h : heap) (g pre : list Z) (c : croots) (head tail : Z) : res (out (heap * Z)) :=
  let* h0 := (if is_symbol_nil (freelist h) then
                let* h1 := collect h g pre c in
                if is_symbol_nil (freelist h1) then Ok NoMem else Ok (Val h1)
              else Ok (Val h)) in
  let! r := cons h0 head tail in
  Ok (Val r).

(* 1895-1914 create_binding_location_internal; BL_NO_MEMORY is [None].  [get_car]
   and [get_cdr] of a cons do not fail *)
Fixpoint create_binding (f : nat) (h : heap) (key env : Z) : res (heap * option Z) :=
  if type_of key =? TYPE_SYMBOL then
    if (key =? NIL) || (key =? DONTCARE) then Ok (h, Some env)
    else
      let! (h1, binding) := cons h key PLACEHOLDER in
      let! (h2, new_env) := cons h1 binding env in
      if is_symbol binding || is_symbol new_env then Ok (h2, None) else Ok (h2, Some new_env)
  else if is_cons key then
    match f with
    | O => Fuel
    | S k =>
      let! (a, _) := ref_cell h key in
      let! (h1, o) := create_binding k h a env in
      match o with
      | None => Ok (h1, None)
      | Some env1 => let! (_, d) := ref_cell h1 key in create_binding k h1 d env1
      end
    end
  else Ok (h, Some env).

(* 1916-1943 create_binding_location *)
Definition create_location (f : nat) (h : heap) (g : list Z) (c : croots) (key env : Z) : res (out (heap * Z)) :=
  let! (h1, o) := create_binding f h key env in
  match o with
  | Some env1 => Ok (Val (h1, env1))
  | None =>
    let* h2 := collect h1 g [env] c in
    let! (h3, o3) := create_binding f h2 key env in
    match o3 with Some env1 => Ok (Val (h3, env1)) | None => Ok NoMem end
  end.

(* 3258-3272 fill_binding_location; FB_TYPE_ERROR is [None] *)
Fixpoint fill_binding (f : nat) (h : heap) (key value env : Z) : res (option heap) :=
  if type_of key =? TYPE_SYMBOL then
    if key =? DONTCARE then Ok (Some h)
    else let! (h1, _) := env_modify f h env key value in Ok (Some h1)
  else if is_cons key && is_cons value then
    match f with
    | O => Fuel
    | S k =>
      let? ka := get_car h key in
      let? va := get_car h value in
      let? h1 := fill_binding k h ka va env in
      let? kd := get_cdr h1 key in
      let? vd := get_cdr h1 value in
      fill_binding k h1 kd vd env
    end
  else Ok None.

(* ---- special forms ---- *)

(* 1656-1706 eval_symbol *)
Definition eval_symbol (f : nat) (s : est) : res (out est) :=
  let 'mkE h g K sz exp env r _ := s in
  if dec_sym exp >=? RUNTIME_START then
    let! l := env_lookup f h exp env in
    match l with
    | Some v => ret h g K sz exp env v
    | None =>
      let! l2 := glookup f (mkG h g) exp in
      match l2 with
      | Some v => ret h g K sz exp env v
      | None => Ok Err
      end
    end
  else ret h g K sz exp env exp.

(* 1709-1712 eval_quote *)
Definition eval_quote (s : est) : res (out est) :=
  let 'mkE h g K sz exp env r _ := s in
  let% v := get_cadr h exp in ret h g K sz exp env v.

(* 1715-1718 eval_selfevaluating *)
Definition eval_self (s : est) : res (out est) :=
  let 'mkE h g K sz exp env r _ := s in ret h g K sz exp env exp.

(* 1721-1740 eval_progn *)
Definition eval_progn (s : est) : res (out est) :=
  let 'mkE h g K sz exp env r _ := s in
  let% exps := get_cdr h exp in
  if is_cons exps then
    let! (a, d) := ref_cell h exps in
    if is_cons d then
      match reserve sz K [env; enc_u 0; d; PROGN_REST] with
      | Some K1 => go h g K1 sz a env r
      | None => Ok Err
      end
    else go h g K sz a env r
  else if is_symbol_nil exps then ret h g K sz exp env NIL
  else Ok Err.

(* 1785-1802 eval_define *)
Definition eval_define (s : est) : res (out est) :=
  let 'mkE h g K sz exp env r _ := s in
  let! (_, key, val, rest) := extract_3 h exp in
  if is_symbol key && is_symbol_nil rest && (dec_sym key >=? RUNTIME_START) then
    match reserve sz K [key; SET_GLOBAL_ENV] with
    | Some K1 => go h g K1 sz val env r
    | None => Ok Err
    end
  else Ok Err.

(* 1823-1844 eval_lambda *)
Definition eval_lambda (s : est) : res (out est) :=
  let 'mkE h g K sz exp env r _ := s in
  let! (_, params, body, _) := extract_3 h exp in
  let* '(h1, c) := allocate_closure h g (regs env exp r K) params body env in
  ret h1 g K sz exp env c.

(* 1847-1854 eval_if *)
Definition eval_if (s : est) : res (out est) :=
  let 'mkE h g K sz exp env r _ := s in
  let% d := get_cdr h exp in
  let% branches := get_cdr h d in
  match reserve sz K [branches; env; IF] with
  | Some K1 => let% c := get_car h d in go h g K1 sz c env r
  | None => Ok Err
  end.

(* 1859-1887 eval_cond *)
Definition eval_cond (f : nat) (s : est) : res (out est) :=
  let 'mkE h g K sz exp env r _ := s in
  let! (_, cond1, rest_conds) := extract_2 h exp in
  if is_symbol_nil cond1 then ret h g K sz exp env NIL
  else
    let! len := list_length f h cond1 in
    if negb (len =? 2) then Ok Err
    else
      let! (c, e, _) := extract_2 h cond1 in
      let c0 := regs env exp r K in
      let* '(h1, more) := cons_gc h g [S_COND; rest_conds; NIL] c0 S_COND rest_conds in
      let! (h2, rest1) := alloc_list_init h1 [e; more] in
      let* '(h3, rest) :=
        (if rest1 =? MERROR then
           let* h3 := collect h2 g [] c0 in
           let* '(h4, more2) := cons_gc h3 g [S_COND; rest_conds; NIL] c0 S_COND rest_conds in
           let! r5 := alloc_list_init h4 [e; more2] in
           if snd r5 =? MERROR then Ok NoMem else Ok (Val r5)
         else Ok (Val (h2, rest1))) in
        match reserve sz K [rest; env; IF] with
        | Some K1 => go h3 g K1 sz c env r
        | None => Ok Err
        end.

(* 1948-1958: the binding locations of all keys of let_bind_values_eval *)
Fixpoint create_all (f n : nat) (h : heap) (g : list Z) (c : croots) (curr env : Z) : res (out (heap * Z)) :=
  if is_cons curr then
    match n with
    | O => Fuel
    | S k =>
      let! (a, d) := ref_cell h curr in
      let% key := get_car h a in
      let* '(h1, env1) := create_location f h g c key env in
      create_all f k h1 g c d env1
    end
  else Ok (Val (h, env)).

(* 1945-1977 let_bind_values_eval; curr_exp is still [exp0] *)
Definition let_bind (f : nat) (h : heap) (g K : list Z) (sz exp0 binds exp env r : Z) : res (out est) :=
  if is_cons binds then
    let* '(h1, env1) := create_all f f h g (regs env exp0 r K) binds env in
    let! (a, d) := ref_cell h1 binds in
    let! (key, val, _) := extract_2 h1 a in
    match reserve sz K [exp; d; env1; key; BIND_TO_KEY_REST] with
    | Some K1 => go h1 g K1 sz val env1 r
    | None => Ok Err
    end
  else go h g K sz exp env r.

(* 2085-2090 eval_let *)
Definition eval_let (f : nat) (s : est) : res (out est) :=
  let 'mkE h g K sz exp env r _ := s in
  let! (_, binds, body, _) := extract_3 h exp in
  let_bind f h g K sz exp binds body env r.

(* 1989-2026 eval_var; K.data[sp-4] to K.data[sp-1] are the words of a progn.
   lbm_dec_as_u32 of the flag: it is 0 or 1 *)
Definition eval_var (f : nat) (s : est) : res (out est) :=
  let 'mkE h g K sz exp env r _ := s in
  match K with
  | k :: rest :: copied :: penv :: K0 =>
    if k =? PROGN_REST then
      let* '(h1, env1, flag) :=
        (if dec_u copied =? 0 then
           let! (h1, e) := env_copy_spine f h penv in
           if e =? MERROR then
             let* h2 := collect h1 g [] (regs env exp r K) in
             let! (h3, e3) := env_copy_spine f h2 penv in
             if e3 =? MERROR then Ok NoMem else Ok (Val (h3, e3, enc_u 1))
           else Ok (Val (h1, e, enc_u 1))
         else Ok (Val (h, penv, copied))) in
      let% args := get_cdr h1 exp in
      let% key := get_car h1 args in
      let* '(h2, env2) := create_location f h1 g (regs env exp r (k :: rest :: flag :: env1 :: K0)) key env1 in
      let% v_exp := get_cadr h2 args in
      match reserve sz (k :: rest :: flag :: env2 :: K0) [env2; key; PROGN_VAR] with
      | Some K1 => go h2 g K1 sz v_exp env2 r
      | None => Ok Err
      end
    else Ok Err
  | _ => Ok Err
  end.

(* 2030-2038 eval_setq *)
Definition eval_setq (s : est) : res (out est) :=
  let 'mkE h g K sz exp env r _ := s in
  let! (_, key, val, _) := extract_3 h exp in
  match reserve sz K [env; key; SETQ] with
  | Some K1 => go h g K1 sz val env r
  | None => Ok Err
  end.

(* 2051-2060 eval_loop *)
Definition eval_loop (f : nat) (s : est) : res (out est) :=
  let 'mkE h g K sz exp env r _ := s in
  let% d := get_cdr h exp in
  let! (binds, cond, body, _) := extract_3 h d in
  match reserve sz K [body; cond; LOOP_CONDITION] with
  | Some K1 => let_bind f h g K1 sz exp binds cond env r
  | None => Ok Err
  end.

(* 2093-2105 eval_and, 2108-2120 eval_or *)
Definition eval_andor (k v : Z) (s : est) : res (out est) :=
  let 'mkE h g K sz exp env r _ := s in
  let% rest := get_cdr h exp in
  if is_symbol_nil rest then ret h g K sz exp env v
  else
    let% d := get_cdr h rest in
    match reserve sz K [env; d; k] with
    | Some K1 => let% a := get_car h rest in go h g K1 sz a env r
    | None => Ok Err
    end.

(* 5133-5158: the table of special forms *)
Definition eval_form (f : nat) (ix : Z) (s : est) : res (out est) :=
  if ix =? 0 then eval_quote s
  else if ix =? 1 then eval_define s
  else if ix =? 2 then eval_progn s
  else if ix =? 3 then eval_lambda s
  else if ix =? 4 then eval_if s
  else if ix =? 5 then eval_let f s
  else if ix =? 6 then eval_andor AND TRUE s
  else if ix =? 7 then eval_andor OR NIL s
  else if (ix =? 0xD) || (ix =? 0xE) || (ix =? 0xF) then eval_self s
  else if ix =? 0x10 then eval_cond f s
  else if ix =? 0x12 then eval_var f s
  else if ix =? 0x13 then eval_setq s
  else if ix =? 0x15 then eval_loop f s
  else Ok Err.

(* ---- continuations ---- *)

Variable prim : Z -> heap -> list Z -> res (heap * Z).

(* heap.h 963-966 lbm_is_error *)
Definition is_error (v : Z) : bool :=
  is_symbol v && (Z.land (dec_sym v) (2 ^ W - 16) =? 0x20).

(* 2228-2248 cont_set_global_env *)
Definition cont_set_global_env (f : nat) (s : est) : res (out est) :=
  let 'mkE h g K sz exp env r _ := s in
  match K with
  | key :: K1 =>
    let! (gs, ok) := gdefine f (mkG h g) key r in
    if ok : bool then ret (gheap gs) (groots gs) K1 sz exp env r
    else
      let* h1 := collect (gheap gs) g [] (regs env exp r K1) in
      let! (gs2, ok2) := gdefine f (mkG h1 g) key r in
      if ok2 : bool then ret (gheap gs2) (groots gs2) K1 sz exp env r else Ok NoMem
  | _ => UB
  end.

(* 2267-2285 cont_progn_rest *)
Definition cont_progn_rest (s : est) : res (out est) :=
  let 'mkE h g K sz exp _ r _ := s in
  match K with
  | rest :: flag :: env :: K0 =>
    let! (a, d) := ref_cell h rest in
    if is_cons d then
      match reserve sz (d :: flag :: env :: K0) [PROGN_REST] with
      | Some K1 => go h g K1 sz a env r
      | None => Ok Err
      end
    else go h g K0 sz a env r
  | _ => Ok Err
  end.

(* 2315-2334 perform_setvar; [None]: an error is raised *)
Definition perform_setvar (f : nat) (h : heap) (g : list Z) (key val env : Z) : res (option (heap * list Z)) :=
  if dec_sym key >=? RUNTIME_START then
    let! (h1, e1) := env_modify f h env key val in
    if is_symbol e1 && (e1 =? NOT_FOUND) then
      let! (gs, ok) := gsetvar f (mkG h1 g) key val in
      if ok : bool then Ok (Some (gheap gs, groots gs)) else Ok None
    else Ok (Some (h1, g))
  else Ok None.

(* WITH_GC (146-155) of perform_setvar, which returns [val]: when that is the
   symbol out_of_memory it is taken for a failure *)
Definition setvar_gc (f : nat) (h : heap) (g : list Z) (c : croots) (key val env : Z) : res (out (heap * list Z)) :=
  let% '(h1, g1) := perform_setvar f h g key val env in
  if val =? MERROR then
    let* h2 := collect h1 g1 [] c in
    let% x := perform_setvar f h2 g1 key val env in
    Ok NoMem
  else Ok (Val (h1, g1)).

(* 4528-4536 cont_setq *)
Definition cont_setq (f : nat) (s : est) : res (out est) :=
  let 'mkE h g K sz exp env0 r _ := s in
  match K with
  | sym :: env :: K0 =>
    let* '(h1, g1) := setvar_gc f h g (regs env0 exp r K0) sym r env in
    ret h1 g1 K0 sz exp env0 r
  | _ => UB
  end.

(* 4513-4526 cont_progn_var *)
Definition cont_progn_var (f : nat) (s : est) : res (out est) :=
  let 'mkE h g K sz exp env0 r _ := s in
  match K with
  | key :: env :: K0 =>
    let% h1 := fill_binding f h key r env in
    ret h1 g K0 sz exp env0 r
  | _ => UB
  end.

(* 3051-3105 application, 2554-2565 apply_eval, 2336-2348 apply_setvar,
   2958-2971 apply_rest_args without an index; the [n] arguments and the function
   are on the stack.  669-687 call_fundamental *)
Definition application (f : nat) (s : est) (n : nat) : res (out est) :=
  let 'mkE h g K sz exp env r _ := s in
  match nth_error K n with
  | None => Ok Err
  | Some fn =>
    let args := rev (firstn n K) in
    let K0 := skipn (S n) K in
    let id := dec_sym fn in
    let kind := Z.shiftr id 16 in
    if (kind =? 1) || (kind =? 2) then
      let! (h1, v1) := prim id h args in
      let* '(h2, v) :=
        (if v1 =? MERROR then
           let* h2 := collect h1 g [] (regs env exp r K) in
           let! r2 := prim id h2 args in
           if snd r2 =? MERROR then Ok NoMem else Ok (Val r2)
         else Ok (Val (h1, v1))) in
      if is_error v then Ok Err else ret h2 g K0 sz exp env v
    else if kind =? 3 then
      if id =? 0x30008 then
        match args with
        | [e] => go h g K0 sz e env r
        | [en; e] => go h g K0 sz e en r
        | _ => Ok Err
        end
      else if id =? 0x30000 then
        match args with
        | [key; v] =>
          if is_symbol key then
            let* '(h1, g1) := setvar_gc f h g (regs env exp r K) key v env in
            ret h1 g1 K0 sz exp env v
          else Ok Err
        | _ => Ok Err
        end
      else if id =? 0x30015 then
        match args with
        | [] =>
          let! l := env_lookup f h S_REST_ARGS env in
          ret h g K0 sz exp env (match l with Some v => v | None => NIL end)
        | _ => Ok Err
        end
      else Ok Err
    else Ok Err
  end.

(* 3192-3216 cont_application_args *)
Definition cont_application_args (f : nat) (s : est) : res (out est) :=
  let 'mkE h g K sz exp _ r _ := s in
  match K with
  | count :: rest :: env :: K0 =>
    if is_cons rest then
      let! (a, d) := ref_cell h rest in
      match reserve sz (d :: env :: r :: K0) [wrap W (count + Z.shiftl 1 VAL_SHIFT); APPLICATION_ARGS] with
      | Some K1 => go h g K1 sz a env r
      | None => Ok Err
      end
    else application f (mkE h g (r :: K0) sz exp env r false) (Z.to_nat (dec_u count))
  | _ => Ok Err
  end.

(* 4473-4487: the bindings of a macro's parameters *)
Fixpoint macro_bind (f : nat) (h : heap) (g : list Z) (c : croots) (param arg env : Z) : res (out (heap * Z)) :=
  if is_cons param && is_cons arg then
    match f with
    | O => Fuel
    | S k =>
      let! (p, ps) := ref_cell h param in
      let! (a, q) := ref_cell h arg in
      let* '(h1, entry) := cons_gc h g [p; a; env] c p a in
      let* '(h2, env1) := cons_gc h1 g [entry; env; NIL] c entry env in
      macro_bind k h2 g c ps q env1
    end
  else Ok (Val (h, env)).

(* 4375-4504 cont_application_start *)
Definition cont_application_start (f : nat) (s : est) : res (out est) :=
  let 'mkE h g K sz exp env0 r _ := s in
  if is_symbol r then
    match reserve sz K [enc_u 0] with
    | Some K1 => cont_application_args f (mkE h g K1 sz exp env0 r false)
    | None => Ok Err
    end
  else if is_cons r then
    match K with
    | args :: arg_env :: K0 =>
      let% head := get_car h r in
      if head =? S_CLOSURE then
        let% parts := get_cdr h r in
        let! (params, body, clo_env, _) := extract_3 h parts in
        let% '(arg0, arg_rest) := get_car_and_cdr h args in
        let a_nil := is_symbol_nil args in
        let p_nil := is_symbol_nil params in
        if Z.of_nat (length K) + 4 <? sz then
          if negb a_nil && negb p_nil then
            go h g (CLOSURE_ARGS :: arg_rest :: params :: clo_env :: body :: arg_env :: K0) sz arg0 arg_env r
          else if a_nil && p_nil then go h g K0 sz body clo_env r
          else if p_nil then
            (* K.data[sp-4], [sp-2] and [sp-1] are not written before 4413 *)
            let K2 := unset K 3 :: unset K 2 :: arg_rest :: unset K 0 :: body :: arg_env :: K0 in
            let* '(h1, rest_binder) := allocate_binding h g (regs arg_env arg0 r K2) S_REST_ARGS NIL clo_env in
            let% last := get_car h1 rest_binder in
            go h1 g (CLOSURE_ARGS_REST :: last :: arg_rest :: rest_binder :: body :: arg_env :: K0) sz arg0 arg_env r
          else Ok Err
        else Ok Err
      else if head =? S_MACRO then
        let% params := get_cadr h r in
        let* '(h1, expand_env) := macro_bind f h g (regs env0 exp r K) params args arg_env in
        let% d := get_cdr h1 r in
        let% body := get_cadr h1 d in
        go h1 g (EVAL_R :: arg_env :: K0) sz body expand_env r
      else Ok Err
    | _ => Ok Err
    end
  else Ok Err.

(* 3107-3150 cont_closure_application_args *)
Definition cont_closure_args (s : est) : res (out est) :=
  let 'mkE h g K sz exp env0 r _ := s in
  match K with
  | args :: params :: clo_env :: body :: arg_env :: K0 =>
    let% '(car_params, cdr_params) := get_car_and_cdr h params in
    let a_nil := is_symbol_nil args in
    let p_nil := is_symbol_nil cdr_params in
    let c := regs env0 exp r K in
    let* '(h1, binder) := allocate_binding h g c car_params r clo_env in
    if negb a_nil && negb p_nil then
      let% '(car_args, cdr_args) := get_car_and_cdr h1 args in
      match reserve sz (cdr_args :: cdr_params :: binder :: body :: arg_env :: K0) [CLOSURE_ARGS] with
      | Some K1 => go h1 g K1 sz car_args arg_env r
      | None => Ok Err
      end
    else if a_nil && p_nil then go h1 g K0 sz body binder r
    else if p_nil then
      let* '(h2, rest_binder) := allocate_binding h1 g c S_REST_ARGS NIL binder in
      let% d := get_cdr h2 args in
      let% last := get_car h2 rest_binder in
      match reserve sz (last :: d :: rest_binder :: body :: arg_env :: K0) [CLOSURE_ARGS_REST] with
      | Some K1 => let% a := get_car h2 args in go h2 g K1 sz a arg_env r
      | None => Ok Err
      end
    else Ok Err
  | _ => Ok Err
  end.

(* 3153-3190 cont_closure_args_rest *)
Definition cont_closure_args_rest (s : est) : res (out est) :=
  let 'mkE h g K sz exp env0 r _ := s in
  match K with
  | last :: args :: clo_env :: body :: arg_env :: K0 =>
    let* '(h1, binding) := cons_gc h g [] (regs env0 exp r K) r NIL in
    let! (h2, _) := set_cdr h1 last binding in
    if args =? NIL then go h2 g K0 sz body clo_env r
    else
      let% d := get_cdr h2 args in
      match reserve sz (binding :: d :: clo_env :: body :: arg_env :: K0) [CLOSURE_ARGS_REST] with
      | Some K1 => let% a := get_car h2 args in go h2 g K1 sz a arg_env r
      | None => Ok Err
      end
  | _ => Ok Err
  end.

(* 3218-3236 cont_and, 3238-3256 cont_or; [stop]: the value ends the form *)
Definition cont_andor (k : Z) (stop : Z -> bool) (s : est) : res (out est) :=
  let 'mkE h g K sz exp env0 r _ := s in
  match K with
  | rest :: env :: K0 =>
    if stop r then ret h g K0 sz exp env0 r
    else if is_symbol_nil rest then ret h g K0 sz exp env0 r
    else
      let% d := get_cdr h rest in
      match reserve sz K0 [env; d; k] with
      | Some K1 => let% a := get_car h rest in go h g K1 sz a env r
      | None => Ok Err
      end
  | _ => UB
  end.

(* 3274-3303 cont_bind_to_key_rest *)
Definition cont_bind_to_key_rest (f : nat) (s : est) : res (out est) :=
  let 'mkE h g K sz exp env0 r _ := s in
  match K with
  | key :: env :: rest :: body :: K0 =>
    let% h1 := fill_binding f h key r env in
    if is_cons rest then
      let% b := get_car h1 rest in
      let! (key1, val1, _) := extract_2 h1 b in
      let% d := get_cdr h1 rest in
      match reserve sz (key1 :: env :: d :: body :: K0) [BIND_TO_KEY_REST] with
      | Some K1 => go h1 g K1 sz val1 env r
      | None => Ok Err
      end
    else go h1 g K0 sz body env r
  | _ => Ok Err
  end.

(* 3305-3317 cont_if *)
Definition cont_if (s : est) : res (out est) :=
  let 'mkE h g K sz exp env0 r _ := s in
  match K with
  | env :: branches :: K0 =>
    let% e := (if is_symbol_nil r then get_cadr h branches else get_car h branches) in
    go h g K0 sz e env r
  | _ => Ok Err
  end.

(* 4506-4511 cont_eval_r *)
Definition cont_eval_r (s : est) : res (out est) :=
  let 'mkE h g K sz exp env0 r _ := s in
  match K with
  | env :: K0 => go h g K0 sz r env r
  | _ => UB
  end.

(* 3454-3458 cont_loop, 3460-3469 cont_loop_condition *)
Definition cont_loop (s : est) : res (out est) :=
  let 'mkE h g K sz exp env r _ := s in
  match K with
  | cond :: body :: _ =>
    match reserve sz K [LOOP_CONDITION] with
    | Some K1 => go h g K1 sz cond env r
    | None => Ok Err
    end
  | _ => Ok Err
  end.
Definition cont_loop_condition (s : est) : res (out est) :=
  let 'mkE h g K sz exp env r _ := s in
  match K with
  | cond :: body :: K0 =>
    if is_symbol_nil r then ret h g K0 sz exp env r
    else
      match reserve sz K [LOOP] with
      | Some K1 => go h g K1 sz body env r
      | None => Ok Err
      end
  | _ => Ok Err
  end.

(* 5077-5127: the table of continuations *)
Definition cont (f : nat) (k : Z) (s : est) : res (out est) :=
  if k =? 1 then cont_set_global_env f s
  else if k =? 2 then cont_bind_to_key_rest f s
  else if k =? 3 then cont_if s
  else if k =? 4 then cont_progn_rest s
  else if k =? 5 then cont_application_args f s
  else if k =? 6 then cont_andor AND (fun r => is_symbol_nil r) s
  else if k =? 7 then cont_andor OR (fun r => negb (is_symbol_nil r)) s
  else if k =? 10 then cont_application_start f s
  else if k =? 11 then cont_eval_r s
  else if k =? 13 then cont_closure_args s
  else if k =? 26 then cont_progn_var f s
  else if k =? 27 then cont_setq f s
  else if k =? 38 then cont_loop s
  else if k =? 39 then cont_loop_condition s
  else if k =? 42 then cont_closure_args_rest s
  else Ok Err.

(* 5164-5211 evaluation_step *)
Definition step (f : nat) (s : est) : res (out est) :=
  let 'mkE h g K sz exp env r app := s in
  if app then
    match K with
    | k :: K0 => cont f (DEC_CONT k) (mkE h g K0 sz exp env r false)
    | [] => UB
    end
  else if is_symbol exp then eval_symbol f s
  else if is_cons exp then
    let! (hd, tl) := ref_cell h exp in
    if is_symbol hd && (Z.land hd SF_MASK =? SF_BIT) then eval_form f (Z.land (dec_sym hd) 0xFF) s
    else
      match reserve sz K [env; tl; APPLICATION_START] with
      | Some K1 => go h g K1 sz hd env r
      | None => Ok Err
      end
  else eval_self s.

(* eval_cps.c 5331-5400 lbm_run_eval, for one context: [m] steps *)
Fixpoint run (f m : nat) (s : est) : res (out est) :=
  match m with
  | O => Ok (Val s)
  | S k => let* s1 := step f s in run f k s1
  end.

End Arch.
