(* Pattern matching and selective receive: src/eval_cps.c 1512-1593 (match,
   find_match), 2152-2186 (receive_base), 3319-3385 and 3432-3449 (match forms
   with guards), 4984-5071 (receive with a timeout).

   Simplifications.  Recursion takes fuel (the C code recurses on the C stack).
   error_ctx, which leaves the evaluator by longjmp, is the outcome [None] or
   [FTerr].  gc() is not modelled here: the outcome [FNeedGC] says that it is
   called.  A match form's guard is an expression that the evaluator runs; the
   model takes its outcome from a function of the environment and the
   expression and assumes that running it does not change the heap. *)
From Verif Require Import Base Value_Model Heap_Model Eq_Model.
Local Open Scope Z_scope.

Section Arch.
Context {A : Arch}.

Definition DONTCARE : Z := enc_sym SYM_DONTCARE.
Definition MATCH_ANY : Z := enc_sym SYM_MATCH_ANY.

(* 538-558 get_car, get_cdr *)
Definition get_car (h : heap) (a : Z) : res (option Z) :=
  if is_ptr a then let! c := ref_cell h a in Ok (Some (fst c))
  else if is_symbol_nil a then Ok (Some a) else Ok None.
Definition get_cdr (h : heap) (a : Z) : res (option Z) :=
  if is_ptr a then let! c := ref_cell h a in Ok (Some (snd c))
  else if is_symbol_nil a then Ok (Some a) else Ok None.
(* 560-574 get_cadr *)
Definition get_cadr (h : heap) (a : Z) : res (option Z) :=
  if is_ptr a then
    let! c := ref_cell h a in
    let tmp := snd c in
    if is_ptr tmp then let! d := ref_cell h tmp in Ok (Some (fst d))
    else if is_symbol_nil tmp then Ok (Some tmp) else Ok None
  else if is_symbol_nil a then Ok (Some a) else Ok None.

(* 1517-1527 get_match_binder_variable: 0 when there is none *)
Definition binder_var (h : heap) (p : Z) : res Z :=
  if is_cons p then
    let! c := ref_cell h p in
    if (fst c =? MATCH_ANY) && is_cons (snd c) then let! d := ref_cell h (snd c) in Ok (fst d) else Ok NIL
  else Ok NIL.

(* 1532-1561 match: heap, result, environment and the gc flag *)
Fixpoint match_pat (fuel : nat) (h : heap) (p e env : Z) (gc : bool) : res (heap * bool * Z * bool) :=
  match fuel with
  | O => Fuel
  | S n =>
    let! var := binder_var h p in
    if negb (var =? 0) then
      let! b := cons h var e in
      let '(h1, binding) := b in
      if is_cons binding then
        let! ne := cons h1 binding env in
        let '(h2, new_env) := ne in
        if is_cons new_env then Ok (h2, true, new_env, false) else Ok (h2, false, env, true)
      else Ok (h1, false, env, true)
    else if is_symbol p then
      if p =? DONTCARE then Ok (h, true, env, gc) else Ok (h, p =? e, env, gc)
    else if is_cons p && is_cons e then
      let! cp := ref_cell h p in
      let! ce := ref_cell h e in
      let! m := match_pat n h (fst cp) (fst ce) env gc in
      let '(h1, r, env1, gc1) := m in
      if r then match_pat n h1 (snd cp) (snd ce) env1 gc1 else Ok (h1, false, env1, gc1)
    else let! r := struct_eq n h p e in Ok (h, r, env, gc)
  end.

(* outcome of find_match: message number [n] with the body [e], or FM_* *)
Inductive fm := FHit (n : Z) (e : Z) | FNoMatch | FNeedGC | FPatErr | FTerr.

(* the while loop 1575-1586: all the patterns against the message [msg], number [n] *)
Fixpoint find_pat (mf fuel : nat) (h : heap) (curr_p msg n env : Z) (gc : bool) : res (heap * fm * Z * bool) :=
  if is_symbol_nil curr_p then Ok (h, FNoMatch, env, gc)
  else
  match fuel with
  | O => Fuel
  | S k =>
    let! me := get_car h curr_p in
    match me with
    | None => Ok (h, FTerr, env, gc)
    | Some me =>
      let! p := get_car h me in
      match p with
      | None => Ok (h, FTerr, env, gc)
      | Some p =>
        let! m := match_pat mf h p msg env gc in
        let '(h1, r, env1, gc1) := m in
        if r then
          if gc1 then Ok (h1, FNeedGC, env1, gc1)
          else
            let! e := get_cadr h1 me in
            let! d := get_cdr h1 me in
            match e, d with
            | Some e, Some d =>
              let! g := get_cadr h1 d in
              match g with
              | None => Ok (h1, FTerr, env1, gc1)
              | Some g => Ok (h1, (if is_symbol_nil g then FHit n e else FPatErr), env1, gc1)
              end
            | _, _ => Ok (h1, FTerr, env1, gc1)
            end
        else
          let! q := get_cdr h1 curr_p in
          match q with
          | None => Ok (h1, FTerr, env1, gc1)
          | Some q => find_pat mf k h1 q msg n env1 gc1
          end
      end
    end
  end.

(* 1566-1593 find_match over the messages [msgs], the first one having number [n] *)
Fixpoint find_match (mf fuel : nat) (h : heap) (plist : Z) (msgs : list Z) (n env : Z) (gc : bool) : res (heap * fm * Z) :=
  match msgs with
  | [] => Ok (h, FNoMatch, env)
  | msg :: rest =>
    let! m := find_pat mf fuel h plist msg n env gc in
    let '(h1, o, env1, gc1) := m in
    match o with
    | FNoMatch => find_match mf fuel h1 plist rest (n + 1) env1 gc1
    | _ => Ok (h1, o, env1)
    end
  end.

(* What receive_base (2152-2186) does with the context: sleep, take message [n]
   and go on with an environment and an expression, collect garbage, or fail *)
Inductive recv := RBlock | RTake (n env exp : Z) | RGC | RErr.

Definition receive_base (mf fuel : nat) (h : heap) (pats : Z) (mail : list Z) (env : Z) : res (heap * recv) :=
  match mail with
  | [] => Ok (h, RBlock)
  | _ =>
    let! m := find_match mf fuel h pats mail 0 env false in
    let '(h1, o, env1) := m in
    match o with
    | FHit n e => Ok (h1, RTake n env1 e)
    | FNeedGC => Ok (h1, RGC)
    | FNoMatch => Ok (h1, RBlock)
    | FPatErr | FTerr => Ok (h1, RErr)
    end
  end.

(* The wait for a message in microseconds, line 44 S_TO_US on a W bit word.  4984:
   cont_recv_to converts the timeout [i], given as an integer, to a float first;
   the product with 1000000 is exact for 0 <= i <= 16, the only values the model
   is used for. *)
Definition recv_to_wait (i : Z) : Z := wrap W (i * 1000000).
(* 5070: cont_recv_to_retry uses the word that holds the timeout *)
Definition recv_to_retry_wait (timeout : Z) : Z := wrap W (timeout * 1000000).

(* ---- match forms, 3319-3385 and 3432-3449 ---- *)

(* cont_match: no pattern left, the body to run and its environment, a guard to
   run (its environment and expression, the body, and the environment saved for
   the patterns that follow), no match (go on with the rest), garbage
   collection, or an error *)
Inductive mstep := SNone | SBody (env exp : Z) | SGuard (env guard body saved : Z) | SNext (rest : Z) | SGC | SErr.

Definition cont_match (mf : nat) (h : heap) (patterns orig_env curr_env e : Z) : res (heap * mstep) :=
  if is_symbol_nil patterns then Ok (h, SNone)
  else if is_cons patterns then
    let! mc := get_car h patterns in
    match mc with
    | None => Ok (h, SErr)
    | Some mc =>
      let! pattern := get_car h mc in
      let! n1 := get_cadr h mc in
      let! d := get_cdr h mc in
      match pattern, n1, d with
      | Some pattern, Some n1, Some d =>
        let! n2 := get_cadr h d in
        match n2 with
        | None => Ok (h, SErr)
        | Some n2 =>
          let! m := match_pat mf h pattern e orig_env false in
          let '(h1, r, new_env, do_gc) := m in
          if do_gc then Ok (h1, SGC)
          else
            let! rest := get_cdr h1 patterns in
            match rest with
            | None => Ok (h1, SErr)
            | Some rest =>
              if r then
                if is_symbol_nil n2 then Ok (h1, SBody new_env n1)
                else Ok (h1, SGuard new_env n1 n2 curr_env)
              else Ok (h1, SNext rest)
            end
        end
      | _, _, _ => Ok (h, SErr)
      end
    end
  else Ok (h, SErr).

(* The continuation MATCH and MATCH_GUARD, until a body runs: [orig_env] is the
   environment on the stack, [curr_env] the one the context holds.  3356: when the
   guard fails the environment on the stack is the context's of before the guard. *)
Fixpoint run_match (mf fuel : nat) (guard : Z -> Z -> bool) (h : heap) (patterns orig_env curr_env e : Z) : res (heap * mstep) :=
  match fuel with
  | O => Fuel
  | S k =>
    let! m := cont_match mf h patterns orig_env curr_env e in
    let '(h1, s) := m in
    match s with
    | SNext rest => run_match mf k guard h1 rest orig_env curr_env e
    | SGuard env g body saved =>
      if guard env g then Ok (h1, SBody env body)
      else
        let! rest := get_cdr h1 patterns in
        match rest with
        | None => Ok (h1, SErr)
        | Some rest => run_match mf k guard h1 rest saved env e
        end
    | _ => Ok (h1, s)
    end
  end.

End Arch.
