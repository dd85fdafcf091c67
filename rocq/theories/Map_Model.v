(* src/eval_cps.c: map and reverse, which the evaluator applies itself.

   Simplification: the evaluation of the applications between the steps of map is
   not here; Eval_Model and Ctl_Model have the other steps of the evaluator. *)
From Verif Require Import Base Value_Model Heap_Model Env_Model Match_Model QQ_Model GC_Model Eval_Model.
Local Open Scope Z_scope.

Section Arch.
Context {A : Arch} {HO : Host}.

(* eval_cps.c 73 *)
Definition MAP := CONT 23.

(* 150-170 WITH_GC and WITH_GC_RMBR_1 of lbm_heap_allocate_list(2); [pre]: what is remembered *)
Definition two_gc (h : heap) (g pre : list Z) (c : croots) : res (out (heap * Z)) :=
  let! (h1, v) := alloc_list h 2 in
  if v =? MERROR then
    let* h2 := collect h1 g pre c in
    let! (h3, v2) := alloc_list h2 2 in
    if v2 =? MERROR then Ok NoMem else Ok (Val (h3, v2))
  else Ok (Val (h1, v)).

(* 2638-2679 apply_map: [n] arguments on the stack, above them the function *)
Definition apply_map (s : est) (n : nat) : res (out est) :=
  let 'mkE h g K sz exp env r _ := s in
  let c := regs env exp r K in
  match n, K with
  | 2%nat, lst :: f :: _ :: K0 =>
    if is_cons lst then
      let! (hd, tl) := ref_cell h lst in
      let* '(h1, appli_1) := two_gc h g [] c in
      let* '(h2, appli) := two_gc h1 g [appli_1] c in
      let% appli_0 := get_cdr h2 appli_1 in
      let! (h3, _) := set_car_and_cdr h2 appli_0 hd NIL in
      let! (h4, _) := set_car h3 appli_1 QUOTE in
      let% second := get_cdr h4 appli in
      let! (h5, _) := set_car_and_cdr h4 second appli_1 NIL in
      let! (h6, _) := set_car h5 appli f in
      let* '(h7, elt) := cons_gc h6 g [r; NIL; appli] c r NIL in
      match reserve sz (elt :: env :: tl :: K0) [elt; appli; appli_0; MAP] with
      | Some K1 => go h7 g K1 sz appli env r
      | None => Ok Err
      end
    else if is_symbol_nil lst then ret h g K0 sz exp env NIL
    else Ok Err
  | _, _ => Ok Err
  end.

(* 3394-3425 cont_map; MAP has been popped *)
Definition cont_map (s : est) : res (out est) :=
  let 'mkE h g K sz exp env0 r _ := s in
  match K with
  | appli_0 :: appli :: t :: head :: env :: ls :: K0 =>
    let! (h1, _) := set_car h t r in
    if is_cons ls then
      let! (next, rest) := ref_cell h1 ls in
      match reserve sz (appli_0 :: appli :: t :: head :: env :: rest :: K0) [MAP] with
      | None => Ok Err
      | Some K1 =>
        let! (h2, _) := set_car h1 appli_0 next in
        let* '(h3, elt) := cons_gc h2 g [NIL; NIL; NIL] (regs env0 exp r K1) NIL NIL in
        let! (h4, _) := set_cdr h3 t elt in
        go h4 g (MAP :: appli_0 :: appli :: elt :: head :: env :: rest :: K0) sz appli env r
      end
    else ret h1 g K0 sz exp env head
  | _ => Ok Err
  end.

(* 2685-2691: the loop of apply_reverse *)
Fixpoint reverse_gc (fuel : nat) (h : heap) (g : list Z) (c : croots) (curr new_list : Z) : res (out (heap * Z)) :=
  match fuel with
  | O => Fuel
  | S k =>
    if is_cons curr then
      let! (a, _) := ref_cell h curr in
      let* '(h1, tmp) := cons_gc h g [a; new_list; NIL] c a new_list in
      let! (_, d) := ref_cell h1 curr in
      reverse_gc k h1 g c d tmp
    else Ok (Val (h, new_list))
  end.
(* 2681-2699 apply_reverse *)
Definition apply_reverse (fuel : nat) (s : est) (n : nat) : res (out est) :=
  let 'mkE h g K sz exp env r _ := s in
  match n, K with
  | 1%nat, lst :: _ :: K0 =>
    if is_list lst then
      let* '(h1, v) := reverse_gc fuel h g (regs env exp r K) lst NIL in
      ret h1 g K0 sz exp env v
    else Ok Err
  | _, _ => Ok Err
  end.

End Arch.
