(* rotate, merge and sort: src/eval_cps.c 2801-3014 and 3471-3680.

   Simplifications.  The comparator is a closure whose body the evaluator runs
   in an environment that binds the two parameters; the model looks the two
   parameters up in that environment and applies a function [cmp] of the two
   values ([true]: the body's result is not nil).  So the comparator is taken to
   terminate, to have no side effects and to depend on its parameters only.
   The closure's parts (environment and the two parameters) are given; making a
   closure of a function symbol (cmp_to_clo, 2785-2799) and the extraction of
   the parts (2836-2841) are not modelled.  The stack frames are records.
   WITH_GC (collect and retry when memory runs out) is not modelled: running out
   of cells ends in the outcome [None], as every raised error does. *)
From Verif Require Import Base Value_Model Heap_Model Env_Model.
Local Open Scope Z_scope.

Section Arch.
Context {A : Arch}.

(* lbm_set_cdr with its result ignored *)
Definition setd (h : heap) (c v : Z) : res heap := let! r := set_cdr h c v in Ok (fst r).

(* ---- rotate, eval_cps.c 2974-3014 ---- *)

(* 2989-2992: the last cell *)
Fixpoint end_loop (fuel : nat) (h : heap) (ed curr : Z) : res Z :=
  if is_cons curr then
    match fuel with
    | O => Fuel
    | S n => let! q := cdr h curr in end_loop n h curr q
    end
  else Ok ed.

(* 2994-3000, run [d] times *)
Fixpoint rot_loop (d : nat) (h : heap) (start ed : Z) : res (heap * Z) :=
  match d with
  | O => Ok (h, start)
  | S n =>
    let a := start in
    let! s := cdr h start in
    let! h1 := setd h a NIL in
    let! h2 := setd h1 ed a in
    rot_loop n h2 s a
  end.

(* 2975-3011 after the argument check: [l] is a list, [dist] the distance as
   decoded (an int).  Negating INT_MIN (line 2984) is signed overflow. *)
Definition apply_rotate (fuel : nat) (h : heap) (l dist : Z) : res (heap * option Z) :=
  let! c := list_copy fuel h (-1) l in
  let '(h1, ls, len) := c in
  if ls =? MERROR then Ok (h1, None)
  else if (0 <? len) && negb (dist =? 0) then
    let! hl := if 0 <? dist then list_destructive_reverse fuel h1 ls else Ok (h1, ls) in
    let '(h2, ls1) := hl in
    let! d := if 0 <? dist then Ok dist else if dist =? - 2 ^ 31 then UB else Ok (- dist) in
    let! ed := end_loop fuel h2 NIL ls1 in
    let! hr := rot_loop (Z.to_nat d) h2 ls1 ed in
    let '(h3, ls2) := hr in
    let! hl := if 0 <? dist then list_destructive_reverse fuel h3 ls2 else Ok (h3, ls2) in
    Ok (fst hl, Some (snd hl))
  else Ok (h1, Some ls).

Section Merge.
Variables (cmp : Z -> Z -> bool) (ef : nat) (par1 par2 : Z).

(* the comparator's body evaluated in [env]; [None]: a variable is not bound *)
Definition eval_cmp (h : heap) (env : Z) : res (option bool) :=
  let! x := env_lookup ef h par1 env in
  let! y := env_lookup ef h par2 env in
  match x, y with
  | Some x, Some y => Ok (Some (cmp x y))
  | _, _ => Ok None
  end.

(* stack frame of MERGE_REST, 2865-2873: sptr[0..4] and sptr[6] *)
Record mframe := mkM { m_head : Z; m_last : Z; m_a : Z; m_arest : Z; m_brest : Z; m_env : Z }.
(* what is next: an error, the merged list, or evaluate the comparator in an environment *)
Inductive mres := MErr | MDone (v : Z) | MAgain (f : mframe) (env : Z).

(* 3529-3551: the next comparison *)
Definition merge_next (h : heap) (f : mframe) (b : Z) : res (heap * mres) :=
  let a := m_a f in
  let! h1 := setd h a b in
  let! x := car h1 a in
  let! r0 := env_set ef h1 (m_env f) par1 x in
  let '(h2, env0) := r0 in
  let! y := car h2 b in
  let! r1 := env_set ef h2 env0 par2 y in
  let '(h3, env1) := r1 in
  if is_symbol env0 || is_symbol env1 then Ok (h3, MErr)
  else Ok (h3, MAgain f env1).

(* 3492-3498 and 3509-3515: [v] becomes the last cell of the merged list *)
Definition merge_push (h : heap) (f : mframe) (v : Z) : res (heap * Z) :=
  if m_head f =? NIL then Ok (h, v)
  else let! h1 := setd h (m_last f) v in Ok (h1, m_head f).

(* 3471-3552 cont_merge_rest, [r]: the comparator's result is not nil *)
Definition merge_rest (h : heap) (f : mframe) (r : bool) : res (heap * mres) :=
  let a := m_a f in
  let! b := cdr h a in
  let! h1 := setd h a NIL in
  if negb r then
    let! p := merge_push h1 f b in
    let '(h2, head) := p in
    if m_brest f =? NIL then
      let! h3 := setd h2 a (m_arest f) in
      let! h4 := setd h3 b a in
      Ok (h4, MDone head)
    else
      let b2 := m_brest f in
      let! br := cdr h2 b2 in
      let! h3 := setd h2 b2 NIL in
      merge_next h3 (mkM head b a (m_arest f) br (m_env f)) b2
  else
    let! p := merge_push h1 f a in
    let '(h2, head) := p in
    if m_arest f =? NIL then
      let! h3 := setd h2 b (m_brest f) in
      let! h4 := setd h3 a b in
      Ok (h4, MDone head)
    else
      let a2 := m_arest f in
      let! ar := cdr h2 a2 in
      let! h3 := setd h2 a2 NIL in
      merge_next h3 (mkM head a a2 ar (m_brest f) (m_env f)) b.

(* comparator evaluations and MERGE_REST until the list is merged *)
Fixpoint merge_loop (fuel : nat) (h : heap) (f : mframe) (env : Z) : res (heap * option Z) :=
  match fuel with
  | O => Fuel
  | S n =>
    let! r := eval_cmp h env in
    match r with
    | None => Ok (h, None)
    | Some r =>
      let! m := merge_rest h f r in
      let '(h1, o) := m in
      match o with
      | MErr => Ok (h1, None)
      | MDone v => Ok (h1, Some v)
      | MAgain f' env' => merge_loop n h1 f' env'
      end
    end
  end.

(* 2845-2850: the comparator's environment with both parameters bound *)
Definition cmp_env_init (h : heap) (env x y : Z) : res (heap * option Z) :=
  let! r0 := env_set ef h env par1 x in
  let '(h1, env0) := r0 in
  if env0 =? MERROR then Ok (h1, None)
  else
    let! r1 := env_set ef h1 env0 par2 y in
    let '(h2, env1) := r1 in
    if env1 =? MERROR then Ok (h2, None) else Ok (h2, Some env1).

(* 2802-2877 apply_merge after the argument check *)
Definition apply_merge (fuel : nat) (h : heap) (env l1 l2 : Z) : res (heap * option Z) :=
  let! ca := list_copy fuel h (-1) l1 in
  let '(h1, a, len_a) := ca in
  if a =? MERROR then Ok (h1, None)
  else
  let! cb := list_copy fuel h1 (-1) l2 in
  let '(h2, b, len_b) := cb in
  if b =? MERROR then Ok (h2, None)
  else if len_a =? 0 then Ok (h2, Some b)
  else if len_b =? 0 then Ok (h2, Some a)
  else
    let! a_rest := cdr h2 a in
    let! b_rest := cdr h2 b in
    let! x := car h2 a in
    let! y := car h2 b in
    let! e := cmp_env_init h2 env x y in
    let '(h3, eo) := e in
    match eo with
    | None => Ok (h3, None)
    | Some env1 =>
      let! h4 := setd h3 a b in
      let! h5 := setd h4 b NIL in
      merge_loop fuel h5 (mkM NIL NIL a a_rest b_rest env1) env1
    end.

(* ---- sort ---- *)

(* stack frame of MERGE_LAYER, sptr[1] and sptr[4..8] *)
Record lframe := mkL { l_env : Z; l_first : Z; l_last : Z; l_rest : Z; l_layer : Z; l_len : Z }.
Inductive lres := LErr | LDone (v : Z) | LSkip (f : lframe) (v : Z) | LMerge (f : lframe) (m : mframe) (env : Z).

(* 3571-3578: the last cell of the merged sublist *)
Fixpoint last_loop (fuel : nat) (h : heap) (curr : Z) : res Z :=
  if is_cons curr then
    match fuel with
    | O => Fuel
    | S n =>
      let! next := cdr h curr in
      if next =? NIL then Ok curr else last_loop n h next
    end
  else Ok curr.

(* 3609-3615, 3622-3628: at most [n] steps down the list *)
Fixpoint walk (n : nat) (h : heap) (curr : Z) : res Z :=
  match n with
  | O => Ok curr
  | S k => if is_cons curr then let! q := cdr h curr in walk k h q else Ok curr
  end.

(* 3605-3680 of cont_merge_layer: merge the next two sublists *)
Definition layer_next (h : heap) (f : lframe) (rest : Z) : res (heap * lres) :=
  let k := Z.to_nat (l_layer f - 1) in
  let a_list := rest in
  let! c := walk k h rest in
  let! rest1 := cdr h c in
  let! h1 := setd h c NIL in
  let b_list := rest1 in
  let! c := walk k h1 rest1 in
  let! rest2 := cdr h1 c in
  let! h2 := setd h1 c NIL in
  let f' := mkL (l_env f) (l_first f) (l_last f) rest2 (l_layer f) (l_len f) in
  if b_list =? NIL then Ok (h2, LSkip f' a_list)
  else
    let! a_rest := cdr h2 a_list in
    let! b_rest := cdr h2 b_list in
    let! h3 := setd h2 a_list b_list in
    let! h4 := setd h3 b_list NIL in
    let! x := car h4 a_list in
    let! r0 := env_set ef h4 (l_env f) par1 x in
    let '(h5, env0) := r0 in
    let! y := car h5 b_list in
    let! r1 := env_set ef h5 (l_env f) par2 y in
    let '(h6, env1) := r1 in
    if is_symbol env0 || is_symbol env1 then Ok (h6, LErr)
    else Ok (h6, LMerge f' (mkM NIL NIL a_list a_rest b_rest env1) env1).

(* 3566-3680 cont_merge_layer, [r] the merged sublist.  The layer and the length
   are lbm_int; they stay below 2^25, see the theorems. *)
Definition merge_layer (fuel : nat) (h : heap) (f : lframe) (r : Z) : res (heap * lres) :=
  let! rc := last_loop fuel h r in
  let! p := if l_first f =? NIL then Ok (h, r) else let! h1 := setd h (l_last f) r in Ok (h1, l_first f) in
  let '(h1, first) := p in
  if l_rest f =? NIL then
    if l_len f <=? l_layer f * 2 then Ok (h1, LDone first)
    else layer_next h1 (mkL (l_env f) NIL NIL (l_rest f) (l_layer f * 2) (l_len f)) first
  else layer_next h1 (mkL (l_env f) first rc (l_rest f) (l_layer f) (l_len f)) (l_rest f).

Fixpoint layer_loop (lf fuel : nat) (h : heap) (f : lframe) (r : Z) : res (heap * option Z) :=
  match lf with
  | O => Fuel
  | S n =>
    let! m := merge_layer fuel h f r in
    let '(h1, o) := m in
    match o with
    | LErr => Ok (h1, None)
    | LDone v => Ok (h1, Some v)
    | LSkip f' v => layer_loop n fuel h1 f' v
    | LMerge f' mf env =>
      let! v := merge_loop fuel h1 mf env in
      match v with
      | (h2, None) => Ok (h2, None)
      | (h2, Some v) => layer_loop n fuel h2 f' v
      end
    end
  end.

(* 2880-2956 apply_sort after the argument check *)
Definition apply_sort (lf fuel : nat) (h : heap) (env l : Z) : res (heap * option Z) :=
  let! c := list_copy fuel h (-1) l in
  let '(h1, a, len) := c in
  if a =? MERROR then Ok (h1, None)
  else if len <=? 1 then Ok (h1, Some a)
  else
    let! b := cdr h1 a in
    let! rest := cdr h1 b in
    let! x := car h1 a in
    let! y := car h1 b in
    let! e := cmp_env_init h1 env x y in
    let '(h2, eo) := e in
    match eo with
    | None => Ok (h2, None)
    | Some env1 =>
      let! h3 := setd h2 b NIL in
      let! v := merge_loop fuel h3 (mkM NIL NIL a NIL NIL env1) env1 in
      match v with
      | (h4, None) => Ok (h4, None)
      | (h4, Some v) => layer_loop lf fuel h4 (mkL env1 NIL NIL rest 1 len) v
      end
    end.

End Merge.
End Arch.
