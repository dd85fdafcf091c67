(* Environments: src/env.c, the global environment operations of
   src/eval_cps.c, src/fundamental.c and src/lbm_c_interop.c.

   Simplifications: loops take fuel, excluded by the theorems.  The WITH_GC
   macro of eval_cps.c (collect and try again when an operation returns
   merror) is not part of the model: an operation that runs out of cells
   reports failure. *)
From Verif Require Import Base Value_Model Heap_Model.
Local Open Scope Z_scope.

Section Arch.
Context {A : Arch}.

(* lbm_defines.h 163 SYM_PLACEHOLDER *)
Definition PLACEHOLDER := enc_sym 0x2A.

(* env.c 41-58 lbm_env_copy_spine: the loop of lines 50-54 *)
Fixpoint spine_loop (fuel : nat) (h : heap) (tgt src : Z) : res heap :=
  if type_of tgt =? TYPE_CONS then
    match fuel with
    | O => Fuel
    | S n =>
      let! a := car h src in
      let! hb := set_car h tgt a in
      let! t := cdr (fst hb) tgt in
      let! s := cdr (fst hb) src in
      spine_loop n (fst hb) t s
    end
  else Ok h.

Definition env_copy_spine (fuel : nat) (h : heap) (env : Z) : res (heap * Z) :=
  let! len := list_length fuel h env in
  let! hv := alloc_list h len in
  let '(h1, v) := hv in
  if v =? MERROR then Ok (h1, MERROR)
  else let! h2 := spine_loop fuel h1 v env in Ok (h2, v).

(* env.c 61-74 lbm_env_lookup_b: [Some x] when true is returned with *res = x *)
Fixpoint env_lookup (fuel : nat) (h : heap) (sym curr : Z) : res (option Z) :=
  if is_ptr curr then
    match fuel with
    | O => Fuel
    | S n =>
      let! c := ref_cell h curr in
      let! kv := ref_cell h (fst c) in
      if (fst kv =? sym) && negb (snd kv =? PLACEHOLDER) then Ok (Some (snd kv))
      else env_lookup n h sym (snd c)
    end
  else Ok None.

(* env.c 101-108 of lbm_env_set and 145-153 of lbm_env_modify_binding (the same
   loop): [Some h'] when a binding for the key was found and written *)
Fixpoint set_loop (fuel : nat) (h : heap) (curr key val : Z) : res (option heap) :=
  if type_of curr =? TYPE_CONS then
    match fuel with
    | O => Fuel
    | S n =>
      let! car_val := car h curr in
      let! k := car h car_val in
      if k =? key then
        let! hb := set_cdr h car_val val in Ok (Some (fst hb))
      else
        let! q := cdr h curr in
        set_loop n h q key val
    end
  else Ok None.

(* env.c 95-117 lbm_env_set *)
Definition env_set (fuel : nat) (h : heap) (env key val : Z) : res (heap * Z) :=
  let! r := set_loop fuel h env key val in
  match r with
  | Some h1 => Ok (h1, env)
  | None =>
    let! hk := cons h key val in
    let '(h1, keyval) := hk in
    if type_of keyval =? TYPE_SYMBOL then Ok (h1, keyval)
    else cons h1 keyval env
  end.

(* env.c 129-135 of lbm_env_set_functional *)
Fixpoint setf_loop (fuel : nat) (h : heap) (curr key keyval : Z) : res (option heap) :=
  if type_of curr =? TYPE_CONS then
    match fuel with
    | O => Fuel
    | S n =>
      let! k := caar h curr in
      if k =? key then
        let! hb := set_car h curr keyval in Ok (Some (fst hb))
      else
        let! q := cdr h curr in
        setf_loop n h q key keyval
    end
  else Ok None.

(* env.c 120-139 lbm_env_set_functional *)
Definition env_set_functional (fuel : nat) (h : heap) (env key val : Z) : res (heap * Z) :=
  let! hk := cons h key val in
  let '(h1, keyval) := hk in
  if type_of keyval =? TYPE_SYMBOL then Ok (h1, keyval)
  else
    let! r := setf_loop fuel h1 env key keyval in
    match r with
    | Some h2 => Ok (h2, env)
    | None => cons h1 keyval env
    end.

(* env.c 141-155 lbm_env_modify_binding *)
Definition env_modify (fuel : nat) (h : heap) (env key val : Z) : res (heap * Z) :=
  let! r := set_loop fuel h env key val in
  match r with
  | Some h1 => Ok (h1, env)
  | None => Ok (h, NOT_FOUND)
  end.

(* env.c 168-175 of lbm_env_drop_binding *)
Fixpoint drop_loop (fuel : nat) (h : heap) (prev curr key : Z) : res (option heap) :=
  if type_of curr =? TYPE_CONS then
    match fuel with
    | O => Fuel
    | S n =>
      let! k := caar h curr in
      let! q := cdr h curr in
      if k =? key then
        let! hb := set_cdr h prev q in Ok (Some (fst hb))
      else drop_loop n h curr q key
    end
  else Ok None.

(* env.c 157-177 lbm_env_drop_binding *)
Definition env_drop (fuel : nat) (h : heap) (env key : Z) : res (heap * Z) :=
  let! a := car h env in
  let! k := car h a in
  let! q := cdr h env in
  if k =? key then Ok (h, q)
  else
    let! r := drop_loop fuel h env q key in
    match r with
    | Some h1 => Ok (h1, env)
    | None => Ok (h, NOT_FOUND)
    end.

(* ---- the global environment ---- *)

(* env.h 28-29, env.c 27: the heap and the array env_global *)
Record gstate := mkG { gheap : heap; groots : list Z }.

(* env.c 29-34 lbm_init_env *)
Definition init_env (h : heap) : gstate := mkG h (repeat NIL 32).

(* env.h 29 GLOBAL_ENV_MASK *)
Definition bucket (key : Z) : Z := Z.land (dec_sym key) 0x1F.

(* env.c 81-89: the loop of lbm_global_env_lookup *)
Fixpoint glookup_loop (fuel : nat) (h : heap) (sym curr : Z) : res (option Z) :=
  if is_ptr curr then
    match fuel with
    | O => Fuel
    | S n =>
      let! c := ref_cell h curr in
      let! kv := ref_cell h (fst c) in
      if fst kv =? sym then Ok (Some (snd kv))
      else glookup_loop n h sym (snd c)
    end
  else Ok None.

(* env.c 76-90 lbm_global_env_lookup *)
Definition glookup (fuel : nat) (g : gstate) (sym : Z) : res (option Z) :=
  let! root := rd (groots g) (bucket sym) in
  glookup_loop fuel (gheap g) sym root.

(* eval_cps.c 2228-2248 cont_set_global_env (the same in 5266-5279): the result
   of lbm_env_set is stored unless it is merror, in which case WITH_GC (after
   trying again) raises the error *)
Definition gdefine (fuel : nat) (g : gstate) (key val : Z) : res (gstate * bool) :=
  let! root := rd (groots g) (bucket key) in
  let! hv := env_set fuel (gheap g) root key val in
  let '(h1, v) := hv in
  if v =? MERROR then Ok (mkG h1 (groots g), false)
  else let! rs := wr (groots g) (bucket key) v in Ok (mkG h1 rs, true).

(* eval_cps.c 2315-2334 perform_setvar, for a key not bound in the local
   environment and not a built-in symbol: line 2324 stores the result of
   lbm_env_modify_binding before line 2326 checks it *)
Definition gsetvar (fuel : nat) (g : gstate) (key val : Z) : res (gstate * bool) :=
  let! root := rd (groots g) (bucket key) in
  let! hv := env_modify fuel (gheap g) root key val in
  let '(h1, v) := hv in
  let! rs := wr (groots g) (bucket key) v in
  Ok (mkG h1 rs, negb (v =? NOT_FOUND)).

(* fundamental.c 726-738 fundamental_undefine of one symbol; lbm_c_interop.c
   208-220 lbm_undefine does the same *)
Definition gundefine (fuel : nat) (g : gstate) (key : Z) : res (gstate * bool) :=
  let! root := rd (groots g) (bucket key) in
  let! hv := env_drop fuel (gheap g) root key in
  let '(h1, v) := hv in
  if v =? NOT_FOUND then Ok (mkG h1 (groots g), false)
  else let! rs := wr (groots g) (bucket key) v in Ok (mkG h1 rs, true).

(* lbm_c_interop.c 191-206 lbm_define, for a symbol already in the table: the
   result of lbm_env_set is stored unchecked *)
Definition cdefine (fuel : nat) (g : gstate) (key val : Z) : res gstate :=
  let! root := rd (groots g) (bucket key) in
  let! hv := env_set fuel (gheap g) root key val in
  let! rs := wr (groots g) (bucket key) (snd hv) in
  Ok (mkG (fst hv) rs).

End Arch.
