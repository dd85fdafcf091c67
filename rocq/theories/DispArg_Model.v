(* src/extensions/display_extensions.c 1831-1960: decoding the arguments of the
   drawing functions, numbers and attributes like '(thickness 3).

   Simplification: the image, args[0], is left out; Disp_Model has the check that
   the array is large enough for it. *)
From Verif Require Import Base Value_Model Heap_Model.
Local Open Scope Z_scope.

(* 1834-1841 attr_t *)
Record attr := mkAttr { a_valid : bool; a_num : Z; a_args : list Z }.
(* 1843-1854 img_args_t: the numbers and the attributes *)
Record dargs := mkD { d_args : list Z; d_attrs : list attr }.

(* 1857-1858 *)
Definition cleared : dargs := mkD (repeat 0 8) (repeat (mkAttr false 0 (repeat 0 3)) 7).

(* 1902-1926: thickness, filled, rounded, dotted, scale, rotate, resolution *)
Definition arg_nums : list Z := [1; 0; 1; 2; 1; 3; 1].

Section Arch.
Context {A : Arch}.
(* the numbers of these symbols *)
Context (symbols : list Z).

Fixpoint find_sym (l : list Z) (s : Z) (i : nat) : option nat :=
  match l with
  | [] => None
  | x :: t => if x =? s then Some i else find_sym t s (S i)
  end.
Definition get_attr (l : list attr) (i : nat) : attr := nth i l (mkAttr false 0 []).

(* 1894-1940: the loop over the list of an attribute; None: return with is_valid false.
   [ind]: attr_ind; [now]: attr_now *)
Fixpoint attr_loop (fuel : nat) (h : heap) (curr ind : Z) (now : option nat) (l : list attr) : res (option (Z * option nat * list attr)) :=
  match fuel with
  | O => Fuel
  | S k =>
    if is_cons curr then
      let! arg := car h curr in
      let! st :=
        if ind =? 0 then
          if negb (is_symbol arg) then Ok None
          else
            match find_sym symbols (dec_sym arg) 0 with
            | Some i => let a := get_attr l i in Ok (Some (Some i, upd l i (mkAttr (a_valid a) (nth i arg_nums 0) (a_args a))))
            | None => Ok None
            end
        else if negb (is_number arg) then Ok None
        else
          match now with
          | None => UB
          | Some i => let a := get_attr l i in let! v := wr (a_args a) (ind - 1) arg in Ok (Some (now, upd l i (mkAttr (a_valid a) (a_num a) v)))
          end in
      match st with
      | None => Ok None
      | Some (now1, l1) =>
        if ind + 1 >? 3 + 1 then Ok None
        else let! d := cdr h curr in attr_loop k h d (ind + 1) now1 l1
      end
    else Ok (Some (ind, now, l))
  end.

(* 1891-1953: an attribute *)
Definition attr_arg (h : heap) (arg : Z) (l : list attr) : res (option (list attr)) :=
  let! r := attr_loop 6 h arg 0 None l in
  match r with
  | None => Ok None
  | Some (_, None, _) => UB
  | Some (ind, Some i, l1) =>
    let a := get_attr l1 i in
    let n := if (i =? 2)%nat && (ind =? 1) then 0 else a_num a in
    if ind - 1 =? n then Ok (Some (upd l1 i (mkAttr true n (a_args a)))) else Ok None
  end.

(* 1877-1960: all arguments after the image *)
Fixpoint args_loop (h : heap) (args : list Z) (num_dec : Z) (d : dargs) : res (option (Z * dargs)) :=
  match args with
  | [] => Ok (Some (num_dec, d))
  | a :: t =>
    if negb (is_number a) && negb (is_cons a) then Ok None
    else if is_number a then
      let! v := wr (d_args d) num_dec a in
      if num_dec + 1 >? 8 then Ok None
      else args_loop h t (num_dec + 1) (mkD v (d_attrs d))
    else
      let! r := attr_arg h a (d_attrs d) in
      match r with None => Ok None | Some l => args_loop h t num_dec (mkD (d_args d) l) end
  end.
Definition decode_args (h : heap) (args : list Z) (num_expected : Z) : res (option dargs) :=
  let! r := args_loop h args 0 cleared in
  match r with
  | None => Ok None
  | Some (n, d) => if n =? num_expected then Ok (Some d) else Ok None
  end.

End Arch.
