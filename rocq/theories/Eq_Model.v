(* Structural equality (src/fundamental.c 209-279), association lists
   (fundamental.c 318-360) and list-represented sets
   (src/extensions/set_extensions.c).

   Simplifications: recursion and loops take fuel (the C code recurses on the C
   stack without a bound).  Floats are their bit patterns, compared as IEEE 754
   prescribes for ==. *)
From Verif Require Import Base Value_Model Heap_Model.
Local Open Scope Z_scope.

(* C == on floats given by bit patterns with [e] exponent and [m] fraction bits *)
Definition is_nan (e m x : Z) : bool :=
  (Z.land (Z.shiftr x m) (2 ^ e - 1) =? 2 ^ e - 1) && negb (Z.land x (2 ^ m - 1) =? 0).
Definition is_zero (e m x : Z) : bool := Z.land x (2 ^ (e + m) - 1) =? 0.
Definition float_eq (e m x y : Z) : bool :=
  negb (is_nan e m x) && negb (is_nan e m y) && ((x =? y) || (is_zero e m x && is_zero e m y)).

Section Arch.
Context {A : Arch}.

(* The payload of a 32 bit number: heap.h 779-799, heap.c 181-194 (an immediate
   on 64 bit, the car of a cell on 32 bit) *)
Definition payload32 (h : heap) (x : Z) : res Z :=
  if b64 then Ok (wrap 32 (Z.shiftr x VAL_SHIFT)) else car h x.
(* of a 64 bit number: heap.c 196-230 (the car of a cell on 64 bit, a memory
   block on 32 bit) *)
Definition payload64 (h : heap) (x : Z) : res Z :=
  let! c := car h x in
  if b64 then Ok c else match mem h c with Some (OBox n) => Ok n | _ => UB end.

Definition eq2 (f : heap -> Z -> res Z) (eqb : Z -> Z -> bool) (h : heap) (a b : Z) : res bool :=
  let! x := f h a in let! y := f h b in Ok (eqb x y).

(* fundamental.c 210-222 bytearray_equality *)
Definition bytearray_equality (h : heap) (a b : Z) : res bool :=
  let! pa := car h a in
  let! pb := car h b in
  match mem h pa, mem h pb with
  | Some (OByte _ xs), Some (OByte _ ys) =>
    if (length xs =? length ys)%nat then Ok (forallb (fun p => fst p =? snd p) (combine xs ys)) else Ok false
  | _, _ => UB
  end.

(* fundamental.c 225-239 array_struct_equality, with the recursive call [rec] *)
Fixpoint elts_equal (rec : Z -> Z -> res bool) (n : nat) (i : Z) (xs ys : list Z) : res bool :=
  match n with
  | O => Ok true
  | S k =>
    let! x := rd xs i in
    let! y := rd ys i in
    let! r := rec x y in
    if r then elts_equal rec k (i + 1) xs ys else Ok false
  end.
Definition array_struct_equality (rec : Z -> Z -> res bool) (h : heap) (a b : Z) : res bool :=
  let! pa := car h a in
  let! pb := car h b in
  match mem h pa, mem h pb with
  | Some (OLisp _ sa xs _), Some (OLisp _ sb ys _) =>
    if sa =? sb then elts_equal rec (Z.to_nat (sa / WB)) 0 xs ys else Ok false
  | _, _ => UB
  end.

(* fundamental.c 241-279 struct_eq *)
Fixpoint struct_eq (fuel : nat) (h : heap) (a b : Z) : res bool :=
  match fuel with
  | O => Fuel
  | S n =>
    let t := type_of_functional a in
    if t =? type_of_functional b then
      if t =? TYPE_SYMBOL then Ok (dec_sym a =? dec_sym b)
      else if t =? TYPE_I then Ok (dec_i a =? dec_i b)
      else if t =? TYPE_U then Ok (dec_u a =? dec_u b)
      else if t =? TYPE_CHAR then Ok (dec_char a =? dec_char b)
      else if t =? TYPE_CONS then
        let! xa := car h a in
        let! xb := car h b in
        let! r := struct_eq n h xa xb in
        if r then
          let! da := cdr h a in
          let! db := cdr h b in
          struct_eq n h da db
        else Ok false
      else if t =? TYPE_I32 then eq2 payload32 (fun x y => sgn 32 x =? sgn 32 y) h a b
      else if t =? TYPE_U32 then eq2 payload32 (fun x y => wrap 32 x =? wrap 32 y) h a b
      else if t =? TYPE_FLOAT then eq2 payload32 (float_eq 8 23) h a b
      else if t =? TYPE_I64 then eq2 payload64 (fun x y => sgn 64 x =? sgn 64 y) h a b
      else if t =? TYPE_U64 then eq2 payload64 (fun x y => wrap 64 x =? wrap 64 y) h a b
      else if t =? TYPE_DOUBLE then eq2 payload64 (float_eq 11 52) h a b
      else if t =? TYPE_ARRAY then bytearray_equality h a b
      else if t =? TYPE_LISPARRAY then array_struct_equality (struct_eq n h) h a b
      else Ok false
    else Ok false
  end.

(* fundamental.c 318-335 assoc_lookup; [ef] is the fuel of struct_eq *)
Fixpoint assoc_lookup (ef fuel : nat) (h : heap) (key curr : Z) : res Z :=
  if is_cons curr then
    match fuel with
    | O => Fuel
    | S n =>
      let! cl := ref_cell h curr in
      let c := fst cl in
      if is_cons c then
        let! kv := ref_cell h c in
        let! r := struct_eq ef h (fst kv) key in
        if r then Ok (snd kv) else assoc_lookup ef n h key (snd cl)
      else Ok EERROR
    end
  else Ok (enc_sym SYM_NO_MATCH).

(* set_extensions.c 35-50 ext_member on a list: [true] when the list itself is
   returned, [false] when nil is *)
Fixpoint member_loop (ef fuel : nat) (h : heap) (curr val : Z) : res bool :=
  if is_cons curr then
    match fuel with
    | O => Fuel
    | S n =>
      let! x := car h curr in
      let! r := struct_eq ef h x val in
      if r then Ok true
      else let! q := cdr h curr in member_loop ef n h q val
    end
  else Ok false.
Definition member (ef fuel : nat) (h : heap) (l val : Z) : res Z :=
  if is_list l then
    let! r := member_loop ef fuel h l val in
    Ok (if r then l else NIL)
  else Ok TERROR.

(* set_extensions.c 52-82 set_insert: the loop with [start] and [ed] (end) *)
Inductive ins := Found | Abort | Done (start ed : Z).
Fixpoint insert_loop (ef fuel : nat) (h : heap) (curr val start ed : Z) : res (heap * ins) :=
  if is_cons curr then
    match fuel with
    | O => Fuel
    | S n =>
      let! x := car h curr in
      let! r := struct_eq ef h x val in
      if r then Ok (h, Found)
      else
        let! hc := cons h x NIL in
        let '(h1, cl) := hc in
        if cl =? MERROR then Ok (h1, Abort)
        else if ed =? NIL then
          let! q := cdr h1 curr in insert_loop ef n h1 q val cl cl
        else
          let! hb := set_cdr h1 ed cl in
          let! q := cdr (fst hb) curr in insert_loop ef n (fst hb) q val start cl
    end
  else Ok (h, Done start ed).

Definition set_insert (ef fuel : nat) (h : heap) (set val : Z) : res (heap * Z) :=
  let! r := insert_loop ef fuel h set val NIL NIL in
  let '(h1, i) := r in
  match i with
  | Found => Ok (h1, set)
  | Abort => Ok (h1, MERROR)
  | Done start ed =>
    let! hv := cons h1 val NIL in
    let '(h2, v) := hv in
    if v =? MERROR then Ok (h2, MERROR)
    else if ed =? NIL then Ok (h2, v)
    else let! hb := set_cdr h2 ed v in Ok (fst hb, start)
  end.

(* set_extensions.c 94-108 ext_set_union; [fuel] bounds both the loop and, grown
   by one per round, the length of the set *)
Fixpoint union_loop (ef fuel sf : nat) (h : heap) (curr set : Z) : res (heap * Z) :=
  if is_cons curr then
    match fuel with
    | O => Fuel
    | S n =>
      let! x := car h curr in
      let! r := set_insert ef sf h set x in
      let '(h1, set1) := r in
      if set1 =? MERROR then Ok (h1, MERROR)
      else let! q := cdr h1 curr in union_loop ef n sf h1 q set1
    end
  else Ok (h, set).
Definition set_union (ef fuel sf : nat) (h : heap) (a b : Z) : res (heap * Z) :=
  if is_list a && is_list b then union_loop ef fuel sf h a b else Ok (h, TERROR).

End Arch.
