(* src/fundamental.c: list, append, length, range, take, drop, ix, setix, acons,
   assoc, cossa, setassoc, mkarray, array-to-list, list-to-array and the integer
   conversions.

   Simplifications.
   - Arguments are a list; [nargs] is its length.  The error suspect
     (lbm_set_error_suspect) is not modelled.
   - Loops take fuel, excluded by the theorems.
   - fundamental_list_to_array writes into an array that nothing else refers to yet;
     the elements are collected and stored at once.
   - int is 32 bits; a signed overflow is undefined. *)
From Verif Require Import Base Value_Model Heap_Model GC_Model Env_Model Eq_Model Flat_Model Read_Model ArrExt_Model.
Local Open Scope Z_scope.

Section Arch.
Context {A : Arch} {L : Libc} {C : Conv}.

(* the result of an int operation *)
Definition int32 (x : Z) : res Z := if (- 2 ^ 31 <=? x) && (x <? 2 ^ 31) then Ok x else UB.

(* 688-697 fundamental_list; [rargs]: the arguments from the last to the first *)
Fixpoint list_loop (h : heap) (rargs : list Z) (result : Z) : res (heap * Z) :=
  match rargs with
  | [] => Ok (h, result)
  | a :: t =>
    let! (h1, r) := cons h a result in
    if type_of r =? TYPE_SYMBOL then Ok (h1, r) else list_loop h1 t r
  end.
Definition list_fun (h : heap) (args : list Z) : res (heap * Z) := list_loop h (rev args) NIL.

(* 714-718: the cells of the argument are counted *)
Fixpoint count_loop (fuel : nat) (h : heap) (curr n : Z) : res Z :=
  if type_of_functional curr =? TYPE_CONS then
    match fuel with
    | O => Fuel
    | S k => let! n := int32 (n + 1) in let! d := cdr h curr in count_loop k h d n
    end
  else Ok n.
(* 720-722: [k] is j + 1 *)
Fixpoint append_one (k : nat) (fuel : nat) (h : heap) (curr r : Z) : res (heap * Z) :=
  match k with
  | O => Ok (h, r)
  | S j =>
    let! x := index_list fuel h curr (Z.of_nat j) in
    let! (h1, r1) := cons h x r in
    append_one j fuel h1 curr r1
  end.
(* 708-723 the loop of fundamental_append; [rargs]: args[nargs-2] down to args[0] *)
Fixpoint append_loop (fuel : nat) (h : heap) (rargs : list Z) (r : Z) : res (heap * Z) :=
  match rargs with
  | [] => Ok (h, r)
  | curr :: t =>
    if is_list curr then
      let! n := count_loop fuel h curr 0 in
      let! (h1, r1) := append_one (Z.to_nat n) fuel h curr r in
      append_loop fuel h1 t r1
    else Ok (h, TERROR)
  end.
(* 699-724 fundamental_append *)
Definition append (fuel : nat) (h : heap) (args : list Z) : res (heap * Z) :=
  match rev args with
  | [] => Ok (h, NIL)
  | [a] => if is_list a then Ok (h, a) else Ok (h, TERROR)
  | last :: rargs => append_loop fuel h rargs last
  end.

(* heap.h 869-876 lbm_is_lisp_array_r, lbm_is_lisp_array_rw *)
Definition is_lisp_array_r (v : Z) : bool := Z.land (type_of v) (wnot PTR_TO_CONSTANT_BIT) =? TYPE_LISPARRAY.
Definition is_lisp_array_rw (v : Z) : bool := (type_of v =? TYPE_LISPARRAY) && negb (is_const_ptr v).
(* the header lbm_car(v) points to: its address and fields *)
Definition lisp_array_of (h : heap) (v : Z) : res (Z * (Z * Z * list Z * Z)) :=
  let! a := car h v in
  match mem h a with Some (OLisp d size elts i) => Ok (a, (d, size, elts, i)) | _ => UB end.

(* 1242-1259 fundamental_list_length *)
Definition length_fun (fuel : nat) (h : heap) (args : list Z) : res Z :=
  match args with
  | [a] =>
    if is_list a then
      let! len := list_length fuel h a in Ok (enc_i (sgn 32 len))
    else
      let! r := is_array_r h a in
      if r then
        let! (_, bs) := array_of h a in Ok (enc_i (sgn 32 (Z.of_nat (length bs))))
      else if is_lisp_array_r a then
        let! (_, (_, size, _, _)) := lisp_array_of h a in Ok (enc_i (sgn 32 (size / WB)))
      else Ok TERROR
  | _ => Ok EERROR
  end.

(* 1296-1298 the loop of fundamental_range *)
Fixpoint range_loop (fuel : nat) (h : heap) (i start r : Z) : res (heap * Z) :=
  if start <=? i then
    match fuel with
    | O => Fuel
    | S k =>
      let! (h1, r1) := cons h (enc_i i) r in
      let! i1 := int32 (i - 1) in
      range_loop k h1 i1 start r1
    end
  else Ok (h, r).
(* 1281-1299 *)
Definition range_from (fuel : nat) (h : heap) (start en : Z) : res (heap * Z) :=
  if en =? start then Ok (h, NIL)
  else
    let '(lo, hi, rv) := if en <? start then (en, start, true) else (start, en, false) in
    let! num := int32 (hi - lo) in
    if wrap 32 num >? num_free h then Ok (h, MERROR)
    else
      let! i := int32 (hi - 1) in
      let! (h1, r) := range_loop fuel h i lo NIL in
      if rv then list_destructive_reverse fuel h1 r else Ok (h1, r).
(* 1261-1300 fundamental_range *)
Definition range (fuel : nat) (h : heap) (args : list Z) : res (heap * Z) :=
  match args with
  | [a] =>
    if is_number a then let! en := dec_as_i32 h a in range_from fuel h 0 en else Ok (h, EERROR)
  | [a; b] =>
    if is_number a && is_number b then
      let! start := dec_as_i32 h a in let! en := dec_as_i32 h b in range_from fuel h start en
    else Ok (h, EERROR)
  | _ => Ok (h, EERROR)
  end.

(* 1312-1320 fundamental_take *)
Definition take (fuel : nat) (h : heap) (args : list Z) : res (heap * Z) :=
  match args with
  | [l; n] =>
    if is_number n && is_list l then
      let! m := dec_as_i32 h n in
      let! r := list_copy fuel h m l in
      Ok (fst (fst r), snd (fst r))
    else Ok (h, TERROR)
  | _ => Ok (h, TERROR)
  end.
(* 1322-1329 fundamental_drop *)
Definition drop (fuel : nat) (h : heap) (args : list Z) : res Z :=
  match args with
  | [l; n] =>
    if is_number n && is_list l then let! m := dec_as_u32 h n in list_drop fuel h m l
    else Ok TERROR
  | _ => Ok TERROR
  end.

(* 959-976 fundamental_ix *)
Definition ix (fuel : nat) (h : heap) (args : list Z) : res Z :=
  match args with
  | [l; n] =>
    if is_number n then
      if is_list l then let! i := dec_as_i32 h n in index_list fuel h l i
      else if is_lisp_array_r l then
        let! (_, (_, size, elts, _)) := lisp_array_of h l in
        let! i := dec_as_u32 h n in
        if i <? size / WB then rd elts i else Ok EERROR
      else Ok EERROR
    else Ok EERROR
  | _ => Ok EERROR
  end.

(* 861-874 the loop of fundamental_set_ix on a list *)
Fixpoint set_ix_loop (fuel : nat) (h : heap) (curr i ix v l : Z) : res (heap * Z) :=
  if is_cons_rw curr then
    match fuel with
    | O => Fuel
    | S k =>
      let! next := cdr h curr in
      if i =? ix then let! (h1, _) := set_car h curr v in Ok (h1, l)
      else if is_symbol_nil next then Ok (h, NIL)
      else set_ix_loop k h next (wrap W (i + 1)) ix v l
    end
  else Ok (h, TERROR).
(* 848-886 fundamental_set_ix *)
Definition set_ix (fuel : nat) (h : heap) (args : list Z) : res (heap * Z) :=
  match args with
  | [l; n; v] =>
    if is_number n then
      if is_list_rw l then
        let! pre := dec_as_i32 h n in
        let! pre := (if pre <? 0 then let! len := list_length fuel h l in Ok (sgn W len + pre) else Ok pre) in
        set_ix_loop fuel h l 0 (wrap W pre) v l
      else if is_lisp_array_rw l then
        let! i := dec_as_u32 h n in
        let! (a, (d, size, elts, x)) := lisp_array_of h l in
        if i <? size / WB then
          let! elts := wr elts i v in
          Ok (set_obj h a (Some (OLisp d size elts x)), l)
        else Ok (h, TERROR)
      else Ok (h, TERROR)
    else Ok (h, TERROR)
  | _ => Ok (h, TERROR)
  end.

(* 337-351 cossa_lookup; [ef] is the fuel of struct_eq *)
Fixpoint cossa_lookup (ef fuel : nat) (h : heap) (key curr : Z) : res Z :=
  if is_cons curr then
    match fuel with
    | O => Fuel
    | S n =>
      let! cl := ref_cell h curr in
      let c := fst cl in
      if is_cons c then
        let! kv := ref_cell h c in
        let! r := struct_eq ef h (snd kv) key in
        if r then Ok (fst kv) else cossa_lookup ef n h key (snd cl)
      else Ok EERROR
    end
  else Ok (enc_sym SYM_NO_MATCH).
(* 888-906 fundamental_assoc, 939-957 fundamental_cossa *)
Definition lookup_fun (look : Z -> Z -> res Z) (args : list Z) : res Z :=
  match args with
  | [l; k] =>
    if is_cons l then
      let! r := look k l in
      Ok (if is_symbol r && (r =? enc_sym SYM_NO_MATCH) then NIL else r)
    else if is_symbol l && (l =? NIL) then Ok l
    else Ok EERROR
  | _ => Ok EERROR
  end.
Definition assoc (ef fuel : nat) (h : heap) (args : list Z) : res Z := lookup_fun (assoc_lookup ef fuel h) args.
Definition cossa (ef fuel : nat) (h : heap) (args : list Z) : res Z := lookup_fun (cossa_lookup ef fuel h) args.
(* 908-924 fundamental_acons *)
Definition acons (h : heap) (args : list Z) : res (heap * Z) :=
  match args with
  | [k; v; l] =>
    let! (h1, keyval) := cons h k v in
    let! (h2, r) := cons h1 keyval l in
    if is_symbol keyval || is_symbol r then Ok (h2, MERROR) else Ok (h2, r)
  | [k; v] => cons h k v
  | _ => Ok (h, EERROR)
  end.
(* 926-937 fundamental_set_assoc *)
Definition set_assoc (fuel : nat) (h : heap) (args : list Z) : res (heap * Z) :=
  match args with
  | [l; k; v] => env_set_functional fuel h l k v
  | [l; p] =>
    if is_cons p then
      let! x := car h p in let! xs := cdr h p in env_set fuel h l x xs
    else Ok (h, EERROR)
  | _ => Ok (h, EERROR)
  end.

(* 1331-1338 fundamental_mkarray: lbm_heap_allocate_lisp_array stores the result *)
Definition mkarray (u : ust) (args : list Z) : res (ust * Z) :=
  match args with
  | [n] =>
    if is_number n then let! k := dec_as_u32 (uh u) n in alloc_array u false k
    else Ok (u, TERROR)
  | _ => Ok (u, TERROR)
  end.

(* 1350-1354 the loop of fundamental_array_to_list *)
Fixpoint to_list_loop (fuel : nat) (h : heap) (curr i : Z) (elts : list Z) : res heap :=
  if is_cons curr then
    match fuel with
    | O => Fuel
    | S k =>
      let! x := rd elts i in
      let! (h1, _) := set_car h curr x in
      let! d := cdr h1 curr in
      to_list_loop k h1 d (i + 1) elts
    end
  else Ok h.
(* 1340-1358 fundamental_array_to_list *)
Definition array_to_list (fuel : nat) (h : heap) (args : list Z) : res (heap * Z) :=
  match args with
  | [a] =>
    if is_lisp_array_r a then
      let! (_, (_, size, elts, _)) := lisp_array_of h a in
      let! (h1, r) := alloc_list h (size / WB) in
      if is_symbol r then Ok (h1, r)
      else let! h2 := to_list_loop fuel h1 r 0 elts in Ok (h2, r)
    else Ok (h, TERROR)
  | _ => Ok (h, TERROR)
  end.

(* 1372-1376 the loop of fundamental_list_to_array *)
Fixpoint to_array_loop (fuel : nat) (h : heap) (curr i : Z) (elts : list Z) : res (list Z) :=
  if is_cons curr then
    match fuel with
    | O => Fuel
    | S k =>
      let! x := car h curr in
      let! elts := wr elts i x in
      let! d := cdr h curr in
      to_array_loop k h d (i + 1) elts
    end
  else Ok elts.
(* 1360-1382 fundamental_list_to_array *)
Definition list_to_array (fuel : nat) (u : ust) (args : list Z) : res (ust * Z) :=
  match args with
  | [l] =>
    if is_list l then
      let! len := list_length fuel (uh u) l in
      if sgn W len >? 0 then
        let! (u1, r) := alloc_array u false len in
        if is_symbol r then Ok (u1, r)
        else
          let! (a, (d, size, elts, x)) := lisp_array_of (uh u1) r in
          let! elts := to_array_loop fuel (uh u1) l 0 elts in
          Ok (set_h u1 (set_obj (uh u1) a (Some (OLisp d size elts x))), r)
      else Ok (u, NIL)
    else Ok (u, TERROR)
  | _ => Ok (u, TERROR)
  end.

(* heap.c 332-380 lbm_dec_as_i64, lbm_dec_as_u64 and 258-281 lbm_dec_as_char, for
   integers; the conversion of a float is not modelled (here undefined) *)
Definition dec_as (w : Z -> Z) (h : heap) (a : Z) : res Z :=
  let t := type_of_functional a in
  if t =? TYPE_CHAR then Ok (w (dec_char a))
  else if t =? TYPE_I then Ok (w (dec_i a))
  else if t =? TYPE_U then Ok (w (dec_u a))
  else if t =? TYPE_I32 then let! x := payload32 h a in Ok (w (sgn 32 x))
  else if t =? TYPE_U32 then let! x := payload32 h a in Ok (w (wrap 32 x))
  else if t =? TYPE_I64 then let! x := payload64 h a in Ok (w (sgn 64 x))
  else if t =? TYPE_U64 then let! x := payload64 h a in Ok (w (wrap 64 x))
  else if (t =? TYPE_FLOAT) || (t =? TYPE_DOUBLE) then UB
  else Ok 0.
Definition dec_as_i64 := dec_as (sgn 64).
Definition dec_as_u64 := dec_as (wrap 64).
Definition dec_as_char := dec_as (wrap 8).

(* 978-1012, 1023-1039, 1050-1057 fundamental_to_i, to_i32, to_u, to_u32, to_i64, to_u64, to_byte; the
   encoders of boxed numbers take bit patterns *)
Inductive conversion := ToI | ToU | ToI32 | ToU32 | ToI64 | ToU64 | ToByte.
Definition convert (c : conversion) (u : ust) (args : list Z) : res (ust * Z) :=
  match args with
  | [a] =>
    let h := uh u in
    match c with
    | ToI => let! x := dec_as_i64 h a in Ok (u, enc_i (sgn W x))
    | ToI32 => let! x := dec_as_i32 h a in enc_i32 u (wrap 32 x)
    | ToU => let! x := dec_as_u64 h a in Ok (u, enc_u (wrap W x))
    | ToU32 => let! x := dec_as_u32 h a in enc_u32 u x
    | ToI64 => let! x := dec_as_i64 h a in enc_i64 u (wrap 64 x)
    | ToU64 => let! x := dec_as_u64 h a in enc_u64 u x
    | ToByte => let! x := dec_as_char h a in Ok (u, enc_char x)
    end
  | _ => Ok (u, EERROR)
  end.

End Arch.
