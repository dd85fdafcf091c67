(* src/extensions/string_extensions.c: the functions on strings.

   Simplifications.
   - str-from-n, str-to-i, str-to-f, to-str and to-str-delim (62-111, 189-224,
     476-541) are not modelled.
   - A pointer into a string is the list of the bytes from there to the end of its
     array.  Reading or writing outside of an array is undefined.
   - strcmp and strncmp may return any number of the right sign; it is 1 or -1 here.
   - The while loop 291-293 is one subtraction.
   - (int)lbm_dec_as_int (668) is lbm_dec_as_i32: the same for integers. *)
From Verif Require Import Base Value_Model Heap_Model GC_Model Eq_Model Flat_Model Read_Model ArrExt_Model.
Local Open Scope Z_scope.

(* is char signed?  toupper and tolower are undefined on negative characters
   other than EOF (C11 7.4) *)
Class Char := char_signed : bool.

Section Arch.
Context {A : Arch} {L : Libc} {C : Conv} {Ch : Char}.

(* 43-49 strlen_max *)
Fixpoint strlen_max (s : list Z) : Z :=
  match s with
  | [] => 0
  | x :: t => if x =? 0 then 0 else 1 + strlen_max t
  end.
(* 51-60 dec_str_size; the bytes *)
Definition dec_str_size (h : heap) (v : Z) : res (option (list Z)) :=
  let! r := is_array_r h v in
  if r then let! (_, bs) := array_of h v in Ok (Some bs) else Ok None.
(* heap.c 231-239 lbm_dec_str: None is NULL, also for an array without data *)
Definition dec_str (h : heap) (v : Z) : res (option (list Z)) :=
  let! r := is_array_r h v in
  if r then let! (p, bs) := array_of h v in Ok (if snd p =? 0 then None else Some bs) else Ok None.

(* lbm_create_array(size), then [fill] its bytes *)
Definition create_str (u : ust) (size : Z) (fill : list Z -> res (list Z)) : res (ust * Z) :=
  let! (u1, v) := alloc_array u true size in
  if v =? MERROR then Ok (u1, MERROR) else
  let! (p, bs) := array_of (uh u1) v in
  let! bs := fill bs in
  Ok (put_array u1 (fst p) (snd p) bs, v).
(* memcpy(data, src + start, n); data[n] = 0 *)
Definition copy_str (src : list Z) (start n : Z) (bs : list Z) : res (list Z) :=
  let! bs := memcpy false bs 0 src start n in wr bs n 0.

(* 114-187 ext_str_join: the first loop; None: not a string *)
Fixpoint join_count (fuel : nat) (h : heap) (cur len count : Z) : res (option (Z * Z)) :=
  if is_cons cur then
    match fuel with
    | O => Fuel
    | S k =>
      let! v := car h cur in
      let! o := dec_str_size h v in
      match o with
      | Some s => let! next := cdr h cur in join_count k h next (wrap W (len + strlen_max s)) (wrap W (count + 1))
      | None => Ok None
      end
    end
  else Ok (Some (len, count)).
(* the second loop *)
Fixpoint join_copy (fuel : nat) (h : heap) (cur i count offset : Z) (delim : list Z) (bs : list Z) : res (list Z) :=
  if is_cons cur then
    match fuel with
    | O => Fuel
    | S k =>
      let! v := car h cur in
      let! (_, s) := array_of h v in
      let len := strlen_max s in
      let! bs := memcpy false bs offset s 0 len in
      let offset := wrap W (offset + len) in
      let dlen := Z.of_nat (length delim) in
      let! (bs, offset) :=
        (if i =? wrap W (count - 1) then Ok (bs, offset)
         else let! bs := memcpy false bs offset delim 0 dlen in Ok (bs, wrap W (offset + dlen))) in
      let! next := cdr h cur in
      join_copy k h next (wrap W (i + 1)) count offset delim bs
    end
  else Ok bs.
Definition str_join (fuel : nat) (u : ust) (args : list Z) : res (ust * Z) :=
  let argn := Z.of_nat (length args) in
  let h := uh u in
  if (argn =? 1) || (argn =? 2) then
    let! a0 := arg args 0 in
    if negb (is_list a0) then Ok (u, TERROR) else
    let! o := join_count fuel h a0 0 0 in
    match o with
    | None => Ok (u, TERROR)
    | Some (len, count) =>
      let! d := (if 2 <=? argn then let! a1 := arg args 1 in dec_str h a1 else Ok (Some [0])) in
      match d with
      | None => Ok (u, TERROR)
      | Some d =>
        let! delim := c_string d in
        let len := if 0 <? count then wrap W (len + wrap W (wrap W (count - 1) * Z.of_nat (length delim))) else len in
        create_str u (wrap W (len + 1)) (fun bs =>
          let! bs := join_copy fuel h a0 0 count 0 delim bs in wr bs len 0)
      end
    end
  else Ok (u, EERROR).

(* 226-264 ext_str_part *)
Definition str_part (u : ust) (args : list Z) : res (ust * Z) :=
  let argn := Z.of_nat (length args) in
  let h := uh u in
  if (argn =? 2) || (argn =? 3) then
    let! a1 := arg args 1 in
    if negb (is_number a1) then Ok (u, TERROR) else
    let! a0 := arg args 0 in
    let! o := dec_str_size h a0 in
    match o with
    | None => Ok (u, TERROR)
    | Some s =>
      let len := wrap 32 (strlen_max s) in
      let! start := dec_as_u32 h a1 in
      if start >=? len then Ok (u, EERROR) else
      let part n := create_str u (wrap 32 (n + 1)) (copy_str s start n) in
      let n := wrap 32 (len - start) in
      if argn =? 3 then
        let! a2 := arg args 2 in
        if negb (is_number a2) then Ok (u, TERROR) else
        let! m := dec_as_u32 h a2 in
        part (if m <? n then m else n)
      else part n
    end
  else Ok (u, TERROR).

(* 266-328 ext_str_split.  280-305: pieces of the same size, from the last to the
   first; [i]: the index of the loop *)
Fixpoint split_size (i : nat) (u : ust) (s : list Z) (step len r : Z) : res (ust * Z) :=
  let ind := Z.of_nat i * step in
  let next u r := match i with O => Ok (u, r) | S k => split_size k u s step len r end in
  if ind >=? len then next u r else
  if ind + step >=? 2 ^ 31 then UB else
  let now := if ind + step >? len then len - ind else step in
  let! (u, tok) := create_str u (wrap W (now + 1)) (copy_str s ind now) in
  if tok =? MERROR then Ok (u, MERROR) else
  let! (h, r) := cons (uh u) tok r in
  next (set_h u h) r.
(* strspn, strcspn: how many characters at the start of [s] are in [set], or not *)
Fixpoint strspn (inside : bool) (set s : list Z) : res Z :=
  match s with
  | [] => UB
  | x :: t =>
    if x =? 0 then Ok 0
    else if Bool.eqb (existsb (Z.eqb x) set) inside then let! n := strspn inside set t in Ok (1 + n)
    else Ok 0
  end.
(* 310-326: pieces between the characters of [set] *)
Fixpoint split_chars (fuel : nat) (u : ust) (set s : list Z) (r : Z) : res (ust * Z) :=
  match fuel with
  | O => Fuel
  | S k =>
    let! n := strspn true set s in
    let s := skipn (Z.to_nat n) s in
    let! c := rd s 0 in
    if c =? 0 then Ok (u, r) else
    let! len := strspn false set s in
    let! (u, tok) := create_str u (wrap W (len + 1)) (copy_str s 0 len) in
    if tok =? MERROR then Ok (u, MERROR) else
    let! (h, r) := cons (uh u) tok r in
    split_chars k (set_h u h) set (skipn (Z.to_nat len) s) r
  end.
Definition str_split (fuel : nat) (u : ust) (args : list Z) : res (ust * Z) :=
  let h := uh u in
  if Z.of_nat (length args) =? 2 then
    let! a0 := arg args 0 in let! a1 := arg args 1 in
    let! o := dec_str_size h a0 in
    match o with
    | None => Ok (u, TERROR)
    | Some s =>
      let! d := dec_str h a1 in
      match d with
      | None =>
        if is_number a1 then
          let! x := dec_as_i32 h a1 in
          let step := if x >? 1 then x else 1 in
          let len := sgn 32 (strlen_max s) in
          split_size (Z.to_nat (len / step)) u s step len NIL
        else Ok (u, TERROR)
      | Some d =>
        let! set := c_string d in
        let! (u, r) := split_chars fuel u set s NIL in
        if r =? MERROR then Ok (u, MERROR) else
        let! (h, r) := list_destructive_reverse fuel (uh u) r in
        Ok (set_h u h, r)
      end
    end
  else Ok (u, EERROR).

(* strstr on the characters of two strings: where [r] first occurs in [s] *)
Fixpoint prefix (r s : list Z) : bool :=
  match r, s with
  | [], _ => true
  | x :: r, y :: s => (x =? y) && prefix r s
  | _, [] => false
  end.
Fixpoint strstr (r s : list Z) : option Z :=
  if prefix r s then Some 0 else
  match s with
  | [] => None
  | _ :: t => match strstr r t with Some n => Some (1 + n) | None => None end
  end.
(* 331-403 ext_str_replace: the count *)
Fixpoint count_subs (fuel : nat) (r s : list Z) : res Z :=
  match fuel with
  | O => Fuel
  | S k =>
    match strstr r s with
    | Some n => let! c := count_subs k r (skipn (Z.to_nat n + length r) s) in Ok (1 + c)
    | None => Ok 0
    end
  end.
(* 393-400: [tmp]: the offset in the result *)
Fixpoint replace_loop (count : nat) (r wth s bs : list Z) (tmp : Z) : res (list Z) :=
  match count with
  | O => memcpy false bs tmp (s ++ [0]) 0 (Z.of_nat (length s) + 1)
  | S k =>
    match strstr r s with
    | Some n =>
      let! bs := memcpy false bs tmp s 0 n in
      let tmp := tmp + n in
      let! bs := memcpy false bs tmp wth 0 (Z.of_nat (length wth)) in
      let tmp := tmp + Z.of_nat (length wth) in
      replace_loop k r wth (skipn (Z.to_nat n + length r) s) bs tmp
    | None => UB
    end
  end.
Definition str_replace (u : ust) (args : list Z) : res (ust * Z) :=
  let argn := Z.of_nat (length args) in
  let h := uh u in
  if (argn =? 2) || (argn =? 3) then
    let! a0 := arg args 0 in let! a1 := arg args 1 in
    let! o := dec_str_size h a0 in
    match o with
    | None => Ok (u, TERROR)
    | Some orig =>
      let! o := dec_str_size h a1 in
      match o with
      | None => Ok (u, TERROR)
      | Some rep =>
        let! o := (if argn =? 3 then let! a2 := arg args 2 in dec_str_size h a2 else Ok (Some [])) in
        match o with
        | None => Ok (u, TERROR)
        | Some wth =>
          let len_rep := strlen_max rep in
          if len_rep =? 0 then Ok (u, a0) else
          let wth := firstn (Z.to_nat (strlen_max wth)) wth in
          let! s := c_string orig in
          let! r := c_string rep in
          let! count := count_subs (S (length s)) r s in
          let len_res := wrap W (strlen_max orig + wrap W (Z.of_nat (length wth) - len_rep) * count + 1) in
          create_str u len_res (fun bs => replace_loop (Z.to_nat count) r wth s bs 0)
        end
      end
    end
  else Ok (u, EERROR).

(* toupper, tolower in the C locale on the char [x] *)
Definition convert (up : bool) (x : Z) : Z :=
  if up then if (97 <=? x) && (x <=? 122) then x - 32 else x
  else if (65 <=? x) && (x <=? 90) then x + 32 else x.
Definition ctype (up : bool) (x : Z) : res Z :=
  if char_signed && (128 <=? x) && (x <? 255) then UB else Ok (convert up x).
(* 405-433 change_case: the loop; [n] characters to go *)
Fixpoint case_loop (up : bool) (n : nat) (s : list Z) (i : Z) (bs : list Z) : res (list Z) :=
  match n with
  | O => wr bs i 0
  | S k => let! x := rd s i in let! x := ctype up x in let! bs := wr bs i x in case_loop up k s (i + 1) bs
  end.
Definition change_case (up : bool) (u : ust) (args : list Z) : res (ust * Z) :=
  if Z.of_nat (length args) =? 1 then
    let! a0 := arg args 0 in
    let! o := dec_str_size (uh u) a0 in
    match o with
    | None => Ok (u, TERROR)
    | Some s => let len := strlen_max s in create_str u (wrap W (len + 1)) (case_loop up (Z.to_nat len) s 0)
    end
  else Ok (u, EERROR).

(* strncmp, strcmp; characters are compared as unsigned char *)
Fixpoint strncmp (n : nat) (a b : list Z) : res Z :=
  match n with
  | O => Ok 0
  | S n =>
    match a, b with
    | x :: a, y :: b => if x =? y then if x =? 0 then Ok 0 else strncmp n a b else Ok (if x <? y then -1 else 1)
    | _, _ => UB
    end
  end.
Definition strcmp (a b : list Z) : res Z := strncmp (S (length a)) a b.
(* 443-473 ext_str_cmp *)
Definition str_cmp (u : ust) (args : list Z) : res (ust * Z) :=
  let argn := Z.of_nat (length args) in
  let h := uh u in
  if (argn =? 2) || (argn =? 3) then
    let! a0 := arg args 0 in let! a1 := arg args 1 in
    let! o := dec_str h a0 in
    match o with
    | None => Ok (u, TERROR)
    | Some s1 =>
      let! o := dec_str h a1 in
      match o with
      | None => Ok (u, TERROR)
      | Some s2 =>
        let compare n := (let! x := (if n >? 0 then strncmp (Z.to_nat n) s1 s2 else strcmp s1 s2) in Ok (u, enc_i x)) in
        if argn =? 3 then
          let! a2 := arg args 2 in
          if negb (is_number a2) then Ok (u, TERROR) else
          let! n := dec_as_i32 h a2 in compare n
        else compare (-1)
      end
    end
  else Ok (u, EERROR).

(* 543-553 ext_str_len *)
Definition str_len (u : ust) (args : list Z) : res (ust * Z) :=
  if Z.of_nat (length args) =? 1 then
    let! a0 := arg args 0 in
    let! o := dec_str_size (uh u) a0 in
    match o with
    | None => Ok (u, TERROR)
    | Some s => Ok (u, enc_i (sgn 32 (strlen_max s)))
    end
  else Ok (u, EERROR).

(* 555-581 ext_str_replicate; heap.c 258-281 lbm_dec_as_char of an integer is the
   low byte of lbm_dec_as_u32 *)
Definition str_replicate (u : ust) (args : list Z) : res (ust * Z) :=
  let h := uh u in
  if Z.of_nat (length args) =? 2 then
    let! a0 := arg args 0 in let! a1 := arg args 1 in
    if is_number a0 && is_number a1 then
      let! len := dec_as_u32 h a0 in
      let! c := dec_as_u32 h a1 in
      create_str u (wrap 32 (len + 1)) (fun bs => let! bs := memset bs 0 (wrap 8 c) len in wr bs len 0)
    else Ok (u, TERROR)
  else Ok (u, EERROR).

(* memcmp(a, b, n) == 0 *)
Definition memcmp (a b : list Z) (n : Z) : res bool :=
  if (n <=? Z.of_nat (length a)) && (n <=? Z.of_nat (length b)) then
    Ok (if list_eq_dec Z.eq_dec (firstn (Z.to_nat n) a) (firstn (Z.to_nat n) b) then true else false)
  else UB.
(* 583-592 ci_strncmp *)
Fixpoint ci_strncmp (n : nat) (a b : list Z) : res bool :=
  match n with
  | O => Ok true
  | S n =>
    match a, b with
    | x :: a, y :: b => let! x := ctype false x in let! y := ctype false y in if x =? y then ci_strncmp n a b else Ok false
    | _, _ => UB
    end
  end.

Definition INT_MAX : Z := 2 ^ (W - 1) - 1.
Definition sint (x : Z) : res Z := if (- 2 ^ (W - 1) <=? x) && (x <=? INT_MAX) then Ok x else UB.
(* 599-727 ext_str_find.  631-649: the length of the shortest of the strings; None:
   not all are strings *)
Fixpoint find_min (fuel : nat) (h : heap) (cur m : Z) : res (option Z) :=
  if is_cons cur then
    match fuel with
    | O => Fuel
    | S k =>
      let! v := car h cur in
      let! r := is_array_r h v in
      if negb r then Ok None else
      let! (_, s) := array_of h v in
      let len := Z.of_nat (length s) - 1 in
      let! next := cdr h cur in
      find_min k h next (if (0 <=? len) && (len <? m) then len else m)
    end
  else Ok (Some m).
(* 665-678: start, occurrence, direction, case *)
Fixpoint find_opts (left nocase : Z) (h : heap) (args : list Z) (nums : list Z) (right cs : bool) : res (list Z * bool * bool) :=
  match args with
  | [] => Ok (nums, right, cs)
  | a :: t =>
    let! nums := (if is_number a && (Z.of_nat (length nums) <? 2) then let! x := dec_as_i32 h a in Ok (nums ++ [x]) else Ok nums) in
    if is_symbol a then
      if dec_sym a =? left then find_opts left nocase h t nums false cs
      else if dec_sym a =? nocase then find_opts left nocase h t nums right false
      else find_opts left nocase h t nums right cs
    else find_opts left nocase h t nums right cs
  end.
(* 704-723 at the position [i]: found, or the occurrences to go *)
Fixpoint find_at (fuel : nat) (h : heap) (str : list Z) (cs : bool) (i cur occ : Z) : res (option Z) :=
  if is_cons cur then
    match fuel with
    | O => Fuel
    | S k =>
      let! v := car h cur in
      let! (_, s) := array_of h v in
      let len := Z.of_nat (length s) - 1 in
      let! next := cdr h cur in
      if (i >? Z.of_nat (length str) - len) || (len <? 0) then find_at k h str cs i next occ else
      if i <? 0 then UB else
      let here := skipn (Z.to_nat i) str in
      let! b := (if cs then memcmp here s len else ci_strncmp (Z.to_nat len) here s) in
      if b then if occ =? 0 then Ok None else find_at k h str cs i next (wrap 32 (occ - 1))
      else find_at k h str cs i next occ
    end
  else Ok (Some occ).
Fixpoint find_loop (fuel lfuel : nat) (h : heap) (str : list Z) (right cs : bool) (m subs i occ : Z) : res Z :=
  if (if right then i <=? Z.of_nat (length str) - m else 0 <=? i) then
    match fuel with
    | O => Fuel
    | S k =>
      let! o := find_at lfuel h str cs i subs occ in
      match o with
      | None => Ok i
      | Some occ => find_loop k lfuel h str right cs m subs (if right then i + 1 else i - 1) occ
      end
    end
  else Ok (-1).
Definition str_find (left nocase : Z) (fuel : nat) (u : ust) (args : list Z) : res (ust * Z) :=
  let argn := Z.of_nat (length args) in
  if (argn <? 2) || (6 <? argn) then Ok (u, EERROR) else
  let! a0 := arg args 0 in
  let! r := is_array_r (uh u) a0 in
  if negb r then Ok (u, TERROR) else
  let! (_, str) := array_of (uh u) a0 in
  let size := Z.of_nat (length str) in
  let search u subs m := (
    let! (o, cs) := find_opts left nocase (uh u) args [] true true in
    let nums := fst o in let right := snd o in
    let start := (match nums with x :: _ => x | [] => if right then 0 else size - m end) in
    let occ := (match nums with _ :: y :: _ => wrap 32 y | _ => 0 end) in
    let! start := (if start <? 0 then sint (size - 1 + start) else Ok start) in
    let start := (if negb right && (start >? size - m) then size - m else if right && (start <? 0) then 0 else start) in
    let! i := find_loop (S (S (length str))) fuel (uh u) str right cs m subs start occ in
    Ok (u, enc_i i)) in
  let! a1 := arg args 1 in
  let! r := is_array_r (uh u) a1 in
  if r then
    let! (h, subs) := cons (uh u) a1 NIL in
    let u := set_h u h in
    if subs =? MERROR then Ok (u, MERROR) else
    let! (_, s) := array_of (uh u) a1 in
    let len := Z.of_nat (length s) - 1 in
    if len <? 0 then Ok (u, enc_i (-1)) else search u subs len
  else if is_list a1 then
    let! m := find_min fuel (uh u) a1 INT_MAX in
    match m with
    | None => Ok (u, TERROR)
    | Some m => search u a1 m
    end
  else Ok (u, TERROR).

End Arch.
