(* Expansion of quasi-quoted forms by the reader: src/eval_cps.c 4773-4953.

   Simplifications.  A continuation on the context's stack (its code word and
   the words that belong to it) is one [frame]; stack overflow is not modelled.
   error_ctx, which leaves the evaluator by longjmp, is the outcome [None].
   cons_with_gc (444-467) collects garbage when no cell is free and raises
   out_of_memory when that does not help; here it raises the error at once, and
   the theorems ask for enough free cells.  The loop of lbm_list_append takes
   fuel, and so does the running of the continuations. *)
From Verif Require Import Base Value_Model Heap_Model Match_Model.
Local Open Scope Z_scope.

(* lbm_defines.h 209, 210, 229, 292, 293, 378: SYM_COMMA, SYM_COMMAAT, SYM_QUOTE, SYM_LIST, SYM_APPEND, SPECIAL_SYMBOLS_END *)
Definition SYM_COMMA := 0x73.
Definition SYM_COMMAAT := 0x74.
Definition SYM_QUOTE := 0x100.
Definition SYM_LIST := 0x20014.
Definition SYM_APPEND := 0x20015.
Definition SPECIAL_SYMBOLS_END := 0xFFFF.

(* a step that may raise an error *)
Notation "'let?' x := m 'in' k" := (let! o := m in match o with None => Ok None | Some x => k end)
  (at level 200, x name, m at level 100, k at level 200, right associativity).
Notation "'let?' ' p := m 'in' k" := (let! o := m in match o with None => Ok None | Some p => k end)
  (at level 200, p pattern, m at level 100, k at level 200, right associativity).

Section Arch.
Context {A : Arch}.

(* lbm_defines.h 451-533: ENC_SYM_COMMA, ENC_SYM_COMMAAT, ENC_SYM_QUOTE, ENC_SYM_LIST,
   ENC_SYM_APPEND *)
Definition COMMA : Z := enc_sym SYM_COMMA.
Definition COMMAAT : Z := enc_sym SYM_COMMAAT.
Definition QUOTE : Z := enc_sym SYM_QUOTE.
Definition LIST : Z := enc_sym SYM_LIST.
Definition APPEND : Z := enc_sym SYM_APPEND.

(* heap.h 888-891 lbm_is_special *)
Definition is_special (s : Z) : bool :=
  (type_of s =? TYPE_SYMBOL) && (dec_sym s <? SPECIAL_SYMBOLS_END).

(* heap.h 948-954 lbm_is_quoted_list *)
Definition is_quoted_list (h : heap) (x : Z) : res bool :=
  if is_cons x then
    let! a := car h x in
    if is_symbol a && (a =? QUOTE) then
      let! d := cdr h x in
      if is_cons d then let! e := car h d in Ok (is_cons e) else Ok false
    else Ok false
  else Ok false.

(* 444-467 cons_with_gc, without the collection *)
Definition consg (h : heap) (a d : Z) : res (option (heap * Z)) :=
  if is_symbol_nil (freelist h) then Ok None
  else let! r := cons h a d in Ok (Some r).

(* 4781-4787 quote_it *)
Definition quote_it (h : heap) (q : Z) : res (option (heap * Z)) :=
  if is_symbol q && is_special q then Ok (Some (h, q))
  else
    let? '(h1, val) := consg h q NIL in
    consg h1 QUOTE val.

(* 4789-4793 is_append *)
Definition is_append (h : heap) (a : Z) : res (option bool) :=
  if is_cons a then
    let? c := get_car h a in
    Ok (Some (is_symbol c && (c =? APPEND)))
  else Ok (Some false).

(* 4795-4829 append *)
Definition qappend (fuel : nat) (h : heap) (front back : Z) : res (option (heap * Z)) :=
  if is_symbol_nil front then Ok (Some (h, back))
  else if is_symbol_nil back then Ok (Some (h, front))
  else
    let! qf := is_quoted_list h front in
    let! qb := (if qf then is_quoted_list h back else Ok false) in
    if qb then
      let? f := get_cadr h front in
      let? b := get_cadr h back in
      let! r := list_append fuel h f b in
      quote_it (fst r) (snd r)
    else
      let? ab := is_append h back in
      if ab then
        let? ql := get_cadr h back in
        let! q1 := is_quoted_list h ql in
        let! q2 := (if q1 then is_quoted_list h front else Ok false) in
        if q2 then
          let? f := get_cadr h front in
          let? b := get_cadr h ql in
          let! r := list_append fuel h f b in
          let? c := get_cdr (fst r) ql in
          let! s := set_car (fst r) c (snd r) in
          Ok (Some (fst s, back))
        else
          let? rest := get_cdr h back in
          let? '(h1, new) := consg h front rest in
          consg h1 APPEND new
      else
        let? '(h1, t0) := consg h back NIL in
        let? '(h2, t1) := consg h1 front t0 in
        consg h2 APPEND t1.

(* the continuations QQ_EXPAND_START, QQ_EXPAND, QQ_APPEND, QQ_EXPAND_LIST and
   QQ_LIST with their words *)
Inductive frame := FStart | FExpand (x : Z) | FAppend (head : Z) | FExpandList (l : Z) | FList.

(* 4773-4779 cont_qq_expand_start, 4846-4880 cont_qq_expand, 4882-4887
   cont_qq_append, 4906-4945 cont_qq_expand_list, 4947-4953 cont_qq_list; [r]
   is the context's register.  [f] is the fuel of lbm_list_append. *)
Definition qq_step (f : nat) (h : heap) (fr : frame) (K : list frame) (r : Z) : res (option (heap * list frame * Z)) :=
  match fr with
  | FStart => Ok (Some (h, FExpand r :: K, NIL))
  | FExpand q =>
    if type_of q =? TYPE_CONS then
      let? car_val := get_car h q in
      let? cdr_val := get_cdr h q in
      if (type_of car_val =? TYPE_SYMBOL) && (car_val =? COMMA) then
        let? e := get_car h cdr_val in
        let? '(h1, r1) := qappend f h r e in
        Ok (Some (h1, K, r1))
      else if (type_of car_val =? TYPE_SYMBOL) && (car_val =? COMMAAT) then Ok None
      else Ok (Some (h, FExpandList car_val :: FExpand cdr_val :: FAppend r :: K, NIL))
    else
      let? '(h1, q1) := quote_it h q in
      let? '(h2, r1) := qappend f h1 r q1 in
      Ok (Some (h2, K, r1))
  | FAppend head =>
    let? '(h1, r1) := qappend f h head r in
    Ok (Some (h1, K, r1))
  | FExpandList l =>
    if type_of l =? TYPE_CONS then
      let? car_val := get_car h l in
      let? cdr_val := get_cdr h l in
      if (type_of car_val =? TYPE_SYMBOL) && (car_val =? COMMA) then
        let? e := get_car h cdr_val in
        let? '(h1, tl) := consg h e NIL in
        let? '(h2, tmp) := consg h1 LIST tl in
        let? '(h3, r1) := qappend f h2 r tmp in
        Ok (Some (h3, K, r1))
      else if (type_of car_val =? TYPE_SYMBOL) && (car_val =? COMMAAT) then
        let? e := get_car h cdr_val in
        Ok (Some (h, K, e))
      else Ok (Some (h, FExpandList car_val :: FExpand cdr_val :: FAppend r :: FList :: K, NIL))
    else
      let? '(h1, a_list) := consg h l NIL in
      let? '(h2, tl) := consg h1 a_list NIL in
      let? '(h3, tmp) := consg h2 QUOTE tl in
      let? '(h4, r1) := qappend f h3 r tmp in
      Ok (Some (h4, K, r1))
  | FList =>
    let? '(h1, apnd_app) := consg h r NIL in
    let? '(h2, tmp) := consg h1 LIST apnd_app in
    Ok (Some (h2, K, tmp))
  end.

(* the continuations run until none of them is left: the loop of evaluation_step,
   5164-5183, while ctx->app_cont is set *)
Fixpoint qq_run (fuel f : nat) (h : heap) (K : list frame) (r : Z) : res (option (heap * Z)) :=
  match K with
  | [] => Ok (Some (h, r))
  | fr :: K' =>
    match fuel with
    | O => Fuel
    | S k =>
      let? '(h1, K1, r1) := qq_step f h fr K' r in
      qq_run k f h1 K1 r1
    end
  end.

(* what the reader does with the form [v] that follows a back quote: 3838-3845
   leaves QQ_EXPAND_START on the stack, which runs when the form has been read into r *)
Definition qq_expand (fuel f : nat) (h : heap) (v : Z) : res (option (heap * Z)) :=
  qq_run fuel f h [FStart] v.

End Arch.
