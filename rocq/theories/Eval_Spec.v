(* A reference interpreter for the modelled part of the language.  It knows
   nothing about words, cells or continuations: expressions and values are trees,
   a variable is a location in a store, and recursion is recursion. *)
From Coq Require Import List ZArith Bool.
Import ListNotations.
Local Open Scope Z_scope.

(* local environments: the innermost binding first; a binding is the number of a
   symbol and a location *)
Notation renv := (list (Z * nat)) (only parsing).

Inductive val :=
| VSym (id : Z)                               (* a symbol, by its number *)
| VAtom (w : Z)                               (* any other value that is not a pair *)
| VC (a d : val)                              (* a pair *)
| VClo (ps body : val) (env : renv).          (* a closure *)

Definition VNil := VSym 0.
Definition VTrue := VSym 2.
Definition vlist (vs : list val) : val := fold_right VC VNil vs.

(* the store; a location without a value belongs to a variable that is being
   bound.  The global environment: the latest definition first *)
Record rstate := mkS { sto : list (option val); glo : renv }.

Definition put {T} (l : list T) (n : nat) (x : T) : list T := firstn n l ++ x :: skipn (S n) l.

Definition alloc (s : rstate) (x : option val) : rstate * nat :=
  (mkS (sto s ++ [x]) (glo s), length (sto s)).
Definition assign (s : rstate) (l : nat) (v : val) : rstate := mkS (put (sto s) l (Some v)) (glo s).
Definition content (s : rstate) (l : nat) : option val :=
  match nth_error (sto s) l with Some (Some v) => Some v | _ => None end.

(* the first binding of [x] *)
Fixpoint find (x : Z) (e : renv) : option nat :=
  match e with
  | [] => None
  | (k, l) :: e' => if k =? x then Some l else find x e'
  end.

(* the value of a local variable: its first binding that has a value *)
Fixpoint local (s : rstate) (x : Z) (e : renv) : option val :=
  match e with
  | [] => None
  | (k, l) :: e' =>
    if k =? x then match content s l with Some v => Some v | None => local s x e' end
    else local s x e'
  end.

Definition global (s : rstate) (x : Z) : option val :=
  match find x (glo s) with Some l => content s l | None => None end.

(* symbols that can be variables: those made by programs *)
Definition variable (x : Z) : bool := 0x40000 <=? x.

(* the symbol out_of_memory *)
Definition out_of_memory (v : val) : bool := match v with VSym k => k =? 0x23 | _ => false end.

(* setq and setvar.  That the symbol out_of_memory cannot be assigned is a defect
   of the evaluator: see C65. *)
Definition setvar (s : rstate) (e : renv) (x : Z) (v : val) : option rstate :=
  if variable x && negb (out_of_memory v) then
    match find x e with
    | Some l => Some (assign s l v)
    | None => match find x (glo s) with Some l => Some (assign s l v) | None => None end
    end
  else None.

(* define *)
Definition define (s : rstate) (x : Z) (v : val) : rstate :=
  match find x (glo s) with
  | Some l => assign s l v
  | None => let (s1, l) := alloc s (Some v) in mkS (sto s1) ((x, l) :: glo s1)
  end.

(* patterns on the left of a binding: nil and _ bind nothing *)
Definition binds_nothing (x : Z) : bool := (x =? 0) || (x =? 9).

(* make the variables of a pattern, without values *)
Fixpoint pat_alloc (s : rstate) (e : renv) (p : val) : option (rstate * renv) :=
  match p with
  | VSym x =>
    if binds_nothing x then Some (s, e)
    else if variable x then let (s1, l) := alloc s None in Some (s1, (x, l) :: e)
    else None
  | VC a d =>
    match pat_alloc s e a with
    | Some (s1, e1) => pat_alloc s1 e1 d
    | None => None
    end
  | _ => None
  end.

(* give them values *)
Fixpoint pat_fill (s : rstate) (e : renv) (p v : val) : option rstate :=
  match p with
  | VSym x =>
    if binds_nothing x then Some s
    else if variable x then match find x e with Some l => Some (assign s l v) | None => None end
    else None
  | VC a d =>
    match v with
    | VC x y =>
      match pat_fill s e a x with
      | Some s1 => pat_fill s1 e d y
      | None => None
      end
    | _ => None
    end
  | _ => None
  end.

Definition nilp (v : val) : bool := match v with VSym x => x =? 0 | _ => false end.
Definition end_of_list (v : val) : bool := match v with VSym _ | VAtom _ => true | _ => false end.

(* make the variables of the bindings of a let *)
Fixpoint let_alloc (s : rstate) (e : renv) (bs : val) : option (rstate * renv) :=
  match bs with
  | VC (VC p (VC _ _)) rest =>
    match pat_alloc s e p with
    | Some (s1, e1) => let_alloc s1 e1 rest
    | None => None
    end
  | _ => if end_of_list bs then Some (s, e) else None
  end.

(* the pattern and the expression of (var p e) *)
Definition var_form (x : val) : option (val * val) :=
  match x with
  | VC (VSym k) (VC p (VC x1 _)) => if k =? 0x112 then Some (p, x1) else None
  | _ => None
  end.

(* the parameters and the body of (macro ps body) *)
Definition macro_form (x : val) : option (val * val) :=
  match x with
  | VC (VSym k) (VC ps (VC body _)) => if k =? 0x10D then Some (ps, body) else None
  | _ => None
  end.

Section Eval.

(* what a function of the runtime system, known by its symbol, computes *)
Variable prims : Z -> list val -> option val.

Section Forms.

(* the evaluation of subexpressions: value, state, and words of stack needed *)
Variable ev : rstate -> renv -> val -> option (val * rstate * nat).

(* (progn e1 ... en); a (var p e) that is not last binds in what follows *)
Fixpoint progn (s : rstate) (e : renv) (es : val) : option (val * rstate * nat) :=
  match es with
  | VSym x => if x =? 0 then Some (VNil, s, 0%nat) else None
  | VC x rest =>
    match rest with
    | VC _ _ =>
      match var_form x with
      | Some (p, x1) =>
        match pat_alloc s e p with
        | Some (s1, e1) =>
          match ev s1 e1 x1 with
          | Some (v, s2, d) =>
            match pat_fill s2 e1 p v with
            | Some s3 =>
              match progn s3 e1 rest with
              | Some (u, s4, d') => Some (u, s4, max (7 + d) d')
              | None => None
              end
            | None => None
            end
          | None => None
          end
        | None => None
        end
      | None =>
        match ev s e x with
        | Some (_, s1, d) =>
          match progn s1 e rest with
          | Some (u, s2, d') => Some (u, s2, max (4 + d) d')
          | None => None
          end
        | None => None
        end
      end
    | VClo _ _ _ => None
    | _ => ev s e x
    end
  | _ => None
  end.

(* (and e1 ... en): [stop] is when the value is nil; (or e1 ... en): when it is
   not *)
Fixpoint andor (stop : val -> bool) (s : rstate) (e : renv) (es : val) : option (val * rstate * nat) :=
  match es with
  | VC x rest =>
    match ev s e x with
    | Some (v, s1, d) =>
      if stop v || nilp rest then Some (v, s1, 3 + d)%nat
      else
        match andor stop s1 e rest with
        | Some (u, s2, d') => Some (u, s2, max (3 + d) d')
        | None => None
        end
    | None => None
    end
  | _ => None
  end.

(* the values of the bindings of a let *)
Fixpoint let_fill (s : rstate) (e : renv) (bs : val) : option (rstate * nat) :=
  match bs with
  | VC (VC p (VC x _)) rest =>
    match ev s e x with
    | Some (v, s1, d) =>
      match pat_fill s1 e p v with
      | Some s2 =>
        match let_fill s2 e rest with
        | Some (s3, d') => Some (s3, max (5 + d) d')
        | None => None
        end
      | None => None
      end
    | None => None
    end
  | _ => if end_of_list bs then Some (s, 0%nat) else None
  end.

(* the arguments of a function of the runtime system; [i] have been evaluated *)
Fixpoint args (i : nat) (s : rstate) (e : renv) (es : val) : option (list val * rstate * nat) :=
  match es with
  | VC x rest =>
    match ev s e x with
    | Some (v, s1, d) =>
      match args (S i) s1 e rest with
      | Some (vs, s2, d') => Some (v :: vs, s2, max (5 + i + d) d')
      | None => None
      end
    | None => None
    end
  | _ => if end_of_list es then Some ([], s, 3%nat) else None
  end.

(* the arguments beyond the last parameter of a closure *)
Fixpoint rest_args (s : rstate) (e : renv) (es : val) : option (list val * rstate * nat) :=
  match es with
  | VC x rest =>
    match ev s e x with
    | Some (v, s1, d) =>
      match rest_args s1 e rest with
      | Some (vs, s2, d') => Some (v :: vs, s2, max (6 + d) d')
      | None => None
      end
    | None => None
    end
  | _ => if nilp es then Some ([], s, 6%nat) else None
  end.

(* bind the parameters [ps] of a closure, whose environment is [ce], to the values
   of the arguments [es]; further arguments go, as a list, to rest-args *)
Fixpoint params (s : rstate) (e ce : renv) (ps es : val) : option (renv * rstate * nat) :=
  match ps with
  | VSym x =>
    if x =? 0 then
      if nilp es then Some (ce, s, 6%nat)
      else
        match rest_args s e es with
        | Some (vs, s1, d) => let (s2, l) := alloc s1 (Some (vlist vs)) in Some ((0x30015, l) :: ce, s2, d)
        | None => None
        end
    else None
  | VC (VSym x) ps1 =>
    if variable x then
      match es with
      | VC y es1 =>
        match ev s e y with
        | Some (v, s1, d) =>
          let (s2, l) := alloc s1 (Some v) in
          match params s2 e ((x, l) :: ce) ps1 es1 with
          | Some (ce', s3, d') => Some (ce', s3, max (6 + d) d')
          | None => None
          end
        | None => None
        end
      | _ => None
      end
    else None
  | _ => None
  end.

(* bind the parameters of a macro to the arguments as they are *)
Fixpoint macro_params (s : rstate) (e : renv) (ps es : val) : option (rstate * renv) :=
  match ps with
  | VC x ps1 =>
    match es with
    | VC y es1 =>
      match x with
      | VSym k =>
        if variable k then
          let (s1, l) := alloc s (Some y) in macro_params s1 ((k, l) :: e) ps1 es1
        else None
      | _ => None
      end
    | VClo _ _ _ => None
    | _ => Some (s, e)
    end
  | VClo _ _ _ => None
  | _ => Some (s, e)
  end.

(* a function of the runtime system applied to the values [vs] *)
Definition builtin (f : Z) (s : rstate) (e : renv) (vs : list val) : option (val * rstate * nat) :=
  if (0x10000 <=? f) && (f <? 0x30000) then
    match prims f vs with Some v => Some (v, s, 0%nat) | None => None end
  else if f =? 0x30008 then                       (* eval *)
    match vs with [x] => ev s e x | _ => None end
  else if f =? 0x30000 then                       (* setvar, set *)
    match vs with
    | [VSym x; v] => match setvar s e x v with Some s1 => Some (v, s1, 0%nat) | None => None end
    | _ => None
    end
  else if f =? 0x30015 then                       (* rest-args *)
    match vs with
    | [] => Some (match local s 0x30015 e with Some v => v | None => VNil end, s, 0%nat)
    | _ => None
    end
  else None.

Definition apply (s : rstate) (e : renv) (fn es : val) : option (val * rstate * nat) :=
  match ev s e fn with
  | Some (f, s1, d1) =>
    match f with
    | VSym x =>
      match args 0 s1 e es with
      | Some (vs, s2, d2) =>
        match builtin x s2 e vs with
        | Some (v, s3, d3) => Some (v, s3, max (3 + d1) (max d2 d3))
        | None => None
        end
      | None => None
      end
    | VClo ps body ce =>
      match params s1 e ce ps es with
      | Some (ce', s2, d2) =>
        match ev s2 ce' body with
        | Some (v, s3, d3) => Some (v, s3, max (3 + d1) (max d2 d3))
        | None => None
        end
      | None => None
      end
    | _ =>
      match macro_form f with
      | Some (ps, body) =>
        match macro_params s1 e ps es with
        | Some (s2, e2) =>
          match ev s2 e2 body with
          | Some (x, s3, d2) =>
            match ev s3 e x with
            | Some (v, s4, d3) => Some (v, s4, max (3 + d1) (max (2 + d2) d3))
            | None => None
            end
          | None => None
          end
        | None => None
        end
      | None => None
      end
    end
  | None => None
  end.

(* a special form; [loops]: with loop *)
Definition form (loops : bool) (x : Z) (s : rstate) (e : renv) (tl : val) : option (val * rstate * nat) :=
  if x =? 0x100 then match tl with VC v _ => Some (v, s, 0%nat) | _ => None end                  (* quote *)
  else if x =? 0x101 then                                                                             (* define *)
    match tl with
    | VC (VSym k) (VC x1 r) =>
      if variable k && nilp r then
        match ev s e x1 with
        | Some (v, s1, d) => Some (v, define s1 k v, 2 + d)%nat
        | None => None
        end
      else None
    | _ => None
    end
  else if x =? 0x102 then progn s e tl
  else if x =? 0x103 then match tl with VC ps (VC body _) => Some (VClo ps body e, s, 0%nat) | _ => None end  (* lambda *)
  else if x =? 0x104 then                                                                             (* if *)
    match tl with
    | VC c (VC x1 x2) =>
      match ev s e c with
      | Some (v, s1, d) =>
        match (if nilp v then match x2 with VC y _ => ev s1 e y | _ => if nilp x2 then ev s1 e VNil else None end
               else ev s1 e x1) with
        | Some (u, s2, d') => Some (u, s2, max (3 + d) d')
        | None => None
        end
      | None => None
      end
    | _ => None
    end
  else if x =? 0x105 then                                                                             (* let *)
    match tl with
    | VC bs (VC body _) =>
      match let_alloc s e bs with
      | Some (s1, e1) =>
        match let_fill s1 e1 bs with
        | Some (s2, d) =>
          match ev s2 e1 body with
          | Some (v, s3, d') => Some (v, s3, max d d')
          | None => None
          end
        | None => None
        end
      | None => None
      end
    | _ => None
    end
  else if x =? 0x106 then if nilp tl then Some (VTrue, s, 0%nat) else andor nilp s e tl                    (* and *)
  else if x =? 0x107 then if nilp tl then Some (VNil, s, 0%nat) else andor (fun v => negb (nilp v)) s e tl (* or *)
  else if x =? 0x10D then Some (VC (VSym x) tl, s, 0%nat)                                             (* macro *)
  else if x =? 0x10F then Some (VC (VSym x) tl, s, 0%nat)                                             (* closure *)
  else if x =? 0x110 then                                                                             (* cond *)
    match tl with
    | VC (VC c (VC x1 r)) rest =>
      if nilp r then
        match ev s e c with
        | Some (v, s1, d) =>
          match (if nilp v then ev s1 e (VC (VSym 0x110) rest) else ev s1 e x1) with
          | Some (u, s2, d') => Some (u, s2, max (3 + d) d')
          | None => None
          end
        | None => None
        end
      else None
    | _ => if nilp tl then Some (VNil, s, 0%nat) else None
    end
  else if x =? 0x113 then                                                                             (* setq *)
    match tl with
    | VC (VSym k) (VC x1 _) =>
      match ev s e x1 with
      | Some (v, s1, d) =>
        match setvar s1 e k v with
        | Some s2 => Some (v, s2, 3 + d)%nat
        | None => None
        end
      | None => None
      end
    | _ => None
    end
  else if x =? 0x115 then                                                                             (* loop *)
    match loops, tl with
    | true, VC bs (VC c (VC body r)) =>
      match let_alloc s e bs with
      | Some (s1, e1) =>
        match let_fill s1 e1 bs with
        | Some (s2, d) =>
          match ev s2 e1 c with
          | Some (v, s3, d1) =>
            if nilp v then Some (VNil, s3, max (3 + d) (3 + d1))
            else
              match ev s3 e1 body with
              | Some (_, s4, d2) =>
                match ev s4 e1 (VC (VSym 0x115) (VC VNil (VC c (VC body r)))) with
                | Some (u, s5, d3) => Some (u, s5, max (3 + d) (max (3 + d1) (max (3 + d2) d3)))
                | None => None
                end
              | None => None
              end
          | None => None
          end
        | None => None
        end
      | None => None
      end
    | _, _ => None
    end
  else None.

Definition eval1 (loops : bool) (s : rstate) (e : renv) (x : val) : option (val * rstate * nat) :=
  match x with
  | VSym k =>
    if variable k then
      match local s k e with
      | Some v => Some (v, s, 0%nat)
      | None => match global s k with Some v => Some (v, s, 0%nat) | None => None end
      end
    else Some (x, s, 0%nat)
  | VAtom _ => Some (x, s, 0%nat)
  | VClo _ _ _ => Some (x, s, 0%nat)
  | VC (VSym k) tl => if (0x100 <=? k) && (k <? 0x200) then form loops k s e tl else apply s e (VSym k) tl
  | VC fn tl => apply s e fn tl
  end.

End Forms.

(* recursion to depth [n] *)
Fixpoint eval (loops : bool) (n : nat) : rstate -> renv -> val -> option (val * rstate * nat) :=
  match n with
  | O => fun _ _ _ => None
  | S k => eval1 (eval loops k) loops
  end.

End Eval.
