(* src/extensions/loop_extensions.c: the functions behind the macros loopfor,
   loopwhile, looprange and loopforeach.

   Each of them is one nested call of make_list.  C leaves the order open in which
   the arguments of a call are evaluated, so the calls are made here in any order in
   which a call comes after those among its arguments. *)
From Verif Require Import Base Value_Model Heap_Model.
Local Open Scope Z_scope.

(* an expression of C made of values and calls of make_list *)
Inductive cexp := Arg (v : Z) | MakeList (es : list cexp).

(* loop_extensions.c 22-26, 187-191: the symbols a01, a02, break, a03, a04 *)
Record names := mkN { n_res : Z; n_loop : Z; n_break : Z; n_brk : Z; n_rst : Z }.

Section Arch.
Context {A : Arch}.

(* one call; 28-35 make_list, heap.c 597-619 *)
Inductive cstep : heap -> cexp -> heap -> cexp -> Prop :=
| call h vs h' v : alloc_list_init h vs = Ok (h', v) -> cstep h (MakeList (map Arg vs)) h' (Arg v)
| inner h l e r h' e' : cstep h e h' e' -> cstep h (MakeList (l ++ e :: r)) h' (MakeList (l ++ e' :: r)).
Inductive csteps : heap -> cexp -> heap -> cexp -> Prop :=
| none h e : csteps h e h e
| more h e h1 e1 h2 e2 : csteps h e h1 e1 -> cstep h1 e1 h2 e2 -> csteps h e h2 e2.

Definition Sy (n : Z) : cexp := Arg (enc_sym n).
(* lbm_defines.h 232-234, 240, 272-291 *)
Definition LAMBDA := Sy 0x103.
Definition IF := Sy 0x104.
Definition LET := Sy 0x105.
Definition CALLCC := Sy 0x10B.
Definition ADD := Sy 0x20000.
Definition EQ := Sy 0x20005.
Definition LT := Sy 0x20009.
Definition CAR := Sy 0x20012.
Definition CDR := Sy 0x20013.

(* 37-69 ext_me_loopfor; inl: what is returned at once *)
Definition me_loopfor (n : names) (args : list Z) : Z + cexp :=
  match args with
  | [it; start; cond; update; body] =>
    inr (MakeList [LET;
           MakeList [MakeList [Sy (n_loop n);
             MakeList [LAMBDA; MakeList [Arg it; Sy (n_res n); Sy (n_break n)];
               MakeList [IF; Arg cond;
                 MakeList [Sy (n_loop n); Arg update; Arg body; Sy (n_break n)];
                 Sy (n_res n)]]]];
           MakeList [CALLCC;
             MakeList [LAMBDA; MakeList [Sy (n_brk n)];
               MakeList [Sy (n_loop n); Arg start; Arg NIL; Sy (n_brk n)]]]])
  | _ => inl EERROR
  end.
(* 71-100 ext_me_loopwhile *)
Definition me_loopwhile (n : names) (args : list Z) : Z + cexp :=
  match args with
  | [cond; body] =>
    inr (MakeList [LET;
           MakeList [MakeList [Sy (n_loop n);
             MakeList [LAMBDA; MakeList [Sy (n_res n); Sy (n_break n)];
               MakeList [IF; Arg cond;
                 MakeList [Sy (n_loop n); Arg body; Sy (n_break n)];
                 Sy (n_res n)]]]];
           MakeList [CALLCC;
             MakeList [LAMBDA; MakeList [Sy (n_brk n)];
               MakeList [Sy (n_loop n); Arg NIL; Sy (n_brk n)]]]])
  | _ => inl EERROR
  end.
(* 102-133 ext_me_looprange *)
Definition me_looprange (n : names) (args : list Z) : Z + cexp :=
  match args with
  | [it; start; end_; body] =>
    inr (MakeList [LET;
           MakeList [MakeList [Sy (n_loop n);
             MakeList [LAMBDA; MakeList [Arg it; Sy (n_res n); Sy (n_break n)];
               MakeList [IF; MakeList [LT; Arg it; Arg end_];
                 MakeList [Sy (n_loop n); MakeList [ADD; Arg it; Arg (enc_i 1)]; Arg body; Sy (n_break n)];
                 Sy (n_res n)]]]];
           MakeList [CALLCC;
             MakeList [LAMBDA; MakeList [Sy (n_brk n)];
               MakeList [Sy (n_loop n); Arg start; Arg NIL; Sy (n_brk n)]]]])
  | _ => inl EERROR
  end.
(* 135-176 ext_me_loopforeach *)
Definition me_loopforeach (n : names) (args : list Z) : Z + cexp :=
  match args with
  | [it; lst; body] =>
    inr (MakeList [LET;
           MakeList [MakeList [Sy (n_loop n);
             MakeList [LAMBDA; MakeList [Arg it; Sy (n_rst n); Sy (n_res n); Sy (n_break n)];
               MakeList [IF; MakeList [EQ; Arg it; Arg NIL];
                 Sy (n_res n);
                 MakeList [Sy (n_loop n); MakeList [CAR; Sy (n_rst n)]; MakeList [CDR; Sy (n_rst n)]; Arg body; Sy (n_break n)]]]]];
           MakeList [CALLCC;
             MakeList [LAMBDA; MakeList [Sy (n_brk n)];
               MakeList [Sy (n_loop n); MakeList [CAR; Arg lst]; MakeList [CDR; Arg lst]; Arg NIL; Sy (n_brk n)]]]])
  | _ => inl EERROR
  end.

(* the call of one of these functions returns [v] *)
Definition returns (h : heap) (c : Z + cexp) (h' : heap) (v : Z) : Prop :=
  match c with
  | inl r => h' = h /\ v = r
  | inr e => csteps h e h' (Arg v)
  end.

End Arch.
