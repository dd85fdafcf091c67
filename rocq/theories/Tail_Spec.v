(* Tail positions: expressions whose value is the value of another expression. *)
From Coq Require Import List ZArith Bool.
From Verif Require Import Eval_Spec.
Import ListNotations.
Local Open Scope Z_scope.

Section Tail.
Variable prims : Z -> list val -> option val.

(* all of a progn but its last expression: that expression, where to evaluate it,
   and the words of stack needed so far *)
Fixpoint before_last (ev : rstate -> list (Z * nat) -> val -> option (val * rstate * nat))
    (s : rstate) (e : list (Z * nat)) (es : val) : option (rstate * list (Z * nat) * val * nat) :=
  match es with
  | VC x rest =>
    match rest with
    | VC _ _ =>
      match var_form x with
      | Some (p, x1) =>
        match pat_alloc s e p with
        | Some (s1, e1) =>
          match ev s1 e1 x1 with
          | Some (v, s2, d) =>
            match pat_fill s2 e1 p v with
            | Some s3 =>
              match before_last ev s3 e1 rest with
              | Some (s4, e2, y, d') => Some (s4, e2, y, max (7 + d) d')
              | None => None
              end
            | None => None
            end
          | None => None
          end
        | None => None
        end
      | None =>
        match ev s e x with
        | Some (_, s1, d) =>
          match before_last ev s1 e rest with
          | Some (s2, e1, y, d') => Some (s2, e1, y, max (4 + d) d')
          | None => None
          end
        | None => None
        end
      end
    | VClo _ _ _ => None
    | _ => Some (s, e, x, 0%nat)
    end
  | _ => None
  end.

Definition special (fn : val) : bool := match fn with VSym k => (0x100 <=? k) && (k <? 0x200) | _ => false end.

(* [tail s e x s' e' x' d]: what is left to do to evaluate [x] is to evaluate
   [x'], after the use of [d] words of stack *)
Inductive tail : rstate -> list (Z * nat) -> val -> rstate -> list (Z * nat) -> val -> nat -> Prop :=
| t_call n s e fn es ps body ce s1 d1 e2 s2 d2 :              (* the call of a closure, and its body *)
    special fn = false -> eval prims false n s e fn = Some (VClo ps body ce, s1, d1) ->
    params (eval prims false n) s1 e ce ps es = Some (e2, s2, d2) ->
    tail s e (VC fn es) s2 e2 body (max (3 + d1) d2)
| t_then n s e c x1 x2 v s1 d :                               (* if, and its branches *)
    eval prims false n s e c = Some (v, s1, d) -> nilp v = false ->
    tail s e (VC (VSym 0x104) (VC c (VC x1 x2))) s1 e x1 (3 + d)
| t_else n s e c x1 x2 r v s1 d :
    eval prims false n s e c = Some (v, s1, d) -> nilp v = true ->
    tail s e (VC (VSym 0x104) (VC c (VC x1 (VC x2 r)))) s1 e x2 (3 + d)
| t_cond n s e c x1 rest v s1 d :                             (* cond *)
    eval prims false n s e c = Some (v, s1, d) ->
    tail s e (VC (VSym 0x110) (VC (VC c (VC x1 VNil)) rest)) s1 e (if nilp v then VC (VSym 0x110) rest else x1) (3 + d)
| t_let n s e bs body r s1 e1 s2 d :                          (* let, and its body *)
    let_alloc s e bs = Some (s1, e1) -> let_fill (eval prims false n) s1 e1 bs = Some (s2, d) ->
    tail s e (VC (VSym 0x105) (VC bs (VC body r))) s2 e1 body d
| t_progn n s e es s' e' x d :                                (* progn, and its last expression *)
    before_last (eval prims false n) s e es = Some (s', e', x, d) ->
    tail s e (VC (VSym 0x102) es) s' e' x d
| t_eval n s e a x s' d2 :                                   (* (eval a), and the value of a *)
    args (eval prims false n) 0 s e (VC a VNil) = Some ([x], s', d2) ->
    tail s e (VC (VSym 0x30008) (VC a VNil)) s' e x (max 3 d2)
| t_macro n s e fn es ps body m s1 d1 s2 e2 x s3 d2 :         (* the call of a macro, and its expansion *)
    special fn = false -> eval prims false n s e fn = Some (m, s1, d1) -> macro_form m = Some (ps, body) ->
    macro_params s1 e ps es = Some (s2, e2) -> eval prims false n s2 e2 body = Some (x, s3, d2) ->
    tail s e (VC fn es) s3 e x (max (3 + d1) (2 + d2)).

(* any number of such steps, each within [d] words *)
Inductive tails (d : nat) : rstate -> list (Z * nat) -> val -> rstate -> list (Z * nat) -> val -> Prop :=
| ts_refl s e x : tails d s e x s e x
| ts_step s e x s1 e1 x1 s2 e2 x2 d1 : tail s e x s1 e1 x1 d1 -> (d1 <= d)%nat ->
    tails d s1 e1 x1 s2 e2 x2 -> tails d s e x s2 e2 x2.

End Tail.
