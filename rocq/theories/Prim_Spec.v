(* What the functions of Prim_Model compute, on the values of the reference
   interpreter. *)
From Verif Require Import Base Value_Model Eval_Spec.
Local Open Scope Z_scope.

Section Arch.
Context {A : Arch}.

(* the integer n, as (type-of n) = type-i: it has W - VAL_SHIFT bits *)
Definition VInt (n : Z) : val := VAtom (enc_i n).
Definition int_of (v : val) : option Z :=
  match v with VAtom w => if type_of w =? TYPE_I then Some (dec_i w) else None | _ => None end.
Definition VBool (b : bool) : val := if b then VTrue else VNil.

(* the evaluator takes these symbols, as the value of a function, for errors *)
Definition error_symbol (v : val) : bool :=
  match v with VSym id => (0x20 <=? id) && (id <? 0x30) | _ => false end.
Definition unless_error (v : val) : option val := if error_symbol v then None else Some v.

Definition basic (f : Z) (vs : list val) : option val :=
  match vs with
  | [a] =>
    if f =? 0x2000D then Some (VBool (nilp a))                                            (* not *)
    else if f =? 0x20012 then                                                             (* car *)
      match a with VC x _ => unless_error x | _ => if nilp a then Some VNil else None end
    else if f =? 0x20013 then                                                             (* cdr *)
      match a with VC _ y => unless_error y | _ => if nilp a then Some VNil else None end
    else None
  | [a; b] =>
    if f =? 0x20011 then Some (VC a b)                                                    (* cons *)
    else
      match int_of a, int_of b with
      | Some n, Some m =>
        if f =? 0x20000 then Some (VInt (n + m))
        else if f =? 0x20001 then Some (VInt (n - m))
        else if f =? 0x20002 then
          if (- 2 ^ (W - 1) <=? n * m) && (n * m <? 2 ^ (W - 1)) then Some (VInt (n * m)) else None
        else if f =? 0x20007 then Some (VBool (n =? m))
        else if f =? 0x20009 then Some (VBool (n <? m))
        else if f =? 0x2000A then Some (VBool (m <? n))
        else None
      | _, _ => None
      end
  | _ => None
  end.

End Arch.
