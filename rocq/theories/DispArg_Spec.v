(* Words used to state what arguments the drawing functions accept. *)
From Verif Require Import Base Value_Model Heap_Model Value_Proofs Heap_Spec Fund_Spec.
Local Open Scope Z_scope.

(* one argument: a number, or the attribute number [i] with numbers *)
Inductive given := Num (v : Z) | Att (i : nat) (vs : list Z).

(* how many numbers an attribute may have:
   (thickness n) (filled) (rounded n) or (rounded) (dotted n n) (scale n) (rotate n n n) (resolution n) *)
Definition takes (i n : nat) : Prop :=
  match i with
  | 0 | 4 | 6 => n = 1
  | 1 => n = 0
  | 2 => n = 0 \/ n = 1
  | 3 => n = 2
  | 5 => n = 3
  | _ => False
  end%nat.
Definition fine (g : given) : Prop := match g with Num _ => True | Att i vs => takes i (length vs) end.

Fixpoint numbers (l : list given) : list Z :=
  match l with [] => [] | Num v :: t => v :: numbers t | Att _ _ :: t => numbers t end.
(* what is given for attribute [i], [o] if nothing; the last one counts *)
Fixpoint last_of (i : nat) (o : option (list Z)) (l : list given) : option (list Z) :=
  match l with
  | [] => o
  | Att j vs :: t => last_of i (if (i =? j)%nat then Some vs else o) t
  | Num _ :: t => last_of i o t
  end.

Section Arch.
Context {A : Arch}.

(* the word [a] is the argument [g]; [symbols]: the names of the attributes *)
Inductive is_given (symbols : list Z) (h : heap) (a : Z) : given -> Prop :=
| is_num : is_number a = true -> is_given symbols h a (Num a)
| is_att i s vs ps w : nth_error symbols i = Some s -> is_number a = false -> path h a (enc_sym s :: vs) ps w -> is_cons w = false ->
    Forall (fun v => is_number v = true) vs -> is_given symbols h a (Att i vs).

End Arch.
