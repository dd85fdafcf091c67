(* Words used to state what map does. *)
From Verif Require Import Base Value_Model Heap_Model Eval_Model Value_Proofs Heap_Spec Fund_Spec.
Local Open Scope Z_scope.

Section Arch.
Context {A : Arch}.

(* what can be reached from the stack [K] through pairs *)
Inductive held (h : heap) (K : list Z) : Z -> Prop :=
| held_here w : In w K -> held h K w
| held_car p a d : held h K p -> is_cons p = true -> ref_cell h p = Ok (a, d) -> held h K a
| held_cdr p a d : held h K p -> is_cons p = true -> ref_cell h p = Ok (a, d) -> held h K d.

(* the expression [e] is (f (quote x)) *)
Definition call_of (h : heap) (e f x : Z) : Prop :=
  exists q ps qs, path h e [f; q] ps 0 /\ path h q [enc_sym 0x100; x] qs 0.

(* From state [s] the evaluation of its expression has come to an end in state
   [s']: with a value, on the same stack.  It has not changed or freed pairs that
   are held by the stack, and there is a free cell. *)
Definition evaluated (s s' : est) : Prop :=
  e_app s' = true /\ e_K s' = e_K s /\ e_size s' = e_size s /\ ccells (e_heap s') = ccells (e_heap s) /\
  exists fl', heap_ok (e_heap s') fl' /\ fl' <> [] /\
    forall p, held (e_heap s) (e_K s) p -> is_cons p = true -> word p -> is_const_ptr p = false ->
      cell (e_heap s') (f_ix p) = cell (e_heap s) (f_ix p) /\ ~ In (f_ix p) fl'.
End Arch.
