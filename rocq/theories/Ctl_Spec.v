(* What the stack of continuations is made of: frames. *)
From Verif Require Import Base Value_Model Eval_Model.
Local Open Scope Z_scope.

Section Arch.
Context {A : Arch}.

(* the continuations and the number of words that belong to each *)
Definition frame_sizes : list (Z * nat) :=
  [(1, 1%nat);   (* SET_GLOBAL_ENV: key *)
   (2, 4%nat);   (* BIND_TO_KEY_REST: key, environment, bindings, body *)
   (3, 2%nat);   (* IF: environment, branches *)
   (4, 3%nat);   (* PROGN_REST: expressions, flag, environment *)
   (6, 2%nat);   (* AND: expressions, environment *)
   (7, 2%nat);   (* OR *)
   (10, 2%nat);  (* APPLICATION_START: arguments, environment *)
   (11, 1%nat);  (* EVAL_R: environment *)
   (13, 5%nat);  (* CLOSURE_ARGS: arguments, parameters, environment, body, environment of the call *)
   (14, 0%nat);  (* EXIT_ATOMIC *)
   (26, 2%nat);  (* PROGN_VAR: key, environment *)
   (27, 2%nat);  (* SETQ: variable, environment *)
   (38, 2%nat);  (* LOOP: condition, body *)
   (39, 2%nat);  (* LOOP_CONDITION *)
   (42, 5%nat)]. (* CLOSURE_ARGS_REST *)

(* a part of a stack (top first) that consists of whole frames.  APPLICATION_ARGS
   has the function and the arguments evaluated so far under its three words.  The
   frame of a trap has the flags that will be restored; they satisfy [Q].  There are
   frames of EXIT_ATOMIC only if [E]. *)
Inductive frames (E : Prop) (Q : Z -> Prop) : list Z -> Prop :=
| fr_nil : frames E Q []
| fr_fixed k n ws X : In (k, n) frame_sizes -> (k = 14 -> E) -> length ws = n -> frames E Q X -> frames E Q (CONT k :: ws ++ X)
| fr_args rest env ws X : frames E Q X -> Z.of_nat (length ws) < 2 ^ 28 - 1 ->
    frames E Q (CONT 5 :: enc_u (Z.of_nat (length ws)) :: rest :: env :: ws ++ X)
| fr_trap flags retval X : Q flags -> frames E Q X -> frames E Q (CONT 45 :: flags :: retval :: X).

(* The evaluation that began on the stack [P] is still going on in state [s]: its
   frames lie on [P], and it has not come back to [P] with a value. *)
Definition going_on (E : Prop) (Q : Z -> Prop) (P : list Z) (s : est) : Prop :=
  exists X, e_K s = X ++ P /\ frames E Q X /\ (e_app s = true -> X <> []).
(* ... and it has come back *)
Definition returned (P : list Z) (s : est) : Prop := e_K s = P /\ e_app s = true.

(* flags of a context that catches errors by itself: bit 4 is set (there is a
   trap), bit 0 is not (the context was not made by spawn-trap) *)
Definition catching (flags : Z) : Prop := Z.testbit flags 4 = true /\ Z.testbit flags 0 = false.

End Arch.
