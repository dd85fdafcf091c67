(* What pointer reversal marking should do. *)
From Verif Require Import Base Value_Model Heap_Model Value_Proofs Heap_Spec GC_Model GC_Spec.
Local Open Scope Z_scope.

Section Arch.
Context {A : Arch}.

(* The heap before marking. *)
Record dsw_ready (h : heap) (root : Z -> Prop) : Prop := {
  (* no mark bit is set; the last address is never a cell *)
  dr_cdr : forall i a d, cell h i = Some (a, d) -> word d /\ f_gc d = 0;
  dr_size : hsize h < 2 ^ (W - 8);
  dr_root : forall w, root w -> word w /\ f_gc w = 0;
  dr_in : forall w, reach h root w -> word w /\ f_gc w = 0 /\ f_ix w < hsize h;
  dr_typed : forall w v, reach h root w -> reach h root v -> f_ix w = f_ix v -> type_of w = type_of v;
  (* reachable cons cells hold values, which never have the GC bit *)
  dr_car : forall w a d, reach h root w -> type_of w = TYPE_CONS -> cell h (f_ix w) = Some (a, d) -> word a /\ f_gc a = 0;
  (* reachable lisp arrays have their elements, none of which is a continuation value *)
  dr_array : forall w a d, reach h root w -> type_of w = TYPE_LISPARRAY -> cell h (f_ix w) = Some (a, d) ->
    exists data elts k, mem h a = Some (OLisp data (WB * Z.of_nat (length elts)) elts k) /\
      forall e, In e elts -> word e /\ f_gc e = 0 /\ ~ cont_value e;
  (* no reachable channel depends on a heap value *)
  dr_chan : forall w a d st dep, reach h root w -> type_of w = TYPE_CHANNEL -> cell h (f_ix w) = Some (a, d) ->
    mem h a = Some (OChan st dep) -> ~ heap_ptr dep
}.

(* no lisp array is reachable *)
Definition no_arrays (h : heap) (root : Z -> Prop) : Prop := forall w, reach h root w -> type_of w <> TYPE_LISPARRAY.

(* [h'] is [h] with the mark bit set in the cdr of the cells in P *)
Definition marks_exactly (h h' : heap) (P : Z -> Prop) : Prop :=
  h' = set_cells h (cells h') /\ hsize h' = hsize h /\
  forall i a d, cell h i = Some (a, d) ->
    (P i -> cell h' i = Some (a, set_gc_mark d)) /\ (~ P i -> cell h' i = Some (a, d)).

End Arch.
