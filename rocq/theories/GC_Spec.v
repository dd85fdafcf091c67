(* What garbage collection should do, stated on the heap before collection. *)
From Verif Require Import Base Value_Model Heap_Model Value_Proofs Heap_Spec GC_Model.
Local Open Scope Z_scope.

Section Arch.
Context {A : Arch}.

(* a pointer into the RAM heap *)
Definition heap_ptr (w : Z) : Prop := is_ptr w = true /\ is_const_ptr w = false.

(* values standing for evaluator continuations have the pointer bit set *)
Definition cont_value (w : Z) : Prop := Z.land w CONTINUATION_INTERNAL = CONTINUATION_INTERNAL.

(* [points h w v]: the object w refers to contains the value v *)
Inductive points (h : heap) (w : Z) : Z -> Prop :=
| pt_car a d : type_of w = TYPE_CONS -> cell h (f_ix w) = Some (a, d) -> points h w a
| pt_cdr a d : type_of w = TYPE_CONS -> cell h (f_ix w) = Some (a, d) -> points h w d
| pt_elt a d data size elts k v :
    type_of w = TYPE_LISPARRAY -> cell h (f_ix w) = Some (a, d) ->
    mem h a = Some (OLisp data size elts k) -> In v elts -> ~ cont_value v -> points h w v
| pt_dep a d st dep :
    type_of w = TYPE_CHANNEL -> cell h (f_ix w) = Some (a, d) -> a <> 0 ->
    mem h a = Some (OChan st dep) -> points h w dep.

(* reachable from one of the roots *)
Inductive reach (h : heap) (root : Z -> Prop) : Z -> Prop :=
| reach_root w : root w -> heap_ptr w -> reach h root w
| reach_step w v : reach h root w -> points h w v -> heap_ptr v -> reach h root v.

Definition live (h : heap) (root : Z -> Prop) (i : Z) : Prop :=
  exists w, reach h root w /\ f_ix w = i.

(* the cell's cdr says that its car is the address of an object it owns *)
Definition owner (d : Z) : Prop :=
  d = enc_sym SYM_IND_I_TYPE \/ d = enc_sym SYM_IND_U_TYPE \/ d = enc_sym SYM_IND_F_TYPE \/
  d = enc_sym SYM_LISPARRAY_TYPE \/ d = enc_sym SYM_ARRAY_TYPE \/
  d = enc_sym SYM_CHANNEL_TYPE \/ d = enc_sym SYM_CUSTOM_TYPE.

Definition owned_obj (d : Z) (o : option obj) : Prop :=
  (d = enc_sym SYM_LISPARRAY_TYPE \/ d = enc_sym SYM_ARRAY_TYPE ->
     (exists data size elts k, o = Some (OLisp data size elts k)) \/ exists data bytes, o = Some (OByte data bytes)) /\
  (d = enc_sym SYM_CHANNEL_TYPE -> exists st dep, o = Some (OChan st dep)) /\
  (d = enc_sym SYM_CUSTOM_TYPE -> o = Some OOther).

(* the memory blocks a cell owns, in the order in which they are released *)
Definition blocks (h : heap) (i : Z) : list Z :=
  match cell h i with
  | Some (a, d) =>
    if (d =? enc_sym SYM_IND_I_TYPE) || (d =? enc_sym SYM_IND_U_TYPE) || (d =? enc_sym SYM_IND_F_TYPE) then [a]
    else if (d =? enc_sym SYM_LISPARRAY_TYPE) || (d =? enc_sym SYM_ARRAY_TYPE) then
      match mem h a with
      | Some (OLisp data _ _ _) => [data; a]
      | Some (OByte data _) => [data; a]
      | _ => []
      end
    else if d =? enc_sym SYM_CHANNEL_TYPE then
      match mem h a with Some (OChan st _) => [st; a] | _ => [] end
    else if d =? enc_sym SYM_CUSTOM_TYPE then [a]
    else []
  | None => []
  end.

(* The heap as the runtime keeps it between collections. *)
Record gc_ready (h : heap) (root : Z -> Prop) : Prop := {
  (* cdr words are words and no mark bit is set *)
  gr_cdr : forall i a d, cell h i = Some (a, d) -> word d /\ f_gc d = 0;
  gr_size : hsize h <= 2 ^ (W - 8);
  gr_stack : gstack h = [] /\ 1 <= gsize h;
  gr_lost : lost h = false;
  (* what is reachable lies in the heap, and each cell is used at one type *)
  gr_in : forall w, reach h root w -> word w /\ f_ix w < hsize h;
  gr_typed : forall w v, reach h root w -> reach h root v -> f_ix w = f_ix v -> type_of w = type_of v;
  (* reachable lisp arrays and channels have their objects *)
  gr_array : forall w a d, reach h root w -> type_of w = TYPE_LISPARRAY -> cell h (f_ix w) = Some (a, d) ->
    exists data elts, mem h a = Some (OLisp data (WB * Z.of_nat (length elts)) elts 0) /\
      (1 <= length elts)%nat /\ Z.of_nat (length elts) < 2 ^ 32;
  gr_array1 : forall w v a d d', reach h root w -> reach h root v ->
    type_of w = TYPE_LISPARRAY -> type_of v = TYPE_LISPARRAY ->
    cell h (f_ix w) = Some (a, d) -> cell h (f_ix v) = Some (a, d') -> f_ix w = f_ix v;
  gr_chan : forall w a d, reach h root w -> type_of w = TYPE_CHANNEL -> cell h (f_ix w) = Some (a, d) ->
    a <> 0 -> exists st dep, mem h a = Some (OChan st dep);
  (* every cell that owns an object has one, and no two own the same *)
  gr_owned : forall i a d, cell h i = Some (a, d) -> owner d -> owned_obj d (mem h a);
  gr_owned1 : forall i j a d d', cell h i = Some (a, d) -> cell h j = Some (a, d') ->
    owner d -> owner d' -> i = j;
  gr_blocks : forall i j x, In x (blocks h i) -> In x (blocks h j) -> x <> 0 -> i = j
}.

(* The roots of a collection: local values the evaluator asked to keep, the
   global environment's buckets and, for each context, its environment, its
   registers and mailbox, and the stack words that look like heap pointers. *)
Definition stack_ref (h : heap) (w : Z) : Prop :=
  is_ptr w = true /\ POINTER_TYPE_FIRST <= type_of w <= POINTER_TYPE_LAST /\ f_ix w < hsize h.
Definition gc_root (h : heap) (pre genv : list Z) (ctxs : list croots) (w : Z) : Prop :=
  In w pre \/ In w genv \/
  exists c, In c ctxs /\ (w = c_env c \/ In w (c_roots c) \/ (In w (c_stack c) /\ stack_ref h w)).

(* an environment: a list in RAM of bindings whose keys are not pointers *)
Inductive env_at (h : heap) : Z -> Prop :=
| env_nil e : is_ptr e = false -> env_at h e
| env_cons e b d k v : heap_ptr e -> type_of e = TYPE_CONS -> cell h (f_ix e) = Some (b, d) ->
    heap_ptr b -> type_of b = TYPE_CONS -> cell h (f_ix b) = Some (k, v) -> is_ptr k = false ->
    env_at h d -> env_at h e.

End Arch.
