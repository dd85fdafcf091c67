(* How the states of the evaluator represent those of the reference interpreter. *)
From Verif Require Import Base Value_Model Heap_Model Env_Model Match_Model QQ_Model GC_Model Eval_Model Eval_Spec
  Value_Proofs Heap_Spec GC_Spec.
Local Open Scope Z_scope.

Section Arch.
Context {A : Arch} {HO : Host}.

(* A heap, its free cells, for each location of the store that is still in use the
   cell that holds it and the number of the variable's symbol, and cells that are
   neither free nor known to the program *)
Record world := mkW { wh : heap; wfl : list Z; wL : nat -> option (Z * Z); wR : Z -> Prop }.

(* cell [j] holds a location *)
Definition lcell (w : world) (j : Z) : Prop := exists l k, wL w l = Some (j, k).

(* the cells that values and environments are made of; they do not change *)
Definition live (w : world) (i : Z) : Prop :=
  ~ In i (wfl w) /\ ~ lcell w i /\ ~ wR w i.

(* [p] refers to a pair (a . d), in the heap or in the constant heap *)
Definition pair_at (w : world) (p a d : Z) : Prop :=
  word p /\ is_cons p = true /\ f_gc p = 0 /\ ref_cell (wh w) p = Ok (a, d) /\
  (is_const_ptr p = false -> exists i, 0 <= i < 2 ^ (W - 8) /\ p = enc_cons_ptr i /\ live w i).

(* the word [x] represents a local environment: a list of the cells that hold the
   locations *)
Inductive erel (w : world) : list (Z * nat) -> Z -> Prop :=
| er_nil : erel w [] 0
| er_cons k l e i j d : 0 <= i < 2 ^ (W - 8) -> live w i -> cell (wh w) i = Some (enc_cons_ptr j, d) ->
    wL w l = Some (j, k) -> erel w e d -> erel w ((k, l) :: e) (enc_cons_ptr i).

(* the symbols that mark cells which own memory: lbm_defines.h 166-179 *)
Definition type_sym (id : Z) : Prop := 0x30 <= id <= 0x39.

(* the word [x] represents a value.  Atoms are immediate or in the constant heap. *)
Inductive vrel (w : world) : val -> Z -> Prop :=
| vr_sym id : 0 <= id < 2 ^ 28 -> id <> 0x2A -> ~ type_sym id -> vrel w (VSym id) (enc_sym id)
| vr_atom x : word x -> is_symbol x = false -> is_cons x = false -> f_gc x = 0 -> ~ heap_ptr x -> vrel w (VAtom x) x
| vr_cons a d p x y : pair_at w p x y -> vrel w a x -> vrel w d y -> vrel w (VC a d) p
| vr_clo ps body e p1 p2 p3 p4 x y z :
    pair_at w p1 S_CLOSURE p2 -> pair_at w p2 x p3 -> pair_at w p3 y p4 -> pair_at w p4 z 0 ->
    vrel w ps x -> vrel w body y -> erel w e z -> vrel w (VClo ps body e) p1.

(* the word [x] represents the contents of a location *)
Definition crel (w : world) (o : option val) (x : Z) : Prop :=
  match o with None => x = PLACEHOLDER | Some v => vrel w v x end.

(* symbols that locations are known by: variables, and rest-args *)
Definition key_ok (k : Z) : Prop := 0x40000 <= k < 2 ^ 28 \/ k = 0x30015.

(* a word that may be kept: if it refers to a cell, then to one that is not free *)
Definition good (w : world) (x : Z) : Prop :=
  word x /\ f_gc x = 0 /\ ~ owner x /\
  (heap_ptr x -> exists i, 0 <= i < hsize (wh w) /\ x = enc_cons_ptr i /\ ~ In i (wfl w)).
(* on the stack there are also continuations, which are not values *)
Definition kgood (w : world) (x : Z) : Prop := stack_ref (wh w) x -> good w x.

(* what a context holds on to *)
Definition ctx_ok (w : world) (c : croots) : Prop :=
  (exists e, erel w e (c_env c)) /\ Forall (good w) (c_roots c) /\ Forall (kgood w) (c_stack c).

(* the collector is not at work, and no cell owns memory *)
Definition gc_idle (h : heap) : Prop :=
  gstack h = [] /\ 1 <= gsize h /\ lost h = false /\ forall x, mem h x = None.

(* the heap and the 32 roots [g] of the global environment represent [s] *)
Record srel (w : world) (g : list Z) (s : rstate) : Prop := {
  sr_heap : heap_ok (wh w) (wfl w);
  sr_len : forall l, (length (sto s) <= l)%nat -> wL w l = None;
  sr_nodup : forall l l' j k k', wL w l = Some (j, k) -> wL w l' = Some (j, k') -> l = l';
  sr_loc : forall l j k, wL w l = Some (j, k) ->
    0 <= j < 2 ^ (W - 8) /\ ~ In j (wfl w) /\ key_ok k /\
    exists o x, nth_error (sto s) l = Some o /\ cell (wh w) j = Some (enc_sym k, x) /\ crel w o x;
  sr_glen : length g = 32%nat;
  sr_glob : forall b, 0 <= b < 32 -> exists r, nth_error g (Z.to_nat b) = Some r /\
    erel w (filter (fun kl => Z.land (fst kl) 0x1F =? b) (glo s)) r;
  sr_gdef : forall k l, In (k, l) (glo s) -> content s l <> None;
  sr_priv : forall i, wR w i -> ~ In i (wfl w);
  sr_good : forall i a d, ~ In i (wfl w) -> cell (wh w) i = Some (a, d) -> good w a /\ good w d;
  sr_const : forall a d, In (a, d) (ccells (wh w)) -> ~ heap_ptr a /\ ~ heap_ptr d;
  sr_idle : gc_idle (wh w);
  sr_others : Forall (ctx_ok w) others
}.

(* [w'] comes after [w] without a collection: cells that were neither free nor
   locations have not changed, locations keep their cells *)
Record hext (w w' : world) : Prop := {
  hx_ccells : ccells (wh w') = ccells (wh w);
  hx_size : hsize (wh w') = hsize (wh w);
  hx_free : incl (wfl w') (wfl w);
  hx_locs : forall l j k, wL w l = Some (j, k) -> wL w' l = Some (j, k);
  hx_new : forall j, lcell w' j -> lcell w j \/ In j (wfl w);
  hx_priv : forall i, wR w' i -> wR w i \/ In i (wfl w);
  hx_cells : forall i, ~ In i (wfl w) -> ~ lcell w i -> cell (wh w') i = cell (wh w) i
}.

(* the words that the other contexts hold *)
Definition oroots : list Z := flat_map (fun c => c_env c :: c_roots c ++ c_stack c) others.

(* The cells that can be reached from the words [R] or by other contexts, not
   looking into locations *)
Inductive rch (w : world) (R : list Z) : Z -> Prop :=
| rch_root i : 0 <= i < 2 ^ (W - 8) -> In (enc_cons_ptr i) (R ++ oroots) -> ~ In i (wfl w) -> rch w R i
| rch_step i a d j : rch w R i -> ~ lcell w i -> cell (wh w) i = Some (a, d) ->
    0 <= j < 2 ^ (W - 8) -> a = enc_cons_ptr j \/ d = enc_cons_ptr j -> ~ In j (wfl w) -> rch w R j.

(* [w'] comes after [w], perhaps after a collection: what could be reached from [R]
   is still there *)
Record keeps (R : list Z) (w w' : world) : Prop := {
  kp_ccells : ccells (wh w') = ccells (wh w);
  kp_size : hsize (wh w') = hsize (wh w);
  kp_free : forall i, rch w R i -> ~ In i (wfl w');
  kp_cells : forall i, rch w R i -> ~ lcell w i -> cell (wh w') i = cell (wh w) i /\ ~ lcell w' i;
  kp_locs : forall i l k, rch w R i -> wL w l = Some (i, k) -> wL w' l = Some (i, k);
  kp_priv : forall i, rch w R i -> (wR w i <-> wR w' i)
}.

(* [prim] computes what [prims] says, in the space of some number of new cells; if
   there are fewer, it may also fail and return out_of_memory *)
Definition implements (prim : Z -> heap -> list Z -> res (heap * Z)) (prims : Z -> list val -> option val) : Prop :=
  forall f vs v, 0x10000 <= f < 0x30000 -> prims f vs = Some v -> exists N, forall w g s xs,
    srel w g s -> Forall2 (vrel w) vs xs ->
    exists h' fl' x, prim f (wh w) xs = Ok (h', x) /\
      hext w (mkW h' fl' (wL w) (wR w)) /\ srel (mkW h' fl' (wL w) (wR w)) g s /\ (length (wfl w) <= length fl' + N)%nat /\
      (is_error x = false /\ vrel (mkW h' fl' (wL w) (wR w)) v x \/
       x = MERROR /\ (length (wfl w) < N)%nat).

End Arch.
