(* Specification side for the allocator: what a client knows.

   The client keeps a ledger of the blocks it holds.  The ledger is computed
   from the calls it made and the results it got, not from allocator state. *)
From Verif Require Import Base Mem_Model.
Open Scope Z_scope.

(* (byte address, size in words) *)
Definition ledger := list (Z * Z).

Section Cfg.
Variable sh : Z.
Let wb := wbytes sh.

(* A call is valid if its word arguments are machine words and it frees or
   shrinks only blocks the client holds. *)
Definition word (x : Z) : Prop := 0 <= x < 2 ^ W sh.
Definition valid (led : ledger) (o : op) : Prop :=
  match o with
  | OAlloc n | OMalloc n | OMallocR n | OSetReserve n => word n
  | OFree p => In p (map fst led)
  | OShrink p n => In p (map fst led) /\ word n
  end.

(* Bookkeeping done by the client after call [o] returned [out]. *)
Definition led_step (led : ledger) (o : op) (out : Z) : ledger :=
  match o with
  | OAlloc n => if out =? 0 then led else (out, n) :: led
  | OMalloc s | OMallocR s =>
      if out =? 0 then led else (out, (s + wb - 1) / wb) :: led
  | OFree p => if out =? 1 then filter (fun b => negb (fst b =? p)) led else led
  | OShrink p n =>
      if out =? 1
      then map (fun b => if fst b =? p then (p, Z.min n (snd b)) else b) led
      else led
  | OSetReserve _ => led
  end.

(* States reachable by a valid client from a successful lbm_memory_init with
   memory at [data], [dsize] words.  The memory must fit in the address space. *)
Inductive Reach (data dsize bits bsz : Z) : mem -> ledger -> Prop :=
| reach_init m :
    0 < data -> 0 <= dsize -> 0 <= bsz < 2 ^ (W sh - 8) -> data + dsize * wb < 2 ^ W sh ->
    mem_init sh data dsize bits bsz = Some m ->
    Reach data dsize bits bsz m []
| reach_step m led o out m' :
    Reach data dsize bits bsz m led ->
    valid led o ->
    step sh m o = Ok (out, m') ->
    Reach data dsize bits bsz m' (led_step led o out).

(* The two blocks have no byte in common. *)
Definition disjoint (b c : Z * Z) : Prop :=
  fst b + snd b * wb <= fst c \/ fst c + snd c * wb <= fst b.

(* The block lies in the managed memory, word aligned and non-empty. *)
Definition inside (data dsize : Z) (b : Z * Z) : Prop :=
  data <= fst b /\ fst b + snd b * wb <= data + dsize * wb /\
  0 < snd b /\ (fst b - data) mod wb = 0.

Definition total (led : ledger) : Z := fold_right (fun b s => snd b + s) 0 led.

(* There are [n] adjacent words that no block of the ledger touches. *)
Definition hole (data dsize : Z) (led : ledger) (n : Z) : Prop :=
  exists a, inside data dsize (a, n) /\ forall b, In b led -> disjoint (a, n) b.

End Cfg.
