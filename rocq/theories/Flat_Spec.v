(* The flat format, independent of the code that writes and reads it. *)
From Verif Require Import Base Value_Model Heap_Model Value_Props Heap_Spec Sym_Model Eq_Spec.
Local Open Scope Z_scope.

(* the low [k] bytes of [n], most significant first (two's complement) *)
Fixpoint bytes (k : nat) (n : Z) : list Z :=
  match k with O => [] | S j => (n / 256 ^ Z.of_nat j) mod 256 :: bytes j n end.

Section Arch.
Context {A : Arch}.

(* The bytes of a tree; [nm] names the symbols. *)
Fixpoint ser (nm : Z -> name) (t : tree) : list Z :=
  match t with
  | Leaf KSym n => 3 :: nm n ++ [0]
  | Leaf KChar n => [4; n]
  | Leaf KI n => if b64 then 14 :: bytes 8 n else 5 :: bytes 4 n
  | Leaf KU n => if b64 then 15 :: bytes 8 n else 6 :: bytes 4 n
  | Leaf KI32 n => 7 :: bytes 4 n
  | Leaf KU32 n => 8 :: bytes 4 n
  | Leaf KFloat n => 9 :: bytes 4 n
  | Leaf KI64 n => 10 :: bytes 8 n
  | Leaf KU64 n => 11 :: bytes 8 n
  | Leaf KDouble n => 12 :: bytes 8 n
  | Pair a d => 1 :: ser nm a ++ ser nm d
  | Bytes bs => 13 :: bytes 4 (Z.of_nat (length bs)) ++ bs
  | Arr ts => 31 :: bytes 4 (Z.of_nat (length ts)) ++ flat_map (ser nm) ts
  end.

(* the numbers of each kind *)
Definition in_range (k : kind) (n : Z) : Prop :=
  match k with
  | KSym | KU => 0 <= n < 2 ^ payload A
  | KChar => 0 <= n < 256
  | KI => -2 ^ (payload A - 1) <= n < 2 ^ (payload A - 1)
  | KI32 => -2 ^ 31 <= n < 2 ^ 31
  | KU32 | KFloat => 0 <= n < 2 ^ 32
  | KI64 => -2 ^ 63 <= n < 2 ^ 63
  | KU64 | KDouble => 0 <= n < 2 ^ 64
  end.

(* The trees that can be flattened: numbers in range, symbols with a name
   without a zero byte, no empty array. *)
Inductive flat_ok (named : Z -> Prop) : tree -> Prop :=
| fo_leaf k n : in_range k n -> (k = KSym -> named n) -> flat_ok named (Leaf k n)
| fo_pair a d : flat_ok named a -> flat_ok named d -> flat_ok named (Pair a d)
| fo_bytes bs : bs <> [] -> Forall (fun b => 0 <= b < 256) bs -> flat_ok named (Bytes bs)
| fo_arr ts : ts <> [] -> Forall (flat_ok named) ts -> flat_ok named (Arr ts).

(* cells and memory blocks the value of a tree takes *)
Definition boxed (k : kind) : bool :=
  match k with
  | KI64 | KU64 | KDouble => true
  | KI32 | KU32 | KFloat => negb b64
  | _ => false
  end.
Definition blocked (k : kind) : bool :=
  match k with KI64 | KU64 | KDouble => negb b64 | _ => false end.
Fixpoint cells_of (t : tree) : nat :=
  match t with
  | Leaf k _ => if boxed k then 1 else 0
  | Pair a d => S (cells_of a + cells_of d)
  | Bytes _ => 1
  | Arr ts => S (list_sum (map cells_of ts))
  end.
Fixpoint blocks_of (t : tree) : nat :=
  match t with
  | Leaf k _ => if blocked k then 1 else 0
  | Pair a d => blocks_of a + blocks_of d
  | Bytes _ => 2
  | Arr ts => S (S (list_sum (map blocks_of ts)))
  end.

End Arch.
