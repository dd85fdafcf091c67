(* What reading and writing numbers in byte arrays means, without the code. *)
From Verif Require Import Base Value_Model Heap_Model Eq_Model Eq_Spec ArrExt_Model.
Local Open Scope Z_scope.

(* the bytes from [i] on replaced by [new] *)
Definition put_at (i : nat) (new bs : list Z) : list Z := firstn i bs ++ new ++ skipn (i + length new) bs.
(* [n] bytes from [i] on *)
Definition slice (i n : nat) (bs : list Z) : list Z := firstn n (skipn i bs).
(* the number digits stand for in base 256, most significant first *)
Definition number (l : list Z) : Z := fold_left (fun a b => a * 256 + b) l 0.
(* most significant byte first, or last *)
Definition order (be : bool) (l : list Z) : list Z := if be then l else rev l.
(* the number of [n] bytes that is congruent to [x], in two's complement *)
Definition signed (n : nat) (x : Z) : Z := if x <? 256 ^ Z.of_nat n / 2 then x else x - 256 ^ Z.of_nat n.

Definition integer_kind (k : kind) : Prop := k <> KSym /\ k <> KFloat /\ k <> KDouble.

(* the arguments of one of the reading functions: bytes read, the number the
   digits [x] stand for, and the kind of the result *)
Definition width (g : getter) : nat := match g with GI8 | GU8 => 1 | GI16 | GU16 => 2 | GU24 => 3 | GI32 | GU32 => 4 end.
Definition reading (g : getter) (x : Z) : Z := match g with GI8 => signed 1 x | GI16 => signed 2 x | GI32 => signed 4 x | _ => x end.
Definition result_kind (g : getter) : kind := match g with GU32 => KU32 | _ => KI end.

Section Arch.
Context {A : Arch}.

(* the word [v] is the integer [n] *)
Definition integer (fl : list Z) (h : heap) (v n : Z) : Prop := exists k, integer_kind k /\ den fl h v (Leaf k n).
(* the optional last argument: most significant byte first unless it is the
   symbol [little] *)
Definition endianness (fl : list Z) (h : heap) (little : Z) (opt : list Z) (be : bool) : Prop :=
  opt = [] /\ be = true \/ exists v t, opt = [v] /\ den fl h v t /\ (be = false <-> t = Leaf KSym little).
(* a byte array that may be written *)
Definition writable (fl : list Z) (h : heap) (v : Z) (bs : list Z) : Prop := den fl h v (Bytes bs) /\ is_const_ptr v = false.
(* the heaps differ at most in the bytes of the array [v], which are now [bs] *)
Definition rewritten (fl : list Z) (h : heap) (v : Z) (bs : list Z) (h' : heap) : Prop :=
  writable fl h' v bs /\ exists m', h' = set_mem h m' /\ forall p, (forall q, ref_cell h v <> Ok (p, q)) -> m' p = mem h p.

End Arch.
