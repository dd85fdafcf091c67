(* The text of a value, independent of the printer. *)
From Verif Require Import Base Value_Model Sym_Model Eq_Spec Flat_Spec.
From Coq Require Import String.
Import List.
Local Open Scope Z_scope.

(* ASCII codes *)
Definition codes (s : string) : list Z := List.map (fun a => Z.of_N (Ascii.N_of_ascii a)) (list_ascii_of_string s).

(* [s] is the decimal numeral of [n]: its digits read from the left give [n] and
   there is no superfluous zero in front *)
Definition decimal (n : Z) (s : list Z) : Prop :=
  s <> [] /\ Forall (fun c => 48 <= c <= 57) s /\ fold_left (fun a c => a * 10 + (c - 48)) s 0 = n /\
  (forall t, s = 48 :: t -> t = []).
Definition numeral (n : Z) (s : list Z) : Prop :=
  if n <? 0 then exists t, s = codes "-" ++ t /\ decimal (- n) t else decimal n s.

(* integers carry their type as a suffix *)
Definition suffix (k : kind) : list Z :=
  match k with
  | KChar => codes "b" | KU => codes "u" | KI32 => codes "i32" | KU32 => codes "u32" | KI64 => codes "i64" | KU64 => codes "u64"
  | KFloat => codes "f32" | KDouble => codes "f64" | KI | KSym => []
  end.

(* a C string that can be shown between quotes *)
Definition visible (c : Z) : Prop := 32 <= c <= 126 \/ 8 <= c <= 13.
Definition stringy (bs : list Z) : Prop := exists s, s <> [] /\ Forall visible s /\ bs = s ++ [0].
Definition esc (c : Z) : list Z :=
  if c =? 34 then codes "\""" else if c =? 92 then codes "\\" else if c =? 10 then codes "\n" else if c =? 13 then codes "\r"
  else if c =? 9 then codes "\t" else [c].

(* separated by blanks *)
Fixpoint spaced (ss : list (list Z)) : list Z :=
  match ss with [] => [] | [s] => s | s :: t => s ++ codes " " ++ spaced t end.

(* [nm] names the symbols; [ff] and [fd] give the text of a float and of a
   double.  A list is shown as (x y z), an improper one as (x y . z); symbol 0
   is nil. *)
Inductive shows (nm : Z -> name) (ff fd : Z -> list Z) : tree -> list Z -> Prop :=
| sh_sym n : shows nm ff fd (Leaf KSym n) (nm n)
| sh_num k n s : k <> KSym -> k <> KFloat -> k <> KDouble -> numeral n s -> shows nm ff fd (Leaf k n) (s ++ suffix k)
| sh_float n : shows nm ff fd (Leaf KFloat n) (ff n ++ suffix KFloat)
| sh_double n : shows nm ff fd (Leaf KDouble n) (fd n ++ suffix KDouble)
| sh_pair a d s r : shows nm ff fd a s -> shows_rest nm ff fd d r -> shows nm ff fd (Pair a d) (codes "(" ++ s ++ r ++ codes ")")
| sh_string s : s <> [] -> Forall visible s -> shows nm ff fd (Bytes (s ++ [0])) (codes """" ++ flat_map esc s ++ codes """")
| sh_bytes bs ss : ~ stringy bs -> Forall2 numeral bs ss -> shows nm ff fd (Bytes bs) (codes "[" ++ spaced ss ++ codes "]")
| sh_arr ts ss : Forall2 (shows nm ff fd) ts ss -> shows nm ff fd (Arr ts) (codes "[" ++ spaced ss ++ codes "]")
with shows_rest (nm : Z -> name) (ff fd : Z -> list Z) : tree -> list Z -> Prop :=
| sr_nil : shows_rest nm ff fd (Leaf KSym 0) []
| sr_pair a d s r : shows nm ff fd a s -> shows_rest nm ff fd d r -> shows_rest nm ff fd (Pair a d) (codes " " ++ s ++ r)
| sr_dot t s : t <> Leaf KSym 0 -> (forall a d, t <> Pair a d) -> shows nm ff fd t s -> shows_rest nm ff fd t (codes " . " ++ s).

(* how deeply lists and arrays are nested *)
Fixpoint nest (t : tree) : nat :=
  match t with
  | Leaf _ _ | Bytes _ => 0
  | Pair a d => Nat.max (S (nest a)) (match d with Pair _ _ => nest d | _ => S (nest d) end)
  | Arr ts => S (fold_right (fun t n => Nat.max (nest t) n) 0%nat ts)
  end.

(* The trees printed as they should be: numbers are in range, the symbols have a name, a float has a
   text of at most 26 characters, a byte array has one byte or starts with a
   visible one, no array of values is empty. *)
Inductive printable_tree {A : Arch} (named : Z -> Prop) (ff fd : Z -> list Z) : tree -> Prop :=
| pt_leaf k n : in_range k n -> (k = KSym -> named n) -> (k = KFloat -> (List.length (ff n) <= 26)%nat /\ Forall (fun c => c <> 0) (ff n)) ->
    (k = KDouble -> (List.length (fd n) <= 26)%nat /\ Forall (fun c => c <> 0) (fd n)) -> printable_tree named ff fd (Leaf k n)
| pt_pair a d : printable_tree named ff fd a -> printable_tree named ff fd d -> printable_tree named ff fd (Pair a d)
| pt_bytes bs : Forall (fun b => 0 <= b < 256) bs -> (exists b t, bs = b :: t /\ (visible b \/ t = [])) -> printable_tree named ff fd (Bytes bs)
| pt_arr ts : ts <> [] -> Z.of_nat (List.length ts) < 2 ^ 32 -> Forall (printable_tree named ff fd) ts -> printable_tree named ff fd (Arr ts).

(* the first [len - 1] characters of a text in a buffer of [len] bytes, the rest
   of it zeros *)
Definition buffer (len : Z) (s : list Z) : list Z :=
  let shown := firstn (Z.to_nat (len - 1)) s in shown ++ repeat 0 (Z.to_nat len - List.length shown).
