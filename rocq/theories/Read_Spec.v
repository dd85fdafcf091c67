(* What the text of an expression means, independent of the reader. *)
From Coq Require Import String.
From Verif Require Import Base Value_Model Heap_Model Sym_Model Eq_Spec Flat_Spec Print_Spec.
Import List.
Local Open Scope Z_scope.

(* Expressions: symbols by name, numbers and characters, pairs, byte arrays. *)
Inductive sexp := Sy (n : name) | Nu (k : kind) (n : Z) | Cn (a d : sexp) | By (bs : list Z).
Definition empty : sexp := Sy (codes "nil").

(* White space and comments. *)
Definition space (c : Z) : Prop := c = 32 \/ 9 <= c <= 13.
Inductive blank : list Z -> Prop :=
| b_nil : blank []
| b_space c t : space c -> blank t -> blank (c :: t)
| b_comment txt t : ~ In 10 txt -> blank t -> blank (codes ";" ++ txt ++ 10 :: t).

(* Symbols and numbers extend up to one of these characters, or to the end. *)
Definition ends (rest : list Z) : Prop :=
  match rest with [] => True | c :: _ => space c \/ In c (codes "()[]{}"";'`,") end.

(* ---- symbols ---- *)
Definition letter (c : Z) : Prop := 97 <= c <= 122 \/ 65 <= c <= 90.
Definition digit (c : Z) : Prop := 48 <= c <= 57.
Definition mark (c : Z) : Prop := In c (codes "+-*/=<>!").
Definition sym_first (c : Z) : Prop := letter c \/ mark c \/ c = 35.
Definition sym_next (c : Z) : Prop := letter c \/ digit c \/ mark c \/ In c (codes "?_").
Definition lower (c : Z) : Z := if (65 <=? c) && (c <=? 90) then c + 32 else c.
(* at most 255 characters, and not the start of a negative number *)
Definition symbol_text (s : list Z) : Prop :=
  exists c cs, s = c :: cs /\ sym_first c /\ Forall sym_next cs /\ (List.length s <= 255)%nat /\
    (c = 45 -> forall x r, cs = x :: r -> ~ digit x).

(* ---- integers ---- *)
Definition suffixes (k : kind) (s : list Z) : Prop :=
  match k with
  | KI => s = [] \/ s = codes "i"
  | KU => s = codes "u"
  | KChar => s = codes "b"
  | KI32 => s = codes "i32"
  | KU32 => s = codes "u32"
  | KI64 => s = codes "i64"
  | KU64 => s = codes "u64"
  | _ => False
  end.
Definition hex_digit (c v : Z) : Prop :=
  (48 <= c <= 57 /\ v = c - 48) \/ (97 <= c <= 102 /\ v = c - 87) \/ (65 <= c <= 70 /\ v = c - 55).
Definition positional (base : Z) (vs : list Z) : Z := fold_left (fun a v => a * base + v) vs 0.
Definition signed (neg : bool) (n : Z) : Z := if neg then - n else n.
Definition minus (neg : bool) : list Z := if neg then codes "-" else [].
Inductive number_text {A : Arch} : list Z -> kind -> Z -> Prop :=
| nt_dec neg ds suf k n : ds <> [] -> Forall digit ds -> (List.length ds <= 120)%nat -> suffixes k suf ->
    n = signed neg (positional 10 (map (fun c => c - 48) ds)) -> in_range k n -> number_text (minus neg ++ ds ++ suf) k n
| nt_hex neg x ds vs suf k n : x = 120 \/ x = 88 -> ds <> [] -> Forall2 hex_digit ds vs -> suffixes k suf -> k <> KChar ->
    n = signed neg (positional 16 vs) -> in_range k n -> number_text (minus neg ++ 48 :: x :: ds ++ suf) k n.

(* ---- characters and strings ---- *)
Definition named_chars : list (Z * Z) :=
  [(97, 7); (98, 8); (116, 9); (110, 10); (118, 11); (102, 12); (114, 13); (101, 27); (115, 32); (92, 92); (100, 127)].
Definition in_quotes (c : Z) : list Z := if c =? 0 then codes "\0" else esc c.
Definition string_text (s : list Z) : list Z := codes """" ++ flat_map in_quotes s ++ codes """".

Section Arch.
Context {A : Arch}.

(* ---- arrays of bytes: the text after the bracket ---- *)
Inductive array_text : list Z -> list Z -> Prop :=
| at_close b : blank b -> array_text (b ++ codes "]") []
| at_item b s k n rest bs : blank b -> number_text s k n -> k = KI \/ k = KU \/ k = KChar -> ends rest -> array_text rest bs ->
    array_text (b ++ s ++ rest) (n mod 256 :: bs).

(* [spell o s e]: [s] is a text of [e]; [o]: a symbol or number is at its end.
   [tail cl s d]: [s] is a text of the rest [d] of a list up to and including the
   closing bracket [cl] *)
Inductive spell : bool -> list Z -> sexp -> Prop :=
| sp_sym s : symbol_text s -> spell true s (Sy (map lower s))
| sp_num s k n : number_text s k n -> spell true s (Nu k n)
| sp_char c : 0 <= c < 256 -> c <> 92 -> spell false (codes "\#" ++ [c]) (Nu KChar c)
| sp_named c x : In (c, x) named_chars -> spell false (codes "\#\" ++ [c]) (Nu KChar x)
| sp_string s : (List.length s <= 256)%nat -> Forall (fun c => 0 <= c < 256) s -> spell false (string_text s) (By (s ++ [0]))
| sp_array s bs : array_text s bs -> spell false (codes "[" ++ s) (By bs)
| sp_dontcare : spell false (codes "_") (Sy (codes "_"))
| sp_any : spell false (codes "?") (Sy (codes "?"))
| sp_empty b : blank b -> spell false (codes "(" ++ b ++ codes ")") empty
| sp_list b o s e rest d : blank b -> spell o s e -> (o = true -> ends rest) -> tail 41 rest d ->
    spell false (codes "(" ++ b ++ s ++ rest) (Cn e d)
| sp_block rest d : tail 125 rest d -> spell false (codes "{" ++ rest) (Cn (Sy (codes "progn")) d)
| sp_quote b o s e : blank b -> spell o s e -> spell o (codes "'" ++ b ++ s) (Cn (Sy (codes "quote")) (Cn e empty))
with tail : Z -> list Z -> sexp -> Prop :=
| ta_close cl b : blank b -> tail cl (b ++ [cl]) empty
| ta_dot cl b b1 o s e b2 : blank b -> blank b1 -> spell o s e -> blank b2 -> (o = true -> ends (b2 ++ [cl])) ->
    tail cl (b ++ codes "." ++ b1 ++ s ++ b2 ++ [cl]) e
| ta_item cl b o s e rest d : blank b -> spell o s e -> (o = true -> ends rest) -> tail cl rest d -> tail cl (b ++ s ++ rest) (Cn e d).

(* the text of a program is a list of expressions without the parentheses *)
Inductive program_text : list Z -> sexp -> Prop :=
| pt_end b : blank b -> program_text b empty
| pt_comment b txt : blank b -> ~ In 10 txt -> program_text (b ++ codes ";" ++ txt) empty
| pt_item b o s e rest d : blank b -> spell o s e -> (o = true -> ends rest) -> program_text rest d -> program_text (b ++ s ++ rest) (Cn e d).

(* ---- the tree for an expression: the names looked up in the symbol table ---- *)
Inductive meant (sy : syms) : sexp -> tree -> Prop :=
| me_sym n i : get_symbol_by_name sy n = Ok (Some i) -> meant sy (Sy n) (Leaf KSym i)
| me_num k n : meant sy (Nu k n) (Leaf k n)
| me_cons a d ta td : meant sy a ta -> meant sy d td -> meant sy (Cn a d) (Pair ta td)
| me_bytes bs : meant sy (By bs) (Bytes bs).

(* ---- what reading takes: cells, blocks of memory, new symbols; the longest array ---- *)
Fixpoint cells (e : sexp) : nat :=
  match e with
  | Sy _ => 0
  | Nu k _ => if boxed k then 1 else 0
  | Cn a d => S (cells a + cells d)
  | By _ => 1
  end.
Fixpoint blocks (e : sexp) : nat :=
  match e with
  | Sy _ => 0
  | Nu k _ => if blocked k then 1 else 0
  | Cn a d => blocks a + blocks d
  | By [] => 1
  | By _ => 2
  end.
Fixpoint symbols (e : sexp) : nat :=
  match e with
  | Sy _ => 1
  | Cn a d => symbols a + symbols d
  | _ => 0
  end.
Fixpoint longest (e : sexp) : nat :=
  match e with
  | Cn a d => Nat.max (longest a) (longest d)
  | By bs => List.length bs
  | _ => 0
  end.
Fixpoint all_names (P : name -> Prop) (e : sexp) : Prop :=
  match e with
  | Sy n => P n
  | Cn a d => all_names P a /\ all_names P d
  | _ => True
  end.
(* in the table, or not of the form ext-... : such names are added to the
   extensions instead *)
Definition addable (sy : syms) (n : name) : Prop :=
  (exists i, get_symbol_by_name sy n = Ok (Some i)) \/ ~ exists r, n = codes "ext-" ++ r.

End Arch.
