(* Words used to state what the functions of Fund_Model do. *)
From Verif Require Import Base Value_Model Heap_Model Value_Proofs Heap_Spec.
Local Open Scope Z_scope.

(* the whole numbers from [a] up to but not including [b] *)
Definition upto (a b : Z) : list Z := map (fun k => a + Z.of_nat k) (seq 0 (Z.to_nat (b - a))).
(* element [n] of [xs] replaced by [v] *)
Definition replace_nth (n : nat) (v : Z) (xs : list Z) : list Z := firstn n xs ++ v :: skipn (S n) xs.

Section Arch.
Context {A : Arch}.

(* from the word [v] the cells [ps] with cars [xs] lead to the word [w] *)
Inductive path (h : heap) : Z -> list Z -> list Z -> Z -> Prop :=
| path_end w : path h w [] [] w
| path_step p x q xs ps w : word p -> is_cons p = true -> plain p -> ref_cell h p = Ok (x, q) ->
    path h q xs ps w -> path h p (x :: xs) (p :: ps) w.
(* a list of [xs] in cells that are not among [fl]; it may end in any word that is
   not a pair *)
Definition items (fl : list Z) (h : heap) (v : Z) (xs : list Z) : Prop :=
  exists ps w, path h v xs ps w /\ used fl ps /\ is_cons w = false /\ type_of_functional w <> TYPE_CONS /\ (xs = [] -> v = 0).
(* a list that ends in nil *)
Definition proper (fl : list Z) (h : heap) (v : Z) (xs : list Z) : Prop := exists ps, path h v xs ps 0 /\ used fl ps.

(* nothing but the cells [fl] changes *)
Definition kept (fl : list Z) (h h' : heap) : Prop :=
  (forall i, ~ In i fl -> cell h' i = cell h i) /\ ccells h' = ccells h /\ mem h' = mem h.

(* The result [r] is the elements [xs] in new cells, the first ones of [fl] with the
   last element in the first one, in front of the word [d]; with fewer than that many
   free cells it is the memory error.  Nothing else changes. *)
Definition built (fl : list Z) (h : heap) (xs : list Z) (d : Z) (h' : heap) (r : Z) : Prop :=
  kept fl h h' /\
  if (length xs <=? length fl)%nat
  then heap_ok h' (skipn (length xs) fl) /\ path h' r xs (rev (map enc_cons_ptr (firstn (length xs) fl))) d
  else r = MERROR /\ heap_ok h' [].

(* [v] is the integer [n] of type i *)
Definition int_value (v n : Z) : Prop := type_of v = TYPE_I /\ dec_i v = n.

(* [v] is an array of the values [elts] *)
Definition lisp_array (h : heap) (v : Z) (elts : list Z) : Prop :=
  is_ptr v = true /\ type_of_functional v = TYPE_LISPARRAY /\
  exists p q d x, ref_cell h v = Ok (p, q) /\ mem h p = Some (OLisp d (Z.of_nat (length elts) * WB) elts x).

(* Only the free cells [fl] change, and memory that held nothing. *)
Definition extended (fl : list Z) (h h' : heap) : Prop :=
  (forall i, ~ In i fl -> cell h' i = cell h i) /\ ccells h' = ccells h /\ (forall p o, mem h p = Some o -> mem h' p = Some o).
(* the blocks of memory an array of [n] elements needs *)
Definition blocks (n : Z) : nat := if n =? 0 then 1%nat else 2%nat.

End Arch.
