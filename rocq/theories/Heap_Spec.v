(* Words used to state the heap properties, independent of the code's helpers. *)
From Verif Require Import Base Value_Model Heap_Model Value_Proofs.
Local Open Scope Z_scope.

Section Arch.
Context {A : Arch}.

(* contents of RAM cell number [i] *)
Definition cell (h : heap) (i : Z) : option (Z * Z) :=
  if i <? 0 then None else nth_error (cells h) (Z.to_nat i).

Definition hsize (h : heap) : Z := Z.of_nat (length (cells h)).

(* [h'] holds the same RAM cells as [h], except possibly those in [l] *)
Definition same_but (l : list Z) (h h' : heap) : Prop :=
  forall i, ~ In i l -> cell h' i = cell h i.

(* [v] is the head of a proper list of cells whose cars are [xs], the cells
   being addressed by the words [ps]: constant or RAM cells. *)
Inductive list_on (h : heap) : Z -> list Z -> list Z -> Prop :=
| list_on_nil : list_on h 0 [] []
| list_on_cons p x q xs ps :
    word p -> is_cons p = true -> ref_cell h p = Ok (x, q) ->
    list_on h q xs ps -> list_on h p (x :: xs) (p :: ps).

Definition list_at (h : heap) (v : Z) (xs : list Z) : Prop := exists ps, list_on h v xs ps.

(* all the list's cells are writable *)
Definition list_rw (h : heap) (v : Z) (xs : list Z) : Prop :=
  exists ps, list_on h v xs ps /\ Forall (fun p => is_cons_rw p = true) ps.

(* the free list: cell numbers in the order in which they will be handed out *)
Inductive chain (h : heap) : Z -> list Z -> Prop :=
| chain_nil : chain h 0 []
| chain_cons i a q l : cell h i = Some (a, q) -> chain h q l -> chain h (enc_cons_ptr i) (i :: l).

(* the heap is in order, with free cells [fl] *)
Record heap_ok (h : heap) (fl : list Z) : Prop := {
  ok_size : hsize h <= 2 ^ (W - 8);
  ok_chain : chain h (freelist h) fl;
  ok_nodup : NoDup fl;
  ok_count : num_alloc h = hsize h - Z.of_nat (length fl)
}.

(* none of the RAM cells addressed by [ps] is free *)
Definition used (fl ps : list Z) : Prop :=
  forall p, In p ps -> is_const_ptr p = false -> ~ In (f_ix p) fl.

(* cons pointers with the tag the code makes: cons, RAM or constant *)
Definition plain (p : Z) : Prop := f_ty p = 4 \/ f_ty p = 5.

(* cell numbers of the RAM cells [ps] *)
Definition nums (ps : list Z) : list Z := map f_ix ps.

End Arch.
