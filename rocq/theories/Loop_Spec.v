(* Words used to state what the loop macros expand to. *)
From Verif Require Import Base Value_Model Heap_Model Value_Proofs Heap_Spec Fund_Spec Loop_Model.
Local Open Scope Z_scope.

(* an expression: a value that is there already, or a list *)
Inductive form := At (v : Z) | Nl | Cn (a d : form).
Definition L (l : list form) : form := fold_right Cn Nl l.
(* the number of cells it takes *)
Fixpoint cells_of (f : form) : nat := match f with Cn a d => 1 + cells_of a + cells_of d | _ => 0 end.

(* the calls in an expression of C *)
Fixpoint ncalls (e : cexp) : nat := match e with Arg _ => 0 | MakeList es => 1 + fold_right (fun e n => ncalls e + n)%nat 0%nat es end.

Section Arch.
Context {A : Arch}.

(* the word [v] is the expression [f], in cells that are not among [fl] *)
Inductive reads (fl : list Z) (h : heap) : Z -> form -> Prop :=
| rd_at v : reads fl h v (At v)
| rd_nil : reads fl h 0 Nl
| rd_cons i a d x y : ~ In i fl -> cell h i = Some (a, d) -> 0 <= i < 2 ^ (W - 8) ->
    reads fl h a x -> reads fl h d y -> reads fl h (enc_cons_ptr i) (Cn x y).

(* [v] is the expression [f] in new cells, taken from the free ones [fl]; with fewer
   free cells than it takes it is the memory error, upon which the evaluator collects
   garbage and tries again.  Nothing else changes. *)
Definition made (fl : list Z) (h : heap) (f : form) (h' : heap) (v : Z) : Prop :=
  kept fl h h' /\
  if (cells_of f <=? length fl)%nat
  then heap_ok h' (skipn (cells_of f) fl) /\ reads (skipn (cells_of f) fl) h' v f
  else v = MERROR /\ exists fl', heap_ok h' fl'.

Definition sym (n : Z) : form := At (enc_sym n).
Definition let_ := sym 0x105.
Definition lambda_ := sym 0x103.
Definition if_ := sym 0x104.
Definition callcc_ := sym 0x10B.

(* (let ((loop (lambda params (if c x y)))) (call-cc (lambda (brk) first))) *)
Definition loop_form (loop brk : Z) (params : list form) (c x y first : form) : form :=
  L [let_; L [L [sym loop; L [lambda_; L params; L [if_; c; x; y]]]]; L [callcc_; L [lambda_; L [sym brk]; first]]].

End Arch.
