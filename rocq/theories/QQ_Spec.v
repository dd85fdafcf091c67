(* Words used to state the property of quasi-quotation, independent of how the
   code expands it. *)
From Verif Require Import Base Value_Model Heap_Model Value_Proofs Heap_Spec QQ_Model.
Local Open Scope Z_scope.

(* values as trees of pairs; the leaves are any other words *)
Inductive tree := At (v : Z) | Nd (a d : tree).

Section Arch.
Context {A : Arch}.

(* [v] is the tree [t] in the heap, made of the RAM cells [cs]; no cell occurs
   twice *)
Inductive tree_at (h : heap) : Z -> tree -> list Z -> Prop :=
| ta_atom v : word v -> is_cons v = false -> tree_at h v (At v) []
| ta_cons i a d ta td ca cd :
    0 <= i < 2 ^ (W - 8) -> cell h i = Some (a, d) ->
    tree_at h a ta ca -> tree_at h d td cd -> NoDup (i :: ca ++ cd) ->
    tree_at h (enc_cons_ptr i) (Nd ta td) (i :: ca ++ cd).

Fixpoint size (t : tree) : nat :=
  match t with At _ => 1 | Nd a d => 1 + size a + size d end.

(* lists *)
Definition tnil : tree := At 0.
(* the elements [xs] followed by [t] *)
Fixpoint onto (xs : list tree) (t : tree) : tree :=
  match xs with [] => t | x :: r => Nd x (onto r t) end.
Definition of_list (xs : list tree) : tree := onto xs tnil.

(* ,e  ,@e  'x  (list e)  (append es) *)
Definition unquote (e : tree) : tree := of_list [At COMMA; e].
Definition splice (e : tree) : tree := of_list [At COMMAAT; e].
Definition quote (x : tree) : tree := of_list [At QUOTE; x].
Definition list_form (e : tree) : tree := of_list [At LIST; e].
Definition append_form (es : list tree) : tree := Nd (At APPEND) (of_list es).

Definition is_tag (t : tree) : Prop := t = At COMMA \/ t = At COMMAAT.
(* the pair (a . d) is not , or ,@ *)
Definition untagged (t : tree) : Prop := match t with Nd a _ => ~ is_tag a | At _ => True end.

(* what the function append does with its arguments: nothing for no arguments,
   a single argument must be a list, and of all but the last argument, which
   must be lists, the elements are taken *)
Fixpoint elems (t : tree) : list tree := match t with Nd a d => a :: elems d | At _ => [] end.
Definition listp (t : tree) : bool := match t with Nd _ _ => true | At v => v =? 0 end.
Fixpoint append_to (v : tree) (vs : list tree) : option tree :=
  match vs with
  | [] => Some v
  | w :: r =>
    if listp v then match append_to w r with Some t => Some (onto (elems v) t) | None => None end else None
  end.
Definition append_value (vs : list tree) : option tree :=
  match vs with
  | [] => Some tnil
  | [v] => if listp v then Some v else None
  | v :: r => append_to v r
  end.

(* unquoted expressions: calls of append and quote are proper forms, and so are
   quotes among the arguments of append *)
Definition proper_quote (e : tree) : Prop :=
  match e with Nd (At f) d => f = QUOTE -> exists x, d = of_list [x] | _ => True end.
Definition proper_form (e : tree) : Prop :=
  proper_quote e /\
  match e with Nd (At f) d => f = APPEND -> exists es, d = of_list es /\ Forall proper_quote es | _ => True end.

(* well formed quasi-quoted forms, and elements of quasi-quoted lists *)
Inductive template : tree -> Prop :=
| te_unquote e : proper_form e -> template (unquote e)
| te_atom a : template (At a)
| te_pair a d : untagged (Nd a d) -> template_elem a -> template d -> template (Nd a d)
with template_elem : tree -> Prop :=
| tl_unquote e : template_elem (unquote e)
| tl_splice e : proper_form e -> template_elem (splice e)
| tl_other t : untagged t -> template t -> template_elem t.

Section Ev.
(* [ev s e s' v]: evaluating [e] in the state [s] gives [v] and the state [s'] *)
Context {St : Type} (ev : St -> tree -> St -> tree -> Prop).

(* evaluation of several expressions from left to right *)
Inductive evs : St -> list tree -> St -> list tree -> Prop :=
| evs_nil s : evs s [] s []
| evs_cons s e s1 v es s2 vs : ev s e s1 v -> evs s1 es s2 vs -> evs s (e :: es) s2 (v :: vs).

(* what is used of the evaluator: quote, the symbols that stand for themselves
   (nil is one), and calls of list and append *)
Record evaluator : Prop := {
  ev_quote s x s' v : ev s (quote x) s' v <-> s' = s /\ v = x;
  ev_self s a s' v : is_symbol a = true -> is_special a = true -> (ev s (At a) s' v <-> s' = s /\ v = At a);
  ev_list s e s' v : ev s (list_form e) s' v <-> exists w, ev s e s' w /\ v = of_list [w];
  ev_append s es s' v : ev s (append_form es) s' v <-> exists vs, evs s es s' vs /\ append_value vs = Some v
}.

(* [qq s t s' v]: the value [v] of the quasi-quoted form [t].  The unquoted
   expressions are evaluated once each, from left to right. *)
Inductive qq : St -> tree -> St -> tree -> Prop :=
| qq_unquote s e s' v : proper_form e -> ev s e s' v -> qq s (unquote e) s' v
| qq_atom s a : qq s (At a) s (At a)
| qq_pair s a d s1 xs s2 v : untagged (Nd a d) -> qq_elem s a s1 xs -> qq s1 d s2 v ->
    qq s (Nd a d) s2 (onto xs v)
(* the elements that an element [t] of a quasi-quoted list contributes *)
with qq_elem : St -> tree -> St -> list tree -> Prop :=
| qe_unquote s e s' v : ev s e s' v -> qq_elem s (unquote e) s' [v]
| qe_splice s e s' xs : proper_form e -> ev s e s' (of_list xs) -> qq_elem s (splice e) s' xs
| qe_other s t s' v : untagged t -> qq s t s' v -> qq_elem s t s' [v].

End Ev.
End Arch.
