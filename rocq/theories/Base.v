(* Common definitions: outcomes, list access, machine words.  No model of the
   C code here; every model file builds on these. *)
From Coq Require Export List Arith ZArith Lia Bool.
From Coq Require Export ZifyBool ZifyNat ZifyN.
Export ListNotations.

(* Outcome of a piece of C code.
   [Ok a]  : the code ran and produced [a];
   [UB]    : it did something the C standard leaves undefined (out-of-bounds
             access, NULL dereference, signed overflow, over-wide shift);
   [Fuel]  : the loop bound given to the model was used up. *)
Inductive res (A : Type) : Type :=
| Ok (a : A)
| UB
| Fuel.
Arguments Ok {A} a.
Arguments UB {A}.
Arguments Fuel {A}.

Definition bind {A B} (m : res A) (f : A -> res B) : res B :=
  match m with Ok a => f a | UB => UB | Fuel => Fuel end.

Notation "'let!' x ':=' m 'in' k" := (bind m (fun x => k))
  (at level 200, x pattern, m at level 100, k at level 200, right associativity).

(* Array access by index; outside the array is undefined behaviour. *)
Definition rd {A} (l : list A) (i : Z) : res A :=
  if (i <? 0)%Z then UB else
  match nth_error l (Z.to_nat i) with Some a => Ok a | None => UB end.

Fixpoint upd {A} (l : list A) (n : nat) (x : A) : list A :=
  match l, n with
  | [], _ => []
  | _ :: t, O => x :: t
  | h :: t, S n' => h :: upd t n' x
  end.

Definition wr {A} (l : list A) (i : Z) (x : A) : res (list A) :=
  if (i <? 0)%Z then UB else
  if (Z.to_nat i <? length l)%nat then Ok (upd l (Z.to_nat i) x) else UB.

(* Unsigned machine word of [w] bits. *)
Definition wrap (w : Z) (x : Z) : Z := (x mod 2 ^ w)%Z.

(* Signed reading of a [w]-bit word. *)
Definition sgn (w : Z) (x : Z) : Z :=
  (let y := x mod 2 ^ w in if y <? 2 ^ (w - 1) then y else y - 2 ^ w)%Z.

Lemma length_upd {A} (l : list A) n x : length (upd l n x) = length l.
Proof. revert n; induction l as [|h t IH]; intros [|n]; simpl; auto. Qed.

Lemma nth_upd_eq {A} (l : list A) n x d :
  n < length l -> nth n (upd l n x) d = x.
Proof.
  revert n; induction l as [|h t IH]; intros [|n] H; simpl in *; try lia; auto.
  apply IH; lia.
Qed.

Lemma nth_upd_neq {A} (l : list A) n m x d :
  n <> m -> nth m (upd l n x) d = nth m l d.
Proof.
  revert n m; induction l as [|h t IH]; intros [|n] [|m] H; simpl; auto; try lia.
Qed.

Lemma nth_error_upd_eq {A} (l : list A) n x :
  n < length l -> nth_error (upd l n x) n = Some x.
Proof.
  revert n; induction l as [|h t IH]; intros [|n] H; simpl in *; try lia; auto.
  apply IH; lia.
Qed.

Lemma nth_error_upd_neq {A} (l : list A) n m x :
  n <> m -> nth_error (upd l n x) m = nth_error l m.
Proof.
  revert n m; induction l as [|h t IH]; intros [|n] [|m] H; simpl; auto; try lia.
Qed.

Lemma upd_app_l {A} (l1 l2 : list A) n x :
  n < length l1 -> upd (l1 ++ l2) n x = upd l1 n x ++ l2.
Proof.
  revert n; induction l1 as [|h t IH]; intros [|n] H; simpl in *; try lia; auto.
  f_equal; apply IH; lia.
Qed.

Lemma upd_app_r {A} (l1 l2 : list A) n x :
  length l1 <= n -> upd (l1 ++ l2) n x = l1 ++ upd l2 (n - length l1) x.
Proof.
  revert n; induction l1 as [|h t IH]; intros n H; simpl in *.
  - f_equal; lia.
  - destruct n as [|n]; try lia. simpl. f_equal. apply IH; lia.
Qed.

Lemma upd_mid {A} (l1 l2 : list A) a x :
  upd (l1 ++ a :: l2) (length l1) x = l1 ++ x :: l2.
Proof. rewrite upd_app_r by lia. rewrite Nat.sub_diag. reflexivity. Qed.

Lemma rd_ok {A} (l : list A) i d :
  (0 <= i < Z.of_nat (length l))%Z -> rd l i = Ok (nth (Z.to_nat i) l d).
Proof.
  intros H. unfold rd. destruct (Z.ltb_spec i 0); try lia.
  rewrite (nth_error_nth' l d) by lia. reflexivity.
Qed.

Lemma rd_inv {A} (l : list A) i a :
  rd l i = Ok a -> (0 <= i < Z.of_nat (length l))%Z /\ nth_error l (Z.to_nat i) = Some a.
Proof.
  unfold rd. destruct (Z.ltb_spec i 0); try discriminate.
  destruct (nth_error l (Z.to_nat i)) eqn:E; try discriminate.
  intros [= ->]. split; auto.
  assert (nth_error l (Z.to_nat i) <> None) as H0 by congruence.
  apply nth_error_Some in H0. lia.
Qed.

Lemma rd_nth {A} (l : list A) i x :
  (0 <= i)%Z -> nth_error l (Z.to_nat i) = Some x -> rd l i = Ok x.
Proof. intros H E. unfold rd. destruct (Z.ltb_spec i 0); try lia. rewrite E. reflexivity. Qed.

Lemma wr_ok {A} (l : list A) i x :
  (0 <= i < Z.of_nat (length l))%Z -> wr l i x = Ok (upd l (Z.to_nat i) x).
Proof.
  intros H. unfold wr. destruct (Z.ltb_spec i 0); try lia.
  destruct (Nat.ltb_spec (Z.to_nat i) (length l)); auto; lia.
Qed.

Lemma wr_inv {A} (l : list A) i x l' :
  wr l i x = Ok l' -> (0 <= i < Z.of_nat (length l))%Z /\ l' = upd l (Z.to_nat i) x.
Proof.
  unfold wr. destruct (Z.ltb_spec i 0); try discriminate.
  destruct (Nat.ltb_spec (Z.to_nat i) (length l)); try discriminate.
  intros [= <-]; split; auto; lia.
Qed.

Lemma wrap_small w x : (0 <= x < 2 ^ w)%Z -> wrap w x = x.
Proof. intros; apply Z.mod_small; auto. Qed.

Lemma bind_ok {A B} (m : res A) (f : A -> res B) b :
  bind m f = Ok b -> exists a, m = Ok a /\ f a = Ok b.
Proof. destruct m; simpl; try discriminate; eauto. Qed.
