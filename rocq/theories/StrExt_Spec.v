(* What the functions on strings are supposed to return, without the code. *)
From Verif Require Import Base Value_Model Heap_Model Heap_Spec Eq_Model Eq_Spec Flat_Model ArrExt_Spec.
Local Open Scope Z_scope.

(* the characters of a string: the bytes up to the first 0 *)
Fixpoint text (bs : list Z) : list Z :=
  match bs with
  | [] => []
  | x :: t => if x =? 0 then [] else x :: text t
  end.
(* a new string, a list of values *)
Definition str (s : list Z) : tree := Bytes (s ++ [0]).
Definition tlist (ts : list tree) : tree := fold_right Pair (Leaf KSym 0) ts.

(* strings one after the other with [d] in between *)
Fixpoint join (d : list Z) (ss : list (list Z)) : list Z :=
  match ss with
  | [] => []
  | [s] => s
  | s :: t => s ++ d ++ join d t
  end.
(* [s] cut into pieces of [n] characters, the last one may be shorter *)
Inductive cut (n : nat) : list Z -> list (list Z) -> Prop :=
| cut_end : cut n [] []
| cut_last s : s <> [] -> (length s <= n)%nat -> cut n s [s]
| cut_more p s ps : length p = n -> s <> [] -> cut n s ps -> cut n (p ++ s) (p :: ps).
(* the longest pieces of [s] without characters of [set] *)
Inductive pieces (set : list Z) : list Z -> list (list Z) -> Prop :=
| pc_skip c s ps : In c set -> pieces set s ps -> pieces set (c :: s) ps
| pc_end : pieces set [] []
| pc_last p : p <> [] -> Forall (fun c => ~ In c set) p -> pieces set p [p]
| pc_more p c s ps : p <> [] -> Forall (fun c => ~ In c set) p -> In c set -> pieces set s ps -> pieces set (p ++ c :: s) (p :: ps).
(* every occurrence of [r] in [s], from the left, replaced by [w] *)
Inductive replaced (r w : list Z) : list Z -> list Z -> Prop :=
| rp_none s : (forall a b, s <> a ++ r ++ b) -> replaced r w s s
| rp_first a b t : (forall a' b', a ++ r ++ b = a' ++ r ++ b' -> (length a <= length a')%nat) -> replaced r w b t -> replaced r w (a ++ r ++ b) (a ++ w ++ t).
(* letters *)
Definition upper (c : Z) : Z := if (97 <=? c) && (c <=? 122) then c - 32 else c.
Definition lower (c : Z) : Z := if (65 <=? c) && (c <=? 90) then c + 32 else c.
(* dictionary order *)
Definition before (a b : list Z) : Prop :=
  exists p, (a = p /\ exists y t, b = p ++ y :: t) \/ (exists x y s t, a = p ++ x :: s /\ b = p ++ y :: t /\ x < y).

(* ---- searching ---- *)
(* [s] occurs in [str] at [i] *)
Definition occurs (cs : bool) (str : list Z) (i : Z) (s : list Z) : bool :=
  let norm := if cs then fun x => x else map lower in
  (0 <=? i) && (i + Z.of_nat (length s) <=? Z.of_nat (length str)) &&
  (if list_eq_dec Z.eq_dec (norm (firstn (length s) (skipn (Z.to_nat i) str))) (norm s) then true else false).
(* where to start: a negative number counts from the last character *)
Definition origin (right : bool) (size : Z) (start : option Z) : Z :=
  match start with
  | None => if right then 0 else size
  | Some x => if x <? 0 then size - 1 + x else x
  end.
(* the positions to look at, in this order *)
Definition interval (a b : Z) : list Z := map (fun k => a + Z.of_nat k) (seq 0 (Z.to_nat (b - a + 1))).
Definition positions (right : bool) (size o : Z) : list Z :=
  if right then interval (Z.max 0 o) size else rev (interval 0 (Z.min o size)).
(* one entry for each string that occurs at a position *)
Definition hits (cs : bool) (str : list Z) (subs : list (list Z)) (ps : list Z) : list Z :=
  flat_map (fun i => map (fun _ => i) (filter (occurs cs str i) subs)) ps.
(* byte arrays that can be searched for are not empty; the last byte is not looked at *)
Definition needles (bss : list (list Z)) : list (list Z) := map (@removelast Z) (filter (fun bs => negb (length bs =? 0)%nat) bss).

Section Arch.
Context {A : Arch}.

(* the other arguments: numbers and symbols, in any order.  The first number is
   where to start, the second how many occurrences to skip. *)
Definition options (fl : list Z) (h : heap) (opts : list Z) (ts : list (Z + Z)) : Prop :=
  Forall2 (fun v t => match t with inl n => integer fl h v n /\ -2 ^ 31 < n < 2 ^ 31 | inr s => den fl h v (Leaf KSym s) end) opts ts.
Definition numbers (ts : list (Z + Z)) : list Z := flat_map (fun t => match t with inl n => [n] | inr _ => [] end) ts.
Definition chosen (s : Z) (ts : list (Z + Z)) : bool := existsb (fun t => match t with inl _ => false | inr s' => s' =? s end) ts.

(* The state: the free cells [fl], blocks the allocator will hand out. *)
Fixpoint avail (l : list Z) : nat := match l with [] => 0 | a :: t => if a =? 0 then 0 else S (avail t) end.
Record ready (u : ust) (fl : list Z) : Prop := {
  r_heap : heap_ok (uh u) fl;
  r_null : mem (uh u) 0 = None;
  r_fresh : NoDup (firstn (avail (up u)) (up u)) /\ Forall (fun a => mem (uh u) a = None) (firstn (avail (up u)) (up u)) }.
(* only arrays without bytes have no data *)
Definition data_ok (h : heap) : Prop := forall p d bs, mem h p = Some (OByte d bs) -> bs <> [] -> d <> 0.
(* the result is [t] if [c] cells and [m] blocks are free, and out of memory if
   not; all other values keep their meaning *)
Definition outcome (c m : nat) (u : ust) (fl : list Z) (t : tree) (u' : ust) (r : Z) : Prop :=
  exists fl', incl fl' fl /\ heap_ok (uh u') fl' /\ (forall w t, den fl (uh u) w t -> den fl' (uh u') w t) /\
    ((c <= length fl)%nat /\ (m <= avail (up u))%nat /\ ready u' fl' /\ den fl' (uh u') r t \/
     ~ ((c <= length fl)%nat /\ (m <= avail (up u))%nat) /\ r = MERROR).

End Arch.
