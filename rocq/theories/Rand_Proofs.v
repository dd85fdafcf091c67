(* The arithmetic of random. *)
From Coq Require Import Znumtheory Zpow_facts.
From Verif Require Import Base Value_Model Rand_Model.
Local Open Scope Z_scope.

Definition no_divisor (n : Z) (b : nat) : bool := forallb (fun d => negb (n mod Z.of_nat d =? 0)) (seq 2 (b - 1)).
Lemma trial n b : 1 < n -> n < (Z.of_nat b + 1) * (Z.of_nat b + 1) -> no_divisor n b = true -> prime n.
Proof.
  intros N1 NB T. unfold no_divisor in T. rewrite forallb_forall in T.
  assert (ND : forall g, (g | n) -> 1 < g -> g <= Z.of_nat b -> False).
  { intros g D G1 GB. specialize (T (Z.to_nat g) ltac:(apply in_seq; lia)). rewrite Z2Nat.id in T by lia. apply Zdivide_mod in D. rewrite D in T. discriminate. }
  assert (NG : forall g, (g | n) -> 1 < g -> g < n -> False).
  { intros g D G1 GN. destruct (Z_le_gt_dec g (Z.of_nat b)) as [L|G]; [eapply ND; eauto|]. destruct D as (k&E). apply (ND k); [exists g; lia|nia|nia]. }
  apply prime_intro; [auto|]. intros x R. apply Zgcd_1_rel_prime. pose proof (Z.gcd_nonneg x n). pose proof (Z.gcd_divide_l x n) as D1. pose proof (Z.gcd_divide_r x n) as D2.
  assert (Z.gcd x n <> 0) by (intros E; apply Z.gcd_eq_0_r in E; lia). assert (Z.gcd x n <= x) by (apply Z.divide_pos_le; [lia|auto]).
  destruct (Z.eq_dec (Z.gcd x n) 1); [auto|]. exfalso. apply (NG (Z.gcd x n)); auto; lia.
Qed.
Lemma M_prime : prime M.
Proof. apply (trial M (Z.to_nat 16384)); [reflexivity|reflexivity|vm_compute; reflexivity]. Qed.

(* MUL to the power k is 1 *)
Definition one (k : Z) : Prop := MUL ^ k mod M = 1.
Lemma one_add a b : 0 <= a -> 0 <= b -> one a -> MUL ^ (a + b) mod M = MUL ^ b mod M.
Proof. unfold one. intros HA HB E. rewrite Z.pow_add_r, Zmult_mod, E, Z.mul_1_l, Zmod_mod by auto. reflexivity. Qed.
Lemma one_mul a q : 0 <= a -> 0 <= q -> one a -> one (a * q).
Proof.
  intros HA HQ E. revert q HQ. apply natlike_ind; [rewrite Z.mul_0_r; reflexivity|]. intros q HQ IH. unfold one. replace (a * Z.succ q) with (a + a * q) by lia.
  rewrite one_add by (auto; nia). exact IH.
Qed.
Lemma one_gcd : forall k a b, 0 <= b <= Z.of_nat k -> 0 <= a -> one a -> one b -> one (Z.gcd a b).
Proof.
  induction k as [|k IH]; intros a b RB HA EA EB.
  - replace b with 0 by lia. rewrite Z.gcd_0_r, Z.abs_eq by auto. exact EA.
  - destruct (Z.eq_dec b 0) as [->|NB]; [rewrite Z.gcd_0_r, Z.abs_eq by auto; exact EA|].
    pose proof (Z.mod_pos_bound a b ltac:(lia)) as RM. rewrite (Z.gcd_comm a b), <- Z.gcd_mod, Z.gcd_comm by auto. apply IH; [lia|lia|exact EB|].
    pose proof (Z.div_pos a b HA ltac:(lia)) as HQ. assert (HB : 0 <= b) by lia. assert (HP : 0 <= b * (a / b)) by (apply Z.mul_nonneg_nonneg; auto).
    pose proof (one_mul b (a / b) HB HQ EB) as EM. unfold one in EA |- *. rewrite (Z.div_mod a b NB) in EA. rewrite (one_add _ _ HP (proj1 RM) EM) in EA. exact EA.
Qed.

Lemma one_gcd' a b : 0 <= b -> 0 <= a -> one a -> one b -> one (Z.gcd a b).
Proof. intros. apply (one_gcd (Z.to_nat b)); auto. lia. Qed.

Definition primes : list Z := [2; 3; 1123; 39839].
Lemma primes_prime : Forall prime primes.
Proof.
  repeat (apply Forall_cons); [apply prime_2|apply prime_3| | |constructor].
  - apply (trial 1123 40); [lia|lia|vm_compute; reflexivity].
  - apply (trial 39839 200); [lia|lia|vm_compute; reflexivity].
Qed.
Lemma common e : 1 < e -> (e | M - 1) -> exists p, In p primes /\ (p | e).
Proof.
  intros E1 D. assert (X : forall l x, Forall prime l -> (e | x * fold_right Z.mul 1 l) -> (exists p, In p l /\ (p | e)) \/ (e | x)).
  { induction l as [|p l IH]; intros x F DE; cbn [fold_right] in DE; [right; rewrite Z.mul_1_r in DE; auto|]. inversion F as [|? ? Pp F']; subst.
    destruct (Zdivide_dec p e) as [Y|Y]; [left; exists p; split; [left|]; auto|]. destruct (IH (x * 1) F') as [(r&I&R)|R].
    - rewrite Z.mul_1_r. apply (Gauss e p); [replace (p * (x * fold_right Z.mul 1 l)) with (x * (p * fold_right Z.mul 1 l)) by ring; exact DE|]. apply rel_prime_sym, prime_rel_prime; auto.
    - left. exists r. split; [right|]; auto.
    - right. rewrite Z.mul_1_r in R. exact R. }
  destruct (X primes 1 primes_prime) as [H|H]; [exact D|exact H|]. apply Z.divide_1_r_nonneg in H; lia.
Qed.

Lemma one_period : one (M - 1).
Proof. unfold one. rewrite <- Zpow_mod_correct by discriminate. vm_cast_no_check (eq_refl 1). Qed.
Lemma one_iff n : 0 <= n -> (one n <-> (M - 1 | n)).
Proof.
  intros HN. pose proof one_period as O1.
  split.
  - intros E. assert (G : one (Z.gcd n (M - 1))) by (refine (one_gcd' _ _ _ HN E O1); discriminate).
    pose proof (Z.gcd_divide_l n (M - 1)) as D1. destruct (Z.gcd_divide_r n (M - 1)) as (e&D2). pose proof (Z.gcd_nonneg n (M - 1)) as GN. set (d := Z.gcd n (M - 1)) in *.
    assert (PM : 1 < M - 1) by reflexivity. assert (1 <= e) by nia. destruct (Z.eq_dec e 1) as [->|NE]; [rewrite D2, Z.mul_1_l; exact D1|]. exfalso.
    destruct (common e) as (p&I&(q&EQ)); [lia|exists d; lia|].
    assert (PP : 1 < p) by (cbn in I; lia). assert (EQ2 : (M - 1) / p = d * q) by (symmetry; apply Z.div_unique_exact; [lia|rewrite D2, EQ; ring]).
    assert (OP : one ((M - 1) / p)) by (rewrite EQ2; refine (one_mul _ _ GN _ G); nia).
    cbn [primes In] in I. unfold one in OP. rewrite <- Zpow_mod_correct in OP by discriminate.
    destruct I as [<-|[<-|[<-|[<-|[]]]]]; vm_compute in OP; discriminate.
  - intros (q&->). assert (PM : 1 < M - 1) by reflexivity. rewrite Z.mul_comm. refine (one_mul _ _ _ _ O1); nia.
Qed.
