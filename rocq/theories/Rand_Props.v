(* C97: random and seed. *)
From Coq Require Import Znumtheory Zpow_facts.
From Verif Require Import Base Value_Model Heap_Model Fund_Model Read_Model Value_Proofs Value_Proofs2 Value_Props Fund_Proofs Flat_Proofs Read_Proofs2 Rand_Model Rand_Proofs.
Local Open Scope Z_scope.

(* For every seed: the number is in [0, 268435183), is the one kept for the next
   call, and the value encodes it without loss. *)
Theorem random_range {A : Arch} seed : 0 <= fst (ext_random seed) < 268435183 /\ dec_u (snd (ext_random seed)) = fst (ext_random seed) /\
  type_of (snd (ext_random seed)) = TYPE_U.
Proof.
  assert (R : 0 <= next seed < 268435183) by (apply Z.mod_pos_bound; reflexivity). cbn [fst snd ext_random]. split; [exact R|]. split.
  - rewrite enc_u_roundtrip. apply Z.mod_small. destruct A; cbn; lia.
  - apply enc_kinds.
Qed.

(* 64 bit: the sum is not wrapped, so it is the linear congruence. *)
Theorem random_64 seed : 0 <= seed < 2 ^ 32 -> fst (ext_random (A := A64) seed) = (268435043 * seed + 268434949) mod 268435183.
Proof.
  intros R. cbn [fst ext_random]. unfold next, wrap, MUL, INC, M. change (2 ^ W (A := A64)) with 18446744073709551616. change (2 ^ 32) with 4294967296 in R.
  rewrite (Z.mod_small (268435043 * seed)) by lia. rewrite (Z.mod_small (268435043 * seed + 268434949)) by lia. reflexivity.
Qed.

#[local] Instance libc97 : Libc := Build_Libc (fun _ => 0) (fun _ => 0) (fun _ => None) (fun _ => None) (fun _ => 0).
Definition heap97 : heap := mkHeap [] [] 0 0 [] 0 0 0 0 (fun _ => None) [] false.

(* the number that is its own successor *)
Definition stuck := 194187152.
Lemma affine n : forall s, 0 <= s < M -> (calls (A := A64) n s - stuck - MUL ^ Z.of_nat n * (s - stuck)) mod M = 0 /\ 0 <= calls (A := A64) n s < M.
Proof.
  induction n as [|n IH]; intros s R.
  - cbn [calls]. split; [|exact R]. change (MUL ^ Z.of_nat 0) with 1. rewrite Z.mul_1_l, Z.sub_diag. reflexivity.
  - destruct (IH s R) as (E&RC). clear IH. cbn [calls]. set (c := calls n s) in *. rewrite random_64 by (unfold M in RC; lia).
    split; [|apply Z.mod_pos_bound; reflexivity]. change 268435183 with M. change 268435043 with MUL. rewrite Nat2Z.inj_succ, Z.pow_succ_r by lia.
    generalize dependent (MUL ^ Z.of_nat n). intros p E. apply Z.mod_divide in E as (k&E); [|discriminate]. apply Z.mod_divide; [discriminate|].
    assert (X : (MUL * c + 268434949) mod M = MUL * c + 268434949 - M * ((MUL * c + 268434949) / M)) by (rewrite Z.mod_eq by discriminate; lia).
    rewrite X. set (d := (MUL * c + 268434949) / M). assert (Y : MUL * stuck + 268434949 - stuck = 194187051 * M) by (vm_compute; reflexivity).
    exists (MUL * k - d + 194187051). clearbody d. clear X. assert (H : c = stuck + p * (s - stuck) + k * M) by (clear - E; lia).
    clear - H Y. rewrite H. clear H c. generalize dependent M. generalize dependent MUL. generalize stuck. intros u m M Y.
    replace (m * (u + p * (s - u) + k * M) + 268434949 - M * d - u - m * p * (s - u)) with ((m * u + 268434949 - u) + m * k * M - M * d) by ring. rewrite Y. ring.
Qed.

(* 64 bit: from every seed below the modulus but one, the sequence comes back to
   the seed after 268435182 calls, and not before. *)
Theorem random_period_64 seed n : 0 <= seed < 268435183 -> seed <> 194187152 -> (calls (A := A64) n seed = seed <-> (268435182 | Z.of_nat n)).
Proof.
  intros R NS. destruct (affine n seed R) as (E&RC). change 268435182 with (M - 1). rewrite <- (one_iff (Z.of_nat n)) by lia. unfold one.
  generalize dependent (MUL ^ Z.of_nat n). intros p E. apply Z.mod_divide in E as (k&E); [|discriminate].
  assert (SR : 0 <= stuck < M) by (split; [discriminate|reflexivity]). fold stuck in NS. change 268435183 with M in R. split.
  - intros C. rewrite C in E. assert (D : (M | (p - 1) * (seed - stuck))) by (exists (- k); lia).
    apply prime_mult in D; [|exact M_prime]. destruct D as [(q&D)|(q&D)].
    + replace p with (1 + q * M) by lia. rewrite Z.mod_add by discriminate. reflexivity.
    + exfalso. assert (q = 0) by nia. subst q. lia.
  - intros C. rewrite (Z.div_mod p M) in E by discriminate. rewrite C in E. set (q := p / M) in *. set (c := calls n seed) in *.
    assert (X : c - seed = (q * (seed - stuck) + k) * M) by lia. assert (q * (seed - stuck) + k = 0) by nia. nia.
Qed.

(* 64 bit: after (seed 194187152) every call gives 194187152. *)
Theorem random_stuck_refuted : exists seed, 0 <= seed < 268435183 /\ (forall n, calls (A := A64) n seed = seed) /\
  ext_seed (A := A64) (LC := libc97) heap97 [enc_u (A := A64) seed] first_seed = Ok (seed, enc_sym (A := A64) SYM_TRUE).
Proof.
  exists stuck. split; [split; [discriminate|reflexivity]|]. split; [|vm_compute; reflexivity].
  induction n as [|n IH]; [reflexivity|]. cbn [calls]. rewrite IH. vm_compute. reflexivity.
Qed.

(* 32 bit: the product is cut to 32 bits before the modulus is taken, and from the
   first seed the sequence repeats every 18535 calls. *)
Fixpoint run (p : positive) (s : Z) : Z :=
  match p with xH => next (A := A32) s | xO p => run p (run p s) | xI p => next (A := A32) (run p (run p s)) end.
Lemma calls_add a b s : calls (A := A32) (a + b) s = calls (A := A32) a (calls (A := A32) b s).
Proof. induction a as [|a IH]; [reflexivity|]. cbn [calls Nat.add]. rewrite IH. reflexivity. Qed.
Lemma run_calls p : forall s, run p s = calls (A := A32) (Pos.to_nat p) s.
Proof.
  induction p as [p IH|p IH|]; intros s; cbn [run].
  - rewrite !IH, Pos2Nat.inj_xI. cbn [calls]. replace (2 * Pos.to_nat p)%nat with (Pos.to_nat p + Pos.to_nat p)%nat by lia. rewrite calls_add. reflexivity.
  - rewrite !IH, Pos2Nat.inj_xO. replace (2 * Pos.to_nat p)%nat with (Pos.to_nat p + Pos.to_nat p)%nat by lia. rewrite calls_add. reflexivity.
  - reflexivity.
Qed.
Theorem random_short_refuted : exists a b : nat, Z.of_nat a = 812 /\ Z.of_nat b = 18535 /\
  forall n, calls (A := A32) (n + b + a) first_seed = calls (A := A32) (n + a) first_seed.
Proof.
  exists (Pos.to_nat 812), (Pos.to_nat 18535). rewrite !positive_nat_Z. split; [reflexivity|]. split; [reflexivity|]. intros n.
  assert (E : run 18535 (run 812 first_seed) = run 812 first_seed) by (vm_compute; reflexivity).
  rewrite !calls_add. rewrite run_calls, (run_calls 812) in E. rewrite E. reflexivity.
Qed.

Lemma number_u {A : Arch} x : is_number (enc_u x) = true.
Proof.
  destruct (enc_kinds x) as (_&T&_&_&_&P&_). unfold is_ptr in P. unfold is_number, type_of in *. destruct (Z.land (enc_u x) PTR_BIT =? 0); [|discriminate].
  rewrite T. destruct A; reflexivity.
Qed.
(* seed: an unsigned number is taken as the new seed, its low 32 bits; without one
   number the value is an error and the seed stays *)
Theorem seed_correct {A : Arch} {LC : Libc} h args seed :
  (forall x, args = [enc_u x] -> ext_seed h args seed = Ok ((x mod 2 ^ payload A) mod 2 ^ 32, enc_sym SYM_TRUE)) /\
  ((length args <> 1)%nat \/ (exists a, args = [a] /\ is_number a = false) -> ext_seed h args seed = Ok (seed, enc_sym SYM_EERROR)).
Proof.
  split.
  - intros x ->. cbn [ext_seed]. pose proof (enc_u_roundtrip x) as ER. destruct (enc_kinds x) as (_&T&_&_&_&P&_).
    rewrite (number_u x). unfold dec_as_u32. rewrite (functional_nonptr (enc_u x) P), T.
    replace (TYPE_U =? TYPE_CHAR) with false by (destruct A; reflexivity). replace (TYPE_U =? TYPE_I) with false by (destruct A; reflexivity). rewrite Z.eqb_refl, ER. reflexivity.
  - intros [L|(a&->&E)]; [destruct args as [|a [|b l]]; [reflexivity|cbn in L; lia|reflexivity]|]. cbn [ext_seed]. rewrite E. reflexivity.
Qed.

(* 64 bit, from the first seed *)
Example random_case : fst (ext_random (A := A64) first_seed) = 243551489 /\ fst (ext_random (A := A32) first_seed) <> 243551489.
Proof. split; vm_compute; [reflexivity|discriminate]. Qed.
Example period_case : forall n, calls (A := A64) n first_seed = first_seed <-> (268435182 | Z.of_nat n).
Proof. intros n. apply random_period_64; unfold first_seed; lia. Qed.
Example seed_case : ext_seed (A := A32) heap97 [enc_u (A := A32) 5] first_seed = Ok (5, enc_sym (A := A32) SYM_TRUE) /\
  ext_seed (A := A32) heap97 [enc_sym (A := A32) SYM_TRUE] first_seed = Ok (first_seed, enc_sym (A := A32) SYM_EERROR).
Proof. split; [apply (proj1 (seed_correct (A := A32) heap97 _ first_seed) 5 eq_refl)|]. apply seed_correct. right. eexists. split; reflexivity. Qed.

Print Assumptions random_range.
Print Assumptions random_64.
Print Assumptions random_period_64.
Print Assumptions random_stuck_refuted.
Print Assumptions random_short_refuted.
Print Assumptions seed_correct.
