From Verif Require Import Base Crc_Model Crc_Spec.
Local Open Scope Z_scope.

Lemma wrap_land w x : 0 <= w -> wrap w x = Z.land x (Z.ones w).
Proof. intros. rewrite Z.land_ones by auto. reflexivity. Qed.

Lemma wrap_lxor w x y : 0 <= w -> wrap w (Z.lxor x y) = Z.lxor (wrap w x) (wrap w y).
Proof.
  intros. rewrite !wrap_land by auto. apply Z.bits_inj'. intros n Hn.
  rewrite !Z.land_spec, !Z.lxor_spec, !Z.land_spec. destruct (Z.testbit x n), (Z.testbit y n), (Z.testbit (Z.ones w) n); auto.
Qed.

Lemma lxor_swap a b c d : Z.lxor (Z.lxor a b) (Z.lxor c d) = Z.lxor (Z.lxor a c) (Z.lxor b d).
Proof. rewrite !Z.lxor_assoc. f_equal. rewrite <- !Z.lxor_assoc. f_equal. apply Z.lxor_comm. Qed.

Ltac xors := apply Z.bits_inj'; intros ?n ?Hn; rewrite ?Z.lxor_spec, ?Z.bits_0;
  repeat match goal with |- context [Z.testbit ?x ?k] => destruct (Z.testbit x k) end; reflexivity.

Lemma lfsr_linear s t b c : lfsr (Z.lxor s t) (xorb b c) = Z.lxor (lfsr s b) (lfsr t c).
Proof.
  unfold lfsr. rewrite Z.shiftl_lxor, wrap_lxor by lia. rewrite Z.lxor_spec.
  rewrite lxor_swap. f_equal.
  destruct (Z.testbit s 15), (Z.testbit t 15), b, c; reflexivity.
Qed.

Definition xorl (x y : list bool) : list bool := map (fun p => xorb (fst p) (snd p)) (combine x y).

Lemma crc_linear x : forall y s t, length x = length y -> crc_bits (Z.lxor s t) (xorl x y) = Z.lxor (crc_bits s x) (crc_bits t y).
Proof.
  induction x as [|a x IH]; intros [|b y] s t L; try discriminate L; auto.
  cbn. rewrite lfsr_linear. apply IH. injection L as L. exact L.
Qed.

Definition st (s : Z) : Prop := 0 <= s < 65536.
Lemma wrap_st x : st (wrap 16 x). Proof. apply Z.mod_pos_bound. reflexivity. Qed.
Lemma lxor_bound n x y : 0 <= n -> 0 <= x < 2 ^ n -> 0 <= y < 2 ^ n -> 0 <= Z.lxor x y < 2 ^ n.
Proof.
  intros Hn Hx Hy. assert (0 <= Z.lxor x y) by (apply Z.lxor_nonneg; lia). split; auto.
  replace (Z.lxor x y) with (wrap n (Z.lxor x y)); [apply Z.mod_pos_bound; lia|].
  rewrite wrap_lxor by auto. unfold wrap. rewrite !Z.mod_small by auto. auto.
Qed.
Lemma lxor_st x y : st x -> st y -> st (Z.lxor x y).
Proof. apply (lxor_bound 16). lia. Qed.
Lemma lfsr_st s b : st (lfsr s b).
Proof. unfold lfsr. apply lxor_st; [apply wrap_st|]. destruct (xorb _ _); split; lia. Qed.
Lemma crc_st l : forall s, st s -> st (crc_bits s l).
Proof. induction l as [|b l IH]; intros s H; auto. apply IH, lfsr_st. Qed.

(* ---- table = bitwise ---- *)
Definition byte_range : list Z := map Z.of_nat (seq 0 256).
Lemma byte_in b : byte b -> In b byte_range.
Proof. intros [H0 H1]. apply in_map_iff. exists (Z.to_nat b). rewrite in_seq. lia. Qed.

Lemma all_bytes (P : Z -> bool) : forallb P byte_range = true -> forall b, byte b -> P b = true.
Proof. intros H b Hb. rewrite forallb_forall in H. apply H, byte_in, Hb. Qed.

Lemma low8 lo : byte lo -> crc_bits lo (bits8 0) = Z.shiftl lo 8.
Proof. intros H. apply Z.eqb_eq. revert lo H. apply all_bytes. vm_compute. reflexivity. Qed.
Lemma same8 b : byte b -> crc_bits (Z.shiftl b 8) (bits8 b) = 0.
Proof. intros H. apply Z.eqb_eq. revert b H. apply all_bytes. vm_compute. reflexivity. Qed.
Lemma tab8 x : byte x -> crc_bits (Z.shiftl x 8) (bits8 0) = nth (Z.to_nat x) crc16_tab 0.
Proof. intros H. apply Z.eqb_eq. revert x H. apply all_bytes. vm_compute. reflexivity. Qed.

Lemma xorl_bits8 a b : bits8 (Z.lxor a b) = xorl (bits8 a) (bits8 b).
Proof. unfold bits8. cbn [map]. rewrite !Z.lxor_spec. reflexivity. Qed.

Lemma split8 s : st s -> exists hi lo, byte hi /\ byte lo /\ s = Z.lxor (Z.shiftl hi 8) lo /\ hi = Z.shiftr s 8 /\ wrap 16 (Z.shiftl s 8) = Z.shiftl lo 8.
Proof.
  intros [H0 H1]. exists (Z.shiftr s 8), (wrap 8 s). rewrite Z.shiftr_div_pow2, !Z.shiftl_mul_pow2 by lia.
  unfold wrap. change (2 ^ 8) with 256. change (2 ^ 16) with 65536.
  pose proof (Z.mod_pos_bound s 256 ltac:(lia)). pose proof (Z.div_mod s 256 ltac:(lia)).
  assert (0 <= s / 256 < 256) by (split; [apply Z.div_pos; lia|apply Z.div_lt_upper_bound; lia]).
  split; [split; lia|]. split; [split; lia|]. split; [|split; [reflexivity|]].
  - rewrite <- Z.add_nocarry_lxor; [lia|]. apply Z.bits_inj'. intros n Hn. rewrite Z.land_spec, Z.bits_0.
    change 256 with (2 ^ 8). destruct (Z.lt_ge_cases n 8).
    + rewrite Z.mul_pow2_bits_low by lia. auto.
    + rewrite Z.mod_pow2_bits_high by lia. apply andb_false_r.
  - replace (s * 256) with ((s mod 256) * 256 + (s / 256) * 65536) by lia. rewrite Z.mod_add by lia. apply Z.mod_small. lia.
Qed.

Lemma lxor_byte a b : byte a -> byte b -> byte (Z.lxor a b).
Proof. apply (lxor_bound 8). lia. Qed.

Lemma step_bits s b : st s -> byte b -> crc16_step s b = crc_bits s (bits8 b).
Proof.
  intros Hs Hb. destruct (split8 s Hs) as (hi&lo&Hh&Hl&Es&Eh&Ew).
  assert (E : crc_bits s (bits8 b) = Z.lxor (crc_bits (Z.shiftl (Z.lxor hi b) 8) (bits8 0)) (Z.shiftl lo 8)).
  { rewrite <- (low8 lo Hl), <- crc_linear by reflexivity.
    rewrite <- (Z.lxor_0_r (crc_bits _ (xorl _ _))), <- (same8 b Hb), <- crc_linear by reflexivity.
    f_equal.
    - rewrite Es, Z.shiftl_lxor. xors.
    - rewrite (same8 b Hb), <- !xorl_bits8. reflexivity. }
  rewrite E, tab8 by (apply lxor_byte; auto). unfold crc16_step. rewrite wrap_lxor, Ew by lia.
  rewrite <- Eh. f_equal.
  replace (Z.land (Z.lxor hi b) 255) with (Z.lxor hi b).
  - rewrite <- tab8 by (apply lxor_byte; auto). unfold wrap. apply Z.mod_small. apply crc_st.
    pose proof (lxor_byte _ _ Hh Hb) as [? ?]. rewrite Z.shiftl_mul_pow2 by lia. unfold st. lia.
  - change 255 with (Z.ones 8). rewrite Z.land_ones by lia. symmetry. apply Z.mod_small. apply lxor_byte; auto.
Qed.

Lemma crc_app s x y : crc_bits s (x ++ y) = crc_bits (crc_bits s x) y.
Proof. apply fold_left_app. Qed.

Lemma crc16_cons b l s : crc16_with_init (b :: l) s = crc16_with_init l (crc16_step s b).
Proof. reflexivity. Qed.
Lemma bits_cons b l : bits (b :: l) = bits8 b ++ bits l.
Proof. reflexivity. Qed.

Lemma crc16_bits l : forall s, st s -> Forall byte l -> crc16_with_init l s = crc_bits s (bits l).
Proof.
  induction l as [|b l IH]; intros s Hs F; [reflexivity|]. inversion F as [|? ? Hb Fl]; subst.
  rewrite crc16_cons, bits_cons, crc_app, step_bits by auto. rewrite IH; [reflexivity|apply crc_st; auto|auto].
Qed.

(* ---- remainder ---- *)
Lemma lxor_2 x y : 2 * Z.lxor x y = Z.lxor (2 * x) (2 * y).
Proof. rewrite <- !(Z.mul_comm _ 2). change 2 with (2 ^ 1). rewrite <- !Z.shiftl_mul_pow2 by lia. apply Z.shiftl_lxor. Qed.

Lemma top_split s : st s -> 2 * s = Z.lxor (wrap 16 (Z.shiftl s 1)) (if Z.testbit s 15 then 65536 else 0).
Proof.
  intros [H0 H1]. rewrite Z.shiftl_mul_pow2 by lia. change (2 ^ 1) with 2. unfold wrap. change (2 ^ 16) with 65536.
  destruct (Z.testbit s 15) eqn:T.
  - assert (32768 <= s). { destruct (Z.lt_ge_cases s 32768) as [L|L]; auto. exfalso.
      assert (E : Z.testbit (s mod 2 ^ 15) 15 = false) by (apply Z.mod_pow2_bits_high; lia).
      change (2 ^ 15) with 32768 in E. rewrite Z.mod_small in E by lia. congruence. }
    replace ((s * 2) mod 65536) with (s * 2 - 65536) by (apply Z.mod_unique with 1; lia).
    rewrite <- Z.add_nocarry_lxor; [lia|]. apply Z.bits_inj'. intros n Hn. rewrite Z.land_spec, Z.bits_0.
    change 65536 with (2 ^ 16). rewrite Z.pow2_bits_eqb by lia. destruct (Z.eqb_spec 16 n) as [<-|]; [|apply andb_false_r].
    rewrite andb_true_r.
    assert (E : Z.testbit ((s * 2 - 2 ^ 16) mod 2 ^ 16) 16 = false) by (apply Z.mod_pow2_bits_high; lia).
    change (2 ^ 16) with 65536 in *. rewrite Z.mod_small in E by lia. auto.
  - assert (s < 32768). { destruct (Z.lt_ge_cases s 32768) as [L|L]; auto. exfalso.
      assert (E : Z.testbit s 15 = true); [|congruence]. rewrite Z.testbit_true by lia. change (2 ^ 15) with 32768.
      replace (s / 32768) with 1; auto. apply Z.div_unique with (s - 32768); lia. }
    rewrite Z.mod_small by lia. rewrite Z.lxor_0_r. lia.
Qed.

Lemma value_snoc l b : value (l ++ [b]) = 2 * value l + Z.b2z b.
Proof. unfold value. rewrite fold_left_app. reflexivity. Qed.
Lemma times_snoc l b g : times (l ++ [b]) g = Z.lxor (2 * times l g) (if b then g else 0).
Proof. unfold times. rewrite fold_left_app. reflexivity. Qed.

Lemma even_odd_lxor x b : 2 * x + Z.b2z b = Z.lxor (2 * x) (Z.b2z b).
Proof.
  rewrite <- Z.add_nocarry_lxor; auto. apply Z.bits_inj'. intros n Hn. rewrite Z.land_spec, Z.bits_0.
  destruct (Z.eq_dec n 0) as [->|]; [rewrite Z.testbit_even_0; auto|].
  replace (Z.testbit (Z.b2z b) n) with false; [apply andb_false_r|].
  symmetry. destruct b; [|apply Z.bits_0]. apply Z.bits_above_log2; cbn; lia.
Qed.

Lemma remainder l : exists q, Z.lxor (value l * 2 ^ 16) (crc_bits 0 l) = times q CCITT.
Proof.
  induction l as [|b l IH] using rev_ind; [exists []; reflexivity|]. destruct IH as (q&E).
  set (s := crc_bits 0 l) in *. assert (Hs : st s) by (apply crc_st; split; lia).
  exists (q ++ [xorb (Z.testbit s 15) b]). rewrite times_snoc, <- E, value_snoc, even_odd_lxor, lxor_2.
  unfold crc_bits. rewrite fold_left_app. fold (crc_bits 0 l). fold s. cbn [fold_left]. unfold lfsr.
  rewrite (top_split s Hs). rewrite <- !Z.shiftl_mul_pow2, Z.shiftl_lxor by lia.
  replace (Z.shiftl (2 * value l) 16) with (2 * Z.shiftl (value l) 16) by (rewrite !Z.shiftl_mul_pow2 by lia; lia).
  rewrite !Z.lxor_assoc. f_equal. rewrite <- !Z.lxor_assoc. rewrite (Z.lxor_comm _ (wrap 16 _)).
  rewrite !Z.lxor_assoc. f_equal. destruct (Z.testbit s 15), b; reflexivity.
Qed.

(* ---- error detection ---- *)
Lemma lfsr0_inj s : st s -> lfsr s false = 0 -> s = 0.
Proof.
  intros Hs H. unfold lfsr in H. rewrite xorb_false_r in H. pose proof (top_split s Hs) as E.
  apply Z.lxor_eq in H. destruct (Z.testbit s 15) eqn:T.
  - exfalso. assert (Z.testbit (2 * s) 0 = true).
    { rewrite E, Z.lxor_spec, H. reflexivity. }
    rewrite Z.testbit_even_0 in H0. discriminate.
  - rewrite H, Z.lxor_0_r in E. lia.
Qed.
Lemma zeros_0 n : crc_bits 0 (repeat false n) = 0.
Proof. induction n; auto. Qed.
Lemma zeros_inj n : forall s, st s -> crc_bits s (repeat false n) = 0 -> s = 0.
Proof.
  induction n as [|n IH]; intros s Hs H; auto. apply lfsr0_inj; auto. apply IH; [apply lfsr_st|auto].
Qed.


Lemma value_acc l v : fold_left (fun v b => 2 * v + Z.b2z b) l v = v * 2 ^ Z.of_nat (length l) + value l.
Proof.
  induction l as [|b l IH] using rev_ind; [cbn; lia|].
  rewrite fold_left_app, value_snoc, app_length, IH. cbn [length fold_left].
  replace (Z.of_nat (length l + 1)) with (Z.succ (Z.of_nat (length l))) by lia. rewrite Z.pow_succ_r by lia. lia.
Qed.
Lemma value_cons b l : value (b :: l) = Z.b2z b * 2 ^ Z.of_nat (length l) + value l.
Proof. unfold value at 1. cbn [fold_left]. rewrite value_acc. lia. Qed.
Lemma value_range l : 0 <= value l < 2 ^ Z.of_nat (length l).
Proof.
  induction l as [|b l IH]; [cbn; lia|]. rewrite value_cons. cbn [length].
  rewrite Nat2Z.inj_succ, Z.pow_succ_r by lia. destruct b; cbn [Z.b2z]; lia.
Qed.
Lemma value_0 l : value l = 0 -> l = repeat false (length l).
Proof.
  induction l as [|b l IH]; auto. rewrite value_cons. pose proof (value_range l). intros H0.
  destruct b; cbn [Z.b2z] in H0; [lia|]. cbn [length repeat]. f_equal. apply IH. lia.
Qed.

(* feeding message bits is the same as feeding zeros from a register with the bits in its top *)
Lemma feed w : forall s, (length w <= 16)%nat ->
  crc_bits s w = crc_bits (Z.lxor s (Z.shiftl (value w) (16 - Z.of_nat (length w)))) (repeat false (length w)).
Proof.
  induction w as [|b w IH]; intros s L.
  - cbn. rewrite Z.lxor_0_r. auto.
  - cbn [length] in *. cbn [crc_bits fold_left repeat]. fold (crc_bits (lfsr s b) w).
    rewrite IH by lia.
    assert (E : lfsr (Z.lxor s (Z.shiftl (value (b :: w)) (16 - Z.of_nat (S (length w))))) false =
                Z.lxor (lfsr s b) (Z.shiftl (value w) (16 - Z.of_nat (length w)))); [|unfold crc_bits; cbn [fold_left]; rewrite E; auto].
    pose proof (value_range w) as R. set (n := Z.of_nat (length w)) in *.
    assert (V : Z.shiftl (value (b :: w)) (16 - Z.of_nat (S (length w))) =
                Z.lxor (if b then 2 ^ 15 else 0) (Z.shiftl (value w) (15 - n))).
    { rewrite value_cons. fold n. replace (16 - Z.of_nat (S (length w))) with (15 - n) by lia.
      rewrite !Z.shiftl_mul_pow2 by lia. rewrite Z.mul_add_distr_r, <- Z.mul_assoc, <- Z.pow_add_r by lia.
      replace (n + (15 - n)) with 15 by lia.
      assert (P : 0 <= value w * 2 ^ (15 - n) < 2 ^ 15).
      { split; [apply Z.mul_nonneg_nonneg; [lia|apply Z.pow_nonneg; lia]|].
        replace 15 with (n + (15 - n)) at 2 by lia. rewrite Z.pow_add_r by lia. apply Z.mul_lt_mono_pos_r; [apply Z.pow_pos_nonneg; lia|lia]. }
      destruct b; cbn [Z.b2z]; [|rewrite Z.lxor_0_l; lia]. rewrite Z.mul_1_l.
      rewrite <- Z.add_nocarry_lxor; auto. apply Z.bits_inj'. intros k Hk. rewrite Z.land_spec, Z.bits_0, Z.pow2_bits_eqb by lia.
      destruct (Z.eqb_spec 15 k) as [<-|]; auto. cbn [andb]. rewrite <- (Z.mod_small _ _ P). apply Z.mod_pow2_bits_high. lia. }
    rewrite V, <- Z.lxor_assoc. rewrite <- (xorb_false_r false) at 1. rewrite lfsr_linear. f_equal.
    + destruct b.
      * replace false with (xorb true true) by reflexivity. rewrite lfsr_linear.
        replace (lfsr (2 ^ 15) true) with 0 by reflexivity. apply Z.lxor_0_r.
      * rewrite Z.lxor_0_r. auto.
    + unfold lfsr. rewrite xorb_false_r.
      assert (P : 0 <= Z.shiftl (value w) (15 - n) < 2 ^ 15).
      { rewrite Z.shiftl_mul_pow2 by lia. split; [apply Z.mul_nonneg_nonneg; [lia|apply Z.pow_nonneg; lia]|].
        replace 15 with (n + (15 - n)) at 2 by lia. rewrite Z.pow_add_r by lia. apply Z.mul_lt_mono_pos_r; [apply Z.pow_pos_nonneg; lia|lia]. }
      replace (Z.testbit (Z.shiftl (value w) (15 - n)) 15) with false.
      2: { symmetry. rewrite <- (Z.mod_small _ _ P). apply Z.mod_pow2_bits_high. lia. }
      rewrite Z.lxor_0_r, Z.shiftl_shiftl by lia. replace (15 - n + 1) with (16 - n) by lia.
      unfold wrap. apply Z.mod_small. rewrite Z.shiftl_mul_pow2 in * by lia.
      replace (16 - n) with (Z.succ (15 - n)) by lia. rewrite Z.pow_succ_r by lia. lia.
Qed.

(* a burst alone leaves a non-zero register *)
Lemma burst a w b : (length w <= 16)%nat -> crc_bits 0 (repeat false a ++ w ++ repeat false b) = 0 -> w = repeat false (length w).
Proof.
  intros L H. rewrite !crc_app, zeros_0 in H. apply zeros_inj in H; [|apply crc_st; split; lia].
  rewrite feed, Z.lxor_0_l in H by auto. pose proof (value_range w) as R. apply value_0.
  set (n := Z.of_nat (length w)) in *.
  assert (P : st (Z.shiftl (value w) (16 - n))).
  { unfold st. change 65536 with (2 ^ 16). rewrite Z.shiftl_mul_pow2 by lia. split; [apply Z.mul_nonneg_nonneg; [lia|apply Z.pow_nonneg; lia]|].
    replace 16 with (n + (16 - n)) at 2 by lia. rewrite Z.pow_add_r by lia. apply Z.mul_lt_mono_pos_r; [apply Z.pow_pos_nonneg; lia|lia]. }
  apply zeros_inj in H; auto. rewrite Z.shiftl_mul_pow2 in H by lia. apply Z.mul_eq_0 in H as [H|H]; auto.
  exfalso. assert (0 < 2 ^ (16 - n)) by (apply Z.pow_pos_nonneg; lia). lia.
Qed.

(* a codeword leaves the register at 0 *)
Lemma codeword d hi lo : Forall byte d -> byte hi -> byte lo -> crc16 d = hi * 256 + lo -> crc_bits 0 (bits (d ++ [hi; lo])) = 0.
Proof.
  intros Fd Hh Hl E. unfold bits. rewrite flat_map_app, crc_app. fold (bits d).
  unfold crc16 in E. rewrite crc16_bits in E by (auto; split; lia). rewrite E. cbn [flat_map]. rewrite app_nil_r.
  assert (V : value (bits8 hi ++ bits8 lo) = hi * 256 + lo).
  { unfold value. rewrite fold_left_app. rewrite value_acc.
    assert (B : forall x, byte x -> value (bits8 x) = x).
    { intros x Hx. apply Z.eqb_eq. revert x Hx. apply all_bytes. vm_compute. reflexivity. }
    fold (value (bits8 hi)). rewrite !B by auto. reflexivity. }
  rewrite feed by reflexivity. rewrite V. change (16 - Z.of_nat (length (bits8 hi ++ bits8 lo))) with 0.
  rewrite Z.shiftl_0_r, Z.lxor_nilpotent. apply zeros_0.
Qed.

Lemma bits8_inj a b : byte a -> byte b -> bits8 a = bits8 b -> a = b.
Proof.
  intros Ha Hb E. assert (B : forall x, byte x -> value (bits8 x) = x).
  { intros x Hx. apply Z.eqb_eq. revert x Hx. apply all_bytes. vm_compute. reflexivity. }
  rewrite <- (B a Ha), <- (B b Hb), E. auto.
Qed.
Lemma bits_inj a : forall b, Forall byte a -> Forall byte b -> bits a = bits b -> a = b.
Proof.
  induction a as [|x a IH]; intros [|y b] Fa Fb E; auto; try discriminate E.
  inversion Fa; inversion Fb; subst. unfold bits in E. cbn [flat_map] in E.
  assert (bits8 x = bits8 y /\ bits a = bits b) as [E1 E2].
  { split; [exact (f_equal (firstn 8) E)|exact (f_equal (skipn 8) E)]. }
  f_equal; auto. apply bits8_inj; auto.
Qed.
Lemma bits_length l : length (bits l) = (8 * length l)%nat.
Proof. induction l as [|b l IH]; auto. unfold bits in *. cbn [flat_map]. rewrite app_length, IH. cbn [length bits8 map]. lia. Qed.
