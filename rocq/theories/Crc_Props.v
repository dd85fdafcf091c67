(* C38: the CRC of repl/crc.c. *)
From Verif Require Import Base Crc_Model Crc_Spec Crc_Proofs.
Local Open Scope Z_scope.

(* The table driven CRC is the bitwise CCITT register ... *)
Theorem crc16_is_ccitt l s : Forall byte l -> 0 <= s < 65536 -> crc16_with_init l s = crc_bits s (bits l).
Proof. intros. apply crc16_bits; auto. Qed.

(* ... and so the remainder of the message, as a polynomial times x^16, modulo
   x^16 + x^12 + x^5 + 1. *)
Theorem crc16_is_remainder l : Forall byte l ->
  0 <= crc16 l < 2 ^ 16 /\ exists q, Z.lxor (value (bits l) * 2 ^ 16) (crc16 l) = times q CCITT.
Proof.
  intros F. unfold crc16. rewrite crc16_bits by (auto; split; lia). split; [apply crc_st; split; lia|apply remainder].
Qed.

Lemma nth_error_repeat_out (l : list bool) : (forall j b, nth_error l j = Some b -> b = false) -> l = repeat false (length l).
Proof.
  induction l as [|b l IH]; intros H; auto. cbn [length repeat]. rewrite (H 0%nat b eq_refl). f_equal. apply IH. intros j c. apply (H (S j)).
Qed.

Lemma xorl_nth x : forall y j, length x = length y ->
  nth_error (xorl x y) j = match nth_error x j, nth_error y j with Some a, Some b => Some (xorb a b) | _, _ => None end.
Proof.
  induction x as [|a x IH]; intros [|b y] j L; try discriminate L; destruct j; auto. cbn. apply IH. injection L; auto.
Qed.
Lemma xorl_length x : forall y, length x = length y -> length (xorl x y) = length x.
Proof. intros y L. unfold xorl. rewrite map_length, combine_length. lia. Qed.
Lemma xorl_zero x : forall y, length x = length y -> xorl x y = repeat false (length x) -> x = y.
Proof.
  induction x as [|a x IH]; intros [|b y] L E; try discriminate L; auto. cbn in E. injection E as E1 E2.
  f_equal; [destruct a, b; auto; discriminate|apply IH; auto].
Qed.

(* Two different codewords never differ within 16 consecutive bits only: a message
   that arrives with such an error, in the data, in the CRC or across both, is
   noticed. *)
Theorem crc16_detects_bursts d d' hi lo hi' lo' k :
  Forall byte (d ++ [hi; lo]) -> Forall byte (d' ++ [hi'; lo']) -> length d = length d' ->
  crc16 d = hi * 256 + lo -> crc16 d' = hi' * 256 + lo' ->
  (forall j, differ (bits (d ++ [hi; lo])) (bits (d' ++ [hi'; lo'])) j -> (k <= j < k + 16)%nat) ->
  d ++ [hi; lo] = d' ++ [hi'; lo'].
Proof.
  intros F F' L E E' D. apply Forall_app in F as [Fd Fc]. apply Forall_app in F' as [Fd' Fc'].
  inversion Fc as [|? ? Bh Fc1]; inversion Fc1 as [|? ? Bl _]; inversion Fc' as [|? ? Bh' Fc1']; inversion Fc1' as [|? ? Bl' _]; subst.
  pose proof (codeword d hi lo Fd Bh Bl E) as C. pose proof (codeword d' hi' lo' Fd' Bh' Bl' E') as C'.
  apply bits_inj; [apply Forall_app; auto|apply Forall_app; auto|].
  set (x := bits (d ++ [hi; lo])) in *. set (y := bits (d' ++ [hi'; lo'])) in *.
  assert (LL : length x = length y) by (unfold x, y; rewrite !bits_length, !app_length; cbn [length]; lia).
  apply xorl_zero; auto. set (e := xorl x y).
  assert (Z0 : crc_bits 0 e = 0). { unfold e. replace 0 with (Z.lxor 0 0) at 1 by reflexivity. rewrite crc_linear, C, C' by auto. auto. }
  assert (O : forall j b, nth_error e j = Some b -> b = true -> (k <= j < k + 16)%nat).
  { intros j b Hb ->. apply D. unfold differ. unfold e in Hb. rewrite xorl_nth in Hb by auto.
    destruct (nth_error x j) as [a|], (nth_error y j) as [c|]; try discriminate. injection Hb as Hb. intros [= ->]. rewrite xorb_nilpotent in Hb. discriminate. }
  assert (Le : length e = length x) by (apply xorl_length; auto). rewrite <- Le. clearbody e.
  set (w := firstn 16 (skipn k e)).
  assert (S1 : e = firstn k e ++ w ++ skipn 16 (skipn k e)) by (unfold w; rewrite firstn_skipn, firstn_skipn; auto).
  assert (P : firstn k e = repeat false (length (firstn k e))).
  { apply nth_error_repeat_out. intros j b Hb. destruct b; auto. exfalso.
    assert (j < length (firstn k e))%nat by (apply nth_error_Some; congruence). rewrite firstn_length in H.
    rewrite S1 in O. specialize (O j true). rewrite nth_error_app1 in O by (rewrite firstn_length; lia). specialize (O Hb eq_refl). lia. }
  assert (Q : skipn 16 (skipn k e) = repeat false (length (skipn 16 (skipn k e)))).
  { apply nth_error_repeat_out. intros j b Hb. destruct b; auto. exfalso.
    assert (j < length (skipn 16 (skipn k e)))%nat by (apply nth_error_Some; congruence). rewrite !skipn_length in H.
    assert (Lk : length (firstn k e) = k) by (rewrite firstn_length; lia).
    assert (Lw : length w = 16%nat) by (unfold w; rewrite firstn_length, skipn_length; lia).
    specialize (O (k + (16 + j))%nat true). rewrite S1 in O. rewrite nth_error_app2 in O by lia. rewrite Lk in O.
    replace (k + (16 + j) - k)%nat with (16 + j)%nat in O by lia. rewrite nth_error_app2 in O by lia. rewrite Lw in O.
    replace (16 + j - 16)%nat with j in O by lia. specialize (O Hb eq_refl). lia. }
  assert (Lw : (length w <= 16)%nat) by (unfold w; rewrite firstn_length; lia).
  assert (W : w = repeat false (length w)).
  { rewrite S1, P, Q in Z0. apply (burst _ _ _ Lw Z0). }
  rewrite S1, P, W, Q. rewrite !app_length, !repeat_length. rewrite <- !repeat_app. reflexivity.
Qed.

(* An odd number of flipped bits is noticed too. *)
Definition parity_of (ks : list Z) (s : Z) : bool := fold_right (fun k p => xorb (Z.testbit s k) p) false ks.
Definition parity : Z -> bool := parity_of [15;14;13;12;11;10;9;8;7;6;5;4;3;2;1;0].

Lemma parity_lxor s t : parity (Z.lxor s t) = xorb (parity s) (parity t).
Proof.
  unfold parity. generalize [15;14;13;12;11;10;9;8;7;6;5;4;3;2;1;0]. induction l as [|k l IH]; auto.
  cbn [parity_of fold_right]. fold (parity_of l (Z.lxor s t)) (parity_of l s) (parity_of l t). rewrite Z.lxor_spec, IH.
  destruct (Z.testbit s k), (Z.testbit t k), (parity_of l s), (parity_of l t); auto.
Qed.

Lemma parity_lfsr s b : parity (lfsr s b) = xorb (parity s) b.
Proof.
  unfold lfsr. rewrite parity_lxor.
  assert (E : parity (wrap 16 (Z.shiftl s 1)) = xorb (Z.testbit s 15) (parity s)).
  { assert (B : forall k, 0 <= k < 16 -> Z.testbit (wrap 16 (Z.shiftl s 1)) k = Z.testbit s (k - 1)).
    { intros k Hk. unfold wrap. rewrite Z.mod_pow2_bits_low by lia. apply Z.shiftl_spec. lia. }
    unfold parity. cbn [parity_of fold_right]. rewrite !B by lia. cbn [Z.sub Z.add Z.opp Z.pos_sub Pos.pred_double Pos.pred].
    rewrite (Z.testbit_neg_r s (-1)) by lia. rewrite !xorb_false_r. destruct (Z.testbit s 15); rewrite ?xorb_true_l, ?xorb_false_l, ?negb_involutive; reflexivity. }
  rewrite E. replace (parity (if xorb (Z.testbit s 15) b then 4129 else 0)) with (xorb (Z.testbit s 15) b) by (destruct (xorb (Z.testbit s 15) b); reflexivity).
  destruct (Z.testbit s 15), (parity s), b; reflexivity.
Qed.

Definition xall (l : list bool) : bool := fold_left xorb l false.
Lemma parity_bits l : forall s, parity (crc_bits s l) = xorb (parity s) (xall l).
Proof.
  unfold xall. induction l as [|b l IH] using rev_ind; intros s; [change (parity s = xorb (parity s) false); rewrite xorb_false_r; auto|].
  rewrite crc_app, fold_left_app. cbn [crc_bits fold_left]. rewrite parity_lfsr, IH. apply xorb_assoc.
Qed.

Lemma xall_count x : forall y, length x = length y -> xall (xorl x y) = Nat.odd (count_diff x y).
Proof.
  assert (A : forall l a, fold_left xorb l a = xorb a (xall l)).
  { unfold xall. induction l as [|b l IH]; intros a; [cbn; rewrite xorb_false_r; auto|]. cbn [fold_left]. rewrite (IH (xorb a b)), (IH (xorb false b)). destruct a, b, (fold_left xorb l false); auto. }
  induction x as [|a x IH]; intros [|b y] L; try discriminate L; auto.
  cbn [xorl combine map count_diff fst snd]. unfold xall. cbn [fold_left]. rewrite A. fold (xorl x y). rewrite IH by (injection L; auto).
  rewrite Nat.odd_add. destruct a, b; reflexivity.
Qed.

Theorem crc16_detects_odd d d' hi lo hi' lo' :
  Forall byte (d ++ [hi; lo]) -> Forall byte (d' ++ [hi'; lo']) -> length d = length d' ->
  crc16 d = hi * 256 + lo -> crc16 d' = hi' * 256 + lo' ->
  Nat.even (count_diff (bits (d ++ [hi; lo])) (bits (d' ++ [hi'; lo']))) = true.
Proof.
  intros F F' L E E'. apply Forall_app in F as [Fd Fc]. apply Forall_app in F' as [Fd' Fc'].
  inversion Fc as [|? ? Bh Fc1]; inversion Fc1 as [|? ? Bl _]; inversion Fc' as [|? ? Bh' Fc1']; inversion Fc1' as [|? ? Bl' _]; subst.
  pose proof (codeword d hi lo Fd Bh Bl E) as C. pose proof (codeword d' hi' lo' Fd' Bh' Bl' E') as C'.
  set (x := bits (d ++ [hi; lo])) in *. set (y := bits (d' ++ [hi'; lo'])) in *.
  assert (LL : length x = length y) by (unfold x, y; rewrite !bits_length, !app_length; cbn [length]; lia).
  assert (Z0 : crc_bits 0 (xorl x y) = 0). { replace 0 with (Z.lxor 0 0) at 1 by reflexivity. rewrite crc_linear, C, C' by auto. auto. }
  pose proof (parity_bits (xorl x y) 0) as P. rewrite Z0, xall_count in P by auto.
  rewrite <- Nat.negb_odd. destruct (Nat.odd (count_diff x y)); auto.
Qed.

(* Computing the CRC in pieces gives the same as in one go. *)
Theorem crc16_chunks a b s : crc16_with_init (a ++ b) s = crc16_with_init b (crc16_with_init a s).
Proof. apply fold_left_app. Qed.

Theorem crc32_chunks a b s : 0 <= s < 2 ^ 32 -> crc32_with_init (a ++ b) s = crc32_with_init b (crc32_with_init a s).
Proof.
  intros H. unfold crc32_with_init. rewrite fold_left_app. f_equal. f_equal.
  rewrite Z.lxor_assoc, Z.lxor_nilpotent, Z.lxor_0_r. auto.
Qed.

(* a codeword and one with a damaged bit *)
Example ex_crc : crc16 [49; 50; 51; 52; 53; 54; 55; 56; 57] = 12739 (* 0x31C3, the published check value *)
  /\ 12739 = 49 * 256 + 195 /\ crc16 [49; 50; 51; 52; 53; 54; 55; 56; 56] <> 12739.
Proof. vm_compute. repeat split; discriminate. Qed.

Print Assumptions crc16_is_ccitt.
Print Assumptions crc16_is_remainder.
Print Assumptions crc16_detects_bursts.
Print Assumptions crc16_detects_odd.
