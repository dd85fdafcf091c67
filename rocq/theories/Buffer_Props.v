(* C39: reading back what was appended to a buffer. *)
From Verif Require Import Base Buffer_Model.
Local Open Scope Z_scope.

(* ---- specification ---- *)

(* the buffer [buf'] is [buf] except at the [n] bytes from [i] *)
Definition only_changed (buf buf' : list Z) (i n : Z) : Prop :=
  length buf' = length buf /\
  forall j, 0 <= j -> j < i \/ i + n <= j -> nth_error buf' (Z.to_nat j) = nth_error buf (Z.to_nat j).

(* appending [x] at [i] and reading at [i] gives [x]; both advance the index by [n] *)
Definition round_trip (append : list Z -> Z -> Z -> res (list Z * Z)) (get : list Z -> Z -> res (Z * Z))
  (n lo hi : Z) : Prop :=
  forall buf i x, 0 <= i -> i + n <= Z.of_nat (length buf) -> i + n < 2 ^ 31 -> lo <= x < hi ->
    exists buf', append buf x i = Ok (buf', i + n) /\ only_changed buf buf' i n /\ get buf' i = Ok (x, i + n).

(* ---- proofs ---- *)
Fixpoint ks (n : nat) : list Z := match n with O => [] | S m => 8 * Z.of_nat m :: ks m end.

Definition bytes_at (buf : list Z) (i : Z) (l : list Z) : Prop :=
  forall k b, nth_error l k = Some b -> nth_error buf (Z.to_nat i + k) = Some b.

Lemma put_bytes_ok x l : forall buf i, 0 <= i -> i + Z.of_nat (length l) <= Z.of_nat (length buf) -> i + Z.of_nat (length l) < 2 ^ 31 ->
  exists buf', put_bytes buf i x l = Ok (buf', i + Z.of_nat (length l)) /\ only_changed buf buf' i (Z.of_nat (length l)) /\
    bytes_at buf' i (map (byte_of x) l).
Proof.
  induction l as [|k t IH]; intros buf i H0 H1 H2; cbn [put_bytes].
  - exists buf. replace (i + Z.of_nat (length (@nil Z))) with i by (cbn [length]; lia). split; auto. split.
    + split; auto.
    + intros [|j] b; discriminate.
  - cbn [length] in H1, H2. unfold put_byte. rewrite wr_ok by lia. cbn [bind]. unfold inc32.
    replace (i + 1 <? 2 ^ 31) with true by (symmetry; apply Z.ltb_lt; lia). cbn [bind fst snd].
    destruct (IH (upd buf (Z.to_nat i) (byte_of x k)) (i + 1)) as (b'&E&[L O]&B).
    1: lia. 1: rewrite length_upd; lia. 1: lia.
    exists b'. rewrite E. split; [f_equal; f_equal; cbn [length]; lia|]. split.
    + rewrite length_upd in L. split; auto. intros j Hj C. rewrite O; [|lia|cbn [length] in C; lia].
      apply nth_error_upd_neq. cbn [length] in C. lia.
    + intros [|j] b Hb; cbn [map nth_error] in Hb.
      * injection Hb as <-. rewrite Nat.add_0_r. rewrite O by lia. apply nth_error_upd_eq. lia.
      * apply B in Hb. rewrite <- Hb. f_equal. lia.
Qed.

Lemma lor_split a y k : 0 <= k -> 0 <= y < 2 ^ k -> Z.lor (a * 2 ^ k) y = a * 2 ^ k + y.
Proof.
  intros Hk Hy. apply Z.bits_inj'. intros n Hn. rewrite Z.lor_spec.
  replace (a * 2 ^ k + y) with (a * 2 ^ k + y) by auto.
  destruct (Z.lt_ge_cases n k) as [L|L].
  - rewrite Z.mul_pow2_bits_low by lia. cbn [orb].
    rewrite <- (Z.mod_pow2_bits_low (a * 2 ^ k + y) k n) by lia.
    rewrite Z.add_comm, Z.mod_add by (apply Z.pow_nonzero; lia). rewrite Z.mod_small by lia. auto.
  - assert (Z.testbit y n = false).
    { destruct (Z.eq_dec y 0) as [->|]; [apply Z.bits_0|]. apply Z.bits_above_log2; [lia|].
      apply Z.lt_le_trans with k; auto. apply Z.log2_lt_pow2; lia. }
    rewrite H, orb_false_r. rewrite Z.mul_pow2_bits by lia.
    replace n with ((n - k) + k) at 2 by lia. rewrite <- Z.div_pow2_bits by lia.
    rewrite Z.div_add_l by (apply Z.pow_nonzero; lia). rewrite (Z.div_small y) by lia. f_equal. lia.
Qed.

Lemma byte_split x m : 0 <= m -> byte_of x (8 * m) * 2 ^ (8 * m) + x mod 2 ^ (8 * m) = x mod 2 ^ (8 * (m + 1)).
Proof.
  intros Hm. unfold byte_of. rewrite Z.shiftr_div_pow2 by lia.
  replace (8 * (m + 1)) with (8 * m + 8) by lia. rewrite Z.pow_add_r by lia.
  change (2 ^ 8) with 256. rewrite Z.rem_mul_r; [lia| |lia]. apply Z.pow_nonzero; lia.
Qed.

Lemma byte_range x k : 0 <= byte_of x k < 256.
Proof. apply Z.mod_pos_bound. lia. Qed.

Lemma get_bytes_ok shl x n (HS : forall m b, (m < n)%nat -> b = byte_of x (8 * Z.of_nat m) -> shl b (8 * Z.of_nat m) = Ok (b * 2 ^ (8 * Z.of_nat m))) :
  forall buf i, 0 <= i -> bytes_at buf i (map (byte_of x) (ks n)) -> get_bytes shl buf i (ks n) = Ok (x mod 2 ^ (8 * Z.of_nat n)).
Proof.
  revert HS. induction n as [|n IH]; intros HS buf i Hi B; cbn [get_bytes ks].
  - change (2 ^ (8 * Z.of_nat 0)) with 1. rewrite Z.mod_1_r. auto.
  - rewrite (rd_nth buf i (byte_of x (8 * Z.of_nat n))); auto; [|rewrite <- (B 0%nat); [f_equal; lia|reflexivity]].
    cbn [bind]. rewrite HS by (auto; lia). cbn [bind]. rewrite IH.
    + cbn [bind]. f_equal. rewrite lor_split; [|lia|apply Z.mod_pos_bound; apply Z.pow_pos_nonneg; lia].
      rewrite byte_split by lia. f_equal. f_equal. lia.
    + intros m b Hm. apply HS. lia.
    + lia.
    + intros k b Hb. rewrite <- (B (S k) b); [f_equal; lia|auto].
Qed.

Lemma shl_uint_ok w x n : 8 * Z.of_nat n <= w -> forall m b, (m < n)%nat -> b = byte_of x (8 * Z.of_nat m) -> shl_uint w b (8 * Z.of_nat m) = Ok (b * 2 ^ (8 * Z.of_nat m)).
Proof.
  intros Hw m b Hm ->. unfold shl_uint. f_equal. apply wrap_small. pose proof (byte_range x (8 * Z.of_nat m)).
  split; [apply Z.mul_nonneg_nonneg; [lia|apply Z.pow_nonneg; lia]|].
  apply Z.lt_le_trans with (2 ^ 8 * 2 ^ (8 * Z.of_nat m)).
  - apply Z.mul_lt_mono_pos_r; [apply Z.pow_pos_nonneg; lia|]. change (2 ^ 8) with 256. lia.
  - rewrite <- Z.pow_add_r by lia. apply Z.pow_le_mono_r; lia.
Qed.

Lemma shl_int_ok x n : (n <= 3)%nat -> forall m b, (m < n)%nat -> b = byte_of x (8 * Z.of_nat m) -> shl_int b (8 * Z.of_nat m) = Ok (b * 2 ^ (8 * Z.of_nat m)).
Proof.
  intros Hn m b Hm ->. unfold shl_int. pose proof (byte_range x (8 * Z.of_nat m)).
  assert (C : 2 ^ (8 * Z.of_nat m) <= 2 ^ 16) by (apply Z.pow_le_mono_r; lia).
  destruct (Z.ltb_spec (byte_of x (8 * Z.of_nat m) * 2 ^ (8 * Z.of_nat m)) (2 ^ 31)) as [|G]; auto. exfalso.
  assert (byte_of x (8 * Z.of_nat m) * 2 ^ (8 * Z.of_nat m) <= 255 * 2 ^ 16) by (apply Z.mul_le_mono_nonneg; try lia; apply Z.pow_nonneg; lia).
  lia.
Qed.

Lemma sgn_mod w x : 0 < w -> - 2 ^ (w - 1) <= x < 2 ^ (w - 1) -> sgn w (x mod 2 ^ w) = x.
Proof.
  intros Hw Hx. unfold sgn. assert (E : 2 ^ w = 2 * 2 ^ (w - 1)) by (replace w with (Z.succ (w - 1)) at 1 by lia; apply Z.pow_succ_r; lia).
  rewrite Z.mod_mod by lia. rewrite E in *. destruct (Z.lt_ge_cases x 0).
  - replace (x mod (2 * 2 ^ (w - 1))) with (x + 2 * 2 ^ (w - 1)).
    + destruct (Z.ltb_spec (x + 2 * 2 ^ (w - 1)) (2 ^ (w - 1))); lia.
    + apply Z.mod_unique with (-1); lia.
  - rewrite Z.mod_small by lia. destruct (Z.ltb_spec x (2 ^ (w - 1))); lia.
Qed.

Lemma advance_ok i n v : i + n < 2 ^ 31 -> advance i n v = Ok (v, i + n).
Proof. intros. unfold advance. apply Z.ltb_lt in H. rewrite H. auto. Qed.

Lemma rt_gen n shl (post : Z -> Z) lo hi :
  (forall x, lo <= x < hi -> forall m b, (m < n)%nat -> b = byte_of x (8 * Z.of_nat m) -> shl b (8 * Z.of_nat m) = Ok (b * 2 ^ (8 * Z.of_nat m))) ->
  (forall x, lo <= x < hi -> post (x mod 2 ^ (8 * Z.of_nat n)) = x) ->
  round_trip (fun buf x i => put_bytes buf i x (ks n)) (fun buf i => let! v := get_bytes shl buf i (ks n) in advance i (Z.of_nat n) (post v)) (Z.of_nat n) lo hi.
Proof.
  intros HS HP buf i x Hi Hl H31 Hx.
  assert (LK : length (ks n) = n) by (clear; induction n; cbn; auto).
  destruct (put_bytes_ok x (ks n) buf i) as (b'&E&O&B); rewrite ?LK in *; auto.
  exists b'. split; auto. split; auto. rewrite (get_bytes_ok shl x n (HS x Hx) b' i Hi B). cbn [bind]. rewrite HP by auto. apply advance_ok. auto.
Qed.

(* ---- theorems ---- *)
Theorem int16_round_trip : round_trip append_int16 get_int16 2 (- 2 ^ 15) (2 ^ 15).
Proof. apply (rt_gen 2 shl_int (sgn 16)); [intros x H m b H0 H1; apply (shl_int_ok x 2); auto|intros; apply sgn_mod; auto; lia]. Qed.
Theorem uint16_round_trip : round_trip append_uint16 get_uint16 2 0 (2 ^ 16).
Proof. apply (rt_gen 2 shl_int (wrap 16)); [intros x H m b H0 H1; apply (shl_int_ok x 2); auto|intros x H]. unfold wrap. change (8 * Z.of_nat 2) with 16. rewrite Z.mod_mod by lia. apply Z.mod_small; auto. Qed.
Theorem uint32_round_trip : round_trip append_uint32 get_uint32 4 0 (2 ^ 32).
Proof. apply (rt_gen 4 (shl_uint 32) (wrap 32)); [intros x H m b H0 H1; apply (shl_uint_ok 32 x 4); auto; lia|intros x H]. unfold wrap. change (8 * Z.of_nat 4) with 32. rewrite Z.mod_mod by lia. apply Z.mod_small; auto. Qed.
Theorem int64_round_trip : round_trip append_int64 get_int64 8 (- 2 ^ 63) (2 ^ 63).
Proof. apply (rt_gen 8 (shl_uint 64) (sgn 64)); [intros x H m b H0 H1; apply (shl_uint_ok 64 x 8); auto; lia|intros; apply (sgn_mod 64); auto; lia]. Qed.
Theorem uint64_round_trip : round_trip append_uint64 get_uint64 8 0 (2 ^ 64).
Proof. apply (rt_gen 8 (shl_uint 64) (wrap 64)); [intros x H m b H0 H1; apply (shl_uint_ok 64 x 8); auto; lia|intros x H]. unfold wrap. change (8 * Z.of_nat 8) with 64. rewrite Z.mod_mod by lia. apply Z.mod_small; auto. Qed.

(* FINDING.  buffer_get_int32 shifts the first byte as a signed int, which is
   undefined when that byte is 128 or more: exactly for the negative numbers. *)
Theorem int32_round_trip_nonneg : round_trip append_int32 get_int32 4 0 (2 ^ 31).
Proof.
  apply (rt_gen 4 shl_int (sgn 32)).
  - intros x Hx m b Hm ->. assert (m < 3 \/ m = 3)%nat as [L| ->] by lia; [apply (shl_int_ok x 3); auto|].
    unfold shl_int. replace (byte_of x (8 * Z.of_nat 3)) with (x / 2 ^ 24).
    + change (8 * Z.of_nat 3) with 24. destruct (Z.ltb_spec (x / 2 ^ 24 * 2 ^ 24) (2 ^ 31)); auto.
      exfalso. pose proof (Z.mul_div_le x (2 ^ 24)). lia.
    + unfold byte_of. change (8 * Z.of_nat 3) with 24. rewrite Z.shiftr_div_pow2 by lia. symmetry. apply Z.mod_small.
      split; [apply Z.div_pos; lia|apply Z.div_lt_upper_bound; lia].
  - intros x Hx. apply (sgn_mod 32); lia.
Qed.

Theorem int32_round_trip_refuted : forall buf i x,
  0 <= i -> i + 4 <= Z.of_nat (length buf) -> i + 4 < 2 ^ 31 -> - 2 ^ 31 <= x < 0 ->
  exists buf', append_int32 buf x i = Ok (buf', i + 4) /\ get_int32 buf' i = UB.
Proof.
  intros buf i x Hi Hl H31 Hx. destruct (put_bytes_ok x (ks 4) buf i) as (b'&E&_&B); auto.
  exists b'. split; auto. unfold get_int32. cbn [get_bytes].
  rewrite (rd_nth b' i (byte_of x 24)); auto; [|rewrite <- (B 0%nat); [f_equal; lia|reflexivity]]. cbn [bind].
  unfold shl_int. replace (byte_of x 24 * 2 ^ 24 <? 2 ^ 31) with false; auto.
  symmetry. apply Z.ltb_ge. unfold byte_of. rewrite Z.shiftr_div_pow2 by lia.
  assert (- 128 <= x / 2 ^ 24 < 0) by (split; [apply Z.div_le_lower_bound; lia|apply Z.div_lt_upper_bound; lia]).
  replace ((x / 2 ^ 24) mod 256) with (x / 2 ^ 24 + 256) by (apply Z.mod_unique with (-1); lia). lia.
Qed.

(* a message of several fields: appended one after the other and read back in order *)
Inductive field := I16 (x : Z) | U16 (x : Z) | U32 (x : Z) | I64 (x : Z) | U64 (x : Z).
Definition fsize (f : field) : Z := match f with I16 _ | U16 _ => 2 | U32 _ => 4 | _ => 8 end.
Definition fits (f : field) : Prop :=
  match f with I16 x => - 2 ^ 15 <= x < 2 ^ 15 | U16 x => 0 <= x < 2 ^ 16 | U32 x => 0 <= x < 2 ^ 32
             | I64 x => - 2 ^ 63 <= x < 2 ^ 63 | U64 x => 0 <= x < 2 ^ 64 end.
Definition append_field (f : field) (buf : list Z) (i : Z) : res (list Z * Z) :=
  match f with I16 x => append_int16 buf x i | U16 x => append_uint16 buf x i | U32 x => append_uint32 buf x i
             | I64 x => append_int64 buf x i | U64 x => append_uint64 buf x i end.
Definition read_same (f : field) (buf : list Z) (i : Z) : res (field * Z) :=
  match f with
  | I16 _ => let! r := get_int16 buf i in Ok (I16 (fst r), snd r) | U16 _ => let! r := get_uint16 buf i in Ok (U16 (fst r), snd r)
  | U32 _ => let! r := get_uint32 buf i in Ok (U32 (fst r), snd r) | I64 _ => let! r := get_int64 buf i in Ok (I64 (fst r), snd r)
  | U64 _ => let! r := get_uint64 buf i in Ok (U64 (fst r), snd r)
  end.
Fixpoint append_all (fs : list field) (buf : list Z) (i : Z) : res (list Z * Z) :=
  match fs with [] => Ok (buf, i) | f :: t => let! r := append_field f buf i in append_all t (fst r) (snd r) end.
Fixpoint read_all (fs : list field) (buf : list Z) (i : Z) : res (list field * Z) :=
  match fs with
  | [] => Ok ([], i)
  | f :: t => let! r := read_same f buf i in let! q := read_all t buf (snd r) in Ok (fst r :: fst q, snd q)
  end.
Definition total (fs : list field) : Z := fold_right (fun f n => fsize f + n) 0 fs.

Lemma field_ok f buf i : 0 <= i -> i + fsize f <= Z.of_nat (length buf) -> i + fsize f < 2 ^ 31 -> fits f ->
  exists buf', append_field f buf i = Ok (buf', i + fsize f) /\ only_changed buf buf' i (fsize f) /\ read_same f buf' i = Ok (f, i + fsize f).
Proof.
  intros. destruct f as [x|x|x|x|x]; cbn [fsize fits append_field read_same] in *;
  [destruct (int16_round_trip buf i x) as (b&E&O&G)|destruct (uint16_round_trip buf i x) as (b&E&O&G)
  |destruct (uint32_round_trip buf i x) as (b&E&O&G)|destruct (int64_round_trip buf i x) as (b&E&O&G)
  |destruct (uint64_round_trip buf i x) as (b&E&O&G)]; auto; exists b; rewrite G; auto.
Qed.

Lemma get_bytes_same shl l : forall b b' i, 0 <= i -> (forall j, i <= j < i + Z.of_nat (length l) -> nth_error b (Z.to_nat j) = nth_error b' (Z.to_nat j)) ->
  get_bytes shl b i l = get_bytes shl b' i l.
Proof.
  induction l as [|k t IH]; intros b b' i Hi H; cbn [get_bytes]; auto. cbn [length] in H.
  assert (R : rd b i = rd b' i) by (unfold rd; destruct (i <? 0); auto; rewrite H by lia; auto).
  rewrite R. destruct (rd b' i); cbn [bind]; auto. destruct (shl a k); cbn [bind]; auto.
  rewrite (IH b b' (i + 1)); auto; [lia|]. intros j Hj. apply H. lia.
Qed.

Lemma read_same_eq f b b' i : 0 <= i -> (forall j, i <= j < i + fsize f -> nth_error b (Z.to_nat j) = nth_error b' (Z.to_nat j)) ->
  read_same f b i = read_same f b' i.
Proof.
  intros Hi H. destruct f; cbn [fsize read_same] in *; unfold get_int16, get_uint16, get_uint32, get_int64, get_uint64;
  erewrite (get_bytes_same _ _ b b'); eauto.
Qed.

Lemma fsize_pos f : 2 <= fsize f. Proof. destruct f; cbn; lia. Qed.
Lemma total_pos fs : 0 <= total fs.
Proof. induction fs as [|f t IH]; cbn [total fold_right]; [lia|]. pose proof (fsize_pos f). unfold total in IH. lia. Qed.

Theorem fields_round_trip fs : forall buf i,
  0 <= i -> i + total fs <= Z.of_nat (length buf) -> i + total fs < 2 ^ 31 -> Forall fits fs ->
  exists buf', append_all fs buf i = Ok (buf', i + total fs) /\ only_changed buf buf' i (total fs) /\
    read_all fs buf' i = Ok (fs, i + total fs).
Proof.
  induction fs as [|f t IH]; intros buf i Hi Hl H31 F; cbn [append_all read_all].
  - exists buf. cbn [total fold_right]. rewrite Z.add_0_r. split; auto. split; auto. split; auto.
  - inversion F as [|? ? F1 F2]; subst. pose proof (fsize_pos f). pose proof (total_pos t).
    assert (T : total (f :: t) = fsize f + total t) by reflexivity. rewrite T in *.
    destruct (field_ok f buf i) as (b1&E1&[L1 O1]&R1); auto; try lia.
    destruct (IH b1 (i + fsize f)) as (b2&E2&[L2 O2]&R2); auto; try lia.
    exists b2. rewrite E1. cbn [bind fst snd]. rewrite E2. split; [f_equal; f_equal; lia|]. split.
    + split; [congruence|]. intros j Hj C. rewrite O2 by lia. apply O1; lia.
    + rewrite (read_same_eq f b2 b1) by (auto; intros j Hj; apply O2; lia).
      rewrite R1. cbn [bind fst snd]. rewrite R2. cbn [bind fst snd]. f_equal. f_equal. lia.
Qed.

Example ex_fields :
  let fs := [I16 (-2); U32 4000000000; I64 (-5)] in
  Forall fits fs /\ append_all fs (repeat 9 20) 3 =
    Ok ([9; 9; 9; 255; 254; 238; 107; 40; 0; 255; 255; 255; 255; 255; 255; 255; 251; 9; 9; 9], 17).
Proof. cbn zeta. split; [|vm_compute; reflexivity]. repeat constructor; vm_compute; intros; discriminate. Qed.

Print Assumptions int16_round_trip.
Print Assumptions fields_round_trip.
Print Assumptions int32_round_trip_nonneg.
Print Assumptions int32_round_trip_refuted.
