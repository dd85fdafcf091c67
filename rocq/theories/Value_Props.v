(* C07: immediate values and cell pointers survive encoding, on both builds. *)
From Verif Require Import Base Value_Model Value_Proofs Value_Proofs2.
Local Open Scope Z_scope.

(* bits of payload in an immediate: 28 on 32 bit, 56 on 64 bit *)
Definition payload (b : Arch) : Z := if (b : bool) then 56 else 28.

Lemma payload_eq (A : Arch) : payload A = W - VAL_SHIFT.
Proof. destruct A; reflexivity. Qed.

Section Arch.
Context {A : Arch}.

Lemma W_nz : 2 ^ W <> 0. Proof. arch; discriminate. Qed.
Lemma tags_differ : TYPE_I <> TYPE_U /\ TYPE_I <> TYPE_CHAR /\ TYPE_I <> TYPE_SYMBOL /\
  TYPE_U <> TYPE_CHAR /\ TYPE_U <> TYPE_SYMBOL /\ TYPE_CHAR <> TYPE_SYMBOL.
Proof. arch; lia. Qed.
Lemma tag_i : 0 <= TYPE_I < 2 ^ VAL_SHIFT. Proof. arch; lia. Qed.
Lemma tag_u : 0 <= TYPE_U < 2 ^ VAL_SHIFT. Proof. arch; lia. Qed.
Lemma tag_c : 0 <= TYPE_CHAR < 2 ^ VAL_SHIFT. Proof. arch; lia. Qed.
Lemma tag_s : 0 <= TYPE_SYMBOL < 2 ^ VAL_SHIFT. Proof. arch; lia. Qed.

Lemma shift_tag x t : 0 <= t < 2 ^ VAL_SHIFT -> Z.shiftr (x * 2 ^ VAL_SHIFT + t) VAL_SHIFT = x.
Proof.
  intros T. pose proof VS_pos. rewrite Z.shiftr_div_pow2 by lia.
  rewrite Z.div_add_l by lia. rewrite Z.div_small by lia. lia.
Qed.

Lemma imm_word x t : 0 <= t < 2 ^ VAL_SHIFT -> word ((x mod 2 ^ (W - VAL_SHIFT)) * 2 ^ VAL_SHIFT + t).
Proof.
  intros T. unfold word. rewrite VS_split. pose proof VS_pos.
  assert (HK : 0 < 2 ^ (W - VAL_SHIFT)) by (apply Z.pow_pos_nonneg; lia).
  pose proof (Z.mod_pos_bound x _ HK). nia.
Qed.

Lemma sgn_imm x t : 0 <= t < 2 ^ VAL_SHIFT ->
  Z.shiftr (sgn W ((x mod 2 ^ (W - VAL_SHIFT)) * 2 ^ VAL_SHIFT + t)) VAL_SHIFT = sgn (W - VAL_SHIFT) x.
Proof.
  intros T. pose proof VS_pos. unfold sgn. rewrite (Z.mod_small (_ + t)) by (apply imm_word; auto).
  set (y := x mod 2 ^ (W - VAL_SHIFT)).
  assert (E : 2 ^ (W - 1) = 2 ^ (W - VAL_SHIFT - 1) * 2 ^ VAL_SHIFT).
  { rewrite <- Z.pow_add_r by lia. f_equal. lia. }
  assert (0 < 2 ^ VAL_SHIFT) by (apply Z.pow_pos_nonneg; lia).
  rewrite E.
  destruct (Z.ltb_spec y (2 ^ (W - VAL_SHIFT - 1))).
  - destruct (Z.ltb_spec (y * 2 ^ VAL_SHIFT + t) (2 ^ (W - VAL_SHIFT - 1) * 2 ^ VAL_SHIFT)); [|nia].
    apply shift_tag; auto.
  - destruct (Z.ltb_spec (y * 2 ^ VAL_SHIFT + t) (2 ^ (W - VAL_SHIFT - 1) * 2 ^ VAL_SHIFT)); [nia|].
    rewrite VS_split.
    replace (y * 2 ^ VAL_SHIFT + t - 2 ^ VAL_SHIFT * 2 ^ (W - VAL_SHIFT)) with
      ((y - 2 ^ (W - VAL_SHIFT)) * 2 ^ VAL_SHIFT + t) by lia.
    apply shift_tag; auto.
Qed.

Lemma imm_type x t : 0 <= t < 2 ^ VAL_SHIFT -> t mod 4 = 0 ->
  type_of (x * 2 ^ VAL_SHIFT + t) = t.
Proof.
  intros T M. pose proof VS_pos as VP.
  assert (P : 2 ^ VAL_SHIFT = 4 * 2 ^ (VAL_SHIFT - 2)).
  { change 4 with (2 ^ 2). rewrite <- Z.pow_add_r by (try lia; arch; lia). f_equal. lia. }
  assert (HK : 0 < 2 ^ (VAL_SHIFT - 2)) by (apply Z.pow_pos_nonneg; arch; lia).
  assert (ND : (x * 2 ^ VAL_SHIFT + t) mod 2 = 0).
  { rewrite P. replace (x * (4 * 2 ^ (VAL_SHIFT - 2)) + t) with (t + x * 2 * 2 ^ (VAL_SHIFT - 2) * 2) by lia.
    rewrite Z.mod_add by lia. clear - M. Z.div_mod_to_equations; lia. }
  rewrite type_of_nonptr.
  2:{ rewrite is_ptr_f. unfold f_ptr. rewrite ND. reflexivity. }
  replace VAL_TYPE_MASK with (Z.shiftl (Z.ones (VAL_SHIFT - 2)) 2) by (arch; reflexivity).
  rewrite land_field by (try lia; arch; lia). change (2 ^ 2) with 4.
  replace ((x * 2 ^ VAL_SHIFT + t) / 4) with (x * 2 ^ (VAL_SHIFT - 2) + t / 4).
  2:{ rewrite P. replace (x * (4 * 2 ^ (VAL_SHIFT - 2)) + t) with (x * 2 ^ (VAL_SHIFT - 2) * 4 + t) by lia.
      rewrite Z.div_add_l by lia. reflexivity. }
  rewrite Z.add_comm, Z.mod_add by lia. rewrite Z.mod_small; Z.div_mod_to_equations; lia.
Qed.

(* The specification of sign-extending the low [n] bits. *)
Lemma sgn_spec n x : 0 < n -> -2 ^ (n - 1) <= sgn n x < 2 ^ (n - 1) /\ exists k, sgn n x = x + k * 2 ^ n.
Proof.
  intros N. unfold sgn. assert (P : 2 ^ n = 2 * 2 ^ (n - 1)).
  { rewrite <- Z.pow_succ_r by lia. f_equal. lia. }
  assert (0 < 2 ^ (n - 1)) by (apply Z.pow_pos_nonneg; lia).
  pose proof (Z.mod_pos_bound x (2 ^ n) ltac:(lia)) as B.
  pose proof (Z.div_mod x (2 ^ n) ltac:(lia)) as D.
  destruct (Z.ltb_spec (x mod 2 ^ n) (2 ^ (n - 1))).
  - split; [lia|]. exists (- (x / 2 ^ n)). lia.
  - split; [lia|]. exists (- (x / 2 ^ n) - 1). lia.
Qed.

Lemma sgn_unique n x y k : 0 < n -> -2 ^ (n - 1) <= y < 2 ^ (n - 1) -> y = x + k * 2 ^ n -> sgn n x = y.
Proof.
  intros N B E. destruct (sgn_spec n x N) as (B2&k2&E2).
  assert (P : 2 ^ n = 2 * 2 ^ (n - 1)).
  { rewrite <- Z.pow_succ_r by lia. f_equal. lia. }
  assert (0 < 2 ^ (n - 1)) by (apply Z.pow_pos_nonneg; lia).
  assert (k2 = k) by nia. subst. lia.
Qed.

(* Signed integers: in range they come back; any integer comes back reduced
   modulo 2^payload into the signed range. *)
Theorem enc_i_roundtrip : forall x, -2 ^ (payload A - 1) <= x < 2 ^ (payload A - 1) ->
  dec_i (enc_i x) = x.
Proof.
  intros x H. rewrite payload_eq in H. unfold dec_i, enc_i. rewrite imm_f by apply tag_i.
  rewrite sgn_imm by apply tag_i. pose proof VS_pos.
  pose proof (Z.div_mod x _ W_nz) as D.
  apply sgn_unique with (x / 2 ^ W * 2 ^ VAL_SHIFT); [lia|auto|]. unfold wrap.
  rewrite <- Z.mul_assoc, <- VS_split. lia.
Qed.

Theorem enc_i_wraps : forall x, exists k,
  dec_i (enc_i x) = x + k * 2 ^ payload A /\
  -2 ^ (payload A - 1) <= dec_i (enc_i x) < 2 ^ (payload A - 1).
Proof.
  intros x. rewrite payload_eq. unfold dec_i, enc_i. rewrite imm_f by apply tag_i.
  rewrite sgn_imm by apply tag_i. pose proof VS_pos.
  assert (HV : 0 < W - VAL_SHIFT) by lia. destruct (sgn_spec _ (wrap W x) HV) as (B&k&E).
  pose proof (Z.div_mod x _ W_nz) as D. fold (wrap W x) in D.
  exists (k - x / 2 ^ W * 2 ^ VAL_SHIFT). split; auto. rewrite E. rewrite Z.mul_sub_distr_r, <- Z.mul_assoc, <- VS_split. lia.
Qed.

Theorem enc_u_roundtrip : forall x, dec_u (enc_u x) = x mod 2 ^ payload A.
Proof.
  intros x. rewrite payload_eq. unfold dec_u, enc_u. rewrite imm_f by apply tag_u.
  apply shift_tag, tag_u.
Qed.

Theorem enc_char_roundtrip : forall x, 0 <= x < 256 -> dec_char (enc_char x) = x.
Proof.
  intros x H. unfold dec_char, enc_char. rewrite imm_f by apply tag_c. rewrite shift_tag by apply tag_c.
  rewrite Z.mod_small.
  - apply wrap_small. change (2 ^ 8) with 256. lia.
  - split; [lia|]. apply Z.lt_le_trans with (2 ^ 28); [lia|]. apply Z.pow_le_mono_r; [lia|]. arch; lia.
Qed.

Theorem enc_sym_roundtrip : forall s, 0 <= s < 2 ^ payload A -> dec_sym (enc_sym s) = s.
Proof.
  intros s H. rewrite payload_eq in H. unfold dec_sym, enc_sym. rewrite imm_f by apply tag_s.
  rewrite shift_tag by apply tag_s. apply Z.mod_small; auto.
Qed.

(* A symbol is recognized as such and as nothing else. *)
Theorem enc_kinds : forall x,
  type_of (enc_i x) = TYPE_I /\ type_of (enc_u x) = TYPE_U /\
  type_of (enc_char x) = TYPE_CHAR /\ type_of (enc_sym x) = TYPE_SYMBOL /\
  is_ptr (enc_i x) = false /\ is_ptr (enc_u x) = false /\
  is_ptr (enc_char x) = false /\ is_ptr (enc_sym x) = false /\
  is_symbol (enc_sym x) = true /\ is_symbol (enc_i x) = false /\
  is_symbol (enc_u x) = false /\ is_symbol (enc_char x) = false.
Proof.
  intros x.
  assert (TI : 0 <= TYPE_I < 2 ^ VAL_SHIFT /\ TYPE_I mod 4 = 0 /\ TYPE_I <> 0) by (arch; lia).
  assert (TU : 0 <= TYPE_U < 2 ^ VAL_SHIFT /\ TYPE_U mod 4 = 0 /\ TYPE_U <> 0) by (arch; lia).
  assert (TC : 0 <= TYPE_CHAR < 2 ^ VAL_SHIFT /\ TYPE_CHAR mod 4 = 0 /\ TYPE_CHAR <> 0) by (arch; lia).
  assert (TS : 0 <= TYPE_SYMBOL < 2 ^ VAL_SHIFT /\ TYPE_SYMBOL mod 4 = 0) by (arch; lia).
  assert (NP : forall y t, 0 <= t < 2 ^ VAL_SHIFT /\ t mod 4 = 0 -> is_ptr (y * 2 ^ VAL_SHIFT + t) = false).
  { intros y t (T1&T2). destruct (is_ptr (y * 2 ^ VAL_SHIFT + t)) eqn:P; auto.
    rewrite is_ptr_f in P. unfold f_ptr in P.
    assert (PW : 2 ^ VAL_SHIFT = 4 * 2 ^ (VAL_SHIFT - 2)).
    { change 4 with (2 ^ 2). rewrite <- Z.pow_add_r by (try lia; arch; lia). f_equal. lia. }
    rewrite PW in P. replace (y * (4 * 2 ^ (VAL_SHIFT - 2)) + t) with (t + y * 2 * 2 ^ (VAL_SHIFT - 2) * 2) in P by lia.
    rewrite Z.mod_add in P by lia. clear - P T2. Z.div_mod_to_equations; lia. }
  assert (NS : forall y t, 0 <= t < 2 ^ VAL_SHIFT -> is_symbol (y * 2 ^ VAL_SHIFT + t) = (t =? 0)).
  { intros y t T. unfold is_symbol. rewrite low_bits_f, Z.add_comm, Z.mod_add, Z.mod_small by lia. reflexivity. }
  unfold enc_i, enc_u, enc_char, enc_sym. rewrite !imm_f by tauto.
  rewrite !imm_type by tauto. rewrite !NP by tauto. rewrite !NS by tauto.
  assert ((TYPE_I =? 0) = false) by lia. assert ((TYPE_U =? 0) = false) by lia.
  assert ((TYPE_CHAR =? 0) = false) by lia. unfold TYPE_SYMBOL at 2. tauto.
Qed.

(* so no two values of different kinds are equal words *)
Theorem enc_kinds_disjoint : forall a b c d i, 0 <= i < 2 ^ (W - 8) ->
  enc_i a <> enc_u b /\ enc_i a <> enc_char c /\ enc_i a <> enc_sym d /\
  enc_u b <> enc_char c /\ enc_u b <> enc_sym d /\ enc_char c <> enc_sym d /\
  enc_cons_ptr i <> enc_i a /\ enc_cons_ptr i <> enc_u b /\
  enc_cons_ptr i <> enc_char c /\ enc_cons_ptr i <> enc_sym d.
Proof.
  intros a b c d i H.
  destruct (enc_kinds a) as (A1&A2&A3&A4&A5&A6&A7&A8&_).
  destruct (enc_kinds b) as (B1&B2&B3&B4&B5&B6&B7&B8&_).
  destruct (enc_kinds c) as (C1&C2&C3&C4&C5&C6&C7&C8&_).
  destruct (enc_kinds d) as (D1&D2&D3&D4&D5&D6&D7&D8&_).
  pose proof tags_differ as N.
  assert (P : is_ptr (enc_cons_ptr i) = true).
  { rewrite is_ptr_f. destruct (enc_cons_fields i H) as (_&_&_&_&E). rewrite E. reflexivity. }
  destruct N as (N1&N2&N3&N4&N5&N6).
  split; [intros E; apply N1; rewrite <- A1, E; exact B2|].
  split; [intros E; apply N2; rewrite <- A1, E; exact C3|].
  split; [intros E; apply N3; rewrite <- A1, E; exact D4|].
  split; [intros E; apply N4; rewrite <- B2, E; exact C3|].
  split; [intros E; apply N5; rewrite <- B2, E; exact D4|].
  split; [intros E; apply N6; rewrite <- C3, E; exact D4|].
  split; [intros E; rewrite E, A5 in P; discriminate|].
  split; [intros E; rewrite E, B6 in P; discriminate|].
  split; [intros E; rewrite E, C7 in P; discriminate|].
  intros E; rewrite E, D8 in P; discriminate.
Qed.

(* Cell pointers: the index comes back, whatever type tag is put on. *)
Theorem enc_ptr_roundtrip : forall i, 0 <= i < 2 ^ (W - 8) ->
  dec_ptr (enc_cons_ptr i) = i /\ is_ptr (enc_cons_ptr i) = true /\
  is_cons (enc_cons_ptr i) = true /\ type_of (enc_cons_ptr i) = TYPE_CONS /\
  is_const_ptr (enc_cons_ptr i) = false /\ word (enc_cons_ptr i).
Proof.
  intros i H. destruct (enc_cons_fields i H) as (E1&E2&E3&E4&E5).
  rewrite dec_ptr_f, is_ptr_f, is_cons_f, is_const_f, E2, E3, E5 by auto.
  repeat split; auto; try apply E1. rewrite type_of_ptr; auto; [|rewrite is_ptr_f, E5; auto].
  rewrite E2. arch; reflexivity.
Qed.

Theorem set_ptr_type_keeps_index : forall p t,
  In t [TYPE_CONS; TYPE_I64; TYPE_U64; TYPE_DOUBLE; TYPE_ARRAY; TYPE_CHANNEL; TYPE_CUSTOM;
        TYPE_LISPARRAY; TYPE_DEFRAG_MEM] ->
  type_of (set_ptr_type p t) = t /\ dec_ptr (set_ptr_type p t) = dec_ptr p /\
  is_ptr (set_ptr_type p t) = true.
Proof.
  intros p t H.
  assert (exists k, 0 <= k < 64 /\ t = k * 2 ^ (W - 6)) as (k&K&->).
  { clear - H. revert H. 
    assert (G : forall t, (t mod 2 ^ (W - 6) =? 0) && (0 <=? t) && (t <? 2 ^ W) = true ->
       exists k, 0 <= k < 64 /\ t = k * 2 ^ (W - 6)).
    { intros u E. exists (u / 2 ^ (W - 6)).
      assert (HP : 0 < 2 ^ (W - 6)) by (apply Z.pow_pos_nonneg; pose proof W_pos; lia).
      assert (HP2 : 2 ^ (W - 6) <> 0) by lia. pose proof (Z.div_mod u _ HP2). split; [|lia].
      apply f_ty_range. unfold word. lia. }
    intros H. apply G. clear G. repeat (destruct H as [<-|H]; [arch; reflexivity|]). destruct H. }
  rewrite set_ptr_type_f by auto.
  destruct (fields_unique k (f_ix p) 0 1 K (f_ix_range p) ltac:(lia) ltac:(lia)) as (E1&E2&E3&E4&E5).
  assert (P : is_ptr (k * 2 ^ (W - 6) + f_ix p * 4 + 0 * 2 + 1) = true) by (rewrite is_ptr_f, E5; auto).
  split; [|split; auto].
  - rewrite type_of_ptr by auto. rewrite E2. reflexivity.
  - rewrite !dec_ptr_f. auto.
Qed.
End Arch.

(* On a 64 bit build 32 bit numbers and floats are immediates too. *)
Lemma payload64 : 2 ^ (@W A64 - @VAL_SHIFT A64) = 2 ^ 56. Proof. reflexivity. Qed.

Theorem enc_i32_64_roundtrip : forall x, -2 ^ 31 <= x < 2 ^ 31 ->
  @dec_i32_imm A64 (@enc_i32_imm A64 x) = x /\ @type_of A64 (@enc_i32_imm A64 x) = @TYPE_I32 A64.
Proof.
  intros x H. unfold dec_i32_imm, enc_i32_imm.
  assert (T : 0 <= @TYPE_I32 A64 < 2 ^ (@VAL_SHIFT A64)) by (cbv; split; congruence).
  rewrite (imm_f (A:=A64)) by exact T. split; [|apply imm_type; [exact T|reflexivity]].
  rewrite (shift_tag (A:=A64)) by exact T.
  apply sgn_unique with (- ((wrap (@W A64) x) mod 2 ^ (@W A64 - @VAL_SHIFT A64) - x) / 2 ^ 32); [lia|change (2 ^ (32 - 1)) with (2 ^ 31); lia|].
  rewrite payload64. unfold wrap. change (@W A64) with 64.
  change (2 ^ 64) with 18446744073709551616. change (2 ^ 56) with 72057594037927936.
  change (2 ^ 32) with 4294967296. change (2 ^ 31) with 2147483648 in H.
  destruct (Z.ltb_spec x 0).
  - assert (E1 : x + 18446744073709551616 = x mod 18446744073709551616) by (apply Z.mod_unique with (-1); lia).
    assert (E2 : x + 72057594037927936 = (x + 18446744073709551616) mod 72057594037927936)
      by (apply Z.mod_unique with 255; lia).
    rewrite <- E1, <- E2.
    replace (- (x + 72057594037927936 - x)) with ((-16777216) * 4294967296) by lia. rewrite Z.div_mul by lia. lia.
  - rewrite !Z.mod_small by (rewrite ?Z.mod_small; lia). replace (- (x - x)) with 0 by lia. simpl. lia.
Qed.

Theorem enc_u32_64_roundtrip : forall x, 0 <= x < 2 ^ 32 ->
  @dec_u32_imm A64 (@enc_u32_imm A64 x) = x /\ @type_of A64 (@enc_u32_imm A64 x) = @TYPE_U32 A64 /\
  (* floats: the bit pattern *)
  @dec_u32_imm A64 (@enc_float_imm A64 x) = x /\ @type_of A64 (@enc_float_imm A64 x) = @TYPE_FLOAT A64.
Proof.
  intros x H. unfold dec_u32_imm, enc_u32_imm, enc_float_imm.
  assert (T : 0 <= @TYPE_U32 A64 < 2 ^ (@VAL_SHIFT A64)) by (cbv; split; congruence).
  assert (T2 : 0 <= @TYPE_FLOAT A64 < 2 ^ (@VAL_SHIFT A64)) by (cbv; split; congruence).
  rewrite !(imm_f (A:=A64)) by assumption.
  rewrite !(shift_tag (A:=A64)) by assumption.
  rewrite !imm_type by (assumption || reflexivity).
  rewrite payload64. rewrite Z.mod_small by (split; [lia|]; apply Z.lt_le_trans with (2 ^ 32); [lia|apply Z.pow_le_mono_r; lia]).
  rewrite wrap_small by auto. auto.
Qed.

(* concrete *)
Example enc_i_case32 : @dec_i A32 (@enc_i A32 (-12345)) = -12345 /\ @dec_i A32 (@enc_i A32 (2 ^ 27)) = - 2 ^ 27.
Proof. split; reflexivity. Qed.
Example enc_i_case64 : @dec_i A64 (@enc_i A64 (- 2 ^ 55)) = - 2 ^ 55.
Proof. reflexivity. Qed.
Example enc_ptr_case : @dec_ptr A32 (@set_ptr_type A32 (@enc_cons_ptr A32 4711) (@TYPE_ARRAY A32)) = 4711.
Proof. reflexivity. Qed.

Print Assumptions enc_i_roundtrip.
Print Assumptions enc_i_wraps.
Print Assumptions enc_u_roundtrip.
Print Assumptions enc_char_roundtrip.
Print Assumptions enc_sym_roundtrip.
Print Assumptions enc_kinds.
Print Assumptions enc_kinds_disjoint.
Print Assumptions enc_ptr_roundtrip.
Print Assumptions set_ptr_type_keeps_index.
Print Assumptions enc_i32_64_roundtrip.
Print Assumptions enc_u32_64_roundtrip.
