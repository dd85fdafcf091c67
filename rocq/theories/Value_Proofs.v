(* Arithmetic meaning of the bit operations on words. *)
From Verif Require Import Base Value_Model.
Local Open Scope Z_scope.

Lemma land_field x k n : 0 <= k -> 0 <= n ->
  Z.land x (Z.shiftl (Z.ones n) k) = ((x / 2 ^ k) mod 2 ^ n) * 2 ^ k.
Proof.
  intros Hk Hn. rewrite <- Z.shiftl_mul_pow2, <- Z.land_ones, <- Z.shiftr_div_pow2 by lia.
  apply Z.bits_inj'. intros i Hi.
  rewrite Z.land_spec, !Z.shiftl_spec by lia. destruct (Z.ltb_spec i k).
  - rewrite !(Z.testbit_neg_r _ (i - k)) by lia. apply andb_false_r.
  - rewrite Z.land_spec, Z.shiftr_spec by lia. do 2 f_equal. lia.
Qed.

Lemma lor_add a b k : 0 <= k -> 0 <= b < 2 ^ k -> Z.lor (a * 2 ^ k) b = a * 2 ^ k + b.
Proof.
  intros Hk Hb.
  assert (L : Z.land (a * 2 ^ k) b = 0).
  { apply Z.bits_inj'. intros i Hi. rewrite Z.land_spec, Z.bits_0.
    destruct (Z.ltb_spec i k).
    - rewrite Z.mul_pow2_bits_low by lia. reflexivity.
    - replace b with (b mod 2 ^ k) by (apply Z.mod_small; lia).
      rewrite Z.mod_pow2_bits_high by lia. apply andb_false_r. }
  rewrite <- Z.lxor_lor by exact L. symmetry. apply Z.add_nocarry_lxor. exact L.
Qed.

Section Arch.
Context {A : Arch}.

Definition word (x : Z) : Prop := 0 <= x < 2 ^ W.

(* [arith b64] : case split on the build, compute the constants *)
Ltac arch := destruct A; cbv [b64 sel W WB ADDRESS_SHIFT VAL_SHIFT PTR_BIT PTR_VAL_MASK PTR_TYPE_MASK PTR_NULL
  PTR_TO_CONSTANT_BIT PTR_TO_CONSTANT_SHIFT TYPE_CONS NON_CONS_POINTER_TYPE_FIRST POINTER_TYPE_FIRST
  TYPE_I64 TYPE_U64 TYPE_DOUBLE TYPE_ARRAY TYPE_CHANNEL TYPE_CUSTOM TYPE_LISPARRAY TYPE_DEFRAG_MEM
  POINTER_TYPE_LAST CONS_TYPE_MASK CONTINUATION_INTERNAL GC_MASK GC_MARKED VAL_TYPE_MASK LOW_RESERVED_BITS
  NUMBER_MASK TYPE_SYMBOL TYPE_CHAR TYPE_I32 TYPE_U32 TYPE_FLOAT TYPE_I TYPE_U wnot word wrap].

Lemma W_pos : 8 < W. Proof. arch; lia. Qed.
Lemma VS_pos : 0 < VAL_SHIFT < W. Proof. arch; lia. Qed.
Lemma VS_split : 2 ^ W = 2 ^ VAL_SHIFT * 2 ^ (W - VAL_SHIFT).
Proof. rewrite <- Z.pow_add_r; [f_equal; lia| |]; pose proof VS_pos; lia. Qed.

(* fields of a word *)
Definition f_ptr (x : Z) : Z := x mod 2.
Definition f_gc (x : Z) : Z := (x / 2) mod 2.
Definition f_ix (x : Z) : Z := (x / 4) mod 2 ^ (W - 8).
Definition f_ty (x : Z) : Z := x / 2 ^ (W - 6).

Lemma fields x : word x ->
  x = f_ty x * 2 ^ (W - 6) + f_ix x * 4 + f_gc x * 2 + f_ptr x /\
  0 <= f_ty x < 64 /\ 0 <= f_ix x < 2 ^ (W - 8) /\ 0 <= f_gc x < 2 /\ 0 <= f_ptr x < 2.
Proof.
  unfold f_ty, f_ix, f_gc, f_ptr. intros H. pose proof W_pos as WP.
  assert (P : 2 ^ (W - 6) = 4 * 2 ^ (W - 8)).
  { replace (W - 6) with (2 + (W - 8)) by lia. rewrite Z.pow_add_r by lia. reflexivity. }
  assert (Q : 2 ^ W = 64 * 2 ^ (W - 6)).
  { replace W with (6 + (W - 6)) at 1 by lia. rewrite Z.pow_add_r by lia. reflexivity. }
  assert (0 < 2 ^ (W - 8)) as PP by (apply Z.pow_pos_nonneg; lia).
  assert (E : x / 2 ^ (W - 6) = x / 4 / 2 ^ (W - 8)) by (rewrite P, Z.div_div; auto; lia).
  split.
  - rewrite E, P. rewrite (Z.div_mod x 4) at 1 by lia. rewrite (Z.div_mod (x / 4) (2 ^ (W - 8))) at 1 by lia.
    assert (x mod 4 = (x / 2) mod 2 * 2 + x mod 2) by (Z.div_mod_to_equations; lia). lia.
  - split; [|split; [|split]]; try (apply Z.mod_pos_bound; lia). unfold word in H. split.
    + apply Z.div_pos; lia.
    + apply Z.div_lt_upper_bound; lia.
Qed.

Lemma fields_unique t i g p : 0 <= t < 64 -> 0 <= i < 2 ^ (W - 8) -> 0 <= g < 2 -> 0 <= p < 2 ->
  word (t * 2 ^ (W - 6) + i * 4 + g * 2 + p) /\
  f_ty (t * 2 ^ (W - 6) + i * 4 + g * 2 + p) = t /\
  f_ix (t * 2 ^ (W - 6) + i * 4 + g * 2 + p) = i /\
  f_gc (t * 2 ^ (W - 6) + i * 4 + g * 2 + p) = g /\
  f_ptr (t * 2 ^ (W - 6) + i * 4 + g * 2 + p) = p.
Proof.
  unfold f_ty, f_ix, f_gc, f_ptr. intros T I G Pt. pose proof W_pos as WP.
  assert (P : 2 ^ (W - 6) = 4 * 2 ^ (W - 8)).
  { replace (W - 6) with (2 + (W - 8)) by lia. rewrite Z.pow_add_r by lia. reflexivity. }
  assert (Q : 2 ^ W = 64 * 2 ^ (W - 6)).
  { replace W with (6 + (W - 6)) at 1 by lia. rewrite Z.pow_add_r by lia. reflexivity. }
  unfold word. rewrite Q. rewrite P.
  assert (0 < 2 ^ (W - 8)) as PP by (apply Z.pow_pos_nonneg; lia).
  set (K := 2 ^ (W - 8)) in *. clearbody K. set (x := t * (4 * K) + i * 4 + g * 2 + p).
  assert (D4 : x / 4 = t * K + i).
  { symmetry. apply Z.div_unique with (g * 2 + p); unfold x; lia. }
  split; [unfold x; nia|]. split; [|split; [|split]].
  - rewrite <- Z.div_div by lia. rewrite D4. symmetry. apply Z.div_unique with i; lia.
  - rewrite D4. rewrite Z.add_comm, Z.mod_add by lia. apply Z.mod_small; lia.
  - replace (x / 2) with (g + (t * K + i) * 2).
    + rewrite Z.mod_add by lia. apply Z.mod_small; lia.
    + apply Z.div_unique with p; unfold x; lia.
  - unfold x. replace (t * (4 * K) + i * 4 + g * 2 + p) with (p + (t * 2 * K + i * 2 + g) * 2) by lia.
    rewrite Z.mod_add by lia. apply Z.mod_small; lia.
Qed.

Lemma is_ptr_f x : is_ptr x = (f_ptr x =? 1).
Proof.
  unfold is_ptr, f_ptr, PTR_BIT. change 1 with (Z.ones 1) at 1. rewrite Z.land_ones by lia.
  change (2 ^ 1) with 2. pose proof (Z.mod_pos_bound x 2). lia.
Qed.

Lemma get_mark_f x : get_gc_mark x = (f_gc x =? 1).
Proof.
  unfold get_gc_mark, f_gc, GC_MASK. change 2 with (Z.shiftl (Z.ones 1) 1) at 1. rewrite land_field by lia.
  change (2 ^ 1) with 2. pose proof (Z.mod_pos_bound (x / 2) 2). lia.
Qed.

Lemma dec_ptr_f x : dec_ptr x = f_ix x.
Proof.
  unfold dec_ptr, f_ix, ADDRESS_SHIFT.
  replace PTR_VAL_MASK with (Z.shiftl (Z.ones (W - 8)) 2) by (arch; reflexivity).
  rewrite Z.land_comm, land_field by (pose proof W_pos; lia).
  rewrite Z.shiftr_div_pow2 by lia. change (2 ^ 2) with 4. apply Z.div_mul. lia.
Qed.

Lemma ptr_type_mask_f x : word x -> Z.land x PTR_TYPE_MASK = f_ty x * 2 ^ (W - 6).
Proof.
  intros Wx. replace PTR_TYPE_MASK with (Z.shiftl (Z.ones 6) (W - 6)) by (arch; reflexivity).
  rewrite land_field by (pose proof W_pos; lia). unfold f_ty. f_equal. apply Z.mod_small.
  pose proof (fields x Wx). unfold f_ty in *. change (2 ^ 6) with 64. lia.
Qed.

Lemma is_const_f x : is_const_ptr x = Z.odd (f_ty x).
Proof.
  unfold is_const_ptr, f_ty. replace PTR_TO_CONSTANT_BIT with (Z.shiftl (Z.ones 1) (W - 6)) by (arch; reflexivity).
  rewrite land_field by (pose proof W_pos; lia). change (2 ^ 1) with 2.
  rewrite Zmod_odd. destruct (Z.odd (x / 2 ^ (W - 6))).
  - assert (0 < 2 ^ (W - 6)) by (apply Z.pow_pos_nonneg; pose proof W_pos; lia). lia.
  - reflexivity.
Qed.

Lemma is_cons_f x : word x -> is_cons x = (f_ptr x =? 1) && (f_ty x / 4 =? 1).
Proof.
  intros Wx. unfold is_cons. rewrite is_ptr_f. f_equal.
  replace CONS_TYPE_MASK with (Z.shiftl (Z.ones 4) (W - 4)) by (arch; reflexivity).
  rewrite land_field by (pose proof W_pos; lia).
  replace TYPE_CONS with (1 * 2 ^ (W - 4)) by (arch; reflexivity).
  assert (0 < 2 ^ (W - 4)) by (apply Z.pow_pos_nonneg; pose proof W_pos; lia).
  assert (E : (x / 2 ^ (W - 4)) mod 2 ^ 4 = f_ty x / 4).
  { unfold f_ty. assert (0 < 2 ^ (W - 6)) by (apply Z.pow_pos_nonneg; pose proof W_pos; lia).
    rewrite Z.div_div by lia.
    replace (2 ^ (W - 6) * 4) with (2 ^ (W - 4)).
    2:{ replace (W - 4) with (W - 6 + 2) by lia. rewrite Z.pow_add_r by (pose proof W_pos; lia). reflexivity. }
    apply Z.mod_small. split; [apply Z.div_pos; [apply Wx|lia]|].
    apply Z.div_lt_upper_bound; [lia|]. rewrite <- Z.pow_add_r by (pose proof W_pos; lia).
    replace (W - 4 + 4) with W by lia. apply Wx. }
  rewrite E. nia.
Qed.

(* rebuild from fields *)
Lemma set_mark_f x : word x -> set_gc_mark x = x + (1 - f_gc x) * 2.
Proof.
  intros Wx. unfold set_gc_mark, GC_MARKED.
  assert (H : x = (x / 4) * 2 ^ 2 + x mod 4) by (change (2 ^ 2) with 4; Z.div_mod_to_equations; lia).
  rewrite H at 1. pose proof (Z.mod_pos_bound x 4 ltac:(lia)).
  rewrite <- lor_add by (change (2 ^ 2) with 4; lia). rewrite <- Z.lor_assoc.
  assert (E : Z.lor (x mod 4) 2 = x mod 4 + (1 - f_gc x) * 2).
  { unfold f_gc. replace ((x / 2) mod 2) with ((x mod 4) / 2) by (Z.div_mod_to_equations; lia).
    assert (D : x mod 4 = 0 \/ x mod 4 = 1 \/ x mod 4 = 2 \/ x mod 4 = 3) by lia.
    destruct D as [->|[->|[->| ->]]]; reflexivity. }
  rewrite E, lor_add; [rewrite H at 4; change (2^2) with 4; lia|lia|].
  change (2 ^ 2) with 4. unfold f_gc.
  clear - H0. Z.div_mod_to_equations; lia.
Qed.

Lemma clr_mark_f x : word x -> clr_gc_mark x = x - f_gc x * 2.
Proof.
  intros Wx. unfold clr_gc_mark, GC_MASK.
  apply Z.bits_inj'. intros i Hi. rewrite Z.land_spec.
  replace (wnot 2) with (2 ^ W - 1 - 2) by reflexivity.
  assert (E : x - f_gc x * 2 = (x / 4) * 2 ^ 2 + x mod 2).
  { unfold f_gc. change (2 ^ 2) with 4. Z.div_mod_to_equations; lia. }
  rewrite E.
  rewrite <- (lor_add (x / 4) (x mod 2) 2) by (change (2 ^ 2) with 4; pose proof (Z.mod_pos_bound x 2); lia).
  assert (E2 : 2 ^ W - 1 - 2 = (2 ^ (W - 2) - 1) * 2 ^ 2 + 1).
  { replace (2 ^ W) with (2 ^ (W - 2) * 2 ^ 2); [lia|].
    rewrite <- Z.pow_add_r; [f_equal; lia| |]; pose proof W_pos; lia. }
  rewrite E2. rewrite <- (lor_add (2 ^ (W - 2) - 1) 1 2) by (change (2 ^ 2) with 4; lia).
  rewrite !Z.lor_spec.
  replace (2 ^ (W - 2) - 1) with (Z.ones (W - 2)) by (rewrite Z.ones_equiv; lia).
  destruct (Z.ltb_spec i 2).
  - rewrite !Z.mul_pow2_bits_low by lia. simpl orb.
    assert (D : i = 0 \/ i = 1) by lia. destruct D as [->| ->].
    + change (Z.testbit 1 0) with true. rewrite andb_true_r. change (x mod 2) with (x mod 2 ^ 1).
      rewrite (Z.mod_pow2_bits_low x 1 0) by lia. reflexivity.
    + change (Z.testbit 1 1) with false. rewrite andb_false_r. change (x mod 2) with (x mod 2 ^ 1).
      rewrite Z.mod_pow2_bits_high by lia. reflexivity.
  - rewrite !Z.mul_pow2_bits by lia.
    replace (Z.testbit 1 i) with false.
    2:{ symmetry. change 1 with (2 ^ 0). apply Z.pow2_bits_false. lia. }
    replace (Z.testbit (x mod 2) i) with false.
    2:{ symmetry. change (x mod 2) with (x mod 2 ^ 1). apply Z.mod_pow2_bits_high. lia. }
    rewrite !orb_false_r. rewrite Z.testbit_ones by (pose proof W_pos; lia).
    change (x / 4) with (x / 2 ^ 2). rewrite Z.div_pow2_bits by lia. replace (i - 2 + 2) with i by lia.
    destruct (Z.ltb_spec (i - 2) (W - 2)).
    + destruct (Z.leb_spec 0 (i - 2)); [|lia]. apply andb_true_r.
    + rewrite andb_false_r, andb_false_r. symmetry. 
      replace x with (x mod 2 ^ W) by (apply Z.mod_small; apply Wx).
      apply Z.mod_pow2_bits_high. pose proof W_pos. lia.
Qed.

Lemma enc_cons_ptr_f i : 0 <= i < 2 ^ (W - 8) ->
  enc_cons_ptr i = 4 * 2 ^ (W - 6) + i * 4 + 0 * 2 + 1.
Proof.
  intros H. unfold enc_cons_ptr, ADDRESS_SHIFT, PTR_BIT. rewrite Z.shiftl_mul_pow2 by lia.
  change (2 ^ 2) with 4.
  assert (i * 4 < 2 ^ (W - 6)).
  { replace (W - 6) with (W - 8 + 2) by lia. rewrite Z.pow_add_r by (pose proof W_pos; lia). lia. }
  assert (2 ^ (W - 6) <= 2 ^ W) by (apply Z.pow_le_mono_r; pose proof W_pos; lia).
  rewrite wrap_small by lia.
  replace TYPE_CONS with (4 * 2 ^ (W - 6)) by (arch; reflexivity).
  rewrite (Z.lor_comm (i * 4)), lor_add by (pose proof W_pos; lia).
  replace (4 * 2 ^ (W - 6) + i * 4) with ((2 ^ (W - 6) + i) * 2 ^ 2) by (change (2 ^ 2) with 4; lia).
  rewrite lor_add by (change (2 ^ 2) with 4; lia). change (2 ^ 2) with 4. lia.
Qed.

Lemma set_ptr_type_f p t : 0 <= t < 64 ->
  set_ptr_type p (t * 2 ^ (W - 6)) = t * 2 ^ (W - 6) + f_ix p * 4 + 0 * 2 + 1.
Proof.
  intros T. unfold set_ptr_type, PTR_BIT.
  replace PTR_VAL_MASK with (Z.shiftl (Z.ones (W - 8)) 2) by (arch; reflexivity).
  rewrite (Z.land_comm _ p), land_field by (pose proof W_pos; lia). change (2 ^ 2) with 4. fold (f_ix p).
  assert (0 <= f_ix p < 2 ^ (W - 8)).
  { unfold f_ix. apply Z.mod_pos_bound. apply Z.pow_pos_nonneg; pose proof W_pos; lia. }
  assert (P : 2 ^ (W - 6) = 2 ^ (W - 8) * 4).
  { replace (W - 6) with (W - 8 + 2) by lia. rewrite Z.pow_add_r by (pose proof W_pos; lia). reflexivity. }
  rewrite (Z.lor_comm (f_ix p * 4)), lor_add by (pose proof W_pos; lia).
  replace (t * 2 ^ (W - 6) + f_ix p * 4) with ((t * 2 ^ (W - 8) + f_ix p) * 2 ^ 2) by (rewrite P; change (2 ^ 2) with 4; lia).
  rewrite lor_add by (change (2 ^ 2) with 4; lia). change (2 ^ 2) with 4. lia.
Qed.

(* immediates: [x * 2^VAL_SHIFT + tag] *)
Lemma imm_f x tag : 0 <= tag < 2 ^ VAL_SHIFT ->
  Z.lor (wrap W (Z.shiftl x VAL_SHIFT)) tag = (x mod 2 ^ (W - VAL_SHIFT)) * 2 ^ VAL_SHIFT + tag.
Proof.
  intros T. pose proof VS_pos. rewrite Z.shiftl_mul_pow2 by lia. unfold wrap. rewrite VS_split.
  rewrite (Z.mul_comm (2 ^ VAL_SHIFT)), Zmult_mod_distr_r. apply lor_add; lia.
Qed.
End Arch.

Ltac arch := match goal with A : Arch |- _ => destruct A end;
  cbv [b64 sel W WB ADDRESS_SHIFT VAL_SHIFT PTR_BIT PTR_VAL_MASK PTR_TYPE_MASK PTR_NULL
  PTR_TO_CONSTANT_BIT PTR_TO_CONSTANT_SHIFT TYPE_CONS NON_CONS_POINTER_TYPE_FIRST POINTER_TYPE_FIRST
  TYPE_I64 TYPE_U64 TYPE_DOUBLE TYPE_ARRAY TYPE_CHANNEL TYPE_CUSTOM TYPE_LISPARRAY TYPE_DEFRAG_MEM
  POINTER_TYPE_LAST CONS_TYPE_MASK CONTINUATION_INTERNAL GC_MASK GC_MARKED VAL_TYPE_MASK LOW_RESERVED_BITS
  NUMBER_MASK TYPE_SYMBOL TYPE_CHAR TYPE_I32 TYPE_U32 TYPE_FLOAT TYPE_I TYPE_U wnot word wrap].
