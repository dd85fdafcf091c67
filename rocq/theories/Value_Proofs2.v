(* Consequences used by the heap proofs: how tag tests and GC bits interact. *)
From Verif Require Import Base Value_Model Value_Proofs.
Local Open Scope Z_scope.

Lemma mul_eqb a b p : 0 < p -> (a * p =? b * p) = (a =? b).
Proof.
  intros. destruct (Z.eqb_spec a b) as [->|]; [apply Z.eqb_refl|].
  destruct (Z.eqb_spec (a * p) (b * p)) as [E|]; auto. apply Z.mul_cancel_r in E; lia.
Qed.

Section Arch.
Context {A : Arch}.

Lemma f_ptr_range x : 0 <= f_ptr x < 2.
Proof. apply Z.mod_pos_bound; lia. Qed.
Lemma f_gc_range x : 0 <= f_gc x < 2.
Proof. apply Z.mod_pos_bound; lia. Qed.
Lemma pow8_pos : 0 < 2 ^ (W - 8).
Proof. apply Z.pow_pos_nonneg; pose proof W_pos; lia. Qed.
Lemma f_ix_range x : 0 <= f_ix x < 2 ^ (W - 8).
Proof. apply Z.mod_pos_bound, pow8_pos. Qed.
Lemma f_ty_range x : word x -> 0 <= f_ty x < 64.
Proof. intros. apply fields; auto. Qed.

Lemma word_eq x y : word x -> word y -> f_ty x = f_ty y -> f_ix x = f_ix y -> f_gc x = f_gc y ->
  f_ptr x = f_ptr y -> x = y.
Proof.
  intros Hx Hy A1 A2 A3 A4. rewrite (proj1 (fields x Hx)), (proj1 (fields y Hy)). congruence.
Qed.

Lemma set_mark_fields x : word x ->
  word (set_gc_mark x) /\ f_ty (set_gc_mark x) = f_ty x /\ f_ix (set_gc_mark x) = f_ix x /\
  f_gc (set_gc_mark x) = 1 /\ f_ptr (set_gc_mark x) = f_ptr x.
Proof.
  intros H. rewrite set_mark_f by auto. destruct (fields x H) as (E&T&I&G&P).
  replace (x + (1 - f_gc x) * 2) with (f_ty x * 2 ^ (W - 6) + f_ix x * 4 + 1 * 2 + f_ptr x) by lia.
  apply fields_unique; auto; lia.
Qed.

Lemma clr_mark_fields x : word x ->
  word (clr_gc_mark x) /\ f_ty (clr_gc_mark x) = f_ty x /\ f_ix (clr_gc_mark x) = f_ix x /\
  f_gc (clr_gc_mark x) = 0 /\ f_ptr (clr_gc_mark x) = f_ptr x.
Proof.
  intros H. rewrite clr_mark_f by auto. destruct (fields x H) as (E&T&I&G&P).
  replace (x - f_gc x * 2) with (f_ty x * 2 ^ (W - 6) + f_ix x * 4 + 0 * 2 + f_ptr x) by lia.
  apply fields_unique; auto; lia.
Qed.

Lemma clr_set x : word x -> f_gc x = 0 -> clr_gc_mark (set_gc_mark x) = x.
Proof.
  intros H G. destruct (set_mark_fields x H) as (Ws&T1&I1&G1&P1).
  destruct (clr_mark_fields _ Ws) as (Wc&T2&I2&G2&P2). apply word_eq; auto; congruence.
Qed.

Lemma set_set x : word x -> set_gc_mark (set_gc_mark x) = set_gc_mark x.
Proof.
  intros H. destruct (set_mark_fields x H) as (Ws&T1&I1&G1&P1).
  destruct (set_mark_fields _ Ws) as (Wc&T2&I2&G2&P2). apply word_eq; auto; congruence.
Qed.

Lemma clr_id x : word x -> f_gc x = 0 -> clr_gc_mark x = x.
Proof. intros H G. rewrite clr_mark_f by auto. lia. Qed.

Lemma enc_cons_fields i : 0 <= i < 2 ^ (W - 8) ->
  word (enc_cons_ptr i) /\ f_ty (enc_cons_ptr i) = 4 /\ f_ix (enc_cons_ptr i) = i /\
  f_gc (enc_cons_ptr i) = 0 /\ f_ptr (enc_cons_ptr i) = 1.
Proof. intros H. rewrite enc_cons_ptr_f by auto. apply fields_unique; lia. Qed.

(* the pointer type tags are multiples of 2^(W-6) *)
Definition ptr_tag (t : Z) : Prop := exists k, 0 <= k < 64 /\ t = k * 2 ^ (W - 6).

Lemma tag_cons : ptr_tag TYPE_CONS.
Proof. exists 4. split; [lia|arch; reflexivity]. Qed.

Lemma type_of_ptr x : word x -> is_ptr x = true -> type_of x = f_ty x * 2 ^ (W - 6).
Proof.
  intros H P. unfold type_of. unfold is_ptr in P. destruct (_ =? 0); [discriminate|].
  apply ptr_type_mask_f; auto.
Qed.

Lemma type_of_nonptr x : is_ptr x = false -> type_of x = Z.land x VAL_TYPE_MASK.
Proof. intros P. unfold type_of, is_ptr in *. destruct (_ =? 0); auto. discriminate. Qed.

Lemma val_type_mask_small x : 0 <= Z.land x VAL_TYPE_MASK < 2 ^ VAL_SHIFT.
Proof.
  replace VAL_TYPE_MASK with (Z.shiftl (Z.ones (VAL_SHIFT - 2)) 2) by (arch; reflexivity).
  pose proof VS_pos. rewrite land_field by (try (arch; lia); lia).
  assert (0 < 2 ^ (VAL_SHIFT - 2)) by (apply Z.pow_pos_nonneg; arch; lia).
  pose proof (Z.mod_pos_bound (x / 2 ^ 2) (2 ^ (VAL_SHIFT - 2)) H0).
  replace (2 ^ VAL_SHIFT) with (2 ^ (VAL_SHIFT - 2) * 2 ^ 2).
  - change (2 ^ 2) with 4 in *. nia.
  - rewrite <- Z.pow_add_r by (arch; lia). f_equal. lia.
Qed.

Lemma pow6 : 2 ^ VAL_SHIFT <= 2 ^ (W - 6).
Proof. apply Z.pow_le_mono_r; arch; lia. Qed.

Lemma type_is_ptr x k : word x -> 0 < k -> type_of x = k * 2 ^ (W - 6) -> is_ptr x = true.
Proof.
  intros H K E. destruct (is_ptr x) eqn:P; auto. rewrite type_of_nonptr in E by auto.
  pose proof (val_type_mask_small x). pose proof pow6. nia.
Qed.

Lemma type_ptr_iff x k : word x -> 0 < k < 64 ->
  (type_of x =? k * 2 ^ (W - 6)) = (f_ptr x =? 1) && (f_ty x =? k).
Proof.
  intros H K. destruct (is_ptr x) eqn:P.
  - rewrite type_of_ptr by auto. rewrite is_ptr_f in P. rewrite P. rewrite andb_true_l.
    apply mul_eqb. apply Z.pow_pos_nonneg; pose proof W_pos; lia.
  - destruct (Z.eqb_spec (type_of x) (k * 2 ^ (W - 6))).
    + apply (type_is_ptr x k) in e; auto; [|lia]. congruence.
    + rewrite is_ptr_f in P. rewrite P. reflexivity.
Qed.

Lemma cons_rw_iff x : word x -> is_cons_rw x = (f_ptr x =? 1) && (f_ty x =? 4).
Proof.
  intros H. unfold is_cons_rw. replace TYPE_CONS with (4 * 2 ^ (W - 6)) by (arch; reflexivity).
  apply type_ptr_iff; auto; lia.
Qed.

(* symbols *)
Lemma low_bits_f x : Z.land x LOW_RESERVED_BITS = x mod 2 ^ VAL_SHIFT.
Proof.
  replace LOW_RESERVED_BITS with (Z.ones VAL_SHIFT) by (arch; reflexivity).
  apply Z.land_ones. pose proof VS_pos; lia.
Qed.

Lemma is_symbol_not_ptr x : is_symbol x = true -> is_ptr x = false.
Proof.
  unfold is_symbol. rewrite low_bits_f, is_ptr_f. unfold f_ptr. intros H.
  apply Z.eqb_eq in H. pose proof VS_pos as VP.
  assert (x mod 2 = 0) as H0.
  { pose proof (Z.div_mod x (2 ^ VAL_SHIFT) ltac:(apply Z.pow_nonzero; lia)) as E. rewrite H in E.
    assert (P : 2 ^ VAL_SHIFT = 2 * 2 ^ (VAL_SHIFT - 1)).
    { rewrite <- Z.pow_succ_r by lia. f_equal. lia. }
    rewrite E, P. rewrite Z.add_0_r, <- Z.mul_assoc, Z.mul_comm. apply Z.mod_mul. lia. }
  rewrite H0. reflexivity.
Qed.

Lemma enc_sym_f s : enc_sym s = (s mod 2 ^ (W - VAL_SHIFT)) * 2 ^ VAL_SHIFT.
Proof.
  unfold enc_sym. rewrite imm_f; unfold TYPE_SYMBOL; [lia|].
  split; [lia|]. apply Z.pow_pos_nonneg; pose proof VS_pos; lia.
Qed.

Lemma enc_sym_is_symbol s : is_symbol (enc_sym s) = true.
Proof.
  unfold is_symbol. rewrite low_bits_f, enc_sym_f, Z.mod_mul; [reflexivity|].
  apply Z.pow_nonzero; pose proof VS_pos; lia.
Qed.

Lemma enc_sym_word s : word (enc_sym s).
Proof.
  rewrite enc_sym_f. unfold word. rewrite VS_split. pose proof VS_pos.
  assert (0 < 2 ^ VAL_SHIFT) by (apply Z.pow_pos_nonneg; lia).
  assert (HK : 0 < 2 ^ (W - VAL_SHIFT)) by (apply Z.pow_pos_nonneg; lia).
  pose proof (Z.mod_pos_bound s _ HK). nia.
Qed.

Lemma enc_sym_inj s t : 0 <= s < 2 ^ (W - VAL_SHIFT) -> 0 <= t < 2 ^ (W - VAL_SHIFT) ->
  enc_sym s = enc_sym t -> s = t.
Proof.
  intros H1 H2. rewrite !enc_sym_f, !Z.mod_small by auto. intros E.
  apply Z.mul_cancel_r in E; auto. apply Z.pow_nonzero; pose proof VS_pos; lia.
Qed.

Lemma nil_sym : enc_sym SYM_NIL = 0.
Proof. arch; reflexivity. Qed.

Lemma nil_fields : word 0 /\ f_ptr 0 = 0 /\ f_gc 0 = 0 /\ is_ptr 0 = false /\ is_symbol 0 = true.
Proof.
  split; [|split; [|split; [|split]]]; try reflexivity. unfold word. pose proof W_pos.
  split; [lia|]. apply Z.pow_pos_nonneg; lia.
Qed.

Lemma enc_sym_gc s : f_gc (enc_sym s) = 0.
Proof.
  rewrite enc_sym_f. unfold f_gc. pose proof VS_pos.
  replace VAL_SHIFT with (2 + (VAL_SHIFT - 2)) at 2 by lia.
  rewrite Z.pow_add_r by (try lia; arch; lia). change (2 ^ 2) with (2 * 2).
  replace (s mod 2 ^ (W - VAL_SHIFT) * (2 * 2 * 2 ^ (VAL_SHIFT - 2))) with
    (s mod 2 ^ (W - VAL_SHIFT) * 2 ^ (VAL_SHIFT - 2) * 2 * 2) by lia.
  rewrite Z.div_mul by lia. apply Z.mod_mul. lia.
Qed.

(* a word that is not a pointer and has type SYMBOL and no GC bit is a symbol *)
Lemma type_symbol_iff x : word x -> f_gc x = 0 -> (type_of x =? TYPE_SYMBOL) = is_symbol x || (is_ptr x && (f_ty x =? 0)).
Proof.
  intros H G. unfold TYPE_SYMBOL. destruct (is_ptr x) eqn:P.
  - rewrite type_of_ptr by auto. assert (0 < 2 ^ (W - 6)) by (apply Z.pow_pos_nonneg; pose proof W_pos; lia).
    destruct (is_symbol x) eqn:S0; [apply is_symbol_not_ptr in S0; congruence|]. simpl. destruct (Z.eqb_spec (f_ty x) 0) as [->|]; [reflexivity|nia].
  - rewrite type_of_nonptr by auto. simpl. rewrite orb_false_r. unfold is_symbol. rewrite low_bits_f.
    rewrite is_ptr_f in P. unfold f_ptr, f_gc in *.
    replace VAL_TYPE_MASK with (Z.shiftl (Z.ones (VAL_SHIFT - 2)) 2) by (arch; reflexivity).
    rewrite land_field by (try lia; arch; lia). change (2 ^ 2) with 4.
    replace VAL_SHIFT with (2 + (VAL_SHIFT - 2)) at 2 by lia.
    rewrite Z.pow_add_r by (try lia; arch; lia). change (2 ^ 2) with 4.
    assert (0 < 2 ^ (VAL_SHIFT - 2)) by (apply Z.pow_pos_nonneg; arch; lia).
    rewrite Z.rem_mul_r by lia.
    assert (x mod 4 = 0) by (pose proof (Z.mod_pos_bound x 2); Z.div_mod_to_equations; lia). lia.
Qed.
End Arch.
