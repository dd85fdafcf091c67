(* The printer writes the text of Print_Spec. *)
From Verif Require Import Base Value_Model Heap_Model Stack_Model Sym_Model Chan_Model Eq_Model.
From Verif Require Import Value_Proofs Value_Proofs2 Value_Props Heap_Spec List_Proofs Heap_Proofs Stack_Props Eq_Spec Eq_Props Flat_Spec Flat_Proofs.
From Verif Require Import Print_Model Print_Spec.
From Coq Require Import String.
Import List.
Local Open Scope Z_scope.

(* ---- decimal numerals ---- *)
Lemma udec_length k : forall n, (length (udec k n) <= k)%nat.
Proof. induction k as [|k IH]; intros n; simpl; [lia|]. destruct (n <? 10); simpl; [lia|]. rewrite app_length. simpl. specialize (IH (n / 10)). lia. Qed.

Lemma udec_digits k : forall n, 0 <= n -> Forall (fun c => 48 <= c <= 57) (udec k n).
Proof.
  induction k as [|k IH]; intros n H; cbn [udec]; [constructor|]. destruct (Z.ltb_spec n 10).
  - constructor; [lia|constructor].
  - apply Forall_app. split; [apply IH, Z.div_pos; lia|]. pose proof (Z.mod_pos_bound n 10 ltac:(lia)). constructor; [lia|constructor].
Qed.

Lemma udec_value k : forall n, 0 <= n < 10 ^ Z.of_nat k -> fold_left (fun a c => a * 10 + (c - 48)) (udec k n) 0 = n.
Proof.
  induction k as [|k IH]; intros n H; cbn [udec]; [change (10 ^ Z.of_nat 0) with 1 in H; simpl; lia|].
  destruct (Z.ltb_spec n 10); [cbn [fold_left]; lia|]. rewrite fold_left_app, IH.
  - cbn [fold_left]. pose proof (Z.div_mod n 10). lia.
  - replace (Z.of_nat (S k)) with (1 + Z.of_nat k) in H by lia. rewrite Z.pow_add_r in H by lia.
    split; [apply Z.div_pos; lia|]. apply Z.div_lt_upper_bound; lia.
Qed.

Lemma udec_head k : forall n, 0 < n < 10 ^ Z.of_nat k -> exists c t, udec k n = c :: t /\ c <> 48.
Proof.
  induction k as [|k IH]; intros n H; [change (10 ^ Z.of_nat 0) with 1 in H; lia|]. cbn [udec].
  destruct (Z.ltb_spec n 10); [eexists _, _; split; [reflexivity|lia]|].
  destruct (IH (n / 10)) as (c&t&E&N).
  - replace (Z.of_nat (S k)) with (1 + Z.of_nat k) in H by lia. rewrite Z.pow_add_r in H by lia.
    split; [apply Z.div_str_pos; lia|]. apply Z.div_lt_upper_bound; lia.
  - rewrite E. eexists _, _. split; [reflexivity|auto].
Qed.

Lemma udec_decimal k n : 0 <= n < 10 ^ Z.of_nat k -> k <> 0%nat -> decimal n (udec k n).
Proof.
  intros H K. split; [|split; [apply udec_digits; lia|split; [apply udec_value; auto|]]].
  - destruct k; [congruence|]. simpl. destruct (n <? 10); [discriminate|]. destruct (udec k (n / 10)); discriminate.
  - intros t E. destruct (Z.eq_dec n 0) as [->|N].
    + destruct k; [congruence|]. simpl in E. injection E as <-. auto.
    + destruct (udec_head k n) as (c&u&E2&NE); [lia|]. rewrite E in E2. injection E2 as <- _. congruence.
Qed.

Lemma sdec_numeral n : - 10 ^ 20 < n < 10 ^ 20 -> numeral n (sdec 20 n).
Proof.
  intros H. unfold numeral, sdec. change (10 ^ 20) with (10 ^ Z.of_nat 20) in H. destruct (Z.ltb_spec n 0).
  - eexists. split; [reflexivity|]. apply udec_decimal; lia.
  - apply udec_decimal; lia.
Qed.
Lemma udec_numeral k n : 0 <= n < 10 ^ Z.of_nat k -> k <> 0%nat -> numeral n (udec k n).
Proof. intros H K. unfold numeral. destruct (Z.ltb_spec n 0); [lia|]. apply udec_decimal; auto. Qed.

Definition nonzero (s : list Z) : Prop := Forall (fun c => c <> 0) s.

Ltac nz := repeat (apply Forall_cons; [discriminate|]); apply Forall_nil.

Lemma numeral_nonzero n s : numeral n s -> nonzero s.
Proof.
  assert (D : forall n s, decimal n s -> nonzero s). { intros ? ? (_&F&_). eapply Forall_impl; [|exact F]. simpl. lia. }
  unfold numeral. destruct (n <? 0); intros H; [|eauto]. destruct H as (t&->&H). constructor; [discriminate|eapply D; eauto].
Qed.
Lemma numeral_nonempty n s : numeral n s -> s <> [].
Proof. unfold numeral. destruct (n <? 0); [intros (t&->&_); discriminate|intros (H&_); auto]. Qed.

(* ---- the channel ---- *)
(* the channel of a buffer of [len] bytes to which the text [w] was written *)
Definition chan_at (len : Z) (w : list Z) : schan :=
  mksc (buffer len w) len 0 (Z.of_nat (length (firstn (Z.to_nat (len - 1)) w))) false 1 1.
Definition fits (len : Z) (w : list Z) : bool := Z.of_nat (length w) <=? len - 1.

Section Chan.
Variable len : Z.
Hypothesis LEN : 1 <= len < 2 ^ 32.

Lemma buffer_length w : length (buffer len w) = Z.to_nat len.
Proof. unfold buffer. cbv zeta. rewrite app_length, repeat_length, firstn_length. lia. Qed.

Lemma write_ok w x : string_write (chan_at len w) x = Ok (chan_at len (w ++ [x]), if fits len (w ++ [x]) then SUCCESS else FULL).
Proof.
  unfold string_write, chan_at, fits. cbn [c_w c_len c_str c_r c_more c_row c_col]. rewrite wrap_small by lia. rewrite !app_length. simpl length.
  rewrite firstn_length. destruct (Z.ltb_spec (Z.of_nat (Nat.min (Z.to_nat (len - 1)) (length w))) (len - 1)).
  - assert (L : (length w < Z.to_nat (len - 1))%nat) by lia.
    destruct (Z.leb_spec (Z.of_nat (length w + 1)) (len - 1)); [|lia].
    assert (E1 : firstn (Z.to_nat (len - 1)) w = w) by (apply firstn_all2; lia).
    assert (E2 : firstn (Z.to_nat (len - 1)) (w ++ [x]) = w ++ [x]) by (apply firstn_all2; rewrite app_length; simpl; lia).
    rewrite E2, Nat.min_r by lia. unfold buffer. cbv zeta. rewrite E1, E2. rewrite !app_length. simpl length.
    replace (Z.to_nat len - length w)%nat with (S (Z.to_nat len - (length w + 1))) by lia. simpl repeat.
    rewrite wr_ok by (rewrite app_length; simpl; lia). cbn [bind]. rewrite Nat2Z.id, upd_mid. rewrite wrap_small by lia.
    rewrite <- app_assoc. simpl. repeat f_equal. lia.
  - assert (L : (Z.to_nat (len - 1) <= length w)%nat) by lia.
    destruct (Z.leb_spec (Z.of_nat (length w + 1)) (len - 1)); [lia|].
    assert (E : firstn (Z.to_nat (len - 1)) (w ++ [x]) = firstn (Z.to_nat (len - 1)) w).
    { rewrite firstn_app. replace (Z.to_nat (len - 1) - length w)%nat with 0%nat by lia. simpl firstn at 2. apply app_nil_r. }
    unfold buffer. cbv zeta. rewrite E, firstn_length. reflexivity.
Qed.

Lemma full_same w x : fits len w = false -> chan_at len (w ++ x) = chan_at len w.
Proof.
  unfold fits. intros H. apply Z.leb_gt in H. unfold chan_at, buffer. cbv zeta. rewrite firstn_app.
  replace (Z.to_nat (len - 1) - length w)%nat with 0%nat by lia. simpl firstn. rewrite app_nil_r. reflexivity.
Qed.
Lemma fits_app w x : fits len w = false -> fits len (w ++ x) = false.
Proof. unfold fits. rewrite app_length. lia. Qed.

Lemma emit_string_ok s : forall w, nonzero s -> s <> [] -> emit_string (chan_at len w) s = Ok (chan_at len (w ++ s), fits len (w ++ s)).
Proof.
  induction s as [|x s IH]; intros w N NE; [congruence|]. inversion N as [|? ? X N']; subst. cbn [emit_string].
  destruct (Z.eqb_spec x 0); [congruence|]. rewrite write_ok. cbn [bind].
  destruct (fits len (w ++ [x])) eqn:F.
  - destruct s as [|y s]; [simpl; rewrite F; reflexivity|]. rewrite IH by (auto; discriminate). rewrite <- app_assoc. reflexivity.
  - change (x :: s) with ([x] ++ s). rewrite app_assoc, (full_same (w ++ [x]) s F), (fits_app (w ++ [x]) s F). reflexivity.
Qed.

Lemma emit_char_ok w x : emit_char (chan_at len w) x = Ok (chan_at len (w ++ [x]), fits len (w ++ [x])).
Proof. unfold emit_char. rewrite write_ok. cbn [bind]. destruct (fits len (w ++ [x])); reflexivity. Qed.

Lemma esc_ok w x : x <> 0 -> emit_escape (chan_at len w) x = Ok (chan_at len (w ++ esc x), fits len (w ++ esc x)).
Proof.
  intros X. unfold emit_escape, esc. destruct (Z.eqb_spec x 34); [apply emit_string_ok; [nz|discriminate]|].
  destruct (Z.eqb_spec x 92) as [->|]; [apply emit_string_ok; [nz|discriminate]|].
  destruct (Z.eqb_spec x 10); [apply emit_string_ok; [nz|discriminate]|].
  destruct (Z.eqb_spec x 13); [apply emit_string_ok; [nz|discriminate]|].
  destruct (Z.eqb_spec x 9); [apply emit_string_ok; [nz|discriminate]|]. apply emit_char_ok.
Qed.

Lemma string_value_ok s post : forall w, nonzero s -> s <> [] ->
  emit_string_value (chan_at len w) (s ++ 0 :: post) = Ok (chan_at len (w ++ flat_map esc s), fits len (w ++ flat_map esc s)).
Proof.
  induction s as [|x s IH]; intros w N NE; [congruence|]. inversion N as [|? ? X N']; subst. cbn [emit_string_value app flat_map].
  destruct (Z.eqb_spec x 0); [congruence|]. rewrite esc_ok by auto. cbn [bind]. rewrite !app_assoc.
  destruct (fits len (w ++ esc x)) eqn:F.
  - destruct s as [|y s]; [simpl; rewrite app_nil_r, F; reflexivity|]. rewrite IH by (auto; discriminate). reflexivity.
  - rewrite (full_same _ (flat_map esc s) F), (fits_app _ (flat_map esc s) F). reflexivity.
Qed.

Lemma emit_num_ok w s u : nonzero s -> nonzero u -> s <> [] -> (length (s ++ u) <= 29)%nat ->
  emit_num (chan_at len w) s u = Ok (chan_at len (w ++ s ++ u), fits len (w ++ s ++ u)).
Proof.
  intros N U NE L. unfold emit_num, snprintf. rewrite firstn_all2 by auto. apply emit_string_ok.
  - apply Forall_app; auto.
  - destruct s; [congruence|discriminate].
Qed.

(* the bytes of an array: the failures of the middle are kept to the end *)
Lemma bytes_numerals bs : Forall (fun b => 0 <= b < 256) bs -> Forall2 numeral bs (map (udec 3) bs).
Proof. induction 1; cbn [map]; constructor; auto. apply udec_numeral; simpl; lia. Qed.

Lemma emit_bytes_ok bs : forall w r, Forall (fun b => 0 <= b < 256) bs -> (bs <> [] \/ r = fits len w) ->
  emit_bytes (chan_at len w) bs r = Ok (chan_at len (w ++ spaced (map (udec 3) bs)), fits len (w ++ spaced (map (udec 3) bs))).
Proof.
  induction bs as [|x bs IH]; intros w r F R.
  - simpl. rewrite app_nil_r. destruct R as [R| ->]; [congruence|reflexivity].
  - inversion F as [|? ? X F']; subst. cbn [emit_bytes].
    assert (NX : numeral x (udec 3 x)) by (apply udec_numeral; simpl; lia).
    rewrite emit_num_ok; [|eapply numeral_nonzero; eauto|constructor|eapply numeral_nonempty; eauto|rewrite app_nil_r; pose proof (udec_length 3 x); lia].
    cbn [bind]. rewrite app_nil_r. destruct bs as [|y bs].
    + rewrite Bool.andb_comm. reflexivity.
    + simpl Nat.eqb. rewrite Bool.andb_true_r. cbn [map]. change (spaced (udec 3 x :: udec 3 y :: map (udec 3) bs)) with (udec 3 x ++ codes " " ++ spaced (map (udec 3) (y :: bs))).
      destruct (fits len (w ++ udec 3 x)) eqn:E.
      * rewrite emit_char_ok. cbn [bind]. rewrite (IH ((w ++ udec 3 x) ++ [32])) by auto. rewrite <- !app_assoc. reflexivity.
      * rewrite (IH (w ++ udec 3 x)) by (auto; left; discriminate). rewrite (app_assoc w), !(full_same (w ++ udec 3 x) _ E), !(fits_app (w ++ udec 3 x) _ E). reflexivity.
Qed.

Lemma array_data_ok w bs : Forall (fun b => 0 <= b < 256) bs -> let s := codes "[" ++ spaced (map (udec 3) bs) ++ codes "]" in
  emit_array_data (chan_at len w) bs = Ok (chan_at len (w ++ s), fits len (w ++ s)).
Proof.
  intros F s. subst s. unfold emit_array_data. rewrite emit_char_ok. cbn [bind].
  pose proof (emit_bytes_ok bs (w ++ [91]) (fits len (w ++ [91])) F) as E2. specialize (E2 (or_intror eq_refl)). set (ss := map (udec 3) bs) in *.
  change (codes "[") with [91]. change (codes "]") with [93]. rewrite !app_assoc.
  destruct (fits len (w ++ [91])) eqn:E.
  - rewrite E2. cbn [bind]. destruct (fits len ((w ++ [91]) ++ spaced ss)) eqn:E3.
    + rewrite emit_char_ok. reflexivity.
    + rewrite (full_same _ [93] E3), (fits_app _ [93] E3). reflexivity.
  - rewrite <- (app_assoc (w ++ [91])). rewrite (full_same _ (spaced ss ++ [93]) E), (fits_app _ (spaced ss ++ [93]) E). reflexivity.
Qed.

(* ---- printable strings ---- *)
Lemma printable_visible x : printable x = true <-> visible x.
Proof. unfold printable, visible. lia. Qed.

Lemma scan_ok bs : forall i, let '(j, b) := scan bs i in
  (exists s, Forall visible s /\ nonzero s /\ j = i + Z.of_nat (length s) /\
    ((b = true /\ bs = s) \/ (b = true /\ exists t, bs = s ++ 0 :: t) \/ (b = false /\ exists x t, x <> 0 /\ ~ visible x /\ bs = s ++ x :: t))).
Proof.
  induction bs as [|x bs IH]; intros i; simpl.
  - exists []. split; [constructor|]. split; [constructor|]. split; [simpl; lia|]. auto.
  - destruct (Z.eqb_spec x 0) as [->|NZ]; [exists []; split; [constructor|]; split; [constructor|]; split; [simpl; lia|]; right; left; split; [auto|exists bs; reflexivity]|].
    destruct (printable x) eqn:P.
    + specialize (IH (i + 1)). destruct (scan bs (i + 1)) as (j&b). destruct IH as (s&V&N&J&C). exists (x :: s).
      apply printable_visible in P. split; [constructor; auto|]. split; [constructor; auto|]. split; [simpl; lia|].
      destruct C as [(->&->)|[(->&t&->)|(->&y&t&Y&VY&->)]]; [left|right; left|right; right]; simpl; eauto 10.
    + exists []. split; [constructor|]. split; [constructor|]. split; [simpl; lia|]. right. right. split; auto. exists x, bs. repeat split; auto.
      intros V. apply printable_visible in V. congruence.
Qed.

Lemma stringy_split s x t : nonzero s -> stringy (s ++ x :: t) -> x = 0 \/ visible x.
Proof.
  intros N (u&_&V&E). revert u V E. induction N as [|y s Y N IH]; intros u V E.
  - destruct u as [|z u]; simpl in E; injection E; intros; subst; auto. inversion V; auto.
  - destruct u as [|z u]; simpl in E; injection E as -> E; [destruct s; discriminate|]. inversion V; subst. eauto.
Qed.
Lemma stringy_end s t : nonzero s -> stringy (s ++ 0 :: t) -> t = [].
Proof.
  intros N (u&_&V&E). revert u V E. induction N as [|y s Y N IH]; intros u V E.
  - destruct u as [|z u]; simpl in E; injection E; intros; subst; auto. inversion V as [|? ? Z0]; subst. unfold visible in Z0. lia.
  - destruct u as [|z u]; simpl in E; injection E as -> E; [destruct s; discriminate|]. inversion V; subst. eauto.
Qed.
Lemma stringy_zero s : nonzero s -> ~ stringy s.
Proof. intros N (u&_&V&->). apply Forall_app in N. destruct N as [_ N]. inversion N; congruence. Qed.

Lemma printable_string_ok bs : (exists b t, bs = b :: t /\ (visible b \/ t = [])) ->
  exists b, is_printable_string bs = Ok b /\ (b = true <-> stringy bs).
Proof.
  intros (x&t&E&X). unfold is_printable_string. rewrite E. destruct (Z.eqb_spec x 0) as [->|X0].
  - destruct X as [X| ->]; [unfold visible in X; lia|]. exists false. split; [reflexivity|]. split; [discriminate|].
    intros (s&NE&_&E2). destruct s as [|? [|]]; [congruence|discriminate|discriminate].
  - rewrite <- E. pose proof (scan_ok bs 0) as S. destruct (scan bs 0) as (j&b). destruct S as (s&V&N&J&C). rewrite Z.add_0_l in J. subst j.
    destruct C as [(->&B)|[(->&u&B)|(->&y&u&Y&VY&B)]].
    + rewrite <- B in *. destruct (Z.eqb_spec (Z.of_nat (length bs)) (Z.of_nat (length bs) - 1)); [lia|].
      destruct (exists_last (l := bs)) as (i&z&Z1); [rewrite E; discriminate|]. exists false. split.
      * rewrite (rd_nth _ _ z); [|rewrite E; cbn [length]; lia|rewrite Z1, app_length; simpl length; replace (Z.to_nat _) with (length i) by lia; rewrite nth_error_app2, Nat.sub_diag by lia; reflexivity].
        cbn [bind]. destruct (Z.eqb_spec z 0) as [->|]; auto. rewrite Z1 in N. apply Forall_app in N. destruct N as [_ N]. inversion N; congruence.
      * split; [discriminate|]. intros SB. exfalso. eapply stringy_zero; eauto.
    + destruct (Z.eqb_spec (Z.of_nat (length s)) (Z.of_nat (length bs) - 1)) as [EL|NL].
      * assert (u = []) as -> by (rewrite B, app_length in EL; simpl in EL; destruct u; auto; simpl in EL; lia).
        exists true. split; auto. split; auto. intros _. exists s. repeat split; auto. intros ->. simpl in B. rewrite B in E. injection E. congruence.
      * destruct (exists_last (l := s)) as (i&z&Z1); [intros ->; simpl in B; rewrite B in E; injection E; congruence|]. exists false. split.
        -- rewrite (rd_nth _ _ z); [|subst; rewrite app_length; cbn [length]; lia|].
           ++ cbn [bind]. destruct (Z.eqb_spec z 0) as [->|]; auto. rewrite Z1 in N. apply Forall_app in N. destruct N as [_ N]. inversion N; congruence.
           ++ rewrite B, Z1, app_length. simpl length. replace (Z.to_nat _) with (length i) by lia. rewrite <- app_assoc, nth_error_app2, Nat.sub_diag by lia. reflexivity.
        -- split; [discriminate|]. intros SB. rewrite B in SB. apply stringy_end in SB; auto. subst u. rewrite B, app_length in NL. simpl in NL. lia.
    + exists false. split.
      * destruct (Z.eqb_spec (Z.of_nat (length s)) (Z.of_nat (length bs) - 1)) as [EL|NL]; [auto|].
        destruct (exists_last (l := s)) as (i&z&Z1).
        { intros ->. simpl in B. rewrite B in E. injection E as -> ->. destruct X as [X| ->]; [auto|]. subst bs. simpl in NL. lia. }
        rewrite (rd_nth _ _ z); [|subst; rewrite app_length; cbn [length]; lia|].
        -- cbn [bind]. destruct (Z.eqb_spec z 0) as [->|]; auto.
        -- rewrite B, Z1, app_length. simpl length. replace (Z.to_nat _) with (length i) by lia. rewrite <- app_assoc, nth_error_app2, Nat.sub_diag by lia. reflexivity.
      * split; [discriminate|]. intros SB. rewrite B in SB. apply stringy_split in SB; auto. destruct SB; [congruence|contradiction].
Qed.

End Chan.

Section Arch.
Context {A : Arch} {F : Fmt}.

(* ---- types ---- *)
Lemma print_type_functional v : print_type v = type_of_functional v.
Proof. unfold print_type. destruct (is_ptr v) eqn:P; [symmetry; apply functional_ptr; auto|symmetry; apply functional_nonptr; auto]. Qed.

Lemma cons_bits : forallb (fun k => let T := k * 2 ^ (W - 6) in
  implb (Z.land T (wnot PTR_TO_CONSTANT_BIT) =? TYPE_CONS) ((T =? TYPE_CONS) || (T =? Z.lor TYPE_CONS PTR_TO_CONSTANT_BIT)))
  (map Z.of_nat (seq 0 64)) = true.
Proof. destruct A; vm_compute; reflexivity. Qed.

Lemma cons_typed_iff v : cons_typed v = true <-> is_ptr v = true /\ type_of_functional v = TYPE_CONS.
Proof.
  destruct (is_ptr v) eqn:P.
  - rewrite functional_ptr by auto. unfold cons_typed. split.
    + intros H. split; auto. apply orb_true_iff in H. destruct H as [H|H]; apply Z.eqb_eq in H; rewrite H; arch; reflexivity.
    + intros [_ H].
      assert (E : exists k, 0 <= k < 64 /\ type_of v = k * 2 ^ (W - 6)).
      { unfold type_of. unfold is_ptr in P. destruct (Z.land v PTR_BIT =? 0); [discriminate|].
        exists (v / 2 ^ (W - 6) mod 2 ^ 6). split; [apply Z.mod_pos_bound; lia|].
        rewrite <- land_field by (arch; lia). arch; reflexivity. }
      destruct E as (k&R&E). rewrite E in *. pose proof cons_bits as C. rewrite forallb_forall in C.
      specialize (C k). cbv zeta in C. rewrite H, Z.eqb_refl in C. cbn [implb] in C. apply C.
      apply in_map_iff. exists (Z.to_nat k). split; [lia|]. apply in_seq. lia.
  - split; [|intros [? _]; discriminate]. intros H. exfalso. unfold cons_typed in H.
    pose proof (val_type_mask_small v) as S. rewrite (type_of_nonptr _ P) in H. apply orb_true_iff in H.
    destruct H as [H|H]; apply Z.eqb_eq in H; rewrite H in S; clear -S; revert S; destruct A; vm_compute; intros [_ S]; discriminate.
Qed.

Lemma nil_typed_iff fl h v t : den fl h v t -> (type_of v =? TYPE_SYMBOL) && (v =? NIL) = true <-> t = Leaf KSym 0.
Proof.
  intros D. split.
  - intros H. apply andb_true_iff in H. destruct H as [_ H]. apply Z.eqb_eq in H. subst v.
    assert (NP : is_ptr NIL = false) by (clear; arch; reflexivity).
    assert (T0 : type_of_functional NIL = TYPE_SYMBOL) by (clear; arch; reflexivity).
    inversion D as [v0 k n Hd Sy T Rd|? ? ? ? ? P|? ? ? ? ? P|? ? ? ? ? ? ? ? P]; subst; try congruence.
    destruct k; try (exfalso; rewrite T0 in T; revert T; clear; arch; discriminate).
    cbn [reads] in Rd. subst n. f_equal. clear. arch; reflexivity.
  - intros ->. inversion D as [v0 k n Hd Sy T Rd| | |]; subst. specialize (Sy eq_refl). cbn [reads] in Rd.
    assert (V : v = NIL).
    { transitivity 0; [|clear; arch; reflexivity]. clear -Sy Rd. revert Sy Rd. unfold is_symbol, dec_sym. intros Sy Rd. apply Z.eqb_eq in Sy. symmetry in Rd.
      assert (E : LOW_RESERVED_BITS = Z.ones VAL_SHIFT) by (arch; reflexivity). rewrite E, Z.land_ones in Sy by (arch; lia).
      rewrite Z.shiftr_div_pow2 in Rd by (arch; lia). pose proof (Z.div_mod v (2 ^ VAL_SHIFT)) as DM. rewrite Sy, Rd in DM.
      rewrite DM by (arch; lia). lia. }
    subst v. clear. arch; reflexivity.
Qed.

(* ---- the stack ---- *)
Variable cap : nat.
Hypothesis CAP : Z.of_nat cap < 2 ^ 31.

Lemma push_n_ok st l rest vs : rep cap st l rest -> (length l + length vs < cap)%nat ->
  exists st' rest', push_n st vs = Ok (st', true) /\ rep cap st' (rev vs ++ l) rest'.
Proof.
  intros [D SP Z1 P] L. unfold push_n. rewrite SP, Z1.
  destruct (Z.ltb_spec (Z.of_nat (length l) + Z.of_nat (length vs)) (Z.of_nat cap)); [|lia].
  rewrite D, <- (firstn_skipn (length vs) rest), store_ok.
  - cbn [bind]. eexists _, (skipn (length vs) rest). split; [reflexivity|].
    constructor; cbn [s_data s_sp s_size]; auto.
    + rewrite rev_app_distr, rev_involutive, <- app_assoc. reflexivity.
    + rewrite app_length, rev_length. lia.
    + rewrite app_length, rev_length, skipn_length. lia.
  - rewrite rev_length. reflexivity.
  - rewrite firstn_length. lia.
Qed.

Lemma push_ok st l rest v : rep cap st l rest -> (length l < cap)%nat ->
  exists st' rest', push st v = Ok (st', true) /\ rep cap st' (v :: l) rest'.
Proof.
  intros R L. destruct (run1_ok cap st l rest (OPush v) (v :: l) (Flag true) CAP R I) as (s'&rest'&E&R').
  - cbn [spec]. destruct (Nat.ltb_spec (length l) cap); [auto|lia].
  - cbn [run1] in E. destruct (push st v) as [[s b]| |]; try discriminate. cbn [bind] in E. injection E as <- ->. eauto.
Qed.

Lemma pop_ok st a l rest : rep cap st (a :: l) rest -> exists st' rest', pop st = Ok (st', a) /\ rep cap st' l rest'.
Proof.
  intros R. unfold pop. cbv zeta. destruct (rep_pop cap st a l rest CAP R) as (E&E1&R1). rewrite E1. cbn [bind]. eauto.
Qed.

Lemma pop_2_ok st a b l rest : rep cap st (a :: b :: l) rest -> exists st' rest', pop_2 st = Ok (st', (a, b)) /\ rep cap st' l rest'.
Proof.
  intros R. unfold pop_2. cbv zeta. destruct (rep_pop cap st a (b :: l) rest CAP R) as (E&E1&R1). rewrite E1. cbn [bind].
  destruct (rep_pop cap _ b l _ CAP R1) as (E2&E3&R2). cbn [s_data s_sp s_size] in E2, E3, R2. rewrite E3. cbn [bind]. eauto.
Qed.

(* ---- the loop ---- *)
Variable len : Z.
Hypothesis LEN : 1 <= len < 2 ^ 32.
Variable h : heap.
Variable sy : syms.

(* From the text [w] and the stack [l] the loop gets to the text [w'] and the
   stack [l'], with r telling whether [w'] fits; or it does not fit and the
   function returns that. *)
Definition goes (w l w' l' : list Z) : Prop :=
  (exists x, w' = w ++ x) /\
  forall st rest r, rep cap st l rest -> exists n,
    (exists st' rest', rep cap st' l' rest' /\
      forall fuel, print_loop (n + fuel) h sy (chan_at len w) st r = print_loop fuel h sy (chan_at len w') st' (fits len w')) \/
    (fits len w' = false /\ forall fuel, print_loop (n + fuel) h sy (chan_at len w) st r = Ok (chan_at len w', false)).

Lemma goes_trans w l w1 l1 w2 l2 : goes w l w1 l1 -> goes w1 l1 w2 l2 -> goes w l w2 l2.
Proof.
  intros ((x&->)&G1) ((y&->)&G2). split; [exists (x ++ y); rewrite app_assoc; auto|]. intros st rest r R.
  destruct (G1 st rest r R) as (n&[(st1&rest1&R1&E1)|(NF&E1)]).
  - destruct (G2 st1 rest1 (fits len (w ++ x)) R1) as (m&[(st2&rest2&R2&E2)|(NF&E2)]); exists (n + m)%nat.
    + left. exists st2, rest2. split; auto. intros fuel. rewrite <- Nat.add_assoc, E1. apply E2.
    + right. split; auto. intros fuel. rewrite <- Nat.add_assoc, E1. apply E2.
  - exists n. right. split; [apply fits_app; auto|]. intros fuel. rewrite E1, (full_same _ LEN _ y NF). reflexivity.
Qed.

Lemma loop_step fuel c st l rest r : rep cap st l rest -> l <> [] ->
  print_loop (S fuel) h sy c st r = let! s := print_step h sy c st r in
    match s with PGo c st r => print_loop fuel h sy c st r | PRet c r => Ok (c, r) end.
Proof.
  clear CAP LEN. intros [D SP Z1 P] NE. cbn [print_loop]. rewrite SP. destruct (Z.eqb_spec (Z.of_nat (length l)) 0); [destruct l; [congruence|simpl in *; lia]|]. reflexivity.
Qed.

(* a turn that writes *)
Lemma goes_step w x l l' : l <> [] ->
  (forall st rest r, rep cap st l rest -> exists st' rest', rep cap st' l' rest' /\
    (print_step h sy (chan_at len w) st r = Ok (PGo (chan_at len (w ++ x)) st' (fits len (w ++ x))) \/
     fits len (w ++ x) = false /\ print_step h sy (chan_at len w) st r = Ok (PRet (chan_at len (w ++ x)) false))) ->
  goes w l (w ++ x) l'.
Proof.
  intros NE S. split; [eauto|]. intros st rest r R. exists 1%nat. destruct (S st rest r R) as (st'&rest'&R'&[E|(NF&E)]).
  - left. exists st', rest'. split; auto. intros fuel. cbn [Nat.add]. rewrite (loop_step _ _ _ l rest), E by auto. reflexivity.
  - right. split; auto. intros fuel. cbn [Nat.add]. rewrite (loop_step _ _ _ l rest), E by auto. reflexivity.
Qed.

(* a turn that does not *)
Lemma goes_silent w l l1 w2 l2 : l <> [] ->
  (forall st rest r, rep cap st l rest -> exists st' rest', rep cap st' l1 rest' /\
    print_step h sy (chan_at len w) st r = Ok (PGo (chan_at len w) st' r)) ->
  goes w l1 w2 l2 -> goes w l w2 l2.
Proof.
  intros NE S (X&G). split; auto. intros st rest r R. destruct (S st rest r R) as (st'&rest'&R'&E).
  destruct (G st' rest' r R') as (n&[(st2&rest2&R2&E2)|(NF&E2)]); exists (1 + n)%nat.
  - left. exists st2, rest2. split; auto. intros fuel. cbn [Nat.add]. rewrite (loop_step _ _ _ l rest), E by auto. apply E2.
  - right. split; auto. intros fuel. cbn [Nat.add]. rewrite (loop_step _ _ _ l rest), E by auto. apply E2.
Qed.

Ltac pop1 R := let st := fresh "st" in let rest := fresh "rest" in let R' := fresh "R" in let E := fresh "E" in
  destruct (pop_ok _ _ _ _ R) as (st&rest&E&R'); rewrite E; cbn [bind]; clear E; rename R' into R.

Lemma end_list w l : goes w (END_LIST :: l) (w ++ codes ")") l.
Proof.
  apply goes_step; [discriminate|]. intros st rest r R. unfold print_step. destruct (pop_ok _ _ _ _ R) as (st1&rest1&E1&R1). rewrite E1. cbn [bind].
  simpl (_ =? _). cbv iota. rewrite emit_char_ok by auto. cbn [bind]. unfold emitted_ok. cbn [fst snd]. change (codes ")") with [41].
  exists st1, rest1. split; auto. destruct (fits len (w ++ [41])); [left|right]; auto.
Qed.
Lemma end_array w l : goes w (END_ARRAY :: l) (w ++ codes "]") l.
Proof.
  apply goes_step; [discriminate|]. intros st rest r R. unfold print_step. destruct (pop_ok _ _ _ _ R) as (st1&rest1&E1&R1). rewrite E1. cbn [bind].
  simpl (_ =? _). cbv iota. rewrite emit_char_ok by auto. cbn [bind]. unfold emitted. cbn [fst snd]. change (codes "]") with [93].
  exists st1, rest1. split; auto.
Qed.
Lemma print_dot w l : goes w (PRINT_DOT :: l) (w ++ codes " . ") l.
Proof.
  apply goes_step; [discriminate|]. intros st rest r R. unfold print_step. destruct (pop_ok _ _ _ _ R) as (st1&rest1&E1&R1). rewrite E1. cbn [bind].
  simpl (_ =? _). cbv iota. rewrite emit_string_ok by (auto; (nz || discriminate)). cbn [bind]. unfold emitted_ok. cbn [fst snd]. change (codes " . ") with [32; 46; 32].
  exists st1, rest1. split; auto. destruct (fits len (w ++ [32; 46; 32])); [left|right]; auto.
Qed.

Ltac tagdec := repeat match goal with
  | |- context [?a =? ?b] =>
    first [replace (a =? b) with false by (clear; destruct A; reflexivity)
          |replace (a =? b) with true by (clear; destruct A; reflexivity)]
  end; cbv iota; cbn [orb].

(* ---- atoms ---- *)
Variable nm : Z -> name.
Definition named (n : Z) : Prop := get_name_by_symbol sy n = Ok (Some (nm n)) /\ nm n <> [] /\ nonzero (nm n).
Notation ptree := (printable_tree named fmt_float fmt_double).
Notation shown := (shows nm fmt_float fmt_double).
Notation shown_rest := (shows_rest nm fmt_float fmt_double).

Definition writes (v : Z) (s : list Z) : Prop := forall w st r,
  print_value_step h sy (chan_at len w) st r v = Ok (PGo (chan_at len (w ++ s)) st (fits len (w ++ s))).

Lemma payload_bound : payload A <= 56. Proof. arch; reflexivity || (cbv; discriminate). Qed.

Lemma leaf_ok fl v k n : den fl h v (Leaf k n) -> ptree (Leaf k n) -> exists s, shown (Leaf k n) s /\ s <> [] /\ writes v s.
Proof.
  intros D PT. inversion PT as [k0 n0 R NS NF ND| | |]; subst. inversion D as [v0 k0 m Hd Sy T Rd| | |]; subst. clear D PT Hd.
  assert (NUM : forall k s u, numeral n s -> (length s <= 25)%nat -> k <> KSym -> k <> KFloat -> k <> KDouble -> u = suffix k ->
    shown (Leaf k n) (s ++ u) /\ s ++ u <> [] /\ forall w, emit_num (chan_at len w) s u = Ok (chan_at len (w ++ s ++ u), fits len (w ++ s ++ u))).
  { intros k' s u N L K1 K2 K3 ->. split; [constructor; auto|]. pose proof (numeral_nonempty _ _ N) as NE. split; [destruct s; [congruence|discriminate]|].
    intros w. apply emit_num_ok; auto; [eapply numeral_nonzero; eauto|destruct k'; simpl; nz|]. rewrite app_length. destruct k'; simpl; lia. }
  assert (RG : - 10 ^ 20 < n < 10 ^ 20 \/ k = KSym).
  { pose proof payload_bound as PB. assert (0 <= payload A) by (clear; arch; discriminate).
    assert (2 ^ payload A <= 2 ^ 56) by (apply Z.pow_le_mono_r; lia). assert (2 ^ (payload A - 1) <= 2 ^ 56) by (apply Z.pow_le_mono_r; lia).
    destruct k; cbn [in_range] in R; auto; left; lia. }
  assert (LS : forall x, (length (sdec 20 x) <= 25)%nat).
  { intros x. unfold sdec. destruct (x <? 0); [cbn [length]|]; pose proof (udec_length 20 (- x)); pose proof (udec_length 20 x); lia. }
  assert (LU : forall x, (length (udec 20 x) <= 25)%nat) by (intros x; pose proof (udec_length 20 x); lia).
  assert (NU : 0 <= n -> k <> KSym -> numeral n (udec 20 n)).
  { intros N0 K. apply udec_numeral; [|discriminate]. change (10 ^ Z.of_nat 20) with (10 ^ 20). destruct RG; [lia|congruence]. }
  assert (NSd : k <> KSym -> numeral n (sdec 20 n)) by (intros K; apply sdec_numeral; destruct RG; [lia|congruence]).
  unfold writes, print_value_step. rewrite print_type_functional, T. clear T. cbv zeta.
  destruct k; cbn [reads in_range] in Rd, R; cbv [kind_tag]; tagdec.
  - subst n. destruct (NS eq_refl) as (E&NE&NZ). exists (nm (dec_sym v)). split; [constructor|]. split; auto.
    intros w st r. unfold emit_symbol. rewrite E. cbn [bind]. rewrite emit_string_ok by auto. reflexivity.
  - subst n. destruct (NUM KChar (udec 20 (dec_char v)) [98]) as (S1&S2&S3); auto; try discriminate; [apply NU; [lia|discriminate]|].
    exists (udec 20 (dec_char v) ++ [98]). split; [auto|]. split; [auto|]. intros w st r. rewrite S3. reflexivity.
  - subst n. destruct (NUM KI (sdec 20 (dec_i v)) []) as (S1&S2&S3); auto; try discriminate; [apply NSd; discriminate|].
    exists (sdec 20 (dec_i v) ++ []). split; [auto|]. split; [auto|]. intros w st r. unfold emit_i.
    replace (snprintf (sdec 20 (dec_i v))) with (snprintf (sdec 20 (dec_i v) ++ [])) by (rewrite app_nil_r; reflexivity).
    specialize (S3 w). unfold emit_num in S3. rewrite S3. reflexivity.
  - subst n. destruct (NUM KU (udec 20 (dec_u v)) [117]) as (S1&S2&S3); auto; try discriminate; [apply NU; [lia|discriminate]|].
    exists (udec 20 (dec_u v) ++ [117]). split; [auto|]. split; [auto|]. intros w st r. rewrite S3. reflexivity.
  - destruct Rd as (x&E&EN). rewrite E. cbn [bind]. rewrite <- EN. destruct (NUM KI32 (sdec 20 n) [105; 51; 50]) as (S1&S2&S3); auto; try discriminate; [apply NSd; discriminate|].
    eexists. split; [exact S1|]. split; [auto|]. intros w st r. rewrite S3. reflexivity.
  - destruct Rd as (x&E&EN). rewrite E. cbn [bind]. rewrite <- EN. destruct (NUM KU32 (udec 20 n) [117; 51; 50]) as (S1&S2&S3); auto; try discriminate; [apply NU; [lia|discriminate]|].
    eexists. split; [exact S1|]. split; [auto|]. intros w st r. rewrite S3. reflexivity.
  - destruct Rd as (x&E&EN). rewrite E. cbn [bind]. rewrite <- EN. destruct (NUM KI64 (sdec 20 n) [105; 54; 52]) as (S1&S2&S3); auto; try discriminate; [apply NSd; discriminate|].
    eexists. split; [exact S1|]. split; [auto|]. intros w st r. rewrite S3. reflexivity.
  - destruct Rd as (x&E&EN). rewrite E. cbn [bind]. rewrite <- EN. destruct (NUM KU64 (udec 20 n) [117; 54; 52]) as (S1&S2&S3); auto; try discriminate; [apply NU; [lia|discriminate]|].
    eexists. split; [exact S1|]. split; [auto|]. intros w st r. rewrite S3. reflexivity.
  - destruct Rd as [E _]. rewrite E. cbn [bind]. destruct (NF eq_refl) as (L&NZ). eexists. split; [apply sh_float|]. split; [destruct (fmt_float n); discriminate|].
    intros w st r. unfold emit_num, snprintf. rewrite firstn_all2 by (rewrite app_length; simpl; lia).
    change [102; 51; 50] with (suffix KFloat). rewrite emit_string_ok; [reflexivity|exact LEN|apply Forall_app; split; [auto|nz]|destruct (fmt_float n); discriminate].
  - destruct Rd as [E _]. rewrite E. cbn [bind]. destruct (ND eq_refl) as (L&NZ). eexists. split; [apply sh_double|]. split; [destruct (fmt_double n); discriminate|].
    intros w st r. unfold emit_num, snprintf. rewrite firstn_all2 by (rewrite app_length; simpl; lia).
    change [102; 54; 52] with (suffix KDouble). rewrite emit_string_ok; [reflexivity|exact LEN|apply Forall_app; split; [auto|nz]|destruct (fmt_double n); discriminate].
Qed.

Hypothesis NN : no_null h.

Lemma visible_nonzero s : Forall visible s -> nonzero s.
Proof. intros V. eapply Forall_impl; [|exact V]. unfold visible. cbn beta. lia. Qed.

Lemma esc_nonempty c s : flat_map esc (c :: s) <> [].
Proof. cbn [flat_map]. unfold esc. repeat (destruct (_ =? _); [discriminate|]). discriminate. Qed.

Lemma bytes_ok fl v bs : den fl h v (Bytes bs) -> ptree (Bytes bs) -> exists s, shown (Bytes bs) s /\ s <> [] /\ writes v s.
Proof.
  intros D PT. inversion PT as [| |bs0 FB PB|]; subst. inversion D as [| |v0 p q bs0 x P Hd T Rc M|]; subst.
  unfold writes, print_value_step. rewrite print_type_functional, T. clear T. cbv zeta. tagdec.
  unfold emit_bytearray. rewrite (car_ptr _ _ _ _ P Rc). cbn [bind]. unfold is_symbol_nil.
  destruct (Z.eqb_spec p 0) as [->|_]; [unfold no_null in NN; congruence|]. rewrite M.
  destruct (printable_string_ok bs PB) as (b&E&BI). rewrite E. cbn [bind]. destruct b.
  - destruct BI as [BI _]. destruct (BI eq_refl) as (s&NE&V&->). exists (codes """" ++ flat_map esc s ++ codes """").
    split; [constructor; auto|]. split; [discriminate|]. intros w st r. rewrite emit_char_ok by auto. cbn [bind].
    change (codes """") with [34]. rewrite !app_assoc. destruct (fits len (w ++ [34])) eqn:E1.
    + rewrite string_value_ok by (auto using visible_nonzero). cbn [bind]. destruct (fits len ((w ++ [34]) ++ flat_map esc s)) eqn:E2.
      * rewrite emit_char_ok by auto. reflexivity.
      * rewrite (full_same _ LEN _ [34] E2), (fits_app _ _ [34] E2). reflexivity.
    + rewrite <- (app_assoc (w ++ [34])). rewrite (full_same _ LEN _ (flat_map esc s ++ [34]) E1), (fits_app _ _ (flat_map esc s ++ [34]) E1). reflexivity.
  - assert (NS : ~ stringy bs) by (intros S; apply BI in S; discriminate).
    exists (codes "[" ++ spaced (map (udec 3) bs) ++ codes "]"). split; [apply sh_bytes; auto using bytes_numerals|]. split; [discriminate|].
    intros w st r. rewrite array_data_ok by auto. reflexivity.
Qed.

Lemma kind_eq_sym k n : (k = KSym /\ n = 0) \/ Leaf k n <> Leaf KSym 0.
Proof. destruct k; try (right; discriminate). destruct (Z.eq_dec n 0); [auto|right; congruence]. Qed.

(* ---- lists and arrays ---- *)
(* the stack frame of what is left of a list after its first element *)
Definition rest_frame (d : Z) : list Z :=
  if cons_typed d then [CONTINUE_LIST; d]
  else if (type_of d =? TYPE_SYMBOL) && (d =? NIL) then [END_LIST] else [PRINT_DOT; PRINT; d; END_LIST].

Lemma push_rest_ok st l rest a d : rep cap st l rest -> (length l + 6 < cap)%nat ->
  exists st' rest', push_rest st a d = Ok (st', true) /\ rep cap st' (PRINT :: a :: rest_frame d ++ l) rest'.
Proof.
  intros R L. unfold push_rest, rest_frame. destruct (cons_typed d).
  - destruct (push_n_ok st l rest [d; CONTINUE_LIST] R) as (s1&r1&E&R1); [simpl; lia|]. rewrite E. cbn [bind].
    destruct (push_n_ok s1 _ r1 [a; PRINT] R1) as (s2&r2&E2&R2); [simpl; lia|]. rewrite E2. eauto.
  - destruct (_ && _).
    + destruct (push_ok st l rest END_LIST R) as (s1&r1&E&R1); [simpl; lia|]. rewrite E. cbn [bind].
      destruct (push_n_ok s1 _ r1 [a; PRINT] R1) as (s2&r2&E2&R2); [simpl; lia|]. rewrite E2. eauto.
    + destruct (push_n_ok st l rest [END_LIST; d; PRINT; PRINT_DOT] R) as (s1&r1&E&R1); [simpl; lia|]. rewrite E. cbn [bind].
      destruct (push_n_ok s1 _ r1 [a; PRINT] R1) as (s2&r2&E2&R2); [simpl; lia|]. rewrite E2. eauto.
Qed.

(* printing the value [v] takes [w] to [w ++ s] *)
Definition prints (v : Z) (t : tree) (s : list Z) : Prop :=
  forall w l, (length l + 4 * nest t + 2 < cap)%nat -> goes w (PRINT :: v :: l) (w ++ s) l.
(* and so does the rest [v] of a list, with the closing parenthesis *)
Definition tail_nest (t : tree) : nat := match t with Pair _ _ => nest t | _ => S (nest t) end.
Definition prints_rest (v : Z) (t : tree) (r : list Z) : Prop :=
  forall w l, (length l + 4 * tail_nest t + 2 < cap)%nat -> goes w (rest_frame v ++ l) (w ++ r ++ codes ")") l.

Lemma print_step_print st rest v l w r : rep cap st (PRINT :: v :: l) rest -> exists st' rest', rep cap st' l rest' /\
  print_step h sy (chan_at len w) st r = print_value_step h sy (chan_at len w) st' r v.
Proof.
  intros R. unfold print_step. destruct (pop_ok _ _ _ _ R) as (st1&rest1&E1&R1). rewrite E1. cbn [bind].
  simpl (_ =? _). cbv iota. destruct (pop_ok _ _ _ _ R1) as (st2&rest2&E2&R2). rewrite E2. cbn [bind]. eauto.
Qed.

Lemma writes_prints v t s : writes v s -> prints v t s.
Proof.
  intros H w l _. apply goes_step; [discriminate|]. intros st rest r R.
  destruct (print_step_print _ _ _ _ w r R) as (st1&rest1&R1&E). exists st1, rest1. split; auto. left. rewrite E. apply H.
Qed.

Lemma prints_compound fl v t instr : den fl h v t ->
  (type_of_functional v = TYPE_CONS /\ instr = START_LIST \/ type_of_functional v = TYPE_LISPARRAY /\ instr = START_ARRAY) ->
  forall w l w' l', (length l + 2 < cap)%nat -> goes w (instr :: v :: l) w' l' -> goes w (PRINT :: v :: l) w' l'.
Proof.
  intros D C w l w' l' L G. eapply goes_silent; [discriminate| |exact G]. intros st rest r R.
  destruct (print_step_print _ _ _ _ w r R) as (st1&rest1&R1&E). rewrite E. unfold print_value_step. rewrite print_type_functional.
  destruct (push_n_ok st1 l rest1 [v; instr] R1) as (st2&rest2&E2&R2); [simpl; lia|]. exists st2, rest2. split; [exact R2|].
  destruct C as [(T&->)|(T&->)]; rewrite T; cbv zeta; tagdec; unfold push_compound; rewrite E2; reflexivity.
Qed.

Lemma rest_of_value fl v t s : den fl h v t -> t <> Leaf KSym 0 -> (forall a d, t <> Pair a d) -> shown t s -> prints v t s ->
  exists r, shown_rest t r /\ prints_rest v t r.
Proof.
  intros D N1 N2 Sh P. exists (codes " . " ++ s). split; [constructor; auto|]. intros w l L. unfold rest_frame.
  destruct (cons_typed v) eqn:C.
  { apply cons_typed_iff in C. destruct C as [C1 C2]. exfalso. inversion D as [v0 k n _ Sy T|v0 a d ta td _ _ T|v0 p q bs x _ _ T|v0 p q x size elts ix ts _ _ T]; subst.
    - rewrite C2 in T. destruct k; revert T; clear; destruct A; discriminate.
    - eapply N2; eauto.
    - rewrite C2 in T. revert T; clear; destruct A; discriminate.
    - rewrite C2 in T. revert T; clear; destruct A; discriminate. }
  destruct (_ && _) eqn:NI; [exfalso; apply N1; eapply nil_typed_iff; eauto|].
  assert (TN : tail_nest t = S (nest t)) by (destruct t; auto; exfalso; eapply N2; eauto). rewrite TN in L.
  cbn [app]. eapply goes_trans; [apply print_dot|]. eapply goes_trans; [apply P; simpl; lia|].
  rewrite !app_assoc. apply end_list.
Qed.

Lemma start_list v w l a d s r ta td : is_ptr v = true -> ref_cell h v = Ok (a, d) -> (length l + 6 < cap)%nat ->
  (length l + 4 * S (nest ta) + 2 < cap)%nat -> (length l + 4 * tail_nest td + 2 < cap)%nat ->
  prints a ta s -> prints_rest d td r -> goes w (START_LIST :: v :: l) (w ++ codes "(" ++ s ++ r ++ codes ")") l.
Proof.
  intros P Rc L La Ld Pa Pd. eapply goes_trans.
  - apply (goes_step w (codes "(") _ (PRINT :: a :: rest_frame d ++ l)); [discriminate|]. intros st rest r0 R. unfold print_step.
    destruct (pop_ok _ _ _ _ R) as (st1&rest1&E1&R1). rewrite E1. cbn [bind]. simpl (_ =? _). cbv iota.
    destruct (pop_ok _ _ _ _ R1) as (st2&rest2&E2&R2). rewrite E2. cbn [bind]. rewrite emit_char_ok by auto. cbn [bind].
    change (codes "(") with [40]. destruct (push_rest_ok st2 l rest2 a d R2 L) as (st3&rest3&E3&R3).
    exists st3, rest3. split; auto. destruct (fits len (w ++ [40])) eqn:Fi; [left|right; auto].
    rewrite (car_ptr _ _ _ _ P Rc), (cdr_ptr _ _ _ _ P Rc). cbn [bind]. rewrite E3. reflexivity.
  - eapply goes_trans.
    + apply Pa. rewrite app_length. unfold rest_frame. destruct (cons_typed d); [|destruct (_ && _)]; simpl; lia.
    + replace (w ++ codes "(" ++ s ++ r ++ codes ")") with (((w ++ codes "(") ++ s) ++ r ++ codes ")") by (rewrite <- !app_assoc; reflexivity). apply Pd. auto.
Qed.

Lemma continue_list v w l a d s r ta td : is_ptr v = true -> ref_cell h v = Ok (a, d) -> (length l + 6 < cap)%nat ->
  (length l + 4 * S (nest ta) + 2 < cap)%nat -> (length l + 4 * tail_nest td + 2 < cap)%nat ->
  prints a ta s -> prints_rest d td r -> goes w (CONTINUE_LIST :: v :: l) (w ++ (codes " " ++ s ++ r) ++ codes ")") l.
Proof.
  intros P Rc L La Ld Pa Pd. eapply goes_trans.
  - apply (goes_step w (codes " ") _ (PRINT :: a :: rest_frame d ++ l)); [discriminate|]. intros st rest r0 R. unfold print_step.
    destruct (pop_ok _ _ _ _ R) as (st1&rest1&E1&R1). rewrite E1. cbn [bind]. simpl (_ =? _). cbv iota.
    destruct (pop_ok _ _ _ _ R1) as (st2&rest2&E2&R2). rewrite E2. cbn [bind].
    destruct ((type_of v =? TYPE_SYMBOL) && (v =? NIL)) eqn:NI.
    { exfalso. apply andb_true_iff in NI. destruct NI as [_ NI]. apply Z.eqb_eq in NI. subst v. revert P. clear. destruct A; discriminate. }
    rewrite (car_ptr _ _ _ _ P Rc), (cdr_ptr _ _ _ _ P Rc). cbn [bind]. rewrite emit_char_ok by auto. cbn [bind].
    change (codes " ") with [32]. destruct (push_rest_ok st2 l rest2 a d R2 L) as (st3&rest3&E3&R3).
    exists st3, rest3. split; auto. destruct (fits len (w ++ [32])) eqn:Fi; [left|right; auto]. rewrite E3. reflexivity.
  - eapply goes_trans.
    + apply Pa. rewrite app_length. unfold rest_frame. destruct (cons_typed d); [|destruct (_ && _)]; simpl; lia.
    + replace (w ++ (codes " " ++ s ++ r) ++ codes ")") with (((w ++ codes " ") ++ s) ++ r ++ codes ")") by (rewrite <- !app_assoc; reflexivity). apply Pd. auto.
Qed.

(* the elements of an array after the first ones *)
Lemma continue_array arr x ix elts : mem h arr = Some (OLisp x (Z.of_nat (length elts) * WB) elts ix) -> Z.of_nat (length elts) < 2 ^ 32 ->
  forall rest done ss N, elts = done ++ rest -> Forall2 (fun v s => forall w l, (length l + N < cap)%nat -> goes w (PRINT :: v :: l) (w ++ s) l) rest ss ->
  forall w l, (length l + 3 + N < cap)%nat -> (length l + 5 < cap)%nat ->
  goes w (CONTINUE_ARRAY :: arr :: Z.of_nat (length done) :: l) (w ++ flat_map (fun s => codes " " ++ s) ss ++ codes "]") l.
Proof.
  intros M SZ. assert (LA : lisp_array h arr = Ok (Z.of_nat (length elts), elts)).
  { unfold lisp_array. rewrite M. rewrite Z.div_mul; auto. clear; arch; lia. }
  pose proof W_big as WBig.
  induction rest as [|e rest IH]; intros done ss N E F2 w l L1 L2; inversion F2 as [|? s ? ss' He F2']; subst ss.
  - rewrite app_nil_r in E. subst done. eapply goes_silent with (l1 := END_ARRAY :: l); [discriminate| |apply end_array].
    intros st rs r R. unfold print_step. destruct (pop_ok _ _ _ _ R) as (st1&rest1&E1&R1). rewrite E1. cbn [bind]. simpl (_ =? _). cbv iota.
    destruct (pop_2_ok _ _ _ _ _ R1) as (st2&rest2&E2&R2). rewrite E2. cbn [bind]. rewrite LA. cbn [bind].
    rewrite Z.ltb_irrefl. destruct (push_ok st2 l rest2 END_ARRAY R2) as (st3&rest3&E3&R3); [lia|]. rewrite E3. exists st3, rest3. split; auto.
  - cbn [flat_map]. eapply goes_trans.
    + apply (goes_step w (codes " ") _ (PRINT :: e :: CONTINUE_ARRAY :: arr :: Z.of_nat (length (done ++ [e])) :: l)); [discriminate|].
      intros st rs r R. unfold print_step. destruct (pop_ok _ _ _ _ R) as (st1&rest1&E1&R1). rewrite E1. cbn [bind]. simpl (_ =? _). cbv iota.
      destruct (pop_2_ok _ _ _ _ _ R1) as (st2&rest2&E2&R2). rewrite E2. cbn [bind]. rewrite LA. cbn [bind].
      destruct (Z.ltb_spec (Z.of_nat (length done)) (Z.of_nat (length elts))) as [_|X]; [|rewrite E, app_length in X; simpl in X; lia].
      rewrite emit_char_ok by auto. cbn [bind]. rewrite (rd_nth _ _ e); [|lia|rewrite Nat2Z.id, E, nth_error_app2, Nat.sub_diag by lia; reflexivity]. cbn [bind].
      assert (LD : (length done < length elts)%nat) by (rewrite E, app_length; simpl; lia).
      rewrite wrap_small by lia. replace (Z.of_nat (length done) + 1) with (Z.of_nat (length (done ++ [e]))) by (rewrite app_length; simpl; lia).
      destruct (push_n_ok st2 l rest2 [Z.of_nat (length (done ++ [e])); arr; CONTINUE_ARRAY; e; PRINT] R2) as (st3&rest3&E3&R3); [simpl; lia|].
      rewrite E3. exists st3, rest3. split; [exact R3|]. left. reflexivity.
    + eapply goes_trans; [apply He; simpl; lia|].
      replace (w ++ ((codes " " ++ s) ++ flat_map (fun s0 => codes " " ++ s0) ss') ++ codes "]") with (((w ++ codes " ") ++ s) ++ flat_map (fun s => codes " " ++ s) ss' ++ codes "]")
        by (rewrite <- !app_assoc; reflexivity).
      apply (IH (done ++ [e]) ss' N); auto. rewrite <- app_assoc. auto.
Qed.

Lemma spaced_flat s ss : spaced (s :: ss) = s ++ flat_map (fun s => codes " " ++ s) ss.
Proof. revert s. induction ss as [|s1 ss IH]; intros s; [simpl; rewrite app_nil_r; auto|]. cbn [spaced flat_map] in *. rewrite IH, <- !app_assoc. reflexivity. Qed.

Lemma start_array v w l arr q x ix e elts s ss N : is_ptr v = true -> ref_cell h v = Ok (arr, q) ->
  mem h arr = Some (OLisp x (Z.of_nat (length (e :: elts)) * WB) (e :: elts) ix) -> Z.of_nat (length (e :: elts)) < 2 ^ 32 ->
  Forall2 (fun v s => forall w l, (length l + N < cap)%nat -> goes w (PRINT :: v :: l) (w ++ s) l) (e :: elts) (s :: ss) ->
  (length l + 3 + N < cap)%nat -> (length l + 5 < cap)%nat ->
  goes w (START_ARRAY :: v :: l) (w ++ codes "[" ++ spaced (s :: ss) ++ codes "]") l.
Proof.
  intros P Rc M SZ F2 L1 L2. inversion F2 as [|? ? ? ? He F2']; subst. eapply goes_trans.
  - apply (goes_step w (codes "[") _ (PRINT :: e :: CONTINUE_ARRAY :: arr :: 1 :: l)); [discriminate|].
    intros st rs r R. unfold print_step. destruct (pop_ok _ _ _ _ R) as (st1&rest1&E1&R1). rewrite E1. cbn [bind]. simpl (_ =? _). cbv iota.
    destruct (pop_ok _ _ _ _ R1) as (st2&rest2&E2&R2). rewrite E2. cbn [bind]. rewrite emit_char_ok by auto. cbn [bind].
    rewrite (car_ptr _ _ _ _ P Rc). cbn [bind]. unfold lisp_array. rewrite M. rewrite Z.div_mul by (clear; arch; lia). cbn [bind].
    destruct (Z.leb_spec 1 (Z.of_nat (length (e :: elts)))) as [_|X]; [|cbn [length] in X; lia].
    rewrite (rd_nth _ _ e); [|lia|reflexivity]. cbn [bind].
    destruct (push_n_ok st2 l rest2 [1; arr; CONTINUE_ARRAY; e; PRINT] R2) as (st3&rest3&E3&R3); [simpl; lia|].
    rewrite E3. exists st3, rest3. split; [exact R3|]. left. reflexivity.
  - eapply goes_trans; [apply He; simpl; lia|]. rewrite spaced_flat.
    replace (w ++ codes "[" ++ (s ++ flat_map (fun s0 => codes " " ++ s0) ss) ++ codes "]") with (((w ++ codes "[") ++ s) ++ flat_map (fun s => codes " " ++ s) ss ++ codes "]")
      by (rewrite <- !app_assoc; reflexivity).
    change 1 with (Z.of_nat (length [e])). eapply (continue_array arr x ix (e :: elts) M SZ elts [e] ss N); auto.
Qed.

Lemma nest_in t ts : In t ts -> (nest t <= fold_right (fun t n => Nat.max (nest t) n) 0%nat ts)%nat.
Proof. induction ts as [|u ts IH]; simpl; [tauto|]. intros [->|I]; [lia|]. specialize (IH I). lia. Qed.

Lemma value_prints fl t : forall v, den fl h v t -> ptree t ->
  (exists s, shown t s /\ prints v t s) /\ (exists r, shown_rest t r /\ prints_rest v t r).
Proof.
  induction t as [k n|a d IHa IHd|bs|ts IH] using tree_rec_depth; intros v D PT.
  - destruct (leaf_ok _ _ _ _ D PT) as (s&Sh&_&Wr). apply (writes_prints v (Leaf k n)) in Wr. split; [eauto|].
    destruct (kind_eq_sym k n) as [(->&->)|NE].
    + exists []. split; [constructor|]. intros w l L. unfold rest_frame.
      destruct (cons_typed v) eqn:C.
      { apply cons_typed_iff in C. destruct C as [C1 C2]. inversion D as [v0 k n _ Sy T| | |]; subst. rewrite C2 in T. exfalso. revert T. clear. destruct A; discriminate. }
      destruct (nil_typed_iff _ _ _ _ D) as [_ NI]. rewrite NI by auto. cbn [app]. apply end_list.
    + eapply rest_of_value; eauto. discriminate.
  - inversion D as [|v0 x y ta td P Hd T Rc Da Dd| |]; subst. inversion PT as [|a0 d0 Pa Pd| |]; subst.
    destruct (IHa _ Da Pa) as ((s&Sa&Ga)&_). destruct (IHd _ Dd Pd) as (_&(r&Sd&Gd)).
    change (nest (Pair a d)) with (Nat.max (S (nest a)) (tail_nest d)).
    split.
    + exists (codes "(" ++ s ++ r ++ codes ")"). split; [constructor; auto|]. intros w l L. cbn [nest] in L. fold (tail_nest d) in L.
      assert (TN : (1 <= Nat.max (S (nest a)) (tail_nest d))%nat) by lia.
      eapply prints_compound; [exact D|left; eauto|lia|]. eapply start_list; eauto; try lia.
    + exists (codes " " ++ s ++ r). split; [constructor; auto|]. intros w l L. cbn [tail_nest nest] in L. fold (tail_nest d) in L.
      unfold rest_frame. replace (cons_typed v) with true by (symmetry; apply cons_typed_iff; auto). cbn [app].
      assert (TN : (1 <= Nat.max (S (nest a)) (tail_nest d))%nat) by lia.
      eapply continue_list; eauto; try lia.
  - destruct (bytes_ok _ _ _ D PT) as (s&Sh&_&Wr). apply (writes_prints v (Bytes bs)) in Wr. split; [eauto|]. eapply rest_of_value; eauto; discriminate.
  - assert (V : exists s, shown (Arr ts) s /\ prints v (Arr ts) s).
    { inversion D as [| | |v0 p q x size elts ix ts0 P Hd T Rc M SZ F2]; subst. inversion PT as [| | |ts0 NE LT FP]; subst.
      set (N := (4 * fold_right (fun t n => Nat.max (nest t) n) 0 ts + 2)%nat).
      assert (X : exists ss, Forall2 shown ts ss /\ Forall2 (fun v s => forall w l, (length l + N < cap)%nat -> goes w (PRINT :: v :: l) (w ++ s) l) elts ss).
      { assert (IN : forall t, In t ts -> (4 * nest t + 2 <= N)%nat) by (intros t I; pose proof (nest_in _ _ I); lia). clearbody N.
        clear -F2 IH FP IN. revert IH FP IN. induction F2 as [|e t elts ts De F2 IHF]; intros IH FP IN; [exists []; split; constructor|].
        inversion IH as [|? ? It IH']; subst. inversion FP as [|? ? Pt FP']; subst. destruct (It _ De Pt) as ((s&Sh&G)&_).
        destruct IHF as (ss&S1&S2); auto; [intros t' I; apply IN; right; auto|]. exists (s :: ss). split; constructor; auto.
        intros w l L. apply G. specialize (IN t (or_introl eq_refl)). lia. }
      destruct X as (ss&S1&S2). exists (codes "[" ++ spaced ss ++ codes "]"). split; [apply sh_arr; auto|]. intros w l L.
      pose proof (Forall2_length _ _ _ F2) as FL. destruct elts as [|e elts]; [inversion F2; subst; congruence|]. inversion S2 as [|? s ? ss' _ _]; subst.
      cbn [nest] in L. eapply prints_compound; [exact D|right; eauto|lia|]. eapply start_array; eauto; try lia; subst N; lia. }
    split; [exact V|]. destruct V as (s&Sh&G). eapply rest_of_value; eauto; discriminate.
Qed.

End Arch.
