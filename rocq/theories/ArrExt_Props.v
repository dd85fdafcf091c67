(* C71-C73: reading, writing, clearing and copying byte arrays. *)
From Verif Require Import Base Value_Model Heap_Model Value_Proofs Value_Proofs2 Value_Props Heap_Spec Heap_Proofs GC_Model Eq_Model Eq_Spec Eq_Props
  Flat_Model Flat_Spec Flat_Proofs Flat_Proofs2 Flat_Proofs3 Sym_Model Read_Model ArrExt_Model ArrExt_Spec ArrExt_Proofs.
Local Open Scope Z_scope.

Section Arch.
Context {A : Arch} {L : Libc} {C : Conv}.

Lemma decode_get fl h little arr bs iv i opt be : no_null h -> den fl h arr (Bytes bs) -> integer fl h iv i -> endianness fl h little opt be ->
  exists p d q, ref_cell h arr = Ok (p, q) /\ mem h p = Some (OByte d bs) /\
    decode_get_args little h (arr :: iv :: opt) = Ok (DArr be p d bs (Z.of_nat (Z.to_nat (i mod 2 ^ 32)))).
Proof.
  intros NN D I E. destruct (array_facts _ _ _ _ NN D) as (p&d&q&R&M&AR&AO&_). destruct (integer_arg _ _ _ _ I) as (IN&IU&_).
  exists p, d, q. split; [auto|]. split; [auto|]. rewrite Z2Nat.id by (apply Z.mod_pos_bound; lia).
  destruct E as [(->&->)|(v&t&->&Dv&Q)]; unfold decode_get_args; count; cbn [bind]; args;
    rewrite AR; cbn [bind andb]; rewrite IN; rewrite AO; cbn [bind fst snd]; rewrite IU; cbn [bind]; [auto|].
  rewrite (endian_arg _ _ _ _ _ _ Dv Q). auto.
Qed.
Lemma decode_append fl h little arr bs iv i xv x opt be : no_null h -> writable fl h arr bs -> integer fl h iv i -> integer fl h xv x -> endianness fl h little opt be ->
  exists p d q, ref_cell h arr = Ok (p, q) /\ mem h p = Some (OByte d bs) /\
    decode_append_args little h (arr :: iv :: xv :: opt) = Ok (DArr be p d bs (Z.of_nat (Z.to_nat (i mod 2 ^ 32)))).
Proof.
  intros NN (D&K) I X E. destruct (array_facts _ _ _ _ NN D) as (p&d&q&R&M&AR&AO&RW&_). specialize (RW K).
  destruct (integer_arg _ _ _ _ I) as (IN&IU&_). destruct (integer_arg _ _ _ _ X) as (XN&_&_).
  exists p, d, q. split; [auto|]. split; [auto|]. rewrite Z2Nat.id by (apply Z.mod_pos_bound; lia).
  destruct E as [(->&->)|(v&t&->&Dv&Q)]; unfold decode_append_args; count; cbn [bind]; args;
    rewrite RW; cbn [bind andb]; rewrite IN, XN; rewrite AO; cbn [andb bind fst snd]; rewrite IU; cbn [bind]; [auto|].
  rewrite (endian_arg _ _ _ _ _ _ Dv Q). auto.
Qed.

(* C71: writing a number *)
Theorem bufset_correct : forall fl u little sg arr bs iv i xv x opt be n,
  no_null (uh u) -> writable fl (uh u) arr bs -> integer fl (uh u) iv i -> integer fl (uh u) xv x -> endianness fl (uh u) little opt be ->
  (1 <= n <= 4)%nat -> Z.of_nat (length bs) <= 2 ^ W ->
  let at_ := Z.to_nat (i mod 2 ^ 32) in
  ((at_ + n <= length bs)%nat -> exists u', bufset little sg (Z.of_nat n) u (arr :: iv :: xv :: opt) = Ok (u', TRUE) /\
    rewritten fl (uh u) arr (put_at at_ (order be (bytes n x)) bs) (uh u') /\ u' = set_h u (uh u')) /\
  ((length bs < at_ + n)%nat -> Z.of_nat (at_ + n) <= 2 ^ W -> bufset little sg (Z.of_nat n) u (arr :: iv :: xv :: opt) = Ok (u, EERROR)).
Proof.
  intros fl u little sg arr bs iv i xv x opt be n NN Wr I X E N Sz at_.
  destruct (decode_append _ _ _ _ _ _ _ _ _ _ _ NN Wr I X E) as (p&d&q&R&M&Dc). fold at_ in Dc.
  destruct (integer_arg _ _ _ _ X) as (_&XU&XI).
  assert (Y : exists y, (if sg then let! x := dec_as_i32 (uh u) xv in Ok (wrap W x) else dec_as_u32 (uh u) xv) = Ok y /\ wrap 32 y = wrap 32 x).
  { destruct sg.
    - rewrite XI. cbn [bind]. eexists. split; [reflexivity|]. rewrite wrap_wrap_le by (arch; lia). apply wrap_sgn_le. lia.
    - rewrite XU. eexists. split; [reflexivity|]. apply wrap_wrap_le. lia. }
  destruct Y as (y&Ey&Wy).
  assert (A2 : arg (arr :: iv :: xv :: opt) 2 = Ok xv) by reflexivity.
  unfold bufset. rewrite Dc. cbn [bind]. rewrite A2. cbn [bind]. rewrite Ey. cbn [bind]. split.
  - intros Inn. rewrite append_bytes_ok by auto. cbn [bind]. eexists. split; [reflexivity|]. split; [|reflexivity].
    rewrite (bytes_cong n y x) by (auto; lia). eapply rewritten_put; eauto.
  - intros Out Fit. rewrite append_bytes_none by (auto; lia). reflexivity.
Qed.

(* a constant array is refused *)
Theorem bufset_const : forall fl u little sg arr bs iv xv opt n, no_null (uh u) -> den fl (uh u) arr (Bytes bs) -> is_const_ptr arr = true ->
  (length opt <= 1)%nat -> bufset little sg n u (arr :: iv :: xv :: opt) = Ok (u, TERROR).
Proof.
  intros fl u little sg arr bs iv xv opt n NN D K LO. destruct (array_facts _ _ _ _ NN D) as (p&d&q&R&M&AR&AO&_&RW). specialize (RW K).
  unfold bufset, decode_append_args. destruct opt as [|v [|]]; [| |cbn in LO; lia];
    count; cbn [bind]; args; rewrite RW; reflexivity.
Qed.

(* C71: reading a number *)
Theorem bufget_correct : forall fl u little g arr bs iv i opt be,
  heap_ok (uh u) fl -> no_null (uh u) -> den fl (uh u) arr (Bytes bs) -> Forall (fun b => 0 <= b < 256) bs ->
  integer fl (uh u) iv i -> endianness fl (uh u) little opt be -> Z.of_nat (length bs) <= 2 ^ W ->
  (g = GI32 -> b64 = true) -> (g = GU32 -> b64 = false -> fl <> []) ->
  let at_ := Z.to_nat (i mod 2 ^ 32) in
  ((at_ + width g <= length bs)%nat -> exists u' r fl', bufget little g u (arr :: iv :: opt) = Ok (u', r) /\ incl fl' fl /\
    den fl' (uh u') r (Leaf (result_kind g) (reading g (number (order be (slice at_ (width g) bs))))) /\
    (forall w t, den fl (uh u) w t -> den fl' (uh u') w t)) /\
  ((length bs < at_ + width g)%nat -> Z.of_nat (at_ + width g) <= 2 ^ W -> bufget little g u (arr :: iv :: opt) = Ok (u, EERROR)).
Proof.
  intros fl u little g arr bs iv i opt be OK NN D B I E Sz G32 GU at_.
  destruct (decode_get _ _ _ _ _ _ _ _ _ NN D I E) as (p&d&q&R&M&Dc). fold at_ in Dc.
  assert (WG : get_bytes g = Z.of_nat (width g)) by (destruct g; reflexivity).
  unfold bufget. rewrite Dc. cbn [bind]. rewrite WG. assert (W14 : (1 <= width g <= 4)%nat) by (destruct g; cbn; lia). split.
  - intros Inn. rewrite get_uint_ok by auto. cbn [bind]. set (x := number (order be (slice at_ (width g) bs))).
    assert (X : 0 <= x < 256 ^ Z.of_nat (width g)).
    { assert (LN : length (order be (slice at_ (width g) bs)) = width g).
      { destruct be; cbn [order]; rewrite ?rev_length; unfold slice; apply firstn_length_le; rewrite skipn_length; lia. }
      rewrite <- LN at 1. apply number_range. apply Forall_forall. intros b Hb. rewrite Forall_forall in B. apply B.
      assert (Hs : In b (slice at_ (width g) bs)) by (destruct be; cbn [order] in Hb; [auto|apply in_rev; auto]).
      unfold slice in Hs. rewrite <- (firstn_skipn at_ bs). apply in_or_app. right.
      rewrite <- (firstn_skipn (width g) (skipn at_ bs)). apply in_or_app. auto. }
    pose proof payload_big as PB. assert (P27 : 2 ^ 27 <= 2 ^ (payload A - 1)) by (apply Z.pow_le_mono_r; lia).
    assert (IMM : forall y, -2 ^ (payload A - 1) <= y < 2 ^ (payload A - 1) -> exists u' r fl', Ok (u, enc_i y) = Ok (u', r) /\ incl fl' fl /\
      den fl' (uh u') r (Leaf KI y) /\ (forall w t, den fl (uh u) w t -> den fl' (uh u') w t)).
    { intros y Y. exists u, (enc_i y), fl. split; [auto|split; [apply incl_refl|split; [apply den_int; auto|auto]]]. }
    destruct g; cbn [width Z.of_nat Pos.of_succ_nat Pos.succ] in X; cbn [encode reading result_kind].
    + replace (sgn 8 x) with (signed 1 x). 2:{ unfold sgn, signed. cbn [Z.of_nat Pos.of_succ_nat]. rewrite Z.mod_small by lia. reflexivity. }
      apply IMM. unfold signed. cbn [Z.of_nat Pos.of_succ_nat]. change (256 ^ 1) with 256 in *. change (256 / 2) with 128. destruct (Z.ltb_spec x 128); lia.
    + replace (sgn 16 x) with (signed 2 x). 2:{ unfold sgn, signed. cbn [Z.of_nat Pos.of_succ_nat Pos.succ]. rewrite Z.mod_small by lia. reflexivity. }
      apply IMM. unfold signed. cbn [Z.of_nat Pos.of_succ_nat Pos.succ]. change (256 ^ 2) with 65536 in *. change (65536 / 2) with 32768. destruct (Z.ltb_spec x 32768); lia.
    + replace (sgn 32 x) with (signed 4 x). 2:{ unfold sgn, signed. cbn [Z.of_nat Pos.of_succ_nat Pos.succ]. rewrite Z.mod_small by lia. reflexivity. }
      apply IMM. assert (PL : payload A = 56) by (specialize (G32 eq_refl); destruct A; [reflexivity|discriminate]). rewrite PL.
      unfold signed. cbn [Z.of_nat Pos.of_succ_nat Pos.succ]. change (256 ^ 4) with (2 ^ 32) in *. change (2 ^ 32 / 2) with (2 ^ 31). destruct (Z.ltb_spec x (2 ^ 31)); lia.
    + rewrite wrap_small by lia. apply IMM. lia.
    + rewrite wrap_small by lia. apply IMM. lia.
    + replace (sgn 32 x) with x. 2:{ unfold sgn. rewrite Z.mod_small by lia. destruct (Z.ltb_spec x (2 ^ (32 - 1))); lia. } apply IMM. lia.
    + change (256 ^ 4) with (2 ^ 32) in X. rewrite wrap_small by lia. unfold enc_u32. destruct b64 eqn:B6.
      * destruct (u32_imm B6 x X) as (IP&IT&IR&_). exists u, (enc_u32_imm x), fl. split; [auto|split; [apply incl_refl|split; [|auto]]].
        constructor; [intros Y; congruence|discriminate|rewrite functional_nonptr by auto; auto|auto].
      * destruct fl as [|j fl']; [exfalso; apply (GU eq_refl eq_refl eq_refl)|].
        destruct (enc_raw_ok u j fl' x SYM_RAW_U_TYPE TYPE_U32 KU32 x) as (u'&v&Ev&NM&Gv); auto using good_u32; try discriminate.
        { cbn. rewrite B6. reflexivity. }
        { intros h w Ec. cbn. unfold payload32. rewrite B6. eexists. split; [eauto|]. rewrite wrap_small; lia. }
        exists u', v, fl'. split; [auto|]. split; [apply g_incl in Gv; auto|]. split.
        { apply hide_none. apply (g_den _ _ _ _ _ _ _ _ Gv). intros ? []. }
        { intros w t Dw. apply hide_none. destruct Gv. eapply den_kept with (l := []) (Q := fun _ => false) (P := fun _ => false); eauto.
          eapply den_grows; [|apply incl_refl|exact Dw]. split; [intros ? ?; reflexivity|split; [reflexivity|]]. cbn. auto. }
  - intros Out Fit. rewrite get_uint_none by (auto; lia). reflexivity.
Qed.

(* what was written is read back, modulo 256^n *)
Lemma slice_put i new bs : (i + length new <= length bs)%nat -> slice i (length new) (put_at i new bs) = new.
Proof.
  intros H. destruct (split_at bs i (length new) H) as (pre&mid&post&->&<-&Lm). rewrite put_at_split by auto. apply slice_split. auto.
Qed.
Lemma put_length i new bs : (i + length new <= length bs)%nat -> length (put_at i new bs) = length bs.
Proof.
  intros H. destruct (split_at bs i (length new) H) as (pre&mid&post&->&<-&Lm). rewrite put_at_split by auto. rewrite !app_length. lia.
Qed.
Lemma order_length be l : length (order be l) = length l.
Proof. destruct be; [auto|apply rev_length]. Qed.
Lemma order_twice be l : order be (order be l) = l.
Proof. destruct be; [auto|apply rev_involutive]. Qed.
Lemma Forall_order P be l : Forall P l -> Forall P (order be l).
Proof. destruct be; [auto|apply Forall_rev]. Qed.
Lemma bytes_byte n x : Forall (fun b => 0 <= b < 256) (bytes n x).
Proof. induction n; cbn [bytes]; constructor; auto. apply Z.mod_pos_bound. lia. Qed.
Lemma Forall_put P i new bs : Forall P new -> Forall P bs -> Forall P (put_at i new bs).
Proof.
  intros F G. rewrite Forall_forall in *. intros x X. unfold put_at in X. rewrite !in_app_iff in X.
  destruct X as [X|[X|X]]; [apply G|auto|apply G].
  - rewrite <- (firstn_skipn i bs). apply in_or_app. auto.
  - rewrite <- (firstn_skipn (i + length new) bs). apply in_or_app. auto.
Qed.

(* the other arguments keep their meaning *)
Lemma reads_rewritten fl h v bs bs' h' w k n : writable fl h v bs -> rewritten fl h v bs' h' -> reads h w k n -> reads h' w k n.
Proof.
  intros (D&_) (_&m'&->&F) R. inversion D as [| |v' p q bs0 d P Hd T Rc M|]; subst.
  assert (B : forall c x, mem h c = Some (OBox x) -> m' c = Some (OBox x)).
  { intros c x X. rewrite F; auto. intros q' Y. congruence. }
  assert (P64 : forall x, payload64 h w = Ok x -> payload64 (set_mem h m') w = Ok x).
  { intros x. unfold payload64. change (car (set_mem h m') w) with (car h w). destruct (car h w) as [c| |]; cbn [bind]; auto.
    destruct b64; auto. cbn [mem set_mem]. destruct (mem h c) as [[]|] eqn:E; try discriminate. rewrite (B _ _ E). auto. }
  destruct k; cbn [reads] in *; auto.
  - destruct R as (x&X&->). eauto.
  - destruct R as (x&X&->). eauto.
  - destruct R as (X&Y). eauto.
Qed.
Lemma den_rewritten fl h v bs bs' h' : writable fl h v bs -> rewritten fl h v bs' h' ->
  forall t w, den fl h w t -> exists t', den fl h' w t' /\ forall k n, t' = Leaf k n <-> t = Leaf k n.
Proof.
  intros Wr Rw. pose proof Rw as (_&m'&->&F). pose proof Wr as (D&_). inversion D as [| |v' p q bs0 d P Hd T Rc M|]; subst.
  induction t as [k n|a d' IHa IHd|bs1|ts IH] using tree_rec_depth; intros w Dw;
    inversion Dw as [w0 k0 n0 Hd0 Sy0 T0 R0|w0 x0 y0 ta0 td0 P0 Hd0 T0 R0 Dx Dy|w0 p0 q0 b0 d0 P0 Hd0 T0 R0 M0|w0 p0 q0 d0 size elts ix ts0 P0 Hd0 T0 R0 M0 S0 E0]; subst.
  - exists (Leaf k n). split; [|intuition]. constructor; auto. eapply reads_rewritten; eauto.
  - destruct (IHa _ Dx) as (ta&Da&_). destruct (IHd _ Dy) as (td&Dd&_). exists (Pair ta td). split; [|intuition discriminate]. eapply den_pair; eauto.
  - destruct (Z.eq_dec p0 p) as [->|N].
    + destruct Rw as ((D'&_)&_). inversion D' as [| |v'' p'' q'' bs0' d'' P' Hd' T' Rc' M'|]; subst.
      change (ref_cell (set_mem h m') v) with (ref_cell h v) in Rc'. rewrite Rc in Rc'. injection Rc' as <- <-.
      exists (Bytes bs'). split; [|intuition discriminate]. eapply den_bytes; eauto.
    + exists (Bytes bs1). split; [|intuition discriminate]. eapply den_bytes; eauto. cbn. rewrite F; eauto. intros q' Y. congruence.
  - assert (X : exists ts', Forall2 (den fl (set_mem h m')) elts ts').
    { rewrite Forall_forall in IH. clear - E0 IH. induction E0 as [|x t l ts Hx Hl IHl]; [exists []; constructor|].
      destruct (IH t (or_introl eq_refl) x Hx) as (t'&Dt&_). destruct IHl as (ts'&Dts); [intros t0 I0; apply IH; right; auto|]. exists (t' :: ts'). constructor; auto. }
    destruct X as (ts'&X). exists (Arr ts'). split; [|intuition discriminate]. eapply den_arr; eauto. cbn. rewrite F; eauto. intros q' Y. congruence.
Qed.
Lemma integer_rewritten fl h v bs bs' h' w n : writable fl h v bs -> rewritten fl h v bs' h' -> integer fl h w n -> integer fl h' w n.
Proof.
  intros Wr Rw (k&K&D). exists k. split; auto. destruct (den_rewritten _ _ _ _ _ _ Wr Rw _ _ D) as (t&Dt&E). rewrite (proj2 (E k n) eq_refl) in Dt. auto.
Qed.
Lemma endianness_rewritten fl h v bs bs' h' little opt be : writable fl h v bs -> rewritten fl h v bs' h' -> endianness fl h little opt be -> endianness fl h' little opt be.
Proof.
  intros Wr Rw [E|(w&t&->&D&Q)]; [left; auto|]. right. destruct (den_rewritten _ _ _ _ _ _ Wr Rw _ _ D) as (t'&Dt&E). exists w, t'. split; [auto|split; [auto|]]. rewrite E. auto.
Qed.
Lemma no_null_rewritten fl h v bs bs' h' : no_null h -> writable fl h v bs -> rewritten fl h v bs' h' -> no_null h'.
Proof.
  intros NN (D&_) (_&m'&->&F). inversion D as [| |v' p q bs0 d P Hd T Rc M|]; subst. unfold no_null in *. cbn. rewrite F; auto. intros q' Y. congruence.
Qed.
Lemma heap_ok_rewritten fl h v bs h' : heap_ok h fl -> rewritten fl h v bs h' -> heap_ok h' fl.
Proof. intros [S K N Q] (_&m'&->&_). constructor; auto. eapply chain_frame; eauto. Qed.

(* C71: what was written is read back *)
Theorem bufset_bufget : forall fl u little sg g arr bs iv i xv x opt be,
  heap_ok (uh u) fl -> no_null (uh u) -> writable fl (uh u) arr bs -> Forall (fun b => 0 <= b < 256) bs ->
  integer fl (uh u) iv i -> integer fl (uh u) xv x -> endianness fl (uh u) little opt be -> Z.of_nat (length bs) <= 2 ^ W ->
  (g = GI32 -> b64 = true) -> (g = GU32 -> b64 = false -> fl <> []) -> (Z.to_nat (i mod 2 ^ 32) + width g <= length bs)%nat ->
  exists u1 u2 r fl', bufset little sg (Z.of_nat (width g)) u (arr :: iv :: xv :: opt) = Ok (u1, TRUE) /\
    bufget little g u1 (arr :: iv :: opt) = Ok (u2, r) /\
    den fl' (uh u2) r (Leaf (result_kind g) (reading g (x mod 256 ^ Z.of_nat (width g)))).
Proof.
  intros fl u little sg g arr bs iv i xv x opt be OK NN Wr B I X E Sz G32 GU At.
  assert (W14 : (1 <= width g <= 4)%nat) by (destruct g; cbn; lia).
  destruct (bufset_correct fl u little sg arr bs iv i xv x opt be (width g) NN Wr I X E W14 Sz) as (S&_). destruct (S At) as (u1&Es&Rw&_).
  assert (LN : length (order be (bytes (width g) x)) = width g) by (rewrite order_length; apply length_bytes).
  assert (At' : (Z.to_nat (i mod 2 ^ 32) + length (order be (bytes (width g) x)) <= length bs)%nat) by (rewrite LN; auto).
  pose proof (put_length _ _ _ At') as PL. pose proof Rw as ((D1&_)&_).
  destruct (bufget_correct fl u1 little g arr _ iv i opt be (heap_ok_rewritten _ _ _ _ _ OK Rw) (no_null_rewritten _ _ _ _ _ _ NN Wr Rw) D1) as (G&_); auto.
  - apply Forall_put; auto. apply Forall_order, bytes_byte.
  - eapply integer_rewritten; eauto.
  - eapply endianness_rewritten; eauto.
  - rewrite PL. auto.
  - destruct G as (u2&r&fl'&Eg&_&Dr&_); [rewrite PL; auto|]. exists u1, u2, r, fl'. split; [auto|]. split; [auto|].
    replace (slice _ (width g) _) with (order be (bytes (width g) x)) in Dr by (symmetry; rewrite <- LN at 1; apply slice_put; auto).
    rewrite order_twice, number_bytes in Dr. auto.
Qed.

(* a number that fits is read back as itself *)
Lemma signed_fits n x : (0 < n)%nat -> - (256 ^ Z.of_nat n / 2) <= x < 256 ^ Z.of_nat n / 2 -> signed n (x mod 256 ^ Z.of_nat n) = x.
Proof.
  intros N R. unfold signed. assert (P : 256 ^ Z.of_nat n = 2 * (256 ^ Z.of_nat n / 2)).
  { replace n with (S (n - 1)) by lia. rewrite Nat2Z.inj_succ, Z.pow_succ_r by lia. replace (256 * 256 ^ Z.of_nat (n - 1)) with (128 * 256 ^ Z.of_nat (n - 1) * 2) by lia. rewrite Z.div_mul by lia. lia. }
  set (H := 256 ^ Z.of_nat n / 2) in *. rewrite P in *. destruct (Z.ltb_spec x 0).
  - replace (x mod (2 * H)) with (x + 2 * H) by (apply (Z.mod_unique _ _ (-1)); lia). destruct (Z.ltb_spec (x + 2 * H) H); lia.
  - rewrite Z.mod_small by lia. destruct (Z.ltb_spec x H); lia.
Qed.
Theorem bufset_bufget_fits : forall g x,
  (match g with GI8 | GI16 | GI32 => - (256 ^ Z.of_nat (width g) / 2) <= x < 256 ^ Z.of_nat (width g) / 2 | _ => 0 <= x < 256 ^ Z.of_nat (width g) end) ->
  reading g (x mod 256 ^ Z.of_nat (width g)) = x.
Proof. intros g x H. destruct g; cbn [reading width] in *; first [apply signed_fits; [lia|auto] | apply Z.mod_small; auto]. Qed.

(* ---- C72: no access outside of the array ---- *)
Lemma number_bit v m T : is_ptr v = true -> type_of_functional v = T -> Z.land m (Z.land (wnot PTR_TO_CONSTANT_BIT) PTR_TYPE_MASK) = m -> Z.land v m = Z.land T m.
Proof.
  intros P E M. unfold type_of_functional, is_ptr in *. destruct (Z.land v PTR_BIT =? 0); [discriminate|]. rewrite <- E, <- Z.land_assoc. f_equal. rewrite Z.land_comm. auto.
Qed.
Lemma number_den fl h v t : den fl h v t -> is_number v = true -> exists k n, t = Leaf k n /\ k <> KSym.
Proof.
  intros D N. assert (NM : Z.land NUMBER_MASK (Z.land (wnot PTR_TO_CONSTANT_BIT) PTR_TYPE_MASK) = NUMBER_MASK) by (clear; arch; reflexivity).
  inversion D as [v' k' n' Hd Sy T R|v' a d ta td P Hd T R|v' p q bs x P Hd T R M|v' p q x size elts ix ts P Hd T]; subst.
  - exists k', n'. split; auto. intros ->. specialize (Sy eq_refl). unfold is_symbol in Sy. apply Z.eqb_eq in Sy. revert N. unfold is_number.
    replace (Z.land v PTR_BIT) with (Z.land (Z.land v LOW_RESERVED_BITS) PTR_BIT) by (rewrite <- Z.land_assoc; f_equal; clear; arch; reflexivity).
    replace (Z.land v VAL_TYPE_MASK) with (Z.land (Z.land v LOW_RESERVED_BITS) VAL_TYPE_MASK) by (rewrite <- Z.land_assoc; f_equal; clear; arch; reflexivity).
    rewrite Sy, !Z.land_0_l. discriminate.
  - exfalso. pose proof (number_bit _ _ _ P T NM) as X. revert N. unfold is_number. revert P. unfold is_ptr. destruct (Z.land v PTR_BIT =? 0); [discriminate|]. rewrite X. clear; arch; discriminate.
  - exfalso. pose proof (number_bit _ _ _ P T NM) as X. revert N. unfold is_number. revert P. unfold is_ptr. destruct (Z.land v PTR_BIT =? 0); [discriminate|]. rewrite X. clear; arch; discriminate.
  - exfalso. pose proof (number_bit _ _ _ P T NM) as X. revert N. unfold is_number. revert P. unfold is_ptr. destruct (Z.land v PTR_BIT =? 0); [discriminate|]. rewrite X. clear; arch; discriminate.
Qed.
Lemma type_functional v : type_of_functional v = Z.land (type_of v) (wnot PTR_TO_CONSTANT_BIT) \/ is_ptr v = false /\ type_of_functional v = type_of v.
Proof. destruct (is_ptr v) eqn:P; [left; apply functional_ptr; auto|right; split; [auto|apply functional_nonptr; auto]]. Qed.
Lemma not_array fl h v t : den fl h v t -> (forall bs, t <> Bytes bs) -> is_array_r h v = Ok false /\ is_array_rw h v = Ok false.
Proof.
  intros D NB. assert (X : type_of_functional v <> TYPE_ARRAY).
  { inversion D as [v' k' n' Hd Sy T R|v' a d ta td P Hd T R|v' p q bs x P Hd T R M|v' p q x size elts ix ts P Hd T]; subst; rewrite T; try (exfalso; eapply NB; reflexivity); try (clear; arch; discriminate).
    destruct k'; clear; arch; discriminate. }
  assert (Y : Z.land (type_of v) (wnot PTR_TO_CONSTANT_BIT) <> TYPE_ARRAY).
  { destruct (is_ptr v) eqn:P; [rewrite <- functional_ptr; auto|]. intros E. apply X. rewrite functional_nonptr by auto. exfalso. revert E.
    unfold is_ptr in P. unfold type_of. destruct (Z.land v PTR_BIT =? 0); [|discriminate].
    intros E. assert (Q : Z.land (Z.land (Z.land v VAL_TYPE_MASK) (wnot PTR_TO_CONSTANT_BIT)) TYPE_ARRAY = TYPE_ARRAY) by (rewrite E; apply Z.land_diag).
    rewrite <- !Z.land_assoc in Q. replace (Z.land VAL_TYPE_MASK _) with 0 in Q by (clear; arch; reflexivity). rewrite Z.land_0_r in Q. revert Q. clear. arch; discriminate. }
  unfold is_array_r, is_array_rw. apply Z.eqb_neq in Y. rewrite Y. split; [auto|].
  destruct (Z.eqb_spec (type_of v) TYPE_ARRAY) as [E|]; [|auto]. apply Z.eqb_neq in Y. exfalso. apply Y. rewrite E. clear. arch; reflexivity.
Qed.

(* an argument the functions may be given: any value but a float *)
Definition plain (fl : list Z) (h : heap) (v : Z) : Prop :=
  exists t, den fl h v t /\ (forall n, t <> Leaf KFloat n) /\ (forall n, t <> Leaf Eq_Spec.KDouble n) /\ forall bs, t = Bytes bs -> Z.of_nat (length bs) <= 2 ^ W /\ Forall (fun b => 0 <= b < 256) bs.
Lemma plain_number fl h v : plain fl h v -> is_number v = true -> exists n, integer fl h v n.
Proof.
  intros (t&D&F1&F2&_) N. destruct (number_den _ _ _ _ D N) as (k&n&->&K). exists n, k. split; auto. repeat split; auto; intros ->; [apply (F1 n)|apply (F2 n)]; auto.
Qed.
Lemma plain_array fl h v : no_null h -> plain fl h v -> is_array_r h v = Ok false /\ is_array_rw h v = Ok false \/
  exists bs, den fl h v (Bytes bs) /\ Z.of_nat (length bs) <= 2 ^ W /\ Forall (fun b => 0 <= b < 256) bs.
Proof.
  intros NN (t&D&_&_&B). destruct t as [k n|a d|bs|ts]; [left|left|right|left]; try (eapply not_array; eauto; congruence).
  destruct (B bs eq_refl). exists bs. auto.
Qed.
Lemma plain_endian fl h little v : plain fl h v -> exists be, endianness fl h little [v] be.
Proof.
  intros (t&D&_). exists (endian little v). right. exists v, t. split; [auto|]. split; [auto|].
  assert (K : t = Leaf KSym little \/ t <> Leaf KSym little).
  { destruct t as [k n| | |]; try (right; discriminate). destruct k; try (right; discriminate). destruct (Z.eq_dec n little) as [->|]; [left; auto|right; congruence]. }
  destruct K as [K|K].
  - rewrite (endian_arg fl h little v t false); [tauto|auto|tauto].
  - rewrite (endian_arg fl h little v t true); [|auto|]; (split; [discriminate|tauto]).
Qed.

Theorem bufset_safe : forall fl u little sg n args, no_null (uh u) -> Forall (plain fl (uh u)) args -> (1 <= n <= 4)%nat ->
  (forall iv i, nth_error args 1 = Some iv -> integer fl (uh u) iv i -> i mod 2 ^ 32 + Z.of_nat n <= 2 ^ W) ->
  exists u' r, bufset little sg (Z.of_nat n) u args = Ok (u', r) /\ (r = TRUE \/ u' = u /\ (r = TERROR \/ r = EERROR)).
Proof.
  intros fl u little sg n args NN F N Fit.
  assert (K : forall arr iv xv opt, args = arr :: iv :: xv :: opt -> (length opt <= 1)%nat ->
    exists u' r, bufset little sg (Z.of_nat n) u args = Ok (u', r) /\ (r = TRUE \/ u' = u /\ (r = TERROR \/ r = EERROR))).
  { intros arr iv xv opt -> LO. inversion F as [|? ? P0 F1]; subst. inversion F1 as [|? ? P1 F2]; subst. inversion F2 as [|? ? P2 F3]; subst.
    assert (NO : is_array_rw (uh u) arr = Ok false \/ is_array_rw (uh u) arr = Ok true /\ is_number iv && is_number xv = false ->
      exists u' r, bufset little sg (Z.of_nat n) u (arr :: iv :: xv :: opt) = Ok (u', r) /\ (r = TRUE \/ u' = u /\ (r = TERROR \/ r = EERROR))).
    { intros H. exists u, TERROR. split; [|auto]. unfold bufset, decode_append_args. destruct opt as [|v [|]]; [| |cbn in LO; lia]; count; cbn [bind]; args;
        (destruct H as [->|(->&H)]; cbn [bind]; [|rewrite <- andb_assoc, H]; reflexivity). }
    destruct (plain_array _ _ _ NN P0) as [(_&RW)|(bs&D&S&B)]; [apply NO; auto|].
    destruct (array_facts _ _ _ _ NN D) as (p&d&q&R&M&AR&AO&RW&RO). destruct (is_const_ptr arr) eqn:C0; [apply NO; left; auto|].
    destruct (is_number iv && is_number xv) eqn:NB; [|apply NO; right; split; auto].
    apply andb_true_iff in NB. destruct NB as (N1&N2). destruct (plain_number _ _ _ P1 N1) as (i&I). destruct (plain_number _ _ _ P2 N2) as (x&X).
    assert (E : exists be, endianness fl (uh u) little opt be).
    { destruct opt as [|v [|]]; [exists true; left; auto| |cbn in LO; lia]. inversion F3; subst. apply plain_endian. auto. }
    destruct E as (be&E). destruct (bufset_correct fl u little sg arr bs iv i xv x opt be n NN (conj D C0) I X E N S) as (IN&OUT).
    specialize (Fit iv i eq_refl I). pose proof (Z.mod_pos_bound i (2 ^ 32) ltac:(lia)).
    destruct (le_lt_dec (Z.to_nat (i mod 2 ^ 32) + n) (length bs)) as [H1|H1].
    - destruct (IN H1) as (u'&Eq&_). exists u', TRUE. auto.
    - rewrite OUT by lia. exists u, EERROR. auto. }
  destruct args as [|a0 [|a1 [|a2 opt]]]; try (exists u, EERROR; split; [reflexivity|auto]).
  destruct opt as [|v [|v2 opt]]; [apply (K a0 a1 a2 []); auto|apply (K a0 a1 a2 [v]); auto|].
  exists u, EERROR. split; [|auto]. unfold bufset, decode_append_args.
  replace (Z.of_nat (length (a0 :: a1 :: a2 :: v :: v2 :: opt)) =? 4) with false by (symmetry; apply Z.eqb_neq; cbn [length]; lia).
  replace (Z.of_nat (length (a0 :: a1 :: a2 :: v :: v2 :: opt)) =? 3) with false by (symmetry; apply Z.eqb_neq; cbn [length]; lia). reflexivity.
Qed.

Theorem bufget_safe : forall fl u little g args, heap_ok (uh u) fl -> no_null (uh u) -> Forall (plain fl (uh u)) args ->
  (g = GI32 -> b64 = true) -> (g = GU32 -> b64 = false -> fl <> []) ->
  (forall iv i, nth_error args 1 = Some iv -> integer fl (uh u) iv i -> i mod 2 ^ 32 + Z.of_nat (width g) <= 2 ^ W) ->
  exists u' r, bufget little g u args = Ok (u', r).
Proof.
  intros fl u little g args OK NN F G1 G2 Fit.
  assert (K : forall arr iv opt, args = arr :: iv :: opt -> (length opt <= 1)%nat -> exists u' r, bufget little g u args = Ok (u', r)).
  { intros arr iv opt -> LO. inversion F as [|? ? P0 F1]; subst. inversion F1 as [|? ? P1 F2]; subst.
    assert (NO : is_array_r (uh u) arr = Ok false \/ is_array_r (uh u) arr = Ok true /\ is_number iv = false ->
      exists u' r, bufget little g u (arr :: iv :: opt) = Ok (u', r)).
    { intros H. exists u, TERROR. unfold bufget, decode_get_args. destruct opt as [|v [|]]; [| |cbn in LO; lia]; count; cbn [bind]; args;
        (destruct H as [->|(->&H)]; cbn [bind]; [|rewrite H]; reflexivity). }
    destruct (plain_array _ _ _ NN P0) as [(RW&_)|(bs&D&S&B)]; [apply NO; auto|].
    destruct (array_facts _ _ _ _ NN D) as (p&d&q&R&M&AR&AO&_&_).
    destruct (is_number iv) eqn:N1; [|apply NO; right; split; auto]. destruct (plain_number _ _ _ P1 N1) as (i&I).
    assert (E : exists be, endianness fl (uh u) little opt be).
    { destruct opt as [|v [|]]; [exists true; left; auto| |cbn in LO; lia]. inversion F2; subst. apply plain_endian. auto. }
    destruct E as (be&E). destruct (bufget_correct fl u little g arr bs iv i opt be OK NN D B I E S G1 G2) as (IN&OUT).
    specialize (Fit iv i eq_refl I). pose proof (Z.mod_pos_bound i (2 ^ 32) ltac:(lia)).
    destruct (le_lt_dec (Z.to_nat (i mod 2 ^ 32) + width g) (length bs)) as [H1|H1].
    - destruct (IN H1) as (u'&r&fl'&Eq&_). eauto.
    - rewrite OUT by lia. eauto. }
  destruct args as [|a0 [|a1 opt]]; try (exists u, EERROR; reflexivity).
  destruct opt as [|v [|v2 opt]]; [apply (K a0 a1 []); auto|apply (K a0 a1 [v]); auto|].
  exists u, EERROR. unfold bufget, decode_get_args.
  replace (Z.of_nat (length (a0 :: a1 :: v :: v2 :: opt)) =? 3) with false by (symmetry; apply Z.eqb_neq; cbn [length]; lia).
  replace (Z.of_nat (length (a0 :: a1 :: v :: v2 :: opt)) =? 2) with false by (symmetry; apply Z.eqb_neq; cbn [length]; lia). reflexivity.
Qed.
(* the condition on the index always holds on 64 bits *)
Theorem index_fits : b64 = true -> forall i n, (n <= 4)%nat -> i mod 2 ^ 32 + Z.of_nat n <= 2 ^ W.
Proof.
  intros B i n N. assert (E : A = A64) by (destruct A; [auto|discriminate]). subst. pose proof (Z.mod_pos_bound i (2 ^ 32) ltac:(lia)). change (2 ^ W) with (2 ^ 64). lia.
Qed.
End Arch.
