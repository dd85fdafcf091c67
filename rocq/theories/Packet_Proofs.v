From Verif Require Import Base Crc_Model Crc_Spec Crc_Proofs Packet_Model Packet_Spec.
Local Open Scope Z_scope.

Section Packet.
Variable MAX : Z.
Hypothesis HM : 1 <= MAX < 2 ^ 24.

Lemma rd_app_l {T} (w j : list T) i : 0 <= i < Z.of_nat (length w) -> rd (w ++ j) i = rd w i.
Proof. intros H. unfold rd. destruct (Z.ltb_spec i 0); auto. rewrite nth_error_app1 by lia. auto. Qed.

Lemma rd_some {T} (w : list T) i (P : T -> Prop) : 0 <= i < Z.of_nat (length w) -> Forall P w -> exists x, rd w i = Ok x /\ nth_error w (Z.to_nat i) = Some x /\ P x.
Proof.
  intros H F. destruct (nth_error w (Z.to_nat i)) as [x|] eqn:E.
  - exists x. split; [apply rd_nth; auto; lia|]. split; auto. rewrite Forall_forall in F. apply F. eapply nth_error_In; eauto.
  - exfalso. apply nth_error_None in E. lia.
Qed.

Lemma slice_app w j off n : 0 <= off -> 0 <= n -> off + n <= Z.of_nat (length w) ->
  slice (w ++ j) off n = Ok (firstn (Z.to_nat n) (skipn (Z.to_nat off) w)).
Proof.
  intros H0 H1 H2. unfold slice. rewrite app_length. destruct (Z.leb_spec (off + n) (Z.of_nat (length w + length j))); [|lia].
  rewrite skipn_app, firstn_app. replace (Z.to_nat n - length (skipn (Z.to_nat off) w))%nat with 0%nat by (rewrite skipn_length; lia).
  rewrite firstn_O, app_nil_r. auto.
Qed.

Lemma lor2 a b : byte a -> byte b -> Z.lor (Z.shiftl a 8) b = a * 256 + b.
Proof.
  intros Ha Hb. rewrite Z.shiftl_mul_pow2 by lia. rewrite <- Z.lxor_lor, <- Z.add_nocarry_lxor; auto;
  (apply Z.bits_inj'; intros n Hn; rewrite Z.land_spec, Z.bits_0; destruct (Z.lt_ge_cases n 8);
  [rewrite Z.mul_pow2_bits_low by lia; auto|]; destruct Hb; rewrite <- (Z.mod_small b (2 ^ 8)) by (change (2 ^ 8) with 256; lia); rewrite Z.mod_pow2_bits_high by lia; apply andb_false_r).
Qed.

Lemma lor3 a b c : byte a -> byte b -> byte c -> Z.lor (Z.lor (Z.shiftl a 16) (Z.shiftl b 8)) c = a * 65536 + b * 256 + c.
Proof.
  intros Ha Hb Hc. replace (Z.shiftl a 16) with (Z.shiftl (Z.shiftl a 8) 8) by (rewrite Z.shiftl_shiftl by lia; auto).
  rewrite <- Z.shiftl_lor, (lor2 a b) by auto.
  rewrite Z.shiftl_mul_pow2 by lia. change (2 ^ 8) with 256.
  assert (E : Z.lor ((a * 256 + b) * 256) c = (a * 256 + b) * 256 + c); [|lia].
  rewrite <- Z.lxor_lor, <- Z.add_nocarry_lxor; auto;
  (apply Z.bits_inj'; intros n Hn; rewrite Z.land_spec, Z.bits_0; change 256 with (2 ^ 8) at 2; destruct (Z.lt_ge_cases n 8);
  [rewrite Z.mul_pow2_bits_low by lia; auto|]; destruct Hc; rewrite <- (Z.mod_small c (2 ^ 8)) by (change (2 ^ 8) with 256; lia); rewrite Z.mod_pow2_bits_high by lia; apply andb_false_r).
Qed.

(* what try_decode can answer for a window w *)
Inductive answer (w : list Z) : Z * Z * list (list Z) -> Prop :=
| a_more n : 1 <= n -> answer w (-2, n, [])
| a_bad : w <> [] -> answer w (-1, 0, [])
| a_got p f rest : w = f ++ rest -> frame p f -> 1 <= len p <= MAX -> answer w (len f, 0, [p]).

Lemma split_at (w : list Z) (n : nat) x : nth_error w n = Some x -> w = firstn n w ++ x :: skipn (S n) w.
Proof.
  revert n. induction w as [|y w IH]; intros [|n] H; try discriminate H; cbn in *.
  - injection H as ->. auto.
  - f_equal. apply IH; auto.
Qed.

(* the tail of try_decode, once the header says len *)
Definition tail_dec (buffer : list Z) (in_len data_start n : Z) : res (Z * Z * list (list Z)) :=
  if MAX <? n then Ok (-1, 0, [])
  else if in_len <? n + data_start + 3 then Ok (-2, (n + data_start + 3) - in_len, [])
  else
    let! stop := rd buffer (data_start + n + 2) in
    if negb (stop =? 3) then Ok (-1, 0, [])
    else
      let! payload := slice buffer data_start n in
      let! c1 := rd buffer (data_start + n) in
      let! c2 := rd buffer (data_start + n + 1) in
      if crc16 payload =? wrap 16 (Z.lor (Z.shiftl c1 8) c2)
      then Ok (n + data_start + 3, 0, [payload])
      else Ok (-1, 0, []).

Lemma tail_answer w j h rest0 n : Forall byte w -> w = h ++ rest0 -> header n h ->
  exists a, tail_dec (w ++ j) (len w) (len h) n = Ok a /\ answer w a.
Proof.
  intros F Ew Hh. assert (Hn : 1 <= n) by (destruct Hh; unfold byte in *; lia).
  assert (Hl : 2 <= len h <= 4) by (destruct Hh; cbn; lia).
  assert (NE : w <> []) by (rewrite Ew; destruct Hh; discriminate).
  unfold tail_dec. destruct (Z.ltb_spec MAX n); [eexists; split; [reflexivity|apply a_bad; auto]|].
  destruct (Z.ltb_spec (len w) (n + len h + 3)); [eexists; split; [reflexivity|apply a_more; lia]|].
  unfold len in H0.
  destruct (rd_some w (len h + n + 2) byte) as (stop&E1&N1&_); [unfold len in *; lia|auto|].
  rewrite rd_app_l, E1 by (unfold len in *; lia). cbn [bind].
  destruct (Z.eqb_spec stop 3) as [->|]; cbn [negb]; [|eexists; split; [reflexivity|apply a_bad; auto]].
  rewrite slice_app by (unfold len in *; lia). cbn [bind].
  destruct (rd_some w (len h + n) byte) as (c1&E2&N2&B1); [unfold len in *; lia|auto|].
  destruct (rd_some w (len h + n + 1) byte) as (c2&E3&N3&B2); [unfold len in *; lia|auto|].
  rewrite !rd_app_l by (unfold len in *; lia). rewrite E2, E3. cbn [bind]. rewrite lor2 by auto.
  rewrite wrap_small by (unfold byte in *; lia).
  set (p := firstn (Z.to_nat n) (skipn (Z.to_nat (len h)) w)).
  destruct (Z.eqb_spec (crc16 p) (c1 * 256 + c2)) as [C|]; [|eexists; split; [reflexivity|apply a_bad; auto]].
  eexists. split; [reflexivity|].
  assert (Lp : len p = n) by (unfold len, p; rewrite firstn_length, skipn_length; unfold len in *; lia).
  assert (R : skipn (Z.to_nat (len h)) w = rest0).
  { rewrite Ew. unfold len. rewrite Nat2Z.id, skipn_app, skipn_all, Nat.sub_diag. auto. }
  assert (Ep : rest0 = p ++ skipn (Z.to_nat n) rest0) by (unfold p; rewrite R, firstn_skipn; auto).
  set (q := skipn (Z.to_nat n) rest0) in *.
  assert (Q : forall k x, nth_error w (Z.to_nat (len h + n + Z.of_nat k)) = Some x -> nth_error q k = Some x).
  { intros k x Hx. rewrite Ew, Ep in Hx. rewrite nth_error_app2 in Hx by (unfold len in *; lia).
    rewrite nth_error_app2 in Hx by (unfold len in *; lia). rewrite <- Hx. f_equal. unfold len in *. lia. }
  assert (Q0 := Q 0%nat c1). rewrite Z.add_0_r in Q0. specialize (Q0 N2). assert (Q1 := Q 1%nat c2 N3). assert (Q2 := Q 2%nat 3 N1).
  destruct q as [|x0 [|x1 [|x2 q]]]; try discriminate. cbn in Q0, Q1, Q2. injection Q0 as ->. injection Q1 as ->. injection Q2 as ->.
  replace (n + len h + 3) with (len (h ++ p ++ [c1; c2; 3])) by (rewrite <- Lp; unfold len; rewrite !app_length; cbn [length]; lia).
  apply a_got with (rest := q); [|constructor; auto; rewrite Lp; auto|lia].
  rewrite Ew, Ep, <- !app_assoc. reflexivity.
Qed.

Lemma try_decode_answer w j : Forall byte w -> exists a, try_decode MAX (w ++ j) (len w) = Ok a /\ answer w a.
Proof.
  intros F. unfold try_decode. destruct w as [|b0 w1]; [eexists; split; [reflexivity|apply a_more; lia]|].
  destruct (Z.eqb_spec (len (b0 :: w1)) 0) as [E|_]; [unfold len in E; cbn [length] in E; lia|].
  change (rd ((b0 :: w1) ++ j) 0) with (Ok b0). cbn [bind].
  destruct (Z.eqb_spec b0 2) as [->|N2]; cbn [negb andb].
  - (* 8 bit length *)
    destruct (Z.ltb_spec (len (2 :: w1)) 2); [eexists; split; [reflexivity|apply a_more; lia]|].
    destruct w1 as [|b1 w2]; [cbn in H; lia|]. change (rd ((2 :: b1 :: w2) ++ j) 1) with (Ok b1). cbn [bind].
    inversion F as [|? ? _ F1]; inversion F1 as [|? ? Hb1 _]; subst.
    destruct (Z.ltb_spec b1 1); [eexists; split; [reflexivity|apply a_bad; discriminate]|].
    apply (tail_answer (2 :: b1 :: w2) j [2; b1] w2 b1); auto. constructor. unfold byte in Hb1. lia.
  - destruct (255 <? MAX) eqn:M1; cbn [andb].
    + destruct (Z.eqb_spec b0 3) as [->|N3]; cbn [negb andb].
      * destruct (Z.ltb_spec (len (3 :: w1)) 3); [eexists; split; [reflexivity|apply a_more; lia]|].
        destruct w1 as [|b1 [|b2 w2]]; [cbn in H; lia|cbn in H; lia|].
        change (rd ((3 :: b1 :: b2 :: w2) ++ j) 1) with (Ok b1). change (rd ((3 :: b1 :: b2 :: w2) ++ j) 2) with (Ok b2). cbn [bind].
        inversion F as [|? ? _ F1]; inversion F1 as [|? ? Hb1 F2]; inversion F2 as [|? ? Hb2 _]; subst.
        rewrite lor2 by auto.
        destruct (Z.ltb_spec (b1 * 256 + b2) 255); [eexists; split; [reflexivity|apply a_bad; discriminate]|].
        apply (tail_answer (3 :: b1 :: b2 :: w2) j [3; b1; b2] w2 _); auto. constructor; auto.
      * destruct (65535 <? MAX) eqn:M2; cbn [negb andb]; [|eexists; split; [reflexivity|apply a_bad; discriminate]].
        destruct (Z.eqb_spec b0 4) as [->|N4]; cbn [negb andb]; [|eexists; split; [reflexivity|apply a_bad; discriminate]].
        destruct (Z.ltb_spec (len (4 :: w1)) 4); [eexists; split; [reflexivity|apply a_more; lia]|].
        destruct w1 as [|b1 [|b2 [|b3 w2]]]; [cbn in H; lia|cbn in H; lia|cbn in H; lia|].
        change (rd ((4 :: b1 :: b2 :: b3 :: w2) ++ j) 1) with (Ok b1). change (rd ((4 :: b1 :: b2 :: b3 :: w2) ++ j) 2) with (Ok b2).
        change (rd ((4 :: b1 :: b2 :: b3 :: w2) ++ j) 3) with (Ok b3). cbn [bind].
        inversion F as [|? ? _ F1]; inversion F1 as [|? ? Hb1 F2]; inversion F2 as [|? ? Hb2 F3]; inversion F3 as [|? ? Hb3 _]; subst.
        rewrite lor3 by auto.
        destruct (Z.ltb_spec (b1 * 65536 + b2 * 256 + b3) 65535); [eexists; split; [reflexivity|apply a_bad; discriminate]|].
        apply (tail_answer (4 :: b1 :: b2 :: b3 :: w2) j [4; b1; b2; b3] w2 _); auto. constructor; auto.
    + apply Z.ltb_ge in M1. destruct (Z.ltb_spec 65535 MAX); [lia|]. cbn [negb andb].
      eexists; split; [reflexivity|apply a_bad; discriminate].
Qed.

(* ---- the receive buffer ---- *)
Record W (s : pstate) (w : list Z) : Prop := {
  W_len : len (rx_buffer s) = BUFLEN MAX;
  W_read : 0 <= rx_read s; W_write : rx_write s = rx_read s + len w; W_max : rx_write s <= BUFLEN MAX;
  W_win : exists j, skipn (Z.to_nat (rx_read s)) (rx_buffer s) = w ++ j }.

Lemma frame_len p f : frame p f -> 5 <= len f.
Proof.
  destruct 1 as [h c1 c2 Hh]. unfold len in *. rewrite !app_length. cbn [length].
  inversion Hh; subst; cbn [length]; unfold byte in *; lia.
Qed.

Lemma W_drop s w1 w2 bl : W s (w1 ++ w2) -> W (mkP (rx_read s + len w1) (rx_write s) bl (rx_buffer s)) w2.
Proof.
  intros [a b c d (j&e)]. unfold len in *. rewrite app_length in c. split; cbn; try lia; unfold len; try lia.
  exists j. rewrite Z2Nat.inj_add, Nat2Z.id by lia. rewrite Nat.add_comm.
  assert (SK : forall (T : Type) n m (l : list T), skipn (n + m) l = skipn n (skipn m l)).
  { clear. intros T n m. induction m as [|m IH]; intros l; [rewrite Nat.add_0_r; auto|]. rewrite Nat.add_succ_r. destruct l; [rewrite !skipn_nil; auto|]. apply IH. }
  rewrite SK, e, <- app_assoc. rewrite skipn_app, skipn_all, Nat.sub_diag. auto.
Qed.

Definition part (f t : list Z) : Prop := exists a b, t = a ++ f ++ b.
Definition heard (t : list Z) (p : list Z) : Prop := 1 <= len p <= MAX /\ exists f, frame p f /\ part f t.

Lemma decode_loop_ok k : forall s w out, W s w -> Forall byte w -> (length w < k)%nat ->
  exists s' w' ps, decode_loop MAX k s (len w) out = Ok (s', len w', out ++ ps) /\ W s' w' /\ 1 <= bytes_left s' /\
    (exists u, w = u ++ w') /\ Forall (heard w) ps.
Proof.
  induction k as [|k IH]; intros s w out Hw F L; [lia|]. cbn [decode_loop].
  destruct (W_win _ _ Hw) as (j&E). rewrite E. destruct (try_decode_answer w j F) as (a&->&An). cbn [bind].
  destruct Hw as [h1 h2 h3 h4 h5]. assert (Hw : W s w) by (split; auto).
  assert (Lw : len w < 2 ^ 32) by (unfold BUFLEN in *; lia).
  inversion An as [n Hn Ea|NE Ea|p f rest Ew Hf Hp Ea]; subst a.
  - change (-2 =? -2) with true. cbn iota. eexists _, w, []. split; [reflexivity|].
    split; [split; auto|]. split; [exact Hn|]. split; [exists []; auto|constructor].
  - change (-1 =? -2) with false. change (0 <? -1) with false. cbn iota.
    destruct w as [|b w]; [congruence|]. inversion F; subst.
    replace (wrap 32 (len (b :: w) - 1)) with (len w) by (unfold len in *; cbn [length] in *; rewrite wrap_small; lia).
    destruct (IH (mkP (rx_read s + 1) (rx_write s) 0 (rx_buffer s)) w (out ++ [])) as (s'&w'&ps&D&D1&D2&(u&D3)&D4); auto.
    + apply (W_drop s [b] w 0). exact Hw.
    + cbn [length] in L. lia.
    + rewrite D. exists s', w', ps. rewrite app_nil_r. split; auto. split; auto. split; auto.
      split; [exists (b :: u); cbn; congruence|]. eapply Forall_impl; [|exact D4]. intros p (Hp&f&Hf&x&y&->). split; auto.
      exists f. split; auto. exists (b :: x), y. auto.
  - pose proof (frame_len _ _ Hf) as Lf. destruct (Z.eqb_spec (len f) (-2)); [lia|]. destruct (Z.ltb_spec 0 (len f)); [|lia].
    rewrite Ew in *.
    replace (wrap 32 (len (f ++ rest) - len f)) with (len rest) by (unfold len in *; rewrite app_length in *; rewrite wrap_small; lia).
    destruct (IH (mkP (rx_read s + len f) (rx_write s) 0 (rx_buffer s)) rest (out ++ [p])) as (s'&w'&ps&D&D1&D2&(u&D3)&D4); auto.
    + apply (W_drop s f rest 0). exact Hw.
    + apply Forall_app in F. tauto.
    + rewrite app_length in L. unfold len in Lf. lia.
    + rewrite D. exists s', w', (p :: ps). rewrite <- app_assoc. split; auto. split; auto. split; auto.
      split; [exists (f ++ u); rewrite <- app_assoc; congruence|]. constructor.
      * split; auto. exists f. split; auto. exists [], rest. auto.
      * eapply Forall_impl; [|exact D4]. intros p' (Hp'&f'&Hf'&x&y&->). split; auto.
        exists f'. split; auto. exists (f ++ x), y. rewrite <- app_assoc. auto.
Qed.

(* the first half of process_byte: the byte is stored after the window *)
Definition push (s : pstate) (b : Z) : res pstate :=
  let data_len := wrap 32 (rx_write s - rx_read s) in
  let! s1 :=
    (if BUFLEN MAX <=? rx_write s then
       let! m := slice (rx_buffer s) (rx_read s) data_len in
       Ok (mkP 0 data_len (bytes_left s) (m ++ skipn (Z.to_nat data_len) (rx_buffer s)))
     else Ok s) in
  let! bf := wr (rx_buffer s1) (rx_write s1) b in
  Ok (mkP (rx_read s1) (rx_write s1 + 1) (bytes_left s1) bf).

Lemma upd_skip (l : list Z) r w j b : skipn r l = w ++ j -> (r + length w < length l)%nat ->
  exists j', skipn r (upd l (r + length w) b) = (w ++ [b]) ++ j'.
Proof.
  revert r. induction l as [|x l IH]; intros r E L; [cbn in L; lia|].
  destruct r as [|r].
  - cbn [skipn Nat.add] in *. rewrite E. destruct j as [|y j].
    { rewrite app_nil_r in E. rewrite E in L. lia. }
    exists j. rewrite upd_mid, <- app_assoc. auto.
  - cbn [skipn Nat.add upd] in *. apply IH; auto. cbn [length] in L. lia.
Qed.

Lemma push_ok s w b : W s w -> len w < BUFLEN MAX -> exists s', push s b = Ok s' /\ W s' (w ++ [b]) /\ bytes_left s' = bytes_left s.
Proof.
  intros [a1 a2 a3 a4 (j&a5)] L. unfold push.
  assert (D : wrap 32 (rx_write s - rx_read s) = len w) by (rewrite wrap_small; unfold BUFLEN, len in *; lia). rewrite D.
  assert (ST : exists s1, (if BUFLEN MAX <=? rx_write s then
       let! m := slice (rx_buffer s) (rx_read s) (len w) in
       Ok (mkP 0 (len w) (bytes_left s) (m ++ skipn (Z.to_nat (len w)) (rx_buffer s)))
     else Ok s) = Ok s1 /\ W s1 w /\ rx_write s1 < BUFLEN MAX /\ bytes_left s1 = bytes_left s).
  { destruct (Z.leb_spec (BUFLEN MAX) (rx_write s)).
    - unfold slice. destruct (Z.leb_spec (rx_read s + len w) (Z.of_nat (length (rx_buffer s)))); [|unfold len in *; lia].
      cbn [bind]. eexists. split; [reflexivity|]. cbn [rx_write bytes_left]. split; [|split; [lia|auto]].
      rewrite a5, firstn_app. replace (Z.to_nat (len w)) with (length w) by (unfold len; lia).
      rewrite firstn_all, Nat.sub_diag, firstn_O, app_nil_r.
      assert (Lw : (length w <= length (rx_buffer s))%nat) by (unfold len in *; lia).
      split; cbn; unfold len in *; try lia.
      + rewrite app_length, skipn_length. lia.
      + exists (skipn (length w) (rx_buffer s)). auto.
    - exists s. split; auto. split; [split; eauto|auto]. }
  destruct ST as (s1&->&[b1 b2 b3 b4 (j1&b5)]&Lt&Bl). cbn [bind].
  rewrite wr_ok by (unfold len in *; lia). cbn [bind]. eexists. split; [reflexivity|]. split; [|auto].
  destruct (upd_skip (rx_buffer s1) (Z.to_nat (rx_read s1)) w j1 b b5) as (j'&E'); [unfold len in *; lia|].
  split; cbn; unfold len in *; rewrite ?app_length, ?length_upd; cbn [length]; try lia.
  exists j'. rewrite <- E'. do 2 f_equal. lia.
Qed.

Lemma process_byte_push s w b : W s w -> len w < BUFLEN MAX ->
  process_byte MAX s b =
  let! s2 := push s b in
  if 1 <? bytes_left s2 then Ok (mkP (rx_read s2) (rx_write s2) (bytes_left s2 - 1) (rx_buffer s2), [])
  else
    let! r := decode_loop MAX (S (Z.to_nat (len w + 1))) s2 (len w + 1) [] in
    let '(s3, data_len, out) := r in
    if data_len =? 0 then Ok (mkP 0 0 (bytes_left s3) (rx_buffer s3), out)
    else Ok (s3, out).
Proof.
  intros [a1 a2 a3 a4 (j&a5)] L. unfold process_byte, push.
  assert (D : wrap 32 (rx_write s - rx_read s) = len w) by (rewrite wrap_small; unfold BUFLEN, len in *; lia). rewrite D.
  destruct (Z.leb_spec (BUFLEN MAX) (len w)); [lia|].
  destruct (BUFLEN MAX <=? rx_write s); [destruct (slice (rx_buffer s) (rx_read s) (len w)); cbn [bind]; auto|cbn [bind]].
  all: match goal with |- bind (wr ?x ?y ?z) _ = _ => destruct (wr x y z); cbn [bind]; auto end.
Qed.

Lemma W_empty bl b : len b = BUFLEN MAX -> W (mkP 0 0 bl b) [].
Proof. intros H. split; cbn; unfold len in *; cbn; try (unfold BUFLEN in *; lia). exists b. auto. Qed.

(* every byte, whatever the state: no fault; what is delivered was heard *)
Lemma process_byte_ok s w b : W s w -> Forall byte w -> byte b ->
  exists s' w' ps, process_byte MAX s b = Ok (s', ps) /\ W s' w' /\ (exists u, w ++ [b] = u ++ w') /\ Forall (heard (w ++ [b])) ps.
Proof.
  intros Hw F Hb. destruct (Z.lt_ge_cases (len w) (BUFLEN MAX)) as [L|L].
  - rewrite (process_byte_push s w b Hw L). destruct (push_ok s w b Hw L) as (s2&->&W2&B2). cbn [bind].
    destruct (1 <? bytes_left s2).
    + eexists _, (w ++ [b]), []. split; [reflexivity|]. split; [destruct W2; split; auto|]. split; [exists []; auto|constructor].
    + replace (len w + 1) with (len (w ++ [b])) by (unfold len; rewrite app_length; cbn [length]; lia).
      destruct (decode_loop_ok (S (Z.to_nat (len (w ++ [b])))) s2 (w ++ [b]) []) as (s'&w'&ps&->&W'&_&U&H); auto.
      { apply Forall_app; auto. } { unfold len. lia. }
      cbn [bind app]. destruct (Z.eqb_spec (len w') 0) as [E|].
      * assert (w' = []) as -> by (destruct w'; auto; unfold len in E; cbn [length] in E; lia).
        eexists _, [], ps. split; [reflexivity|]. split; auto. apply W_empty. apply W'.
      * exists s', w', ps. auto.
  - unfold process_byte. destruct Hw as [a1 a2 a3 a4 (j&a5)].
    assert (D : wrap 32 (rx_write s - rx_read s) = len w) by (rewrite wrap_small; unfold BUFLEN, len in *; lia). rewrite D.
    destruct (Z.leb_spec (BUFLEN MAX) (len w)); [|lia].
    rewrite wr_ok by (unfold len, BUFLEN in *; lia). cbn [bind].
    eexists _, [b], []. split; [reflexivity|]. split; [|split; [exists w; auto|constructor]].
    destruct (rx_buffer s) as [|x l] eqn:El; [unfold len, BUFLEN in *; cbn in a1; lia|].
    split; cbn; unfold len, BUFLEN in *; cbn [length] in *; try lia. exists l. auto.
Qed.

Lemma process_ok bs : forall s w t, W s w -> Forall byte t -> Forall byte bs -> (exists u, t = u ++ w) ->
  exists s' w' ps, process MAX s bs = Ok (s', ps) /\ W s' w' /\ Forall (heard (t ++ bs)) ps.
Proof.
  induction bs as [|b bs IH]; intros s w t Hw Ft Fb (u&Eu); cbn [process].
  - exists s, w, []. auto.
  - inversion Fb; subst. apply Forall_app in Ft as [Fu Fw].
    destruct (process_byte_ok s w b Hw Fw) as (s1&w1&p1&->&W1&(u1&E1)&H1'); auto. cbn [bind fst snd].
    destruct (IH s1 w1 (u ++ w ++ [b])) as (s2&w2&p2&->&W2&H2'); auto.
    { apply Forall_app. split; auto. apply Forall_app. auto. }
    { exists (u ++ u1). rewrite <- app_assoc, <- E1. auto. }
    cbn [bind fst snd]. exists s2, w2, (p1 ++ p2). split; auto. split; auto.
    replace ((u ++ w) ++ b :: bs) with ((u ++ w ++ [b]) ++ bs) by (rewrite <- !app_assoc; auto).
    apply Forall_app. split; auto. eapply Forall_impl; [|exact H1'].
    intros p (Hp&f&Hf&x&y&E). split; auto. exists f. split; auto. exists (u ++ x), (y ++ bs). rewrite E. rewrite <- !app_assoc. auto.
Qed.

Lemma W_init : W (packet_init MAX) [].
Proof. apply W_empty. unfold len. rewrite repeat_length. unfold BUFLEN. lia. Qed.

End Packet.
