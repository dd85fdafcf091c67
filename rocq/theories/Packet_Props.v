(* C37: packets. *)
From Verif Require Import Base Crc_Model Crc_Spec Crc_Proofs Packet_Model Packet_Spec Packet_Proofs.
Local Open Scope Z_scope.

Section Packet.
Variable MAX : Z.
Hypothesis HM : 1 <= MAX < 2 ^ 24.

(* ready for a new packet: nothing pending *)
Definition synced (s : pstate) : Prop := W MAX s [] /\ bytes_left s <= 1.

Lemma process_app a : forall s b, process MAX s (a ++ b) =
  let! r := process MAX s a in let! q := process MAX (fst r) b in Ok (fst q, snd r ++ snd q).
Proof.
  induction a as [|x a IH]; intros s b; cbn [process app bind fst snd].
  - destruct (process MAX s b) as [[s1 o]| |]; auto.
  - destruct (process_byte MAX s x) as [[s1 o]| |]; cbn [bind fst snd]; auto. rewrite IH.
    destruct (process MAX s1 a) as [[s2 o2]| |]; cbn [bind fst snd]; auto.
    destruct (process MAX s2 b) as [[s3 o3]| |]; cbn [bind fst snd]; auto. rewrite app_assoc. auto.
Qed.
Lemma process_one s b : process MAX s [b] = process_byte MAX s b.
Proof. cbn [process]. destruct (process_byte MAX s b) as [[s1 o]| |]; cbn [bind fst snd]; auto. rewrite app_nil_r. auto. Qed.

Lemma fill l : forall s w, W MAX s w -> len w + len l < BUFLEN MAX -> len l < bytes_left s ->
  exists s', process MAX s l = Ok (s', []) /\ W MAX s' (w ++ l) /\ bytes_left s' = bytes_left s - len l.
Proof.
  induction l as [|b l IH]; intros s w Hw L1 L2; cbn [process].
  - exists s. rewrite app_nil_r. split; auto. split; auto. unfold len. cbn. lia.
  - unfold len in L1, L2. cbn [length] in *.
    rewrite (process_byte_push MAX HM s w b Hw) by (unfold len; lia).
    destruct (push_ok MAX HM s w b Hw) as (s2&->&W2&B2); [unfold len; lia|]. cbn [bind].
    rewrite B2. destruct (Z.ltb_spec 1 (bytes_left s)); [|lia]. cbn [bind fst snd].
    destruct (IH (mkP (rx_read s2) (rx_write s2) (bytes_left s - 1) (rx_buffer s2)) (w ++ [b])) as (s'&->&W'&B').
    + destruct W2; split; auto.
    + unfold len in *. rewrite app_length. cbn [length]. lia.
    + cbn. unfold len. lia.
    + cbn [bind fst snd app]. exists s'. rewrite <- app_assoc in W'. split; auto. split; auto.
      cbn [bytes_left] in B'. unfold len in *. cbn [length] in *. lia.
Qed.

(* one byte that makes try_decode ask for more *)
Lemma ask s w b n : W MAX s w -> len w + 1 < BUFLEN MAX -> bytes_left s <= 1 ->
  (forall j, try_decode MAX ((w ++ [b]) ++ j) (len w + 1) = Ok (-2, n, [])) ->
  exists s', process_byte MAX s b = Ok (s', []) /\ W MAX s' (w ++ [b]) /\ bytes_left s' = n.
Proof.
  intros Hw L B T. rewrite (process_byte_push MAX HM s w b Hw) by lia.
  destruct (push_ok MAX HM s w b Hw) as (s2&->&W2&B2); [lia|]. cbn [bind]. rewrite B2.
  destruct (Z.ltb_spec 1 (bytes_left s)); [lia|]. cbn [decode_loop].
  destruct (W_win _ _ _ W2) as (j&->). rewrite T. cbn [bind]. change (-2 =? -2) with true. cbn iota. cbn [bind].
  destruct (Z.eqb_spec (len w + 1) 0); [unfold len in *; lia|]. eexists. split; [reflexivity|].
  split; auto. destruct W2; split; auto.
Qed.

(* start bytes 3 and 4 are known only if the build allows such lengths *)
Definition enabled (h : list Z) : Prop := (hd 0 h = 3 -> 255 < MAX) /\ (hd 0 h = 4 -> 65535 < MAX).

Lemma dec_header n h r in_len : header n h -> enabled h -> len h <= in_len ->
  try_decode MAX (h ++ r) in_len = tail_dec MAX (h ++ r) in_len (len h) n.
Proof.
  intros Hh [E3 E4] L. unfold try_decode. destruct (Z.eqb_spec in_len 0) as [->|_]; [destruct Hh; cbn in L; lia|].
  destruct Hh as [n Hn|a b Ha Hb Hn|a b c Ha Hb Hc Hn]; cbn [hd] in E3, E4; cbn [app].
  - change (rd (2 :: n :: r) 0) with (Ok 2). change (rd (2 :: n :: r) 1) with (Ok n). cbn [bind]. change (2 =? 2) with true. cbn [negb andb].
    cbn in L. destruct (Z.ltb_spec in_len 2); [lia|]. destruct (Z.ltb_spec n 1); [lia|]. reflexivity.
  - specialize (E3 eq_refl). change (rd (3 :: a :: b :: r) 0) with (Ok 3). change (rd (3 :: a :: b :: r) 1) with (Ok a). change (rd (3 :: a :: b :: r) 2) with (Ok b).
    cbn [bind]. change (3 =? 2) with false. change (3 =? 3) with true. destruct (Z.ltb_spec 255 MAX); [|lia]. cbn [negb andb].
    cbn in L. destruct (Z.ltb_spec in_len 3); [lia|]. rewrite lor2 by auto. destruct (Z.ltb_spec (a * 256 + b) 255); [lia|]. reflexivity.
  - specialize (E4 eq_refl). change (rd (4 :: a :: b :: c :: r) 0) with (Ok 4). change (rd (4 :: a :: b :: c :: r) 1) with (Ok a). change (rd (4 :: a :: b :: c :: r) 2) with (Ok b). change (rd (4 :: a :: b :: c :: r) 3) with (Ok c).
    cbn [bind]. change (4 =? 2) with false. change (4 =? 3) with false. change (4 =? 4) with true. destruct (Z.ltb_spec 65535 MAX); [|lia].
    rewrite !andb_false_r. cbn [negb andb].
    cbn in L. destruct (Z.ltb_spec in_len 4); [lia|]. rewrite lor3 by auto. destruct (Z.ltb_spec (a * 65536 + b * 256 + c) 65535); [lia|]. reflexivity.
Qed.

Lemma dec_start n h r : header n h -> enabled h -> try_decode MAX ([hd 0 h] ++ r) 1 = Ok (-2, len h - 1, []).
Proof.
  intros Hh [E3 E4]. unfold try_decode. change (1 =? 0) with false. change (rd ([hd 0 h] ++ r) 0) with (Ok (hd 0 h)). cbn [bind].
  destruct Hh; cbn [hd] in *.
  - reflexivity.
  - specialize (E3 eq_refl). destruct (Z.ltb_spec 255 MAX); [|lia]. reflexivity.
  - specialize (E4 eq_refl). destruct (Z.ltb_spec 65535 MAX); [|lia]. rewrite andb_false_r. reflexivity.
Qed.

(* the last byte of a frame *)
Lemma dec_all h p c1 c2 j : header (len p) h -> enabled h -> len p <= MAX -> byte c1 -> byte c2 -> crc16 p = c1 * 256 + c2 ->
  try_decode MAX ((h ++ p ++ [c1; c2; 3]) ++ j) (len (h ++ p ++ [c1; c2; 3])) = Ok (len (h ++ p ++ [c1; c2; 3]), 0, [p]).
Proof.
  intros Hh En Lp B1 B2 C. rewrite <- app_assoc.
  assert (Lh : 2 <= len h <= 4) by (destruct Hh; cbn; lia).
  assert (Lf : len (h ++ p ++ [c1; c2; 3]) = len h + len p + 3) by (unfold len; rewrite !app_length; cbn [length]; lia).
  rewrite (dec_header (len p)) by (auto; rewrite Lf; unfold len; lia). rewrite Lf.
  unfold tail_dec. destruct (Z.ltb_spec MAX (len p)); [lia|]. destruct (Z.ltb_spec (len h + len p + 3) (len p + len h + 3)); [lia|].
  assert (NW : forall k x, nth_error [c1; c2; 3] k = Some x -> rd (h ++ (p ++ [c1; c2; 3]) ++ j) (len h + len p + Z.of_nat k) = Ok x).
  { intros k x Hx. apply rd_nth; [unfold len; lia|]. rewrite nth_error_app2 by (unfold len; lia).
    assert (Hk : (k < 3)%nat) by (change 3%nat with (length [c1; c2; 3]); apply nth_error_Some; congruence).
    rewrite nth_error_app1 by (rewrite app_length; cbn [length]; unfold len; lia).
    rewrite nth_error_app2 by (unfold len; lia). rewrite <- Hx. f_equal. unfold len. lia. }
  rewrite (NW 2%nat 3 eq_refl : rd _ (len h + len p + 2) = _). cbn [bind]. change (3 =? 3) with true. cbn [negb].
  assert (S1 : slice (h ++ (p ++ [c1; c2; 3]) ++ j) (len h) (len p) = Ok p).
  { unfold slice. rewrite !app_length. cbn [length]. match goal with |- (if ?c then _ else _) = _ => replace c with true by (symmetry; apply Z.leb_le; unfold len; lia) end.
    unfold len. rewrite !Nat2Z.id, skipn_app, skipn_all, Nat.sub_diag. cbn [skipn app].
    rewrite <- app_assoc, firstn_app, firstn_all, Nat.sub_diag, firstn_O, app_nil_r. auto. }
  rewrite S1. cbn [bind]. pose proof (NW 0%nat c1 eq_refl) as N0. rewrite Z.add_0_r in N0. rewrite N0.
  rewrite (NW 1%nat c2 eq_refl : rd _ (len h + len p + 1) = _). cbn [bind]. rewrite lor2 by auto.
  rewrite wrap_small by (unfold byte in *; lia). rewrite C, Z.eqb_refl. replace (len p + len h + 3) with (len h + len p + 3) by lia. reflexivity.
Qed.

Lemma last_byte s h p c1 c2 : W MAX s (h ++ p ++ [c1; c2]) -> bytes_left s <= 1 ->
  header (len p) h -> enabled h -> len p <= MAX -> byte c1 -> byte c2 -> crc16 p = c1 * 256 + c2 ->
  exists s', process_byte MAX s 3 = Ok (s', [p]) /\ synced s'.
Proof.
  intros Hw B Hh En Lp B1 B2 C. set (w := h ++ p ++ [c1; c2]) in *.
  assert (Lh : 2 <= len h <= 4) by (destruct Hh; cbn; lia).
  assert (Lw : len w = len h + len p + 2) by (unfold w, len; rewrite !app_length; cbn [length]; lia).
  assert (Lb : len w < BUFLEN MAX) by (unfold BUFLEN; lia).
  rewrite (process_byte_push MAX HM s w 3 Hw Lb).
  destruct (push_ok MAX HM s w 3 Hw Lb) as (s2&->&W2&Bl). cbn [bind]. rewrite Bl.
  destruct (Z.ltb_spec 1 (bytes_left s)); [lia|].
  replace (w ++ [3]) with (h ++ p ++ [c1; c2; 3]) in W2 by (unfold w; rewrite <- !app_assoc; auto).
  replace (len w + 1) with (len (h ++ p ++ [c1; c2; 3])) by (unfold len in *; rewrite !app_length in *; cbn [length] in *; lia).
  assert (Lf : len (h ++ p ++ [c1; c2; 3]) = len h + len p + 3) by (unfold len; rewrite !app_length; cbn [length]; lia).
  assert (P : 0 <= len p) by (unfold len; lia).
  destruct (Z.to_nat (len (h ++ p ++ [c1; c2; 3]))) as [|k] eqn:K; [lia|]. cbn [decode_loop].
  destruct (W_win _ _ _ W2) as (j&Ej). rewrite Ej. rewrite (dec_all h p c1 c2 j) by auto. cbn [bind].
  set (f := h ++ p ++ [c1; c2; 3]) in *.
  destruct (Z.eqb_spec (len f) (-2)); [lia|]. destruct (Z.ltb_spec 0 (len f)); [|lia].
  replace (wrap 32 (len f - len f)) with 0 by (rewrite Z.sub_diag; reflexivity).
  unfold try_decode. change (0 =? 0) with true. cbn iota. cbn [bind]. change (-2 =? -2) with true. cbn iota. cbn [bind]. change (0 =? 0) with true. cbn iota.
  eexists. split; [reflexivity|]. split; [apply W_empty; auto; apply W2|cbn; lia].
Qed.

(* a whole frame *)
Lemma frame_arrives s p h c1 c2 : synced s -> header (len p) h -> enabled h -> 1 <= len p <= MAX -> byte c1 -> byte c2 -> crc16 p = c1 * 256 + c2 ->
  exists s', process MAX s (h ++ p ++ [c1; c2; 3]) = Ok (s', [p]) /\ synced s'.
Proof.
  intros [Hw B] Hh En Lp B1 B2 C.
  assert (Lh : 2 <= len h <= 4) by (destruct Hh; cbn; lia).
  (* start byte *)
  assert (exists m z, h = [hd 0 h] ++ m ++ [z] /\ len m = len h - 2) as (m&z&Eh&Lm).
  { destruct Hh as [n ?|a b ? ? ?|a b c ? ? ? ?]; [exists [], n|exists [a], b|exists [a; b], c]; auto. }
  destruct (ask s [] (hd 0 h) (len h - 1)) as (s1&P1&W1&L1); auto.
  { unfold BUFLEN. cbn. lia. } { intros j. apply (dec_start (len p)); auto. }
  cbn [app] in W1.
  destruct (fill m s1 [hd 0 h] W1) as (s2&P2&W2&L2).
  { unfold BUFLEN. change (len [hd 0 h]) with 1. lia. } { lia. }
  destruct (ask s2 ([hd 0 h] ++ m) z (len p + 3)) as (s3&P3&W3&L3); auto.
  { unfold len in *. rewrite app_length. unfold BUFLEN. cbn [length]. lia. } { lia. }
  { intros j. replace ((([hd 0 h] ++ m) ++ [z])) with h by (rewrite <- app_assoc; auto).
    replace (len ([hd 0 h] ++ m) + 1) with (len h) by (unfold len in *; rewrite app_length; cbn [length]; lia).
    rewrite (dec_header (len p)) by (auto; lia). unfold tail_dec. destruct (Z.ltb_spec MAX (len p)); [lia|].
    destruct (Z.ltb_spec (len h) (len p + len h + 3)); [|lia]. f_equal. f_equal. f_equal. lia. }
  replace ((([hd 0 h] ++ m) ++ [z])) with h in W3 by (rewrite <- app_assoc; auto).
  destruct (fill (p ++ [c1; c2]) s3 h W3) as (s4&P4&W4&L4).
  { unfold len in *. rewrite app_length. cbn [length]. unfold BUFLEN. lia. } { unfold len in *. rewrite app_length. cbn [length]. lia. }
  destruct (last_byte s4 h p c1 c2 W4) as (s5&P5&S5); auto; [unfold len in *; rewrite app_length in *; cbn [length] in *; lia|lia|].
  exists s5. split; auto.
  replace (h ++ p ++ [c1; c2; 3]) with ([hd 0 h] ++ m ++ [z] ++ (p ++ [c1; c2]) ++ [3]).
  2: { rewrite Eh at 2. rewrite <- !app_assoc. auto. }
  rewrite process_app, process_one, P1. cbn [bind fst snd]. rewrite process_app, P2. cbn [bind fst snd].
  rewrite process_app, process_one, P3. cbn [bind fst snd]. rewrite process_app, P4. cbn [bind fst snd].
  rewrite process_one, P5. reflexivity.
Qed.

Lemma noise_dropped s b : synced s -> byte b -> b <> 2 -> b <> 3 -> b <> 4 -> exists s', process_byte MAX s b = Ok (s', []) /\ synced s'.
Proof.
  intros [Hw B] Hb N2 N3 N4. assert (L : len [] < BUFLEN MAX) by (unfold BUFLEN; cbn; lia).
  rewrite (process_byte_push MAX HM s [] b Hw L). destruct (push_ok MAX HM s [] b Hw L) as (s2&->&W2&Bl). cbn [bind]. rewrite Bl.
  destruct (Z.ltb_spec 1 (bytes_left s)); [lia|]. change (len [] + 1) with 1. cbn [Z.to_nat Pos.to_nat Pos.iter_op decode_loop].
  destruct (W_win _ _ _ W2) as (j&Ej). rewrite Ej. unfold try_decode at 1. change (1 =? 0) with false. cbn iota.
  change (rd (([] ++ [b]) ++ j) 0) with (Ok b). cbn [bind].
  destruct (Z.eqb_spec b 2); [lia|]. destruct (Z.eqb_spec b 3); [lia|]. destruct (Z.eqb_spec b 4); [lia|].
  rewrite !andb_false_r. cbn [negb andb]. change (-1 =? -2) with false. change (0 <? -1) with false. cbn iota. change (wrap 32 (1 - 1)) with 0.
  unfold try_decode. change (0 =? 0) with true. cbn iota. cbn [bind]. change (-2 =? -2) with true. cbn iota. cbn [bind]. change (0 =? 0) with true. cbn iota.
  eexists. split; [reflexivity|]. split; [apply W_empty; auto; apply W2|cbn; lia].
Qed.

Lemma land255 x : Z.land x 255 = x mod 256.
Proof. change 255 with (Z.ones 8). apply Z.land_ones. lia. Qed.

(* the sender's bytes are a frame *)
Lemma send_ok p : 1 <= len p <= MAX -> Forall byte p -> exists h c1 c2, packet_send MAX p = Ok (h ++ p ++ [c1; c2; 3]) /\
  header (len p) h /\ enabled h /\ byte c1 /\ byte c2 /\ crc16 p = c1 * 256 + c2.
Proof.
  intros Lp Fp. unfold packet_send. fold (len p).
  destruct (Z.eqb_spec (len p) 0); [lia|]. destruct (Z.ltb_spec MAX (len p)); [lia|]. cbn [orb].
  set (h := if len p <=? 255 then _ else _). set (c1 := Z.shiftr (crc16 p) 8 mod 256). set (c2 := Z.land (crc16 p) 255).
  assert (Hc : 0 <= crc16 p < 65536). { unfold crc16. rewrite crc16_bits by (auto; split; lia). apply crc_st. split; lia. }
  assert (HH : header (len p) h /\ enabled h).
  { unfold h, enabled. rewrite !land255, !Z.shiftr_div_pow2 by lia. change (2 ^ 8) with 256. change (2 ^ 16) with 65536.
    destruct (Z.leb_spec (len p) 255); [|destruct (Z.leb_spec (len p) 65535)]; cbn [hd].
    - rewrite Z.mod_small by lia. split; [constructor; lia|]. split; intros; lia.
    - split; [|split; intros; lia].
      assert (0 <= len p / 256 < 256) by (split; [apply Z.div_pos; lia|apply Z.div_lt_upper_bound; lia]).
      rewrite (Z.mod_small (len p / 256)) by lia. pose proof (Z.div_mod (len p) 256 ltac:(lia)). pose proof (Z.mod_pos_bound (len p) 256 ltac:(lia)).
      replace (len p) with (len p / 256 * 256 + len p mod 256) at 1 by lia. constructor; unfold byte; lia.
    - split; [|split; intros; lia].
      assert (0 <= len p / 65536 < 256) by (split; [apply Z.div_pos; lia|apply Z.div_lt_upper_bound; lia]).
      rewrite (Z.mod_small (len p / 65536)) by lia.
      assert (E : len p / 65536 = len p / 256 / 256) by (rewrite Z.div_div by lia; auto).
      pose proof (Z.div_mod (len p) 256 ltac:(lia)). pose proof (Z.mod_pos_bound (len p) 256 ltac:(lia)).
      pose proof (Z.div_mod (len p / 256) 256 ltac:(lia)). pose proof (Z.mod_pos_bound (len p / 256) 256 ltac:(lia)).
      replace (len p) with (len p / 65536 * 65536 + (len p / 256) mod 256 * 256 + len p mod 256) at 1 by lia. constructor; unfold byte; lia. }
  destruct HH as [HH EN].
  assert (Lh : 2 <= len h <= 4) by (destruct HH; cbn; lia).
  destruct (Z.leb_spec (Z.of_nat (length (h ++ p ++ [c1; c2; 3]))) (BUFLEN MAX)).
  - exists h, c1, c2. split; auto. split; auto. split; auto. unfold c1, c2. rewrite land255, Z.shiftr_div_pow2 by lia. change (2 ^ 8) with 256.
    assert (0 <= crc16 p / 256 < 256) by (split; [apply Z.div_pos; lia|apply Z.div_lt_upper_bound; lia]).
    rewrite (Z.mod_small (crc16 p / 256)) by lia. pose proof (Z.div_mod (crc16 p) 256 ltac:(lia)). pose proof (Z.mod_pos_bound (crc16 p) 256 ltac:(lia)).
    unfold byte. lia.
  - exfalso. rewrite !app_length in H0. cbn [length] in H0. unfold BUFLEN, len in *. lia.
Qed.

(* the bytes on the wire for a sequence of packets and noise *)
Inductive wire : list item -> list Z -> Prop :=
| wire_nil : wire [] []
| wire_packet p f is bs : packet_send MAX p = Ok f -> wire is bs -> wire (Packet p :: is) (f ++ bs)
| wire_noise b is bs : wire is bs -> wire (Noise b :: is) (b :: bs).

Lemma arrive is bs : wire is bs -> Forall (good MAX) is -> forall s, synced s -> exists s', process MAX s bs = Ok (s', payloads is) /\ synced s'.
Proof.
  induction 1 as [|p f is bs Sd Wr IH|b is bs Wr IH]; intros G s Hs; [exists s; auto| |]; inversion G as [|? ? G0 G3]; subst; cbn [good] in G0; destruct G0 as [G1 G2].
  - destruct (send_ok p G1 G2) as (h&c1&c2&E&H1&H2&H3&H4&H5). rewrite E in Sd. injection Sd as <-.
    destruct (frame_arrives s p h c1 c2 Hs H1 H2 G1 H3 H4 H5) as (s1&P1&S1). destruct (IH G3 s1 S1) as (s2&P2&S2).
    exists s2. rewrite process_app, P1. cbn [bind fst snd]. rewrite P2. auto.
  - destruct G2 as (N2&N3&N4). destruct (noise_dropped s b Hs G1 N2 N3 N4) as (s1&P1&S1). destruct (IH G3 s1 S1) as (s2&P2&S2).
    exists s2. cbn [process]. rewrite P1. cbn [bind fst snd]. rewrite P2. auto.
Qed.

Lemma synced_init : synced (packet_init MAX).
Proof. split; [apply W_init; auto|cbn; lia]. Qed.
End Packet.

(* ---- theorems ---- *)

(* Every admissible payload is sent, within the transmit buffer. *)
Theorem packet_send_defined MAX p : 1 <= MAX < 2 ^ 24 -> Forall byte p -> 1 <= len p <= MAX ->
  exists f, packet_send MAX p = Ok f /\ frame p f.
Proof.
  intros HM F L. destruct (send_ok MAX HM p L F) as (h&c1&c2&E&H1&H2&H3&H4&H5). exists (h ++ p ++ [c1; c2; 3]). split; auto. constructor; auto.
Qed.

(* An empty payload, or one that is too long for the buffer, is not sent. *)
Theorem packet_send_refuses MAX p : len p = 0 \/ MAX < len p -> packet_send MAX p = Ok [].
Proof.
  unfold packet_send, len. intros H.
  replace ((Z.of_nat (length p) =? 0) || (MAX <? Z.of_nat (length p))) with true; auto.
  symmetry. apply orb_true_iff. destruct H; [left|right]; lia.
Qed.
Example ex_refused : packet_send 4 [1; 2; 3; 4; 5] = Ok [] /\ packet_send 4 [1; 2; 3; 4] <> Ok [].
Proof. vm_compute. repeat split; discriminate. Qed.

(* Packets, with noise in between, arrive: each payload exactly once, unchanged
   and in order. *)
Theorem packets_arrive MAX is bs : 1 <= MAX < 2 ^ 24 -> Forall (good MAX) is -> wire MAX is bs ->
  exists s', process MAX (packet_init MAX) bs = Ok (s', payloads is).
Proof.
  intros HM G Wr. destruct (arrive MAX HM is bs Wr G (packet_init MAX) (synced_init MAX HM)) as (s'&P&_). eauto.
Qed.

(* Whatever bytes arrive, the receiver stays within its buffer, every byte is
   handled in finitely many steps, and each payload it delivers really was in the
   stream: framed, within the length limit and with its checksum. *)
Theorem receiver_safe MAX bs : 1 <= MAX < 2 ^ 24 -> Forall byte bs ->
  exists s' ps, process MAX (packet_init MAX) bs = Ok (s', ps) /\
    Forall (fun p => 1 <= len p <= MAX /\ exists f a b, frame p f /\ bs = a ++ f ++ b) ps.
Proof.
  intros HM F. destruct (process_ok MAX HM bs (packet_init MAX) [] [] (W_init MAX HM)) as (s'&w'&ps&E&_&H); auto.
  { exists []. auto. }
  exists s', ps. split; auto. eapply Forall_impl; [|exact H]. intros p (Hp&f&Hf&a&b&Ea). split; auto. exists f, a, b. auto.
Qed.

(* noise, a short packet, and one with a three byte header *)
Definition ex_items : list item := [Noise 7; Packet [1; 2; 3]; Noise 0; Packet (repeat 3 256)].
Definition ex_wire (is : list item) : list Z :=
  flat_map (fun i => match i with Packet p => match packet_send 512 p with Ok f => f | _ => [] end | Noise b => [b] end) is.
Example ex_packets :
  Forall (good 512) ex_items /\ wire 512 ex_items (ex_wire ex_items) /\
  match process 512 (packet_init 512) (ex_wire ex_items) with Ok (_, ps) => ps = payloads ex_items | _ => False end.
Proof.
  split; [|split; [|vm_compute; reflexivity]].
  - unfold ex_items. repeat apply Forall_cons; try apply Forall_nil; cbn [good]; unfold byte; try (split; [lia|lia]).
    + split; [vm_compute; split; discriminate|]. repeat constructor; lia.
    + split; [vm_compute; split; discriminate|]. apply Forall_forall. intros x Hx. apply repeat_spec in Hx. subst. unfold byte. lia.
  - change (ex_wire ex_items) with (7 :: (match packet_send 512 [1; 2; 3] with Ok f => f | _ => [] end) ++ 0 :: (match packet_send 512 (repeat 3 256) with Ok f => f | _ => [] end) ++ []).
    unfold ex_items. constructor. constructor; [vm_compute; reflexivity|]. constructor. constructor; [vm_compute; reflexivity|constructor].
Qed.

Print Assumptions packet_send_defined.
Print Assumptions packet_send_refuses.
Print Assumptions packets_arrive.
Print Assumptions receiver_safe.
