(* Lemmas on pixels: Disp_Model against Disp_Spec. *)
From Verif Require Import Base Disp_Model Disp_Spec.
From Verif Require Value_Proofs.
Local Open Scope Z_scope.

Ltac Zify.zify_post_hook ::= idtac.

(* ---- finite checks ---- *)
Definition upto (n : Z) : list Z := map Z.of_nat (seq 0 (Z.to_nat n)).
Lemma upto_all n f : forallb f (upto n) = true -> forall x, 0 <= x < n -> f x = true.
Proof.
  intros H x Hx. rewrite forallb_forall in H. apply H. unfold upto. apply in_map_iff.
  exists (Z.to_nat x). split; [lia|]. apply in_seq. lia.
Qed.

(* ---- bytes ---- *)
Lemma byte_range bs i : Forall (fun b => 0 <= b < 256) bs -> 0 <= byte_at bs i < 256.
Proof.
  intros H. unfold byte_at. destruct (Nat.ltb_spec (Z.to_nat i) (length bs)).
  - rewrite Forall_forall in H. apply H. apply nth_In. auto.
  - rewrite nth_overflow by auto. lia.
Qed.
Definition put (bs : list Z) (i v : Z) : list Z := upd bs (Z.to_nat (5 + i)) v.
Lemma rdd_ok bs i : 0 <= i < Z.of_nat (length bs) - 5 -> rdd bs i = Ok (byte_at bs (5 + i)).
Proof.
  intros H. unfold rdd. destruct (Z.ltb_spec i 0); try lia. unfold HEADER. apply rd_ok. lia.
Qed.
Lemma wrd_ok bs i v : 0 <= i < Z.of_nat (length bs) - 5 -> wrd bs i v = Ok (put bs i v).
Proof.
  intros H. unfold wrd. destruct (Z.ltb_spec i 0); try lia. unfold HEADER. apply wr_ok. lia.
Qed.
Lemma length_put bs i v : length (put bs i v) = length bs.
Proof. apply length_upd. Qed.
Lemma byte_at_put bs i v j : 0 <= i < Z.of_nat (length bs) - 5 -> 0 <= j ->
  byte_at (put bs i v) (5 + j) = if j =? i then v else byte_at bs (5 + j).
Proof.
  intros H Hj. unfold byte_at, put. destruct (Z.eqb_spec j i) as [->|N].
  - apply nth_upd_eq. lia.
  - apply nth_upd_neq. lia.
Qed.
Lemma byte_at_head bs i v j : 0 <= i -> 0 <= j < 5 -> byte_at (put bs i v) j = byte_at bs j.
Proof. intros. unfold byte_at, put. apply nth_upd_neq. lia. Qed.
Lemma Forall_upd {A} (P : A -> Prop) l n x : Forall P l -> P x -> Forall P (upd l n x).
Proof.
  intros H Hx. revert n. induction H; intros [|n]; simpl; constructor; auto.
Qed.
Lemma put_image bs w h fmt i v : image bs w h fmt -> 0 <= i -> 0 <= v < 256 -> image (put bs i v) w h fmt.
Proof.
  intros (B & L & H) Hi Hv. unfold image. rewrite length_put, !byte_at_head by lia.
  split; [apply Forall_upd; auto|]. auto.
Qed.

(* ---- the header ---- *)
Lemma lor8 a b : 0 <= b < 256 -> Z.lor (Z.shiftl a 8) b = a * 256 + b.
Proof. intros. rewrite Z.shiftl_mul_pow2 by lia. rewrite Value_Proofs.lor_add by lia. reflexivity. Qed.
Lemma rd_byte bs i : 0 <= i < Z.of_nat (length bs) -> rd bs i = Ok (byte_at bs i).
Proof. apply rd_ok. Qed.
Lemma image_width bs w h fmt : image bs w h fmt -> width bs = Ok w.
Proof.
  intros (B & L & E & _). unfold width. rewrite !rd_byte by lia. cbn [bind].
  pose proof (byte_range bs 0 B). pose proof (byte_range bs 1 B).
  rewrite lor8 by lia. rewrite wrap_small by lia. rewrite E. reflexivity.
Qed.
Lemma image_height bs w h fmt : image bs w h fmt -> height bs = Ok h.
Proof.
  intros (B & L & _ & E & _). unfold height. rewrite !rd_byte by lia. cbn [bind].
  pose proof (byte_range bs 2 B). pose proof (byte_range bs 3 B).
  rewrite lor8 by lia. rewrite wrap_small by lia. rewrite E. reflexivity.
Qed.
Lemma image_format bs w h fmt : image bs w h fmt -> format bs = Ok fmt.
Proof.
  intros (B & L & _ & _ & E & _). unfold format. rewrite rd_byte by lia. rewrite E. reflexivity.
Qed.
Lemma image_dims bs w h fmt : image bs w h fmt -> 0 <= w < 2 ^ 16 /\ 0 <= h < 2 ^ 16.
Proof.
  intros (B & L & E1 & E2 & _).
  pose proof (byte_range bs 0 B). pose proof (byte_range bs 1 B).
  pose proof (byte_range bs 2 B). pose proof (byte_range bs 3 B). lia.
Qed.

(* ---- colors ---- *)
Lemma land_mod a k m : 0 <= k -> m = 2 ^ k - 1 -> Z.land a m = a mod 2 ^ k.
Proof. intros Hk ->. rewrite Z.sub_1_r. rewrite <- Z.ones_equiv. apply Z.land_ones. auto. Qed.

Lemma to332_eq c : 0 <= c < 2 ^ 32 -> to332 c = packed 8 c.
Proof.
  intros Hc. unfold to332, packed, wrap. cbv beta iota zeta. simpl (8 =? _). cbv iota.
  rewrite (land_mod _ 3 7), (land_mod _ 2 3) by (lia || reflexivity).
  rewrite !Z.shiftl_mul_pow2, !Z.shiftr_div_pow2 by lia.
  assert (0 <= c / 2 ^ 21 < 2048) by (split; [apply Z.div_pos; lia | apply Z.div_lt_upper_bound; lia]).
  assert (0 <= c / 2 ^ 13) by (apply Z.div_pos; lia).
  assert (0 <= c / 2 ^ 6) by (apply Z.div_pos; lia).
  set (r := c / 2 ^ 21) in *. set (g := c / 2 ^ 13) in *. set (b := c / 2 ^ 6) in *.
  replace (((r mod 2 ^ 8) * 2 ^ 5) mod 2 ^ 8) with ((r mod 8) * 2 ^ 5)
    by (clear -H; Z.to_euclidean_division_equations; lia).
  replace ((((g mod 2 ^ 8) mod 2 ^ 3) * 2 ^ 2) mod 2 ^ 8) with ((g mod 8) * 4)
    by (clear -H0; Z.to_euclidean_division_equations; lia).
  replace ((b mod 2 ^ 8) mod 2 ^ 2) with (b mod 4) by (clear -H1; Z.to_euclidean_division_equations; lia).
  pose proof (Z.mod_pos_bound r 8). pose proof (Z.mod_pos_bound g 8). pose proof (Z.mod_pos_bound b 4).
  rewrite Value_Proofs.lor_add by lia.
  replace ((r mod 8) * 2 ^ 5 + (g mod 8) * 4) with (((r mod 8) * 8 + g mod 8) * 2 ^ 2) by lia.
  rewrite Value_Proofs.lor_add by lia. lia.
Qed.
Lemma to565_eq c : 0 <= c < 2 ^ 32 -> to565 c = packed 16 c.
Proof.
  intros Hc. unfold to565, packed, wrap. cbv beta iota zeta. simpl (16 =? _). cbv iota.
  rewrite (land_mod _ 6 63), (land_mod _ 5 31) by (lia || reflexivity).
  rewrite !Z.shiftl_mul_pow2, !Z.shiftr_div_pow2 by lia.
  assert (0 <= c / 2 ^ 10) by (apply Z.div_pos; lia).
  assert (0 <= c / 2 ^ 3) by (apply Z.div_pos; lia).
  set (r := c / 2 ^ 19) in *. set (g := c / 2 ^ 10) in *. set (b := c / 2 ^ 3) in *.
  replace (((r mod 2 ^ 16) * 2 ^ 11) mod 2 ^ 8) with 0
    by (symmetry; replace ((r mod 2 ^ 16) * 2 ^ 11) with ((r mod 2 ^ 16 * 8) * 2 ^ 8) by lia; apply Z.mod_mul; lia).
  rewrite Z.lor_0_l.
  replace ((((g mod 2 ^ 16) mod 2 ^ 6) * 2 ^ 5) mod 2 ^ 16) with ((g mod 64) * 2 ^ 5)
    by (clear -H; Z.to_euclidean_division_equations; lia).
  replace ((b mod 2 ^ 16) mod 2 ^ 5) with (b mod 32) by (clear -H0; Z.to_euclidean_division_equations; lia).
  pose proof (Z.mod_pos_bound b 32).
  rewrite Value_Proofs.lor_add by lia. lia.
Qed.
Lemma from332_eq v : 0 <= v < 256 -> from332 v = shown 8 v.
Proof.
  intros H. apply Z.eqb_eq. revert v H. apply upto_all. vm_compute. reflexivity.
Qed.
Lemma from565_eq v : 0 <= v < 65536 -> from565 v = shown 16 v.
Proof.
  intros Hv. unfold from565, shown. cbv zeta. simpl (16 =? _). cbv iota.
  rewrite (land_mod _ 6 63), (land_mod _ 5 31) by (lia || reflexivity).
  rewrite !Z.shiftl_mul_pow2, !Z.shiftr_div_pow2 by lia.
  change (2 ^ 11) with 2048. change (2 ^ 5) with 32. change (2 ^ 6) with 64.
  pose proof (Z.mod_pos_bound (v / 32) 64). pose proof (Z.mod_pos_bound v 32).
  replace (v / 2048 * 2 ^ 19) with (v / 2048 * 8 * 2 ^ 16) by lia.
  rewrite Value_Proofs.lor_add by lia.
  replace (v / 2048 * 8 * 2 ^ 16 + v / 32 mod 64 * 2 ^ 10) with ((v / 2048 * 512 + v / 32 mod 64) * 2 ^ 10) by lia.
  rewrite Value_Proofs.lor_add by lia. lia.
Qed.

(* ---- bytes of several pixels ---- *)
Definition get2 (b i : Z) : Z := (b / 2 ^ (1 * (8 - 1 - i))) mod 2 ^ 1.
Definition get4 (b i : Z) : Z := (b / 2 ^ (2 * (4 - 1 - i))) mod 2 ^ 2.
Definition get16 (b i : Z) : Z := (b / 2 ^ (4 * (2 - 1 - i))) mod 2 ^ 4.
Definition bit_c (c : Z) : Z := if c =? 0 then 0 else 1.

Lemma byte2_pos b p c : byte2 b p c = byte2 b (p mod 8) (bit_c c).
Proof.
  unfold byte2, bit_c. rewrite !(land_mod _ 3 7) by (lia || reflexivity). change (2 ^ 3) with 8.
  rewrite Z.mod_mod by lia. destruct (c =? 0); reflexivity.
Qed.
Lemma byte4_pos b p c : byte4 b p c = byte4 b (p mod 4) c.
Proof.
  unfold byte4. rewrite !(land_mod _ 2 3) by (lia || reflexivity). change (2 ^ 2) with 4.
  rewrite Z.mod_mod by lia. reflexivity.
Qed.
Lemma byte16_pos b p c : byte16 b p c = byte16 b (p mod 2) c.
Proof.
  unfold byte16. rewrite !(land_mod _ 1 1) by (lia || reflexivity). change (2 ^ 1) with 2.
  rewrite Z.mod_mod by lia. reflexivity.
Qed.
Definition rng (b n : Z) : bool := (0 <=? b) && (b <? n).
Lemma rng_ok b n : rng b n = true -> 0 <= b < n. Proof. unfold rng. lia. Qed.

Lemma byte2_ok b i c : 0 <= b < 256 -> 0 <= i < 8 -> 0 <= c < 2 ->
  0 <= byte2 b i c < 256 /\ (forall j, 0 <= j < 8 -> get2 (byte2 b i c) j = if j =? i then c else get2 b j).
Proof.
  intros Hb Hi Hc.
  assert (forallb (fun b => forallb (fun i => forallb (fun c => rng (byte2 b i c) 256 &&
    forallb (fun j => get2 (byte2 b i c) j =? if j =? i then c else get2 b j) (upto 8)) (upto 2)) (upto 8)) (upto 256) = true)
    as E by (vm_compute; reflexivity).
  apply upto_all with (x := b) in E; auto. apply upto_all with (x := i) in E; auto.
  apply upto_all with (x := c) in E; auto. apply andb_true_iff in E as [E1 E2].
  split; [apply rng_ok; auto|]. intros j Hj. apply Z.eqb_eq. apply (upto_all _ _ E2 j Hj).
Qed.
Lemma byte4_ok b i c : 0 <= b < 256 -> 0 <= i < 4 -> 0 <= c < 4 ->
  0 <= byte4 b i c < 256 /\ (forall j, 0 <= j < 4 -> get4 (byte4 b i c) j = if j =? i then c else get4 b j).
Proof.
  intros Hb Hi Hc.
  assert (forallb (fun b => forallb (fun i => forallb (fun c => rng (byte4 b i c) 256 &&
    forallb (fun j => get4 (byte4 b i c) j =? if j =? i then c else get4 b j) (upto 4)) (upto 4)) (upto 4)) (upto 256) = true)
    as E by (vm_compute; reflexivity).
  apply upto_all with (x := b) in E; auto. apply upto_all with (x := i) in E; auto.
  apply upto_all with (x := c) in E; auto. apply andb_true_iff in E as [E1 E2].
  split; [apply rng_ok; auto|]. intros j Hj. apply Z.eqb_eq. apply (upto_all _ _ E2 j Hj).
Qed.
Lemma byte16_ok b i c : 0 <= b < 256 -> 0 <= i < 2 -> 0 <= c < 16 ->
  0 <= byte16 b i c < 256 /\ (forall j, 0 <= j < 2 -> get16 (byte16 b i c) j = if j =? i then c else get16 b j).
Proof.
  intros Hb Hi Hc.
  assert (forallb (fun b => forallb (fun i => forallb (fun c => rng (byte16 b i c) 256 &&
    forallb (fun j => get16 (byte16 b i c) j =? if j =? i then c else get16 b j) (upto 2)) (upto 16)) (upto 2)) (upto 256) = true)
    as E by (vm_compute; reflexivity).
  apply upto_all with (x := b) in E; auto. apply upto_all with (x := i) in E; auto.
  apply upto_all with (x := c) in E; auto. apply andb_true_iff in E as [E1 E2].
  split; [apply rng_ok; auto|]. intros j Hj. apply Z.eqb_eq. apply (upto_all _ _ E2 j Hj).
Qed.
Lemma get2_code b p : 0 <= b < 256 -> Z.land (Z.shiftr b (7 - Z.land p 7)) 1 = get2 b (p mod 8).
Proof.
  intros Hb. rewrite (land_mod p 3 7), (land_mod _ 1 1) by (lia || reflexivity). change (2 ^ 3) with 8.
  pose proof (Z.mod_pos_bound p 8). unfold get2. rewrite Z.shiftr_div_pow2 by lia.
  do 3 f_equal. lia.
Qed.
Lemma get4_code b p : 0 <= b < 256 ->
  Z.shiftr (Z.land b (indexed4_mask (3 - Z.land p 3))) (indexed4_shift (3 - Z.land p 3)) = get4 b (p mod 4).
Proof.
  intros Hb. rewrite (land_mod p 2 3) by (lia || reflexivity). change (2 ^ 2) with 4.
  assert (0 <= p mod 4 < 4) as Hi by (apply Z.mod_pos_bound; lia).
  assert (forallb (fun b => forallb (fun i => Z.shiftr (Z.land b (indexed4_mask (3 - i))) (indexed4_shift (3 - i)) =? get4 b i) (upto 4)) (upto 256) = true)
    as E by (vm_compute; reflexivity).
  apply upto_all with (x := b) in E; auto. apply upto_all with (x := p mod 4) in E; auto. apply Z.eqb_eq. auto.
Qed.
Lemma get16_code b p : 0 <= b < 256 ->
  Z.shiftr (Z.land b (indexed16_mask (1 - Z.land p 1))) (indexed16_shift (1 - Z.land p 1)) = get16 b (p mod 2).
Proof.
  intros Hb. rewrite (land_mod p 1 1) by (lia || reflexivity). change (2 ^ 1) with 2.
  assert (0 <= p mod 2 < 2) as Hi by (apply Z.mod_pos_bound; lia).
  assert (forallb (fun b => forallb (fun i => Z.shiftr (Z.land b (indexed16_mask (1 - i))) (indexed16_shift (1 - i)) =? get16 b i) (upto 2)) (upto 256) = true)
    as E by (vm_compute; reflexivity).
  apply upto_all with (x := b) in E; auto. apply upto_all with (x := p mod 2) in E; auto. apply Z.eqb_eq. auto.
Qed.

(* ---- what putpixel writes ---- *)
Definition store (fmt : Z) (bs : list Z) (p c : Z) : list Z :=
  if fmt =? 1 then put bs (p / 8) (byte2 (byte_at bs (5 + p / 8)) p c)
  else if fmt =? 2 then put bs (p / 4) (byte4 (byte_at bs (5 + p / 4)) p c)
  else if fmt =? 4 then put bs (p / 2) (byte16 (byte_at bs (5 + p / 2)) p c)
  else if fmt =? 8 then put bs p (packed 8 c)
  else if fmt =? 16 then put (put bs (2 * p) (packed 16 c / 256)) (2 * p + 1) (packed 16 c mod 256)
  else put (put (put bs (3 * p) (c / 65536 mod 256)) (3 * p + 1) (c / 256 mod 256)) (3 * p + 2) (c mod 256).

Lemma int_ok x : - 2 ^ 31 <= x < 2 ^ 31 -> int x = Ok x.
Proof. intros. unfold int. destruct (Z.leb_spec (- 2 ^ 31) x), (Z.ltb_spec x (2 ^ 31)); try lia. reflexivity. Qed.

Lemma pos_bound w h x y : 0 <= x < w -> 0 <= y < h -> 0 <= y * w + x < w * h.
Proof. intros. nia. Qed.

Lemma in_formats fmt : In fmt formats -> fmt = 1 \/ fmt = 2 \/ fmt = 4 \/ fmt = 8 \/ fmt = 16 \/ fmt = 24.
Proof. simpl. intuition. Qed.

Ltac divs := Z.to_euclidean_division_equations; lia.

Lemma packed8_range c : 0 <= packed 8 c < 256.
Proof.
  unfold packed. simpl (8 =? _). cbv iota.
  pose proof (Z.mod_pos_bound (c / 2 ^ 21) 8). pose proof (Z.mod_pos_bound (c / 2 ^ 13) 8). pose proof (Z.mod_pos_bound (c / 2 ^ 6) 4). lia.
Qed.
Lemma packed16_range c : 0 <= packed 16 c < 2048.
Proof.
  unfold packed. simpl (16 =? _). cbv iota.
  pose proof (Z.mod_pos_bound (c / 2 ^ 10) 64). pose proof (Z.mod_pos_bound (c / 2 ^ 3) 32). lia.
Qed.

Lemma putpixel_in bs w h fmt x y c : image bs w h fmt -> color_of fmt c ->
  0 <= wrap 16 x < w -> 0 <= wrap 16 y < h ->
  putpixel bs x y c = Ok (store fmt bs (wrap 16 y * w + wrap 16 x) c).
Proof.
  intros I (Hc & _) Hx Hy. unfold putpixel.
  rewrite (image_width _ _ _ _ I), (image_height _ _ _ _ I), (image_format _ _ _ _ I).
  pose proof (image_dims _ _ _ _ I) as (Dw & Dh).
  cbn [bind]. set (x' := wrap 16 x) in *. set (y' := wrap 16 y) in *.
  destruct (Z.ltb_spec x' w); try lia. destruct (Z.ltb_spec y' h); try lia. cbn [andb].
  pose proof (pos_bound w h x' y' Hx Hy) as P. set (p := y' * w + x') in *.
  assert (w * h <= 65535 * 65535) as Pw by nia.
  destruct I as (B & L & _ & _ & _ & F & S1 & S2). apply in_formats in F.
  rewrite (wrap_small 32 p) by lia.
  rewrite !Z.shiftr_div_pow2 by lia. rewrite !Z.shiftl_mul_pow2 by lia.
  change (2 ^ 1) with 2. change (2 ^ 2) with 4. change (2 ^ 3) with 8. change (2 ^ 8) with 256. change (2 ^ 16) with 65536.
  set (N := w * h) in *.
  unfold store. destruct F as [->|[->|[->|[->|[->| ->]]]]]; cbn [Z.eqb indexed2 indexed4 indexed16 rgb332 rgb565 rgb888 Pos.eqb].
  - assert (0 <= p / 8 < Z.of_nat (length bs) - 5) by divs.
    rewrite rdd_ok by auto. cbn [bind]. rewrite wrd_ok by auto. reflexivity.
  - assert (0 <= p / 4 < Z.of_nat (length bs) - 5) by divs.
    rewrite rdd_ok by auto. cbn [bind]. rewrite wrd_ok by auto. reflexivity.
  - assert (0 <= p / 2 < Z.of_nat (length bs) - 5) by divs.
    rewrite rdd_ok by auto. cbn [bind]. rewrite wrd_ok by auto. reflexivity.
  - assert (0 <= y' * w <= p) by nia.
    rewrite int_ok by lia. cbn [bind]. rewrite int_ok by lia. cbn [bind]. fold p.
    rewrite wrd_ok by lia. rewrite to332_eq by auto. reflexivity.
  - assert (0 <= y' * w <= p) by nia.
    rewrite int_ok by lia. cbn [bind]. rewrite int_ok by lia. cbn [bind].
    replace (y' * (w * 2) + x' * 2) with (2 * p) by lia.
    rewrite wrd_ok by lia. cbn [bind]. rewrite int_ok by lia. cbn [bind]. rewrite wrd_ok by (rewrite length_put; lia).
    rewrite to565_eq by auto. pose proof (packed16_range c). unfold wrap. change (2 ^ 8) with 256.
    rewrite (Z.mod_small (packed 16 c / 256)) by divs. reflexivity.
  - assert (0 <= y' * w <= p) by nia.
    rewrite int_ok by lia. cbn [bind]. rewrite int_ok by lia. cbn [bind].
    replace (y' * (w * 3) + x' * 3) with (3 * p) by lia.
    rewrite wrd_ok by lia. cbn [bind]. rewrite int_ok by lia. cbn [bind]. rewrite wrd_ok by (rewrite length_put; lia).
    cbn [bind]. rewrite int_ok by lia. cbn [bind]. rewrite wrd_ok by (rewrite !length_put; lia). reflexivity.
Qed.
Lemma putpixel_out bs w h fmt x y c : image bs w h fmt -> ~ (wrap 16 x < w /\ wrap 16 y < h) -> putpixel bs x y c = Ok bs.
Proof.
  intros I H. unfold putpixel. rewrite (image_width _ _ _ _ I), (image_height _ _ _ _ I). cbn [bind].
  destruct (Z.ltb_spec (wrap 16 x) w), (Z.ltb_spec (wrap 16 y) h); try reflexivity. lia.
Qed.

Lemma getpixel_in bs w h fmt x y : image bs w h fmt ->
  0 <= wrap 16 x < w -> 0 <= wrap 16 y < h ->
  getpixel bs x y = Ok (shown fmt (pixel fmt bs (wrap 16 y * w + wrap 16 x))).
Proof.
  intros I Hx Hy. unfold getpixel.
  rewrite (image_width _ _ _ _ I), (image_height _ _ _ _ I), (image_format _ _ _ _ I).
  pose proof (image_dims _ _ _ _ I) as (Dw & Dh).
  cbn [bind]. set (x' := wrap 16 x) in *. set (y' := wrap 16 y) in *.
  destruct (Z.ltb_spec x' w); try lia. destruct (Z.ltb_spec y' h); try lia. cbn [andb].
  pose proof (pos_bound w h x' y' Hx Hy) as P. set (p := y' * w + x') in *.
  assert (w * h <= 65535 * 65535) as Pw by nia.
  destruct I as (B & L & _ & _ & _ & F & S1 & S2). apply in_formats in F.
  rewrite (wrap_small 32 p) by lia.
  rewrite !(Z.shiftr_div_pow2 p) by lia. rewrite !(Z.shiftl_mul_pow2 w), !(Z.shiftl_mul_pow2 x') by lia.
  change (2 ^ 1) with 2. change (2 ^ 2) with 4. change (2 ^ 3) with 8.
  set (N := w * h) in *. unfold pixel.
  destruct F as [->|[->|[->|[->|[->| ->]]]]]; cbn [Z.eqb Z.ltb Z.compare Pos.compare Pos.compare_cont indexed2 indexed4 indexed16 rgb332 rgb565 rgb888 Pos.eqb].
  - assert (0 <= p / 8 < Z.of_nat (length bs) - 5) by divs.
    rewrite rdd_ok by auto. cbn [bind]. rewrite get2_code by (apply byte_range; auto). reflexivity.
  - assert (0 <= p / 4 < Z.of_nat (length bs) - 5) by divs.
    rewrite rdd_ok by auto. cbn [bind]. rewrite get4_code by (apply byte_range; auto). reflexivity.
  - assert (0 <= p / 2 < Z.of_nat (length bs) - 5) by divs.
    rewrite rdd_ok by auto. cbn [bind]. rewrite get16_code by (apply byte_range; auto). reflexivity.
  - assert (0 <= y' * w <= p) by nia.
    rewrite int_ok by lia. cbn [bind]. rewrite int_ok by lia. cbn [bind]. fold p.
    rewrite rdd_ok by lia. cbn [bind]. rewrite from332_eq by (apply byte_range; auto). reflexivity.
  - assert (0 <= y' * w <= p) by nia.
    rewrite int_ok by lia. cbn [bind]. rewrite int_ok by lia. cbn [bind].
    replace (y' * (w * 2) + x' * 2) with (2 * p) by lia.
    rewrite rdd_ok by lia. cbn [bind]. rewrite int_ok by lia. cbn [bind]. rewrite rdd_ok by lia. cbn [bind].
    pose proof (byte_range bs (5 + 2 * p) B). pose proof (byte_range bs (5 + (2 * p + 1)) B).
    rewrite lor8 by auto. rewrite wrap_small by lia. rewrite from565_eq by lia. reflexivity.
  - assert (0 <= y' * w <= p) by nia.
    rewrite int_ok by lia. cbn [bind]. rewrite int_ok by lia. cbn [bind].
    replace (y' * (w * 3) + x' * 3) with (3 * p) by lia.
    rewrite rdd_ok by lia. cbn [bind]. rewrite int_ok by lia. cbn [bind]. rewrite rdd_ok by lia. cbn [bind].
    rewrite int_ok by lia. cbn [bind]. rewrite rdd_ok by lia. cbn [bind].
    pose proof (byte_range bs (5 + 3 * p) B). pose proof (byte_range bs (5 + (3 * p + 1)) B). pose proof (byte_range bs (5 + (3 * p + 2)) B).
    set (r := byte_at bs (5 + 3 * p)) in *. set (g := byte_at bs (5 + (3 * p + 1))) in *. set (b := byte_at bs (5 + (3 * p + 2))) in *.
    rewrite !Z.shiftl_mul_pow2 by lia. rewrite Value_Proofs.lor_add by lia.
    replace (r * 2 ^ 16 + g * 2 ^ 8) with ((r * 256 + g) * 2 ^ 8) by lia.
    rewrite Value_Proofs.lor_add by lia. unfold shown. cbn [Z.eqb Pos.eqb]. f_equal. lia.
Qed.

Lemma store_image bs w h fmt p c : image bs w h fmt -> color_of fmt c -> 0 <= p < w * h -> image (store fmt bs p c) w h fmt.
Proof.
  intros I (Hc & H2 & H4) P. assert (I' := I). destruct I' as (B & L & _ & _ & _ & F & S1 & S2). apply in_formats in F.
  unfold store. destruct F as [->|[->|[->|[->|[->| ->]]]]]; cbn [Z.eqb Pos.eqb].
  - apply put_image; auto; [divs|]. rewrite byte2_pos.
    apply byte2_ok; [apply byte_range; auto | apply Z.mod_pos_bound; lia | unfold bit_c; destruct (c =? 0); lia].
  - apply put_image; auto; [divs|]. rewrite byte4_pos.
    apply byte4_ok; [apply byte_range; auto | apply Z.mod_pos_bound; lia | lia].
  - apply put_image; auto; [divs|]. rewrite byte16_pos.
    apply byte16_ok; [apply byte_range; auto | apply Z.mod_pos_bound; lia | lia].
  - apply put_image; auto; [lia|]. apply packed8_range.
  - pose proof (packed16_range c). apply put_image; [apply put_image; auto| |]; divs.
  - apply put_image; [apply put_image; [apply put_image; auto| |]| |]; try lia; apply Z.mod_pos_bound; lia.
Qed.
Lemma store_length bs fmt p c : length (store fmt bs p c) = length bs.
Proof.
  unfold store. destruct (fmt =? 1), (fmt =? 2), (fmt =? 4), (fmt =? 8), (fmt =? 16); rewrite !length_put; reflexivity.
Qed.

Lemma store_pixel bs w h fmt p c q : image bs w h fmt -> color_of fmt c -> 0 <= p < w * h -> 0 <= q ->
  pixel fmt (store fmt bs p c) q = if q =? p then packed fmt c else pixel fmt bs q.
Proof.
  intros I (Hc & H2 & H4) P Q. destruct I as (B & L & _ & _ & _ & F & S1 & S2). apply in_formats in F.
  set (N := w * h) in *.
  unfold store, pixel. destruct F as [->|[->|[->|[->|[->| ->]]]]]; cbn [Z.eqb Z.ltb Z.compare Pos.compare Pos.compare_cont Pos.eqb].
  - change (8 / 1) with 8. assert (0 <= q / 8) by divs. assert (0 <= p / 8 < Z.of_nat (length bs) - 5) by divs.
    assert (0 <= p mod 8 < 8) by (apply Z.mod_pos_bound; lia). assert (0 <= q mod 8 < 8) by (apply Z.mod_pos_bound; lia).
    rewrite byte_at_put by auto. destruct (Z.eqb_spec (q / 8) (p / 8)) as [E|E].
    + rewrite E. rewrite byte2_pos. set (b := byte_at bs (5 + p / 8)).
      destruct (byte2_ok b (p mod 8) (bit_c c)) as (_ & G); [apply byte_range; auto| auto| unfold bit_c; destruct (c =? 0); lia|].
      specialize (G (q mod 8) ltac:(auto)). unfold get2 in G. rewrite G.
      destruct (Z.eqb_spec q p), (Z.eqb_spec (q mod 8) (p mod 8)); try reflexivity; exfalso; divs.
    + destruct (Z.eqb_spec q p); [subst; congruence|]. reflexivity.
  - change (8 / 2) with 4. assert (0 <= q / 4) by divs. assert (0 <= p / 4 < Z.of_nat (length bs) - 5) by divs.
    assert (0 <= p mod 4 < 4) by (apply Z.mod_pos_bound; lia). assert (0 <= q mod 4 < 4) by (apply Z.mod_pos_bound; lia).
    rewrite byte_at_put by auto. destruct (Z.eqb_spec (q / 4) (p / 4)) as [E|E].
    + rewrite E. rewrite byte4_pos. set (b := byte_at bs (5 + p / 4)).
      destruct (byte4_ok b (p mod 4) c) as (_ & G); [apply byte_range; auto| auto| lia|].
      specialize (G (q mod 4) ltac:(auto)). unfold get4 in G. rewrite G.
      destruct (Z.eqb_spec q p), (Z.eqb_spec (q mod 4) (p mod 4)); try reflexivity; exfalso; divs.
    + destruct (Z.eqb_spec q p); [subst; congruence|]. reflexivity.
  - change (8 / 4) with 2. assert (0 <= q / 2) by divs. assert (0 <= p / 2 < Z.of_nat (length bs) - 5) by divs.
    assert (0 <= p mod 2 < 2) by (apply Z.mod_pos_bound; lia). assert (0 <= q mod 2 < 2) by (apply Z.mod_pos_bound; lia).
    rewrite byte_at_put by auto. destruct (Z.eqb_spec (q / 2) (p / 2)) as [E|E].
    + rewrite E. rewrite byte16_pos. set (b := byte_at bs (5 + p / 2)).
      destruct (byte16_ok b (p mod 2) c) as (_ & G); [apply byte_range; auto| auto| lia|].
      specialize (G (q mod 2) ltac:(auto)). unfold get16 in G. rewrite G.
      destruct (Z.eqb_spec q p), (Z.eqb_spec (q mod 2) (p mod 2)); try reflexivity; exfalso; divs.
    + destruct (Z.eqb_spec q p); [subst; congruence|]. reflexivity.
  - rewrite byte_at_put by lia. reflexivity.
  - rewrite !byte_at_put by (rewrite ?length_put; lia).
    destruct (Z.eqb_spec (2 * q) (2 * p + 1)); [lia|]. destruct (Z.eqb_spec (2 * q + 1) (2 * p)); [lia|].
    destruct (Z.eqb_spec (2 * q) (2 * p)), (Z.eqb_spec (2 * q + 1) (2 * p + 1)), (Z.eqb_spec q p); try lia.
  - rewrite !byte_at_put by (rewrite ?length_put; lia).
    destruct (Z.eqb_spec (3 * q) (3 * p + 1)); [lia|]. destruct (Z.eqb_spec (3 * q) (3 * p + 2)); [lia|].
    destruct (Z.eqb_spec (3 * q + 1) (3 * p)); [lia|]. destruct (Z.eqb_spec (3 * q + 1) (3 * p + 2)); [lia|].
    destruct (Z.eqb_spec (3 * q + 2) (3 * p)); [lia|]. destruct (Z.eqb_spec (3 * q + 2) (3 * p + 1)); [lia|].
    destruct (Z.eqb_spec (3 * q) (3 * p)), (Z.eqb_spec (3 * q + 1) (3 * p + 1)), (Z.eqb_spec (3 * q + 2) (3 * p + 2)), (Z.eqb_spec q p); try lia.
    unfold packed. cbn [Z.eqb Pos.eqb]. change (2 ^ 24) with (65536 * 256). divs.
Qed.
