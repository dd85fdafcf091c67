(* C88 pixels, C89 images and their arrays, C90 clearing. *)
From Verif Require Import Base Disp_Model Disp_Spec Disp_Proofs Disp_Proofs2 Disp_Proofs3.
Local Open Scope Z_scope.

(* ---- C88 ---- *)

(* img-getpix returns the color of the pixel *)
Theorem getpixel_correct bs w h fmt x y : image bs w h fmt -> 0 <= x < w -> 0 <= y < h ->
  getpixel bs x y = Ok (shown fmt (pixel fmt bs (y * w + x))).
Proof.
  intros I Hx Hy. pose proof (image_dims _ _ _ _ I). rewrite (getpixel_in bs w h fmt) by (auto; rewrite wrap_small; lia).
  rewrite !wrap_small by lia. reflexivity.
Qed.
(* img-setpix writes this pixel, and outside of the image nothing *)
Theorem putpixel_correct bs w h fmt x y c : image bs w h fmt -> normal w h -> color_of fmt c -> near x -> near y ->
  exists bs', putpixel bs x y c = Ok bs' /\ painted w h fmt c (fun px py => px = x /\ py = y) bs bs'.
Proof. intros. apply putpixel_paints with (w := w) (h := h); auto. Qed.
(* also in images of up to 65535 by 65535, inside *)
Theorem putpixel_inside bs w h fmt x y c : image bs w h fmt -> color_of fmt c -> 0 <= x < w -> 0 <= y < h ->
  exists bs', putpixel bs x y c = Ok bs' /\ painted w h fmt c (fun px py => px = x /\ py = y) bs bs'.
Proof.
  intros I Hc Hx Hy. pose proof (image_dims _ _ _ _ I) as (Dw & Dh). pose proof (pos_bound w h x y Hx Hy) as P.
  exists (store fmt bs (y * w + x) c). rewrite (putpixel_in bs w h fmt) by (auto; rewrite wrap_small; lia).
  rewrite !wrap_small by lia. split; [reflexivity|].
  split; [apply store_length|]. split; [apply store_image; auto|]. split; [|split].
  - intros px py _ _ (-> & ->). rewrite (store_pixel _ w h) by (auto; lia). rewrite Z.eqb_refl. reflexivity.
  - intros px py Px Py H. pose proof (pos_bound w h px py Px Py). rewrite (store_pixel _ w h) by (auto; lia).
    destruct (Z.eqb_spec (py * w + px) (y * w + x)); [|reflexivity]. exfalso. apply H.
    assert (py = y) by nia. subst. lia.
  - intros p Hp. rewrite (store_pixel _ w h) by (auto; lia). destruct (Z.eqb_spec p (y * w + x)); [lia|reflexivity].
Qed.
(* so what is set is read back, as far as the format can hold it *)
Theorem put_get bs w h fmt x y c px py bs' : image bs w h fmt -> color_of fmt c -> 0 <= x < w -> 0 <= y < h ->
  0 <= px < w -> 0 <= py < h -> putpixel bs x y c = Ok bs' ->
  getpixel bs' px py = if (px =? x) && (py =? y) then Ok (shown fmt (packed fmt c)) else getpixel bs px py.
Proof.
  intros I Hc Hx Hy Hpx Hpy R. destruct (putpixel_inside bs w h fmt x y c I Hc Hx Hy) as (b & R' & (_ & I' & A & B & _)).
  rewrite R in R'. injection R' as <-. rewrite (getpixel_correct bs' w h fmt) by auto.
  destruct (Z.eqb_spec px x), (Z.eqb_spec py y); cbn [andb].
  1: rewrite A by auto; reflexivity.
  all: rewrite B by (auto; lia); symmetry; apply (getpixel_correct bs w h fmt); auto.
Qed.
Theorem put_get_exact bs w h fmt x y c bs' : image bs w h fmt -> 0 <= x < w -> 0 <= y < h ->
  (fmt = 1 /\ 0 <= c < 2) \/ (fmt = 2 /\ 0 <= c < 4) \/ (fmt = 4 /\ 0 <= c < 16) \/ (fmt = 24 /\ 0 <= c < 2 ^ 24) ->
  putpixel bs x y c = Ok bs' -> getpixel bs' x y = Ok c.
Proof.
  intros I Hx Hy Hf R. rewrite (put_get bs w h fmt x y c) by (auto; unfold color_of; lia). rewrite !Z.eqb_refl. cbn [andb].
  f_equal. unfold shown, packed.
  destruct Hf as [(-> & H)|[(-> & H)|[(-> & H)|(-> & H)]]]; cbn [Z.eqb Pos.eqb]; auto.
  - destruct (Z.eqb_spec c 0); lia.
  - apply Z.mod_small; auto.
Qed.
(* 8 bits per pixel: the color is cut to 3 bits of red and green and 2 of blue *)
Theorem put_get_332 bs w h x y c bs' : image bs w h 8 -> 0 <= x < w -> 0 <= y < h -> 0 <= c < 2 ^ 24 ->
  putpixel bs x y c = Ok bs' ->
  getpixel bs' x y = Ok (c / 2 ^ 21 * 2 ^ 21 + c / 2 ^ 13 mod 8 * 2 ^ 13 + c / 2 ^ 6 mod 4 * 2 ^ 6).
Proof.
  intros I Hx Hy Hc R. rewrite (put_get bs w h 8 x y c) by (auto; unfold color_of; lia). rewrite !Z.eqb_refl. cbn [andb].
  f_equal. unfold shown, packed. cbn [Z.eqb Pos.eqb].
  assert (0 <= c / 2 ^ 21 < 8) by (split; [apply Z.div_pos; lia|apply Z.div_lt_upper_bound; lia]).
  rewrite (Z.mod_small (c / 2 ^ 21)) by auto.
  pose proof (Z.mod_pos_bound (c / 2 ^ 13) 8). pose proof (Z.mod_pos_bound (c / 2 ^ 6) 4).
  set (r := c / 2 ^ 21) in *. set (g := c / 2 ^ 13 mod 8) in *. set (b := c / 2 ^ 6 mod 4) in *. clearbody r g b. clear -H H0 H1. divs.
Qed.

Ltac img := unfold image, formats, byte_at; cbn; repeat split; try (repeat constructor; lia); try lia; auto 10.

(* an image of 5 by 3 pixels with 2 bits each *)
Definition img5x3 : list Z := [0; 5; 0; 3; 2; 27; 0; 255; 64].
Example img5x3_image : image img5x3 5 3 2 /\ normal 5 3 /\ color_of 2 3.
Proof. split; [img|]. unfold normal, color_of. lia. Qed.
Example img5x3_put : putpixel img5x3 1 2 1 = Ok [0; 5; 0; 3; 2; 27; 0; 253; 64] /\ getpixel img5x3 1 2 = Ok 3 /\
  putpixel img5x3 4 2 3 = Ok [0; 5; 0; 3; 2; 27; 0; 255; 64 + 12] /\ putpixel img5x3 (-1) 2 3 = Ok img5x3.
Proof. vm_compute. auto. Qed.

(* Not so in the code, with 16 bits per pixel: the red is lost. *)
Theorem red_lost_refuted : exists bs w h x y c bs',
  image bs w h 16 /\ color_of 16 c /\ 0 <= x < w /\ 0 <= y < h /\ putpixel bs x y c = Ok bs' /\
  pixel 16 bs' (y * w + x) <> packed565 c /\ c = 0xFF0000 /\ getpixel bs' x y = Ok 0.
Proof.
  exists [0; 1; 0; 1; 16; 0; 0], 1, 1, 0, 0, 0xFF0000, [0; 1; 0; 1; 16; 0; 0].
  split; [img|]. split; [unfold color_of; lia|]. split; [lia|]. split; [lia|]. split; [reflexivity|]. vm_compute. repeat split; discriminate.
Qed.
(* An index that is too large for the format changes the neighbours. *)
Theorem index_spills_refuted : exists bs w h x y c bs' px,
  image bs w h 2 /\ 0 <= c < 2 ^ 32 /\ 0 <= x < w /\ 0 <= y < h /\ putpixel bs x y c = Ok bs' /\
  px <> x /\ 0 <= px < w /\ getpixel bs px y = Ok 0 /\ getpixel bs' px y = Ok 1.
Proof.
  exists [0; 4; 0; 1; 2; 0], 4, 1, 3, 0, 4, [0; 4; 0; 1; 2; 4], 2.
  split; [img|]. do 3 (split; [lia|]). split; [reflexivity|]. split; [lia|]. split; [lia|]. split; reflexivity.
Qed.
(* A point far outside of the image is drawn inside. *)
Theorem far_point_refuted : exists bs w h x y c bs',
  image bs w h 8 /\ normal w h /\ color_of 8 c /\ ~ (0 <= x < w) /\ putpixel bs x y c = Ok bs' /\ bs' <> bs.
Proof.
  exists [0; 2; 0; 1; 8; 0; 0], 2, 1, 65537, 0, 0xFFFFFF, [0; 2; 0; 1; 8; 0; 255].
  split; [img|]. split; [unfold normal; lia|]. split; [unfold color_of; lia|]. split; [lia|]. split; [reflexivity|discriminate].
Qed.

(* ---- C89 ---- *)

(* img-buffer: the array has exactly the bytes for the pixels, all 0 *)
Theorem image_buffer_correct fmt w h : In fmt formats -> 0 < w < 32000 -> 0 < h < 32000 -> w * h * fmt <= 8 * 2 ^ 31 ->
  exists bs, image_buffer fmt w h = Some bs /\ image bs w h fmt /\ Z.of_nat (length bs) = 5 + bytes_of w h fmt /\
    forall p, 0 <= p -> pixel fmt bs p = 0.
Proof.
  intros F Hw Hh S. destruct (image_buffer_ok fmt w h F Hw Hh) as (bs & R & L & B & E1 & E2 & E3 & Z0).
  exists bs. split; [auto|]. assert (0 < w * h * fmt) by (apply in_formats in F; nia).
  assert (w * h * fmt <= 8 * bytes_of w h fmt /\ 0 < bytes_of w h fmt) as (K & K') by (unfold bytes_of; set (M := w * h * fmt) in *; clearbody M; divs).
  split; [|split; [auto|]].
  - repeat split; auto; lia.
  - intros p Hp. unfold pixel. apply in_formats in F.
    destruct F as [->|[->|[->|[->|[->| ->]]]]]; cbn [Z.ltb Z.eqb Z.compare Pos.compare Pos.compare_cont Pos.eqb]; cbv zeta.
    + change (8 / 1) with 8. rewrite Z0 by divs. rewrite Z.div_0_l by (apply Z.pow_nonzero; [lia|]; pose proof (Z.mod_pos_bound p 8); lia). reflexivity.
    + change (8 / 2) with 4. rewrite Z0 by divs. rewrite Z.div_0_l by (apply Z.pow_nonzero; [lia|]; pose proof (Z.mod_pos_bound p 4); lia). reflexivity.
    + change (8 / 4) with 2. rewrite Z0 by divs. rewrite Z.div_0_l by (apply Z.pow_nonzero; [lia|]; pose proof (Z.mod_pos_bound p 2); lia). reflexivity.
    + apply Z0; auto.
    + rewrite !Z0 by lia. reflexivity.
    + rewrite !Z0 by lia. reflexivity.
Qed.
Theorem image_buffer_refuses fmt w h : ~ (0 < w < 32000 /\ 0 < h < 32000) -> image_buffer fmt w h = None.
Proof.
  intros H. unfold image_buffer. destruct (Z.gtb_spec w 0), (Z.gtb_spec h 0), (Z.ltb_spec w 32000), (Z.ltb_spec h 32000); try reflexivity; lia.
Qed.
Example image_buffer_ex : image_buffer 4 3 3 = Some [0; 3; 0; 3; 4; 0; 0; 0; 0; 0] /\ bytes_of 3 3 4 = 5.
Proof. vm_compute. auto. Qed.

(* an array that is accepted as an image is one, if the pixels fill whole bytes
   and their size does not exceed 32 bits *)
Theorem image_valid bs w h fmt : Forall (fun b => 0 <= b < 256) bs -> 5 < Z.of_nat (length bs) ->
  byte_at bs 0 * 256 + byte_at bs 1 = w -> byte_at bs 2 * 256 + byte_at bs 3 = h -> byte_at bs 4 = fmt -> In fmt formats ->
  w * h * fmt < 2 ^ 32 -> (w * h * fmt) mod 8 = 0 ->
  (is_valid bs = Ok true <-> image bs w h fmt).
Proof.
  intros B L E1 E2 E3 F S M. unfold is_valid, HEADER.
  destruct (Z.gtb_spec (Z.of_nat (length bs)) 5); [|lia].
  assert (size_bytes bs = Ok (w * h * fmt / 8)) as SZ.
  { pose proof (byte_range bs 0 B). pose proof (byte_range bs 1 B). pose proof (byte_range bs 2 B). pose proof (byte_range bs 3 B).
    assert (0 <= w < 2 ^ 16 /\ 0 <= h < 2 ^ 16) as (Dw & Dh) by lia.
    unfold size_bytes, width, height, format. rewrite !rd_byte by lia. cbn [bind]. rewrite !lor8 by lia. rewrite E1, E2, E3, !(wrap_small 16) by lia.
    assert (0 <= w * h <= 65535 * 65535) by nia. apply in_formats in F. rewrite (wrap_small 32 (w * h)) by lia. rewrite wrap_small by nia. reflexivity. }
  rewrite SZ. cbn [bind]. set (T := w * h * fmt) in *.
  assert (8 * (T / 8) = T) as D by (clearbody T; divs).
  split.
  - intros G. assert (5 + T / 8 <= Z.of_nat (length bs)) as G' by (apply Z.geb_le; destruct (Z.of_nat (length bs) >=? 5 + T / 8); [reflexivity|discriminate]).
    unfold image. fold T. do 6 (split; [auto|]). split; lia.
  - intros (_ & _ & _ & _ & _ & _ & G & _). fold T in G. f_equal. lia.
Qed.
Example image_valid_ex : image_buffer 1 4 4 = Some [0; 4; 0; 4; 1; 0; 0] /\ is_valid [0; 4; 0; 4; 1; 0; 0] = Ok true /\ is_valid [0; 4; 0; 4; 1; 0] = Ok false.
Proof. vm_compute. auto. Qed.

(* Not so in the code otherwise.  The size is rounded down: setting the last pixel of a
   3 by 3 image in an array of 6 bytes, which is accepted, writes the byte behind it. *)
Theorem valid_rounds_refuted : exists bs w h x y c,
  is_valid bs = Ok true /\ width bs = Ok w /\ height bs = Ok h /\ format bs = Ok indexed2 /\
  0 <= x < w /\ 0 <= y < h /\ color_of indexed2 c /\ putpixel bs x y c = UB.
Proof.
  exists [0; 3; 0; 3; 1; 0], 3, 3, 2, 2, 1. do 4 (split; [reflexivity|]). unfold color_of. split; [lia|]. split; [lia|]. split; [cbv; intuition discriminate|reflexivity].
Qed.
(* The size is computed with 32 bits: an array of 6 bytes is accepted as an image
   of 16384 by 16384 pixels. *)
Theorem valid_wraps_refuted : exists bs w h x y c,
  is_valid bs = Ok true /\ width bs = Ok w /\ height bs = Ok h /\ w = 16384 /\ h = 16384 /\ length bs = 6%nat /\
  0 <= x < w /\ 0 <= y < h /\ putpixel bs x y c = UB.
Proof.
  exists [64; 0; 64; 0; 16; 0], 16384, 16384, 1, 0, 0. repeat split; vm_compute; (reflexivity || discriminate).
Qed.

(* ---- C90 ---- *)

Theorem clear_correct bs w h fmt cc : image bs w h fmt -> fmt <> 16 -> 0 <= cc < 2 ^ 32 ->
  exists bs', clear bs cc = Ok bs' /\ length bs' = length bs /\ image bs' w h fmt /\
    (forall p, 0 <= p < w * h -> pixel fmt bs' p = cleared fmt cc) /\
    (forall j, bytes_of w h fmt <= j -> byte_at bs' (5 + j) = byte_at bs (5 + j)).
Proof.
  intros I N Hc. destruct (clear_ok bs w h fmt cc I N Hc) as (b & R & (L & I') & A & B). exists b. auto.
Qed.
(* then every pixel has the color *)
Theorem clear_get bs w h fmt cc bs' x y : image bs w h fmt -> fmt <> 16 -> 0 <= cc < 2 ^ 32 -> 0 <= x < w -> 0 <= y < h ->
  clear bs cc = Ok bs' -> getpixel bs' x y = Ok (shown fmt (cleared fmt cc)).
Proof.
  intros I N Hc Hx Hy R. destruct (clear_ok bs w h fmt cc I N Hc) as (b & R' & (_ & I') & A & _). rewrite R in R'. injection R' as <-.
  rewrite (getpixel_correct bs' w h fmt) by auto. rewrite A by (apply pos_bound; auto). reflexivity.
Qed.
Example clear_ex : clear img5x3 2 = Ok [0; 5; 0; 3; 2; 170; 170; 170; 170].
Proof. vm_compute. auto. Qed.
(* 16 bits per pixel: what the code does *)
Theorem clear_565 bs w h cc : image bs w h 16 -> 0 <= cc < 2 ^ 32 ->
  exists bs', clear bs cc = Ok bs' /\ length bs' = length bs /\ image bs' w h 16 /\
    forall p, 0 <= p -> pixel 16 bs' p = if p <? (w * h / 2 + 1) / 2 then packed 16 cc else pixel 16 bs p.
Proof. intros I Hc. destruct (clear565_ok bs w h cc I Hc) as (b & R & (L & I') & A). exists b. auto. Qed.
(* Not so in the code with 16 bits per pixel: three quarters of the image are left. *)
Theorem clear_565_refuted : exists bs w h cc bs' x y,
  image bs w h 16 /\ 0 <= cc < 2 ^ 32 /\ clear bs cc = Ok bs' /\ 0 <= x < w /\ 0 <= y < h /\
  pixel 16 bs' (y * w + x) <> packed 16 cc /\ pixel 16 bs' (y * w + x) <> packed565 cc.
Proof.
  exists [0; 4; 0; 1; 16; 1; 1; 1; 1; 1; 1; 1; 1], 4, 1, 0xFF, [0; 4; 0; 1; 16; 0; 31; 1; 1; 1; 1; 1; 1], 1, 0.
  split; [img|]. split; [lia|]. split; [reflexivity|]. split; [lia|]. split; [lia|]. vm_compute. split; discriminate.
Qed.

Print Assumptions getpixel_correct.
Print Assumptions putpixel_correct.
Print Assumptions putpixel_inside.
Print Assumptions put_get.
Print Assumptions put_get_exact.
Print Assumptions put_get_332.
Print Assumptions red_lost_refuted.
Print Assumptions index_spills_refuted.
Print Assumptions far_point_refuted.
Print Assumptions image_buffer_correct.
Print Assumptions image_buffer_refuses.
Print Assumptions image_valid.
Print Assumptions valid_rounds_refuted.
Print Assumptions valid_wraps_refuted.
Print Assumptions clear_correct.
Print Assumptions clear_get.
Print Assumptions clear_565.
Print Assumptions clear_565_refuted.
