(* What the bytes of an image mean, independently of the model.

   The pixels stand one after the other, line by line, without gaps between the lines.
   A pixel has as many bits as the number of its format says: 1, 2, 4, 8, 16 or 24.
   Pixels of less than a byte are packed from the high end of each byte, pixels of more
   bytes have the high byte first. *)
From Verif Require Import Base.
Local Open Scope Z_scope.

Definition formats : list Z := [1; 2; 4; 8; 16; 24].
Definition byte_at (bs : list Z) (i : Z) : Z := nth (Z.to_nat i) bs 0.

(* the number stored in pixel [p]; the first five bytes are the header *)
Definition pixel (fmt : Z) (bs : list Z) (p : Z) : Z :=
  let d i := byte_at bs (5 + i) in
  if fmt <? 8 then let k := 8 / fmt in (d (p / k) / 2 ^ (fmt * (k - 1 - p mod k))) mod 2 ^ fmt
  else if fmt =? 8 then d p
  else if fmt =? 16 then d (2 * p) * 256 + d (2 * p + 1)
  else d (3 * p) * 65536 + d (3 * p + 1) * 256 + d (3 * p + 2).

(* The bytes are an image of [w] by [h] pixels in a format: the header says so,
   and the array has the bytes for all pixels.  Positions are computed with ints. *)
Definition image (bs : list Z) (w h fmt : Z) : Prop :=
  Forall (fun b => 0 <= b < 256) bs /\ 5 < Z.of_nat (length bs) /\
  byte_at bs 0 * 256 + byte_at bs 1 = w /\
  byte_at bs 2 * 256 + byte_at bs 3 = h /\
  byte_at bs 4 = fmt /\ In fmt formats /\
  w * h * fmt <= 8 * (Z.of_nat (length bs) - 5) /\
  w * h * fmt <= 8 * 2 ^ 31.

(* colors are 0xRRGGBB; the number stored for a color.  For 16 bits per pixel this is
   what the code does: it has 6 bits of green and 5 of blue, and the red is lost
   (see [red_lost_refuted]). *)
Definition packed (fmt c : Z) : Z :=
  if fmt =? 1 then if c =? 0 then 0 else 1
  else if fmt =? 2 then c
  else if fmt =? 4 then c
  else if fmt =? 8 then (c / 2 ^ 21 mod 8) * 32 + (c / 2 ^ 13 mod 8) * 4 + c / 2 ^ 6 mod 4
  else if fmt =? 16 then (c / 2 ^ 10 mod 64) * 32 + c / 2 ^ 3 mod 32
  else c mod 2 ^ 24.
(* with its red *)
Definition packed565 (c : Z) : Z := (c / 2 ^ 19 mod 32) * 2048 + (c / 2 ^ 10 mod 64) * 32 + c / 2 ^ 3 mod 32.

(* the color shown for a stored number *)
Definition shown (fmt v : Z) : Z :=
  if fmt =? 8 then (v / 32) * 2 ^ 21 + (v / 4 mod 8) * 2 ^ 13 + (v mod 4) * 2 ^ 6
  else if fmt =? 16 then (v / 2048) * 2 ^ 19 + (v / 32 mod 64) * 2 ^ 10 + (v mod 32) * 2 ^ 3
  else v.

(* colors: for two and four bits per pixel, only indices *)
Definition color_of (fmt c : Z) : Prop :=
  0 <= c < 2 ^ 32 /\ (fmt = 2 -> c < 4) /\ (fmt = 4 -> c < 16).

(* The points [S] have got the color [c], everything else is as before: the other
   pixels, the header, the bytes behind the image.  (Numbers of pixels after the last
   one stand for bits of the bytes behind.) *)
Definition painted (w h fmt c : Z) (S : Z -> Z -> Prop) (bs bs' : list Z) : Prop :=
  length bs' = length bs /\ image bs' w h fmt /\
  (forall x y, 0 <= x < w -> 0 <= y < h -> S x y -> pixel fmt bs' (y * w + x) = packed fmt c) /\
  (forall x y, 0 <= x < w -> 0 <= y < h -> ~ S x y -> pixel fmt bs' (y * w + x) = pixel fmt bs (y * w + x)) /\
  (forall p, w * h <= p -> pixel fmt bs' p = pixel fmt bs p).

(* coordinates that are not changed by keeping 16 bits of them, in an image of up to
   32768 by 32768: a negative one stays outside *)
Definition near (x : Z) : Prop := - 2 ^ 15 <= x < 2 ^ 16.
Definition normal (w h : Z) : Prop := w <= 2 ^ 15 /\ h <= 2 ^ 15.

(* a point is in the triangle: a weighted mean of the corners *)
Definition in_triangle (x0 y0 x1 y1 x2 y2 x y : Z) : Prop :=
  exists a b c, 0 <= a /\ 0 <= b /\ 0 <= c /\ 0 < a + b + c /\
    (a + b + c) * x = a * x0 + b * x1 + c * x2 /\
    (a + b + c) * y = a * y0 + b * y1 + c * y2.

(* A line as a walk: [dx] columns and [dy] lines to go, in steps of at most one
   column and one line.  A point is close to the straight line if, measured along the
   shorter direction, it is at most one and a half pixels away from it. *)
Definition step (p q : Z * Z) : Prop :=
  (fst q = fst p \/ fst q = fst p + 1) /\ (snd q = snd p \/ snd q = snd p + 1) /\ (fst p < fst q \/ snd p < snd q).
Fixpoint walk (l : list (Z * Z)) : Prop :=
  match l with
  | p :: ((q :: _) as t) => step p q /\ walk t
  | _ => True
  end.
Definition close (dx dy : Z) (p : Z * Z) : Prop :=
  0 <= fst p <= dx /\ 0 <= snd p <= dy /\ 2 * Z.abs (snd p * dx - fst p * dy) <= 3 * Z.max dx dy.

(* the number every pixel gets when an image is cleared: of an index the low bits *)
Definition cleared (fmt cc : Z) : Z := if fmt <? 8 then cc mod 2 ^ fmt else packed fmt cc.
(* the bytes of the pixels, the last one rounded up *)
Definition bytes_of (w h fmt : Z) : Z := (w * h * fmt + 7) / 8.
(* two coordinates whose distance can be squared and doubled in an int *)
Definition span (a b : Z) : Prop := -32767 <= a - b <= 32767.
