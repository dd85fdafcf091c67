(* Images: src/extensions/display_extensions.c and include/extensions/display_extensions.h.

   An image is the bytes of an array: width, height and format, then the pixels.

   Simplifications.
   - The decoding of the arguments (decode_args) is in DispArg_Model.v: the functions take
     coordinates (int) and colors (uint32_t).  Attributes are the parameters of the
     drawing functions; dotted lines (with their static variables) are left out.
   - Of the drawing functions, those with angles and those for text and for
     copying images are left out. *)
From Verif Require Import Base.
Local Open Scope Z_scope.

(* signed int arithmetic: overflow is undefined *)
Definition int (x : Z) : res Z := if (- 2 ^ 31 <=? x) && (x <? 2 ^ 31) then Ok x else UB.

(* display_extensions.h 29-37 color_format_t *)
Definition indexed2 := 1.
Definition indexed4 := 2.
Definition indexed16 := 4.
Definition rgb332 := 8.
Definition rgb565 := 16.
Definition rgb888 := 24.

(* display_extensions.h 68, 74-88: the header *)
Definition HEADER := 5.
Definition width (bs : list Z) : res Z := let! a := rd bs 0 in let! b := rd bs 1 in Ok (wrap 16 (Z.lor (Z.shiftl a 8) b)).
Definition height (bs : list Z) : res Z := let! a := rd bs 2 in let! b := rd bs 3 in Ok (wrap 16 (Z.lor (Z.shiftl a 8) b)).
Definition format (bs : list Z) : res Z := rd bs 4.
(* 104-108 image_buffer_size_bytes *)
Definition size_bytes (bs : list Z) : res Z :=
  let! w := width bs in let! h := height bs in let! f := format bs in
  Ok (wrap 32 (wrap 32 (w * h) * f) / 8).
(* 110-114 image_buffer_is_valid *)
Definition is_valid (bs : list Z) : res bool :=
  if Z.of_nat (length bs) >? HEADER then
    let! s := size_bytes bs in Ok (Z.of_nat (length bs) >=? HEADER + s)
  else Ok false.

(* display_extensions.c 139-164 image_dims_to_size_bytes *)
Definition dims_to_size (fmt w h : Z) : Z :=
  let num := wrap 32 (w * h) in
  if fmt =? indexed2 then if negb (num mod 8 =? 0) then wrap 32 (num / 8 + 1) else num / 8
  else if fmt =? indexed4 then if negb (num mod 4 =? 0) then wrap 32 (num / 4 + 1) else num / 4
  else if fmt =? indexed16 then if negb (num mod 2 =? 0) then wrap 32 (num / 2 + 1) else num / 2
  else if fmt =? rgb332 then num
  else if fmt =? rgb565 then wrap 32 (num * 2)
  else if fmt =? rgb888 then wrap 32 (num * 3)
  else 0.
(* 243-256 image_buffer_allocate, 166-177 image_buffer_lift: the bytes of the new array *)
Definition new_image (fmt w h : Z) : list Z :=
  [wrap 8 (Z.shiftr w 8); wrap 8 w; wrap 8 (Z.shiftr h 8); wrap 8 h; wrap 8 fmt] ++ repeat 0 (Z.to_nat (dims_to_size fmt w h)).
(* 31-32, 1982-2016 ext_image_buffer: the format is one of the above, the
   dimensions are given as 32-bit numbers *)
Definition image_buffer (fmt w h : Z) : option (list Z) :=
  if (w >? 0) && (h >? 0) && (w <? 32000) && (h <? 32000) then Some (new_image fmt (wrap 16 w) (wrap 16 h)) else None.

(* 370-379 rgb888to332 *)
Definition to332 (rgb : Z) : Z :=
  let r := wrap 8 (Z.shiftr rgb 21) in
  let g := wrap 8 (Z.shiftr rgb 13) in
  let b := wrap 8 (Z.shiftr rgb 6) in
  let r := wrap 8 (Z.shiftl r 5) in
  let g := wrap 8 (Z.shiftl (Z.land g 7) 2) in
  let b := Z.land b 3 in
  Z.lor (Z.lor r g) b.
(* 381-390 rgb888to565 *)
Definition to565 (rgb : Z) : Z :=
  let r := wrap 16 (Z.shiftr rgb 19) in
  let g := wrap 16 (Z.shiftr rgb 10) in
  let b := wrap 16 (Z.shiftr rgb 3) in
  let r := wrap 8 (Z.shiftl r 11) in
  let g := wrap 16 (Z.shiftl (Z.land g 0x3F) 5) in
  let b := Z.land b 0x1F in
  Z.lor (Z.lor r g) b.
(* 392-398 rgb332to888 *)
Definition from332 (rgb : Z) : Z :=
  let r := Z.land (Z.shiftr rgb 5) 7 in
  let g := Z.land (Z.shiftr rgb 2) 7 in
  let b := Z.land rgb 3 in
  Z.lor (Z.lor (Z.shiftl r 21) (Z.shiftl g 13)) (Z.shiftl b 6).
(* 400-406 rgb565to888 *)
Definition from565 (rgb : Z) : Z :=
  let r := Z.shiftr rgb 11 in
  let g := Z.land (Z.shiftr rgb 5) 0x3F in
  let b := Z.land rgb 0x1F in
  Z.lor (Z.lor (Z.shiftl r 19) (Z.shiftl g 10)) (Z.shiftl b 3).

(* 462-465 *)
Definition indexed4_mask (ix : Z) : Z := if ix =? 0 then 0x03 else if ix =? 1 then 0x0C else if ix =? 2 then 0x30 else 0xC0.
Definition indexed4_shift (ix : Z) : Z := if ix =? 0 then 0 else if ix =? 1 then 2 else if ix =? 2 then 4 else 6.
Definition indexed16_mask (ix : Z) : Z := if ix =? 0 then 0x0F else 0xF0.
Definition indexed16_shift (ix : Z) : Z := if ix =? 0 then 0 else 4.

(* display_extensions.h 86-88, display_extensions.c 1874: img->data is &buf[5] *)
Definition rdd (bs : list Z) (i : Z) : res Z := if i <? 0 then UB else rd bs (HEADER + i).
Definition wrd (bs : list Z) (i v : Z) : res (list Z) := if i <? 0 then UB else wr bs (HEADER + i) v.

(* 479-506: the new value of the byte that holds the pixel *)
Definition byte2 (b pos c : Z) : Z :=
  let bit := 7 - Z.land pos 7 in
  if negb (c =? 0) then Z.lor b (wrap 8 (Z.shiftl 1 bit)) else Z.land b (wrap 8 (Z.lnot (Z.shiftl 1 bit))).
Definition byte4 (b pos c : Z) : Z :=
  let ix := 3 - Z.land pos 3 in
  wrap 8 (Z.lor (wrap 8 (Z.land b (Z.lnot (indexed4_mask ix)))) (wrap 8 (Z.shiftl c (indexed4_shift ix)))).
Definition byte16 (b pos c : Z) : Z :=
  let ix := 1 - Z.land pos 1 in
  wrap 8 (Z.lor (wrap 8 (Z.land b (Z.lnot (indexed16_mask ix)))) (wrap 8 (Z.shiftl c (indexed16_shift ix)))).

(* 468-526 putpixel *)
Definition putpixel (bs : list Z) (x_i y_i c : Z) : res (list Z) :=
  let! w := width bs in let! h := height bs in
  let x := wrap 16 x_i in let y := wrap 16 y_i in
  if (x <? w) && (y <? h) then
    let! fmt := format bs in
    let pos := wrap 32 (y * w + x) in
    if fmt =? indexed2 then let! b := rdd bs (Z.shiftr pos 3) in wrd bs (Z.shiftr pos 3) (byte2 b pos c)
    else if fmt =? indexed4 then let! b := rdd bs (Z.shiftr pos 2) in wrd bs (Z.shiftr pos 2) (byte4 b pos c)
    else if fmt =? indexed16 then let! b := rdd bs (Z.shiftr pos 1) in wrd bs (Z.shiftr pos 1) (byte16 b pos c)
    else if fmt =? rgb332 then
      let! a := int (y * w) in let! pos := int (a + x) in
      wrd bs pos (to332 c)
    else if fmt =? rgb565 then
      let! a := int (y * Z.shiftl w 1) in let! pos := int (a + Z.shiftl x 1) in
      let color := to565 c in
      let! bs := wrd bs pos (wrap 8 (Z.shiftr color 8)) in
      let! pos1 := int (pos + 1) in
      wrd bs pos1 (wrap 8 color)
    else if fmt =? rgb888 then
      let! a := int (y * (w * 3)) in let! pos := int (a + x * 3) in
      let! bs := wrd bs pos (wrap 8 (Z.shiftr c 16)) in
      let! pos1 := int (pos + 1) in let! bs := wrd bs pos1 (wrap 8 (Z.shiftr c 8)) in
      let! pos2 := int (pos + 2) in wrd bs pos2 (wrap 8 c)
    else Ok bs
  else Ok bs.

(* 528-577 getpixel *)
Definition getpixel (bs : list Z) (x_i y_i : Z) : res Z :=
  let! w := width bs in let! h := height bs in
  let x := wrap 16 x_i in let y := wrap 16 y_i in
  if (x <? w) && (y <? h) then
    let! fmt := format bs in
    let pos := wrap 32 (y * w + x) in
    if fmt =? indexed2 then let! b := rdd bs (Z.shiftr pos 3) in Ok (Z.land (Z.shiftr b (7 - Z.land pos 7)) 1)
    else if fmt =? indexed4 then
      let! b := rdd bs (Z.shiftr pos 2) in
      let ix := 3 - Z.land pos 3 in Ok (Z.shiftr (Z.land b (indexed4_mask ix)) (indexed4_shift ix))
    else if fmt =? indexed16 then
      let! b := rdd bs (Z.shiftr pos 1) in
      let ix := 1 - Z.land pos 1 in Ok (Z.shiftr (Z.land b (indexed16_mask ix)) (indexed16_shift ix))
    else if fmt =? rgb332 then
      let! a := int (y * w) in let! pos := int (a + x) in
      let! b := rdd bs pos in Ok (from332 b)
    else if fmt =? rgb565 then
      let! a := int (y * Z.shiftl w 1) in let! pos := int (a + Z.shiftl x 1) in
      let! b := rdd bs pos in let! pos1 := int (pos + 1) in let! b1 := rdd bs pos1 in
      Ok (from565 (wrap 16 (Z.lor (Z.shiftl b 8) b1)))
    else if fmt =? rgb888 then
      let! a := int (y * (w * 3)) in let! pos := int (a + x * 3) in
      let! r := rdd bs pos in
      let! pos1 := int (pos + 1) in let! g := rdd bs pos1 in
      let! pos2 := int (pos + 2) in let! b := rdd bs pos2 in
      Ok (Z.lor (Z.lor (Z.shiftl r 16) (Z.shiftl g 8)) b)
    else Ok 0
  else Ok 0.

(* 418, 425, 432, 436: memset(data, c, n), from byte [i] on *)
Fixpoint set_bytes (bs : list Z) (i c : Z) (n : nat) : res (list Z) :=
  match n with
  | O => Ok bs
  | S k => let! bs := wrd bs i c in set_bytes bs (i + 1) c k
  end.
(* 443-446: two bytes for each turn of the loop *)
Fixpoint set_pairs (bs : list Z) (i c1 c2 : Z) (n : nat) : res (list Z) :=
  match n with
  | O => Ok bs
  | S k => let! bs := wrd bs i c1 in let! bs := wrd bs (i + 1) c2 in set_pairs bs (i + 2) c1 c2 k
  end.
(* 451-455 *)
Fixpoint set_triples (bs : list Z) (i c1 c2 c3 : Z) (n : nat) : res (list Z) :=
  match n with
  | O => Ok bs
  | S k => let! bs := wrd bs i c1 in let! bs := wrd bs (i + 1) c2 in let! bs := wrd bs (i + 2) c3 in set_triples bs (i + 3) c1 c2 c3 k
  end.
(* 408-460 image_buffer_clear.  The loops run while i < img_size/2 in steps of 2,
   and while i < img_size*3 in steps of 3. *)
Definition clear (bs : list Z) (cc : Z) : res (list Z) :=
  let! fmt := format bs in let! w := width bs in let! h := height bs in
  let size := wrap 32 (w * h) in
  let part n := wrap 32 (size / n + (if size mod n =? 0 then 0 else 1)) in
  if fmt =? indexed2 then set_bytes bs 0 (if Z.land cc 1 =? 0 then 0 else 0xFF) (Z.to_nat (part 8))
  else if fmt =? indexed4 then
    let ix := Z.land cc 3 in
    set_bytes bs 0 (if ix =? 0 then 0 else if ix =? 1 then 0x55 else if ix =? 2 then 0xAA else 0xFF) (Z.to_nat (part 4))
  else if fmt =? indexed16 then
    let ix := Z.land cc 15 in
    set_bytes bs 0 (wrap 8 (Z.lor ix (Z.shiftl ix 4))) (Z.to_nat (part 2))
  else if fmt =? rgb332 then set_bytes bs 0 (to332 cc) (Z.to_nat size)
  else if fmt =? rgb565 then
    let c := to565 cc in set_pairs bs 0 (wrap 8 (Z.shiftr c 8)) (wrap 8 c) (Z.to_nat ((size / 2 + 1) / 2))
  else if fmt =? rgb888 then
    set_triples bs 0 (wrap 8 (Z.shiftr cc 16)) (wrap 8 (Z.shiftr cc 8)) (wrap 8 cc) (Z.to_nat ((wrap 32 (size * 3) + 2) / 3))
  else Ok bs.

(* 579-583 h_line, 585-589 v_line: from the [i]th pixel on, [n] pixels *)
Fixpoint h_loop (bs : list Z) (x y i c : Z) (n : nat) : res (list Z) :=
  match n with
  | O => Ok bs
  | S k => let! xi := int (x + i) in let! bs := putpixel bs xi y c in h_loop bs x y (i + 1) c k
  end.
Definition h_line (bs : list Z) (x y len c : Z) : res (list Z) := h_loop bs x y 0 c (Z.to_nat len).
Fixpoint v_loop (bs : list Z) (x y i c : Z) (n : nat) : res (list Z) :=
  match n with
  | O => Ok bs
  | S k => let! yi := int (y + i) in let! bs := putpixel bs x yi c in v_loop bs x y (i + 1) c k
  end.
Definition v_line (bs : list Z) (x y len c : Z) : res (list Z) := v_loop bs x y 0 c (Z.to_nat len).

(* 633-648: the first column of a line of the disc, [n] columns left to try *)
Fixpoint left_loop (x1 y1 r_sq : Z) (n : nat) : res (option Z) :=
  match n with
  | O => Ok None
  | S k =>
    let! a := int (x1 * x1) in let! b := int (y1 * y1) in let! s := int (a + b) in
    if s <=? r_sq then Ok (Some x1) else left_loop (x1 + 1) y1 r_sq k
  end.
(* 637-640: the last one *)
Fixpoint right_loop (x1 y1 r_sq radius : Z) (fuel : nat) : res Z :=
  match fuel with
  | O => Fuel
  | S k =>
    let! x2 := int (x1 + 1) in
    if x2 <=? radius then
      let! a := int (x2 * x2) in let! b := int (y1 * y1) in let! s := int (a + b) in
      if s <=? r_sq then right_loop x2 y1 r_sq radius k else Ok x1
    else Ok x1
  end.
(* 632-650: [n] lines from line [y1] on.  The scan to the right takes less than
   radius - x1 + 1 turns. *)
Fixpoint disc_loop (bs : list Z) (x y y1 r_sq radius c : Z) (n : nat) : res (list Z) :=
  match n with
  | O => Ok bs
  | S k =>
    let! l := left_loop (- radius) y1 r_sq (Z.to_nat (2 * radius + 1)) in
    let! bs := (match l with
                | None => Ok bs
                | Some l0 =>
                  let! r0 := right_loop l0 y1 r_sq radius (Z.to_nat (radius - l0 + 1)) in
                  let! len := int (r0 - l0 + 1) in
                  let! a := int (x + l0) in let! b := int (y + y1) in
                  h_line bs a b len c
                end) in
    disc_loop bs x y (y1 + 1) r_sq radius c k
  end.
(* 603-628: lines of a small disc: offsets of the start and the length *)
Fixpoint rows (bs : list Z) (x y c : Z) (l : list (Z * Z * Z)) : res (list Z) :=
  match l with
  | [] => Ok bs
  | (dx, dy, len) :: l =>
    let! a := int (x + dx) in let! b := int (y + dy) in
    let! bs := h_line bs a b len c in rows bs x y c l
  end.
(* 591-653 fill_circle *)
Definition fill_circle (bs : list Z) (x y radius c : Z) : res (list Z) :=
  if radius =? 0 then Ok bs
  else if radius =? 1 then
    let! a := int (x - 1) in let! b := int (y - 1) in
    let! bs := putpixel bs a b c in let! bs := putpixel bs x b c in
    let! bs := putpixel bs a y c in putpixel bs x y c
  else if radius =? 2 then rows bs x y c [(-1, -2, 2); (-2, -1, 4); (-2, 0, 4); (-1, 1, 2)]
  else if radius =? 3 then rows bs x y c [(-2, -3, 4); (-3, -2, 6); (-3, -1, 6); (-3, 0, 6); (-3, 1, 6); (-2, 2, 4)]
  else if radius =? 4 then
    rows bs x y c [(-2, -4, 4); (-3, -3, 6); (-4, -2, 8); (-4, -1, 8); (-4, 0, 8); (-4, 1, 8); (-3, 2, 6); (-2, 3, 4)]
  else
    let! r_sq := int (radius * radius) in
    disc_loop bs x y (- radius) r_sq radius c (Z.to_nat (2 * radius + 1)).

(* 842-844: the lines of a filled rectangle *)
Fixpoint fill_loop (bs : list Z) (x i width c : Z) (n : nat) : res (list Z) :=
  match n with
  | O => Ok bs
  | S k => let! bs := h_line bs x i width c in fill_loop bs x (i + 1) width c k
  end.
(* 837-853 rectangle, filled, or with a thickness of at most 1 and not dotted *)
Definition rectangle (bs : list Z) (x y width height : Z) (fill : bool) (c : Z) : res (list Z) :=
  let! bot := int (y + height) in
  if fill then fill_loop bs x y width c (Z.to_nat height)
  else
    let! bs := h_line bs x y width c in
    let! bs := h_line bs x bot width c in
    let! bs := v_line bs x y height c in
    let! rt := int (x + width) in
    v_line bs rt y height c.

(* 339-353 point_past_line *)
Definition past_line (x y ax ay bx by_ : Z) : res Z :=
  let! a := int (x - ax) in let! b := int (by_ - ay) in let! p := int (a * b) in
  let! d := int (y - ay) in let! e := int (bx - ax) in let! q := int (d * e) in
  let! cross := int (p - q) in
  Ok (if cross >? 0 then 1 else if cross <? 0 then -1 else 0).
(* 880-888: the points of one line of a filled triangle *)
Fixpoint tri_row (bs : list Z) (x y x0 y0 x1 y1 x2 y2 c : Z) (n : nat) : res (list Z) :=
  match n with
  | O => Ok bs
  | S k =>
    let! w0 := past_line x y x1 y1 x2 y2 in
    let! w1 := past_line x y x2 y2 x0 y0 in
    let! w2 := past_line x y x0 y0 x1 y1 in
    let! bs := (if ((w0 >=? 0) && (w1 >=? 0) && (w2 >=? 0)) || ((w0 <=? 0) && (w1 <=? 0) && (w2 <=? 0)) then putpixel bs x y c else Ok bs) in
    tri_row bs (x + 1) y x0 y0 x1 y1 x2 y2 c k
  end.
Fixpoint tri_rows (bs : list Z) (xmin y x0 y0 x1 y1 x2 y2 c : Z) (m n : nat) : res (list Z) :=
  match n with
  | O => Ok bs
  | S k =>
    let! bs := tri_row bs xmin y x0 y0 x1 y1 x2 y2 c m in
    tri_rows bs xmin (y + 1) x0 y0 x1 y1 x2 y2 c m k
  end.
(* 871-890 fill_triangle *)
Definition fill_triangle (bs : list Z) (x0 y0 x1 y1 x2 y2 c : Z) : res (list Z) :=
  let xmin := Z.min x0 (Z.min x1 x2) in let xmax := Z.max x0 (Z.max x1 x2) in
  let ymin := Z.min y0 (Z.min y1 y2) in let ymax := Z.max y0 (Z.max y1 y2) in
  tri_rows bs xmin ymin x0 y0 x1 y1 x2 y2 c (Z.to_nat (xmax - xmin + 1)) (Z.to_nat (ymax - ymin + 1)).

(* 755-834 line with a thickness of at most 1, not dotted *)
Fixpoint line_loop (fuel : nat) (bs : list Z) (x0 y0 x1 y1 dx dy sx sy error c : Z) : res (list Z) :=
  match fuel with
  | O => Fuel
  | S k =>
    let! bs := putpixel bs x0 y0 c in
    if (x0 =? x1) && (y0 =? y1) then Ok bs
    else
      let! e2 := int (error * 2) in
      if (e2 >=? dy) && (x0 =? x1) then Ok bs
      else
        let! (error, x0) := (if e2 >=? dy then let! e := int (error + dy) in let! x := int (x0 + sx) in Ok (e, x) else Ok (error, x0)) in
        let! e2 := int (error * 2) in
        if (e2 <=? dx) && (y0 =? y1) then Ok bs
        else
          let! (error, y0) := (if e2 <=? dx then let! e := int (error + dx) in let! y := int (y0 + sy) in Ok (e, y) else Ok (error, y0)) in
          line_loop k bs x0 y0 x1 y1 dx dy sx sy error c
  end.
Definition line (fuel : nat) (bs : list Z) (x0 y0 x1 y1 c : Z) : res (list Z) :=
  let! a := int (x1 - x0) in let! dx := int (Z.abs a) in
  let! b := int (y1 - y0) in let! b' := int (Z.abs b) in
  let dy := - b' in
  let! error := int (dx + dy) in
  line_loop fuel bs x0 y0 x1 y1 dx dy (if x0 <? x1 then 1 else -1) (if y0 <? y1 then 1 else -1) error c.
