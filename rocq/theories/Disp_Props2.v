(* C91: drawing. *)
From Verif Require Import Base Disp_Model Disp_Spec Disp_Proofs Disp_Proofs2 Disp_Proofs4 Disp_Props.
Local Open Scope Z_scope.

(* filled rectangle *)
Theorem rectangle_filled bs w h fmt c x y wd ht : image bs w h fmt -> normal w h -> color_of fmt c ->
  near x -> near y -> 0 <= wd -> 0 <= ht -> x + wd <= 2 ^ 16 -> y + ht <= 2 ^ 16 ->
  exists bs', rectangle bs x y wd ht true c = Ok bs' /\
    painted w h fmt c (fun px py => x <= px < x + wd /\ y <= py < y + ht) bs bs'.
Proof. intros I Hn Hc. intros. apply (rectangle_paints w h fmt c Hn Hc); auto. Qed.

(* The outline: its lines are [wd] and [ht] long, and one column and one line further
   out than those of the filled rectangle. *)
Theorem rectangle_outline bs w h fmt c x y wd ht : image bs w h fmt -> normal w h -> color_of fmt c ->
  near x -> near y -> 0 <= wd -> 0 <= ht -> near (x + wd) -> near (y + ht) ->
  exists bs', rectangle bs x y wd ht false c = Ok bs' /\
    painted w h fmt c (fun px py => (x <= px < x + wd /\ (py = y \/ py = y + ht)) \/ (y <= py < y + ht /\ (px = x \/ px = x + wd))) bs bs'.
Proof. intros I Hn Hc. intros. apply (outline_paints w h fmt c Hn Hc); auto. Qed.
(* Not so in the code: the corner between the right and the lower line is not drawn. *)
Theorem outline_corner_refuted : exists bs w h fmt c x y wd ht bs',
  image bs w h fmt /\ color_of fmt c /\ 0 < wd /\ 0 < ht /\ 0 <= x /\ x + wd < w /\ 0 <= y /\ y + ht < h /\
  rectangle bs x y wd ht false c = Ok bs' /\
  pixel fmt bs' (y * w + x) = packed fmt c /\
  pixel fmt bs' ((y + ht) * w + x) = packed fmt c /\
  pixel fmt bs' (y * w + (x + wd)) = packed fmt c /\
  pixel fmt bs' ((y + ht) * w + (x + wd)) <> packed fmt c.
Proof.
  exists [0; 3; 0; 3; 8; 0; 0; 0; 0; 0; 0; 0; 0; 0], 3, 3, 8, 0xFFFFFF, 0, 0, 2, 2, [0; 3; 0; 3; 8; 255; 255; 255; 255; 0; 255; 255; 255; 0].
  split; [img|]. split; [unfold color_of; lia|]. do 6 (split; [lia|]). split; [reflexivity|]. vm_compute. repeat split. discriminate.
Qed.

Example rectangle_ex : exists bs', rectangle img5x3 3 1 10 10 true 1 = Ok bs' /\
  painted 5 3 2 1 (fun px py => 3 <= px < 3 + 10 /\ 1 <= py < 1 + 10) img5x3 bs'.
Proof. apply rectangle_filled; [apply img5x3_image|apply img5x3_image|unfold color_of; lia|unfold near; lia..|lia|lia|lia|lia]. Qed.

(* filled triangle *)
Theorem triangle_filled bs w h fmt c x0 y0 x1 y1 x2 y2 : image bs w h fmt -> normal w h -> color_of fmt c ->
  near x0 -> near y0 -> near x1 -> near y1 -> near x2 -> near y2 ->
  span x0 x1 -> span x1 x2 -> span x2 x0 -> span y0 y1 -> span y1 y2 -> span y2 y0 ->
  (x0 - x1) * (y2 - y1) <> (y0 - y1) * (x2 - x1) ->
  exists bs', fill_triangle bs x0 y0 x1 y1 x2 y2 c = Ok bs' /\ painted w h fmt c (in_triangle x0 y0 x1 y1 x2 y2) bs bs'.
Proof.
  intros I Hn Hc. intros.
  assert (paints w h fmt c (in_triangle x0 y0 x1 y1 x2 y2) (fun bs => fill_triangle bs x0 y0 x1 y1 x2 y2 c)) as K.
  { eapply paints_ext; [|apply fill_triangle_paints; auto]. intros px py _ _. cbv beta.
    rewrite signs_triangle by (unfold cross; lia). split; [tauto|]. intros T. pose proof (triangle_box _ _ _ _ _ _ _ _ T). tauto. }
  apply K; auto.
Qed.
Example triangle_ex : fill_triangle [0; 4; 0; 4; 1; 0; 0] 0 0 3 0 0 3 1 = Ok [0; 4; 0; 4; 1; 254; 200] /\ in_triangle 0 0 3 0 0 3 1 1 /\ span 0 3.
Proof. split; [vm_compute; reflexivity|]. split; [exists 1, 1, 1; lia|unfold span; lia]. Qed.
(* Not so in the code for larger triangles: an int overflows. *)
Theorem triangle_overflow_refuted : exists bs w h fmt c x0 y0 x1 y1 x2 y2,
  image bs w h fmt /\ normal w h /\ color_of fmt c /\ near x0 /\ near y0 /\ near x1 /\ near y1 /\ near x2 /\ near y2 /\
  fill_triangle bs x0 y0 x1 y1 x2 y2 c = UB.
Proof.
  exists [0; 1; 0; 1; 8; 0], 1, 1, 8, 0, (-30000), (-30000), 60000, 60000, (-30000), 60000.
  split; [img|]. split; [unfold normal; lia|]. split; [unfold color_of; lia|]. unfold near. do 6 (split; [lia|]).
  unfold fill_triangle. 
  replace (Z.to_nat (Z.max (-30000) (Z.max 60000 60000) - Z.min (-30000) (Z.min 60000 60000) + 1)) with (S (Z.to_nat 90000)) by lia.
  replace (Z.to_nat (Z.max (-30000) (Z.max 60000 (-30000)) - Z.min (-30000) (Z.min 60000 (-30000)) + 1)) with (S (Z.to_nat 90000)) by lia.
  cbn [tri_rows tri_row]. vm_compute. reflexivity.
Qed.

(* disc: about the center for a radius above 4, about the corner between four pixels
   for one up to 4 *)
Theorem circle_filled bs w h fmt c x y r : image bs w h fmt -> normal w h -> color_of fmt c ->
  0 <= r <= 32767 -> near (x - r) -> near (x + r) -> near (y - r) -> near (y + r) ->
  exists bs', fill_circle bs x y r c = Ok bs' /\
    painted w h fmt c (fun px py =>
      if r <=? 4 then (2 * (px - x) + 1) ^ 2 + (2 * (py - y) + 1) ^ 2 <= (2 * r) ^ 2
      else (px - x) ^ 2 + (py - y) ^ 2 <= r ^ 2) bs bs'.
Proof.
  intros I Hn Hc Hr X1 X2 Y1 Y2.
  match goal with |- context [painted _ _ _ _ ?S _ _] => assert (paints w h fmt c S (fun bs => fill_circle bs x y r c)) as K; [|apply K; auto] end.
  unfold near in *.
  destruct (Z.leb_spec r 4) as [S|S].
  - assert (r = 0 \/ r = 1 \/ r = 2 \/ r = 3 \/ r = 4) as [->|[->|[->|[->| ->]]]] by lia.
    + eapply paints_ext; [|eapply paints_eq; [|apply paints_ok]]; [|intros; reflexivity].
      intros px py _ _. cbv beta. split; [tauto|]. nia.
    + assert (paints w h fmt c (fun px py => (px = x - 1 \/ px = x) /\ (py = y - 1 \/ py = y)) (fun bs => fill_circle bs x y 1 c)) as K.
      { eapply paints_ext; cycle 1.
        - eapply paints_eq; [|apply (paints_bind _ _ _ _ _ _ (fun bs => putpixel bs (x - 1) (y - 1) c) _ (putpixel_paints w h fmt c Hn Hc (x - 1) (y - 1) ltac:(unfold near; lia) ltac:(unfold near; lia))
             (paints_bind _ _ _ _ _ _ (fun bs => putpixel bs x (y - 1) c) _ (putpixel_paints w h fmt c Hn Hc x (y - 1) ltac:(unfold near; lia) ltac:(unfold near; lia))
             (paints_bind _ _ _ _ _ _ (fun bs => putpixel bs (x - 1) y c) _ (putpixel_paints w h fmt c Hn Hc (x - 1) y ltac:(unfold near; lia) ltac:(unfold near; lia))
                (putpixel_paints w h fmt c Hn Hc x y ltac:(unfold near; lia) ltac:(unfold near; lia)))))].
          intros b. unfold fill_circle. cbn [Z.eqb Pos.eqb]. rewrite !int_bind by lia. reflexivity.
        - intros px py _ _. cbv beta. lia. }
      eapply paints_ext; [|exact K]. intros px py _ _. cbv beta. split.
      * intros ([->| ->] & [->| ->]); nia.
      * intros Q. assert (-2 < 2 * (px - x) + 1 < 2) by nia. assert (-2 < 2 * (py - y) + 1 < 2) by nia. lia.
    + eapply paints_ext; [|eapply paints_eq; [|apply (rows_paints w h fmt c Hn Hc x y [(-1, -2, 2); (-2, -1, 4); (-2, 0, 4); (-1, 1, 2)])]].
      * intros px py _ _. apply (rows_disc 2); [lia|vm_compute; reflexivity..].
      * intros b. reflexivity.
      * repeat (apply Forall_cons; [cbn [fst snd]; unfold near; lia|]); apply Forall_nil.
    + eapply paints_ext; [|eapply paints_eq; [|apply (rows_paints w h fmt c Hn Hc x y [(-2, -3, 4); (-3, -2, 6); (-3, -1, 6); (-3, 0, 6); (-3, 1, 6); (-2, 2, 4)])]].
      * intros px py _ _. apply (rows_disc 3); [lia|vm_compute; reflexivity..].
      * intros b. reflexivity.
      * repeat (apply Forall_cons; [cbn [fst snd]; unfold near; lia|]); apply Forall_nil.
    + eapply paints_ext; [|eapply paints_eq; [|apply (rows_paints w h fmt c Hn Hc x y [(-2, -4, 4); (-3, -3, 6); (-4, -2, 8); (-4, -1, 8); (-4, 0, 8); (-4, 1, 8); (-3, 2, 6); (-2, 3, 4)])]].
      * intros px py _ _. apply (rows_disc 4); [lia|vm_compute; reflexivity..].
      * intros b. reflexivity.
      * repeat (apply Forall_cons; [cbn [fst snd]; unfold near; lia|]); apply Forall_nil.
  - eapply paints_ext; [|eapply paints_eq; [|apply (disc_loop_paints w h fmt c Hn Hc x y r (Z.to_nat (2 * r + 1)) Hr X1 X2 Y1 Y2 (- r) ltac:(lia) ltac:(lia))]].
    + intros px py _ _. cbv beta. rewrite !Z.pow_2_r. split; [tauto|]. intros Q. split; [|auto].
      pose proof (Z.square_nonneg (px - x)). set (v := py - y) in *. assert (- r <= v <= r) by nia. lia.
    + intros b. unfold fill_circle. destruct (Z.eqb_spec r 0), (Z.eqb_spec r 1), (Z.eqb_spec r 2), (Z.eqb_spec r 3), (Z.eqb_spec r 4); try lia.
      assert (0 <= r * r <= 32767 * 32767) by nia. rewrite int_bind by lia. reflexivity.
Qed.
Example circle_ex : fill_circle [0; 8; 0; 4; 1; 0; 0; 0; 0] 4 2 2 1 = Ok [0; 8; 0; 4; 1; 24; 60; 60; 24] /\ near (4 - 2) /\ near (2 + 2).
Proof. split; [vm_compute; reflexivity|]. unfold near. lia. Qed.
Example circle_big_ex : exists bs', fill_circle img5x3 0 0 5 1 = Ok bs' /\ pixel 2 bs' (2 * 5 + 4) = packed 2 1 /\ pixel 2 bs' (0 * 5 + 4) = packed 2 1.
Proof.
  destruct (circle_filled img5x3 5 3 2 1 0 0 5) as (b & R & (_ & _ & A & _ & _));
    [apply img5x3_image|apply img5x3_image|unfold color_of; lia|lia|unfold near; lia..|].
  exists b. split; [auto|]. split; apply A; vm_compute; intuition discriminate.
Qed.

(* line: a walk from the first point along the straight line to the second, but if it is
   longer in x than in y, and at most twice as long, it stops one column before it *)
Definition between (x0 y0 sx sy : Z) (l : list (Z * Z)) (px py : Z) : Prop :=
  exists a b, In (a, b) l /\ px = x0 + sx * a /\ py = y0 + sy * b.
Theorem line_correct fuel bs w h fmt c x0 y0 x1 y1 : image bs w h fmt -> normal w h -> color_of fmt c ->
  near x0 -> near y0 -> near x1 -> near y1 ->
  let dx := Z.abs (x1 - x0) in let dy := Z.abs (y1 - y0) in
  dx + dy < Z.of_nat fuel ->
  exists bs' l, line fuel bs x0 y0 x1 y1 c = Ok bs' /\ walk ((0, 0) :: l) /\ Forall (close dx dy) ((0, 0) :: l) /\
    last ((0, 0) :: l) (0, 0) = (if (dy <? dx) && (dx <=? 2 * dy) then dx - 1 else dx, dy) /\
    painted w h fmt c (between x0 y0 (if x0 <? x1 then 1 else -1) (if y0 <? y1 then 1 else -1) ((0, 0) :: l)) bs bs'.
Proof.
  intros I Hn Hc N0 M0 N1 M1 dx dy Hf.
  assert (0 <= dx <= 2 ^ 17) by (unfold near in *; lia). assert (0 <= dy <= 2 ^ 17) by (unfold near in *; lia).
  set (sx := if x0 <? x1 then 1 else -1). set (sy := if y0 <? y1 then 1 else -1).
  assert (sx = 1 \/ sx = -1) as Hsx by (unfold sx; destruct (x0 <? x1); auto).
  assert (sy = 1 \/ sy = -1) as Hsy by (unfold sy; destruct (y0 <? y1); auto).
  assert (x1 = x0 + sx * dx) as Ex by (unfold sx, dx; destruct (Z.ltb_spec x0 x1); lia).
  assert (y1 = y0 + sy * dy) as Ey by (unfold sy, dy; destruct (Z.ltb_spec y0 y1); lia).
  destruct (line_loop_ok w h fmt c Hn Hc x0 y0 x1 y1 dx dy sx sy ltac:(auto) ltac:(auto) Hsx Hsy Ex Ey N0 N1 M0 M1 fuel 0 0 (dx - dy))
    as (t & W & C & La & P); [lia..|].
  destruct (P bs I) as (b & R & Q). exists b, t. split; [|split; [auto|split; [auto|split; [auto|]]]].
  - unfold line. unfold near in *. rewrite int_bind by lia. rewrite int_bind by lia. rewrite int_bind by lia. rewrite int_bind by lia.
    fold dx dy. rewrite int_bind by lia. fold sx sy. replace (dx + - dy) with (dx - dy) by lia.
    rewrite !Z.mul_0_r, !Z.add_0_r in R. exact R.
  - eapply painted_ext; [|exact Q]. intros px py _ _. unfold onpath, between. split.
    + intros ([a e] & H1 & H2). exists a, e. auto.
    + intros (a & e & H1 & H2). exists (a, e). auto.
Qed.
Example line_ex : line 20 [0; 8; 0; 4; 1; 0; 0; 0; 0] 0 0 7 3 1 = Ok [0; 8; 0; 4; 1; 128; 96; 24; 7].
Proof. vm_compute. reflexivity. Qed.
(* Not so in the code: the second point is not always drawn. *)
Theorem line_end_refuted : exists bs w h fmt c x0 y0 x1 y1 fuel bs',
  image bs w h fmt /\ color_of fmt c /\ 0 <= x0 < w /\ 0 <= y0 < h /\ 0 <= x1 < w /\ 0 <= y1 < h /\
  line fuel bs x0 y0 x1 y1 c = Ok bs' /\ pixel fmt bs' (y1 * w + x1) <> packed fmt c.
Proof.
  exists [0; 3; 0; 2; 8; 0; 0; 0; 0; 0; 0], 3, 2, 8, 0xFFFFFF, 0, 0, 2, 1, 9%nat, [0; 3; 0; 2; 8; 255; 0; 0; 0; 255; 0].
  split; [img|]. split; [unfold color_of; lia|]. do 4 (split; [lia|]). split; [reflexivity|]. vm_compute. discriminate.
Qed.

Print Assumptions rectangle_filled.
Print Assumptions rectangle_outline.
Print Assumptions outline_corner_refuted.
Print Assumptions triangle_filled.
Print Assumptions triangle_overflow_refuted.
Print Assumptions circle_filled.
Print Assumptions line_correct.
Print Assumptions line_end_refuted.
