(* Lemmas on painting: sets of points. *)
From Verif Require Import Base Disp_Model Disp_Spec Disp_Proofs.
Local Open Scope Z_scope.

Lemma painted_refl bs w h fmt c : image bs w h fmt -> painted w h fmt c (fun _ _ => False) bs bs.
Proof. intros I. repeat split; auto; try apply I; intros; tauto. Qed.
Lemma painted_image w h fmt c S bs bs' : painted w h fmt c S bs bs' -> image bs' w h fmt.
Proof. intros H. apply H. Qed.
Lemma painted_ext w h fmt c (S S' : Z -> Z -> Prop) bs bs' :
  (forall x y, 0 <= x < w -> 0 <= y < h -> (S x y <-> S' x y)) -> painted w h fmt c S bs bs' -> painted w h fmt c S' bs bs'.
Proof.
  intros E (L & I & A & B & D). split; [auto|]. split; [auto|]. split; [|split]; auto.
  - intros. apply A; auto. apply E; auto.
  - intros. apply B; auto. rewrite E; auto.
Qed.
Lemma painted_union w h fmt c S1 S2 bs bs1 bs2 :
  painted w h fmt c S1 bs bs1 -> painted w h fmt c S2 bs1 bs2 ->
  painted w h fmt c (fun x y => S1 x y \/ S2 x y) bs bs2.
Proof.
  intros (L & I & A & B & D) (L' & I' & A' & B' & D').
  split; [congruence|]. split; [auto|]. split; [|split].
  - intros x y Hx Hy [H|H]; [|apply A'; auto].
    destruct (Z.eq_dec (pixel fmt bs2 (y * w + x)) (packed fmt c)) as [E|E]; auto.
    exfalso. assert (~ S2 x y) as N by (intros K; apply E; apply A'; auto).
    apply E. rewrite B' by auto. apply A; auto.
  - intros x y Hx Hy H. rewrite B' by tauto. apply B; tauto.
  - intros p Hp. rewrite D' by auto. apply D; auto.
Qed.

Lemma wrap16_near x w : near x -> w <= 2 ^ 15 -> wrap 16 x < w -> 0 <= x < w /\ wrap 16 x = x.
Proof.
  intros N Hw H. unfold near in N. destruct (Z.ltb_spec x 0).
  - unfold wrap in H. rewrite <- (Z.mod_add x 1 (2 ^ 16)) in H by lia. rewrite Z.mod_small in H by lia. lia.
  - rewrite wrap_small in * by lia. lia.
Qed.

Definition paints (w h fmt c : Z) (S : Z -> Z -> Prop) (f : list Z -> res (list Z)) : Prop :=
  forall bs, image bs w h fmt -> exists bs', f bs = Ok bs' /\ painted w h fmt c S bs bs'.

Lemma paints_ext w h fmt c (S S' : Z -> Z -> Prop) f :
  (forall x y, 0 <= x < w -> 0 <= y < h -> (S x y <-> S' x y)) -> paints w h fmt c S f -> paints w h fmt c S' f.
Proof. intros E H bs I. destruct (H bs I) as (bs' & R & P). exists bs'. split; auto. eapply painted_ext; eauto. Qed.
Lemma paints_bind w h fmt c S1 S2 f g :
  paints w h fmt c S1 f -> paints w h fmt c S2 g -> paints w h fmt c (fun x y => S1 x y \/ S2 x y) (fun bs => let! bs := f bs in g bs).
Proof.
  intros F G bs I. destruct (F bs I) as (b1 & R1 & P1). destruct (G b1 (painted_image _ _ _ _ _ _ _ P1)) as (b2 & R2 & P2).
  exists b2. rewrite R1. cbn [bind]. split; auto. eapply painted_union; eauto.
Qed.
Lemma paints_ok w h fmt c : paints w h fmt c (fun _ _ => False) (fun bs => Ok bs).
Proof. intros bs I. exists bs. split; auto. apply painted_refl; auto. Qed.

Section drawing.
Variables w h fmt c : Z.
Hypothesis Hn : normal w h.
Hypothesis Hc : color_of fmt c.
Local Notation paints := (paints w h fmt c).

Lemma putpixel_paints x y : near x -> near y -> paints (fun px py => px = x /\ py = y) (fun bs => putpixel bs x y c).
Proof.
  intros Nx Ny bs I. destruct Hn as [Hw Hh].
  destruct (Z.ltb_spec (wrap 16 x) w) as [Ax|Ax].
  - destruct (Z.ltb_spec (wrap 16 y) h) as [Ay|Ay].
    + destruct (wrap16_near x w Nx Hw Ax) as (Bx & Ex). destruct (wrap16_near y h Ny Hh Ay) as (By & Ey).
      exists (store fmt bs (y * w + x) c). rewrite (putpixel_in bs w h fmt) by (auto; lia). rewrite Ex, Ey. split; [reflexivity|].
      pose proof (pos_bound w h x y Bx By) as P.
      split; [apply store_length|]. split; [apply store_image; auto|]. split; [|split].
      * intros px py _ _ (-> & ->). rewrite (store_pixel _ w h) by (auto; lia). rewrite Z.eqb_refl. reflexivity.
      * intros px py Px Py H. pose proof (pos_bound w h px py Px Py). rewrite (store_pixel _ w h) by (auto; lia).
        destruct (Z.eqb_spec (py * w + px) (y * w + x)); [|reflexivity]. exfalso. apply H.
        assert (py = y) by nia. subst. lia.
      * intros p Hp. rewrite (store_pixel _ w h) by (auto; lia). destruct (Z.eqb_spec p (y * w + x)); [lia|reflexivity].
    + exists bs. rewrite (putpixel_out bs w h fmt) by (auto; lia). split; [reflexivity|].
      eapply painted_ext; [|apply painted_refl; auto]. intros px py Hx Hy. split; [tauto|]. intros (-> & ->).
      rewrite wrap_small in Ay; lia.
  - exists bs. rewrite (putpixel_out bs w h fmt) by (auto; lia). split; [reflexivity|].
    eapply painted_ext; [|apply painted_refl; auto]. intros px py Hx Hy. split; [tauto|]. intros (-> & ->).
    rewrite wrap_small in Ax; lia.
Qed.

Lemma int_bind {B} x (k : Z -> res B) : - 2 ^ 31 <= x < 2 ^ 31 -> (let! y := int x in k y) = k x.
Proof. intros H. rewrite int_ok by auto. reflexivity. Qed.

Lemma paints_eq S f g : (forall bs, g bs = f bs) -> paints S f -> paints S g.
Proof. intros E H bs I. rewrite E. apply H; auto. Qed.

Lemma h_loop_paints x y n : near y -> forall i, - 2 ^ 15 <= x + i -> x + i + Z.of_nat n <= 2 ^ 16 ->
  paints (fun px py => py = y /\ x + i <= px < x + i + Z.of_nat n) (fun bs => h_loop bs x y i c n).
Proof.
  intros Ny. induction n as [|n IH]; intros i A B.
  - eapply paints_ext; [|apply paints_ok]. intros. lia.
  - eapply paints_ext; cycle 1.
    + eapply paints_eq; [|eapply (paints_bind _ _ _ _ (fun px py => px = x + i /\ py = y) _ (fun bs => putpixel bs (x + i) y c) (fun bs => h_loop bs x y (i + 1) c n))].
      * intros bs. cbn [h_loop]. rewrite int_bind by lia. reflexivity.
      * apply putpixel_paints; auto. unfold near. lia.
      * apply IH; lia.
    + intros px py _ _. cbv beta. lia.
Qed.
Lemma h_line_paints x y len : near x -> near y -> x + len <= 2 ^ 16 ->
  paints (fun px py => py = y /\ x <= px < x + len) (fun bs => h_line bs x y len c).
Proof.
  intros Nx Ny Hl. unfold near in Nx. unfold h_line. eapply paints_ext; [|apply h_loop_paints; auto; lia].
  intros. cbv beta. lia.
Qed.
Lemma v_loop_paints x y n : near x -> forall i, - 2 ^ 15 <= y + i -> y + i + Z.of_nat n <= 2 ^ 16 ->
  paints (fun px py => px = x /\ y + i <= py < y + i + Z.of_nat n) (fun bs => v_loop bs x y i c n).
Proof.
  intros Ny. induction n as [|n IH]; intros i A B.
  - eapply paints_ext; [|apply paints_ok]. intros. lia.
  - eapply paints_ext; cycle 1.
    + eapply paints_eq; [|eapply (paints_bind _ _ _ _ (fun px py => px = x /\ py = y + i) _ (fun bs => putpixel bs x (y + i) c) (fun bs => v_loop bs x y (i + 1) c n))].
      * intros bs. cbn [v_loop]. rewrite int_bind by lia. reflexivity.
      * apply putpixel_paints; auto. unfold near. lia.
      * apply IH; lia.
    + intros px py _ _. cbv beta. lia.
Qed.
Lemma v_line_paints x y len : near x -> near y -> y + len <= 2 ^ 16 ->
  paints (fun px py => px = x /\ y <= py < y + len) (fun bs => v_line bs x y len c).
Proof.
  intros Nx Ny Hl. unfold near in Ny. unfold v_line. eapply paints_ext; [|apply v_loop_paints; auto; lia].
  intros. cbv beta. lia.
Qed.
Lemma fill_loop_paints x wd n : near x -> x + wd <= 2 ^ 16 -> forall i, - 2 ^ 15 <= i -> i + Z.of_nat n <= 2 ^ 16 ->
  paints (fun px py => x <= px < x + wd /\ i <= py < i + Z.of_nat n) (fun bs => fill_loop bs x i wd c n).
Proof.
  intros Nx Hw. induction n as [|n IH]; intros i A B.
  - eapply paints_ext; [|apply paints_ok]. intros. lia.
  - eapply paints_ext; cycle 1.
    + eapply (paints_bind _ _ _ _ (fun px py => py = i /\ x <= px < x + wd) _ (fun bs => h_line bs x i wd c) (fun bs => fill_loop bs x (i + 1) wd c n)).
      * apply h_line_paints; auto. unfold near. lia.
      * apply IH; lia.
    + intros px py _ _. cbv beta. lia.
Qed.
Lemma rectangle_paints x y wd ht : near x -> near y -> 0 <= wd -> 0 <= ht -> x + wd <= 2 ^ 16 -> y + ht <= 2 ^ 16 ->
  paints (fun px py => x <= px < x + wd /\ y <= py < y + ht) (fun bs => rectangle bs x y wd ht true c).
Proof.
  intros Nx Ny Hw Hh Ww Wh. unfold near in *.
  eapply paints_ext; [|eapply paints_eq; [|apply (fill_loop_paints x wd (Z.to_nat ht)); eauto; try lia]].
  - intros px py _ _. cbv beta. instantiate (1 := y). lia.
  - intros bs. unfold rectangle. rewrite int_bind by lia. reflexivity.
  - lia.
  - lia.
Qed.
Lemma outline_paints x y wd ht : near x -> near y -> 0 <= wd -> 0 <= ht -> near (x + wd) -> near (y + ht) ->
  paints (fun px py => (x <= px < x + wd /\ (py = y \/ py = y + ht)) \/ (y <= py < y + ht /\ (px = x \/ px = x + wd)))
    (fun bs => rectangle bs x y wd ht false c).
Proof.
  intros Nx Ny Hw Hh Ww Wh.
  eapply paints_ext; cycle 1.
  - eapply paints_eq; cycle 1.
    + eapply (paints_bind _ _ _ _ _ _ (fun bs => h_line bs x y wd c)
        (fun bs => let! bs := h_line bs x (y + ht) wd c in let! bs := v_line bs x y ht c in v_line bs (x + wd) y ht c)).
      * apply h_line_paints; auto. unfold near in *. lia.
      * eapply (paints_bind _ _ _ _ _ _ (fun bs => h_line bs x (y + ht) wd c)).
        -- apply h_line_paints; auto. unfold near in *. lia.
        -- eapply (paints_bind _ _ _ _ _ _ (fun bs => v_line bs x y ht c)).
           ++ apply v_line_paints; auto. unfold near in *. lia.
           ++ apply v_line_paints; auto. unfold near in *. lia.
    + intros bs. unfold near in *. unfold rectangle. rewrite int_bind by lia.
      destruct (h_line bs x y wd c); cbn [bind]; auto. destruct (h_line a x (y + ht) wd c); cbn [bind]; auto.
      destruct (v_line a0 x y ht c); cbn [bind]; auto. rewrite int_bind by lia. reflexivity.
  - intros px py _ _. cbv beta. lia.
Qed.

(* ---- triangles ---- *)
Definition cross (x y ax ay bx by_ : Z) : Z := (x - ax) * (by_ - ay) - (y - ay) * (bx - ax).
Lemma past_line_ok x y ax ay bx by_ : span x ax -> span y ay -> span bx ax -> span by_ ay ->
  past_line x y ax ay bx by_ = Ok (Z.sgn (cross x y ax ay bx by_)).
Proof.
  unfold span. intros A B C D. unfold past_line, cross.
  set (a := x - ax) in *. set (b := by_ - ay) in *. set (d := y - ay) in *. set (e := bx - ax) in *.
  assert (-32767 * 32767 <= a * b <= 32767 * 32767) by nia.
  assert (-32767 * 32767 <= d * e <= 32767 * 32767) by nia.
  rewrite (int_bind a) by lia. rewrite (int_bind b) by lia. rewrite int_bind by lia.
  rewrite (int_bind d) by lia. rewrite (int_bind e) by lia. rewrite int_bind by lia. rewrite int_bind by lia.
  f_equal. destruct (Z.gtb_spec (a * b - d * e) 0); [rewrite Z.sgn_pos; lia|].
  destruct (Z.ltb_spec (a * b - d * e) 0); [rewrite Z.sgn_neg; lia|]. replace (a * b - d * e) with 0 by lia. reflexivity.
Qed.
Definition signs (x0 y0 x1 y1 x2 y2 x y : Z) : Prop :=
  let a := cross x y x1 y1 x2 y2 in let b := cross x y x2 y2 x0 y0 in let c := cross x y x0 y0 x1 y1 in
  (0 <= a /\ 0 <= b /\ 0 <= c) \/ (a <= 0 /\ b <= 0 /\ c <= 0).

Section tri.
Variables x0 y0 x1 y1 x2 y2 : Z.
Definition spanned (x y : Z) : Prop :=
  span x x0 /\ span x x1 /\ span x x2 /\ span y y0 /\ span y y1 /\ span y y2.
Hypothesis S0 : spanned x0 y0.
Hypothesis S1 : spanned x1 y1.
Hypothesis S2 : spanned x2 y2.
Lemma tri_row_paints y n : near y -> forall x, (forall i, x <= i < x + Z.of_nat n -> near i /\ spanned i y) ->
  paints (fun px py => py = y /\ x <= px < x + Z.of_nat n /\ signs x0 y0 x1 y1 x2 y2 px py)
    (fun bs => tri_row bs x y x0 y0 x1 y1 x2 y2 c n).
Proof.
  intros Ny. induction n as [|n IH]; intros x H.
  - eapply paints_ext; [|apply paints_ok]. intros. lia.
  - destruct (H x ltac:(lia)) as (Nx & X).
    eapply paints_ext; cycle 1.
    + eapply paints_eq; [|eapply (paints_bind _ _ _ _ (fun px py => (px = x /\ py = y) /\ signs x0 y0 x1 y1 x2 y2 x y) _
          (fun bs => if ((Z.sgn (cross x y x1 y1 x2 y2) >=? 0) && (Z.sgn (cross x y x2 y2 x0 y0) >=? 0) && (Z.sgn (cross x y x0 y0 x1 y1) >=? 0))
              || ((Z.sgn (cross x y x1 y1 x2 y2) <=? 0) && (Z.sgn (cross x y x2 y2 x0 y0) <=? 0) && (Z.sgn (cross x y x0 y0 x1 y1) <=? 0))
              then putpixel bs x y c else Ok bs)
          (fun bs => tri_row bs (x + 1) y x0 y0 x1 y1 x2 y2 c n))].
      * intros bs. cbn [tri_row]. unfold spanned in *. rewrite !past_line_ok by tauto. reflexivity.
      * assert (((Z.sgn (cross x y x1 y1 x2 y2) >=? 0) && (Z.sgn (cross x y x2 y2 x0 y0) >=? 0) && (Z.sgn (cross x y x0 y0 x1 y1) >=? 0))
              || ((Z.sgn (cross x y x1 y1 x2 y2) <=? 0) && (Z.sgn (cross x y x2 y2 x0 y0) <=? 0) && (Z.sgn (cross x y x0 y0 x1 y1) <=? 0)) = true
              <-> signs x0 y0 x1 y1 x2 y2 x y) as E.
        { unfold signs. cbv zeta. set (a := cross x y x1 y1 x2 y2). set (b := cross x y x2 y2 x0 y0). set (d := cross x y x0 y0 x1 y1).
          pose proof (Z.sgn_nonneg a). pose proof (Z.sgn_nonneg b). pose proof (Z.sgn_nonneg d).
          pose proof (Z.sgn_nonpos a). pose proof (Z.sgn_nonpos b). pose proof (Z.sgn_nonpos d). lia. }
        match type of E with (?b = true <-> _) => destruct b end.
        -- eapply paints_ext; [|apply putpixel_paints; auto]. intros px py _ _. cbv beta. tauto.
        -- eapply paints_ext; [|apply paints_ok]. intros px py _ _. cbv beta. assert (~ signs x0 y0 x1 y1 x2 y2 x y) by (rewrite <- E; discriminate). tauto.
      * apply IH. intros i Hi. apply H. lia.
    + intros px py _ _. cbv beta. split.
      * intros [((-> & ->) & A)|(-> & B & A)]; (split; [reflexivity|]; split; [lia|auto]).
      * intros (-> & B & A). destruct (Z.eq_dec px x) as [->|]; [left; auto|right; split; [reflexivity|]; split; [lia|auto]].
Qed.
Lemma tri_rows_paints xmin m n : forall y,
  (forall j, y <= j < y + Z.of_nat n -> near j /\ forall i, xmin <= i < xmin + Z.of_nat m -> near i /\ spanned i j) ->
  paints (fun px py => y <= py < y + Z.of_nat n /\ xmin <= px < xmin + Z.of_nat m /\ signs x0 y0 x1 y1 x2 y2 px py)
    (fun bs => tri_rows bs xmin y x0 y0 x1 y1 x2 y2 c m n).
Proof.
  induction n as [|n IH]; intros y H.
  - eapply paints_ext; [|apply paints_ok]. intros. lia.
  - eapply paints_ext; cycle 1.
    + eapply (paints_bind _ _ _ _ _ _ (fun bs => tri_row bs xmin y x0 y0 x1 y1 x2 y2 c m) (fun bs => tri_rows bs xmin (y + 1) x0 y0 x1 y1 x2 y2 c m n)).
      * destruct (H y ltac:(lia)). apply tri_row_paints; auto.
      * apply IH. intros j Hj. apply H. lia.
    + intros px py _ _. cbv beta. split.
      * intros [(-> & B & A)|(D & B & A)]; repeat split; auto; lia.
      * intros (D & B & A). destruct (Z.eq_dec py y) as [->|]; [left; repeat split; auto; lia|right; repeat split; auto; lia].
Qed.
End tri.

Lemma fill_triangle_paints x0 y0 x1 y1 x2 y2 :
  near x0 -> near y0 -> near x1 -> near y1 -> near x2 -> near y2 ->
  span x0 x1 -> span x1 x2 -> span x2 x0 -> span y0 y1 -> span y1 y2 -> span y2 y0 ->
  paints (fun px py => Z.min x0 (Z.min x1 x2) <= px <= Z.max x0 (Z.max x1 x2) /\ Z.min y0 (Z.min y1 y2) <= py <= Z.max y0 (Z.max y1 y2) /\
                       signs x0 y0 x1 y1 x2 y2 px py)
    (fun bs => fill_triangle bs x0 y0 x1 y1 x2 y2 c).
Proof.
  unfold near, span. intros.
  eapply paints_ext; [|apply tri_rows_paints].
  - intros px py _ _. cbv beta. split; intros (P & Q & R); (split; [lia|split; [lia|exact R]]).
  - unfold spanned, span. lia.
  - unfold spanned, span. lia.
  - unfold spanned, span. lia.
  - intros j Hj. unfold near, spanned, span. split; [lia|]. intros i Hi. lia.
Qed.

(* ---- discs ---- *)
Lemma left_loop_ok y1 r n : 0 <= r <= 32767 -> - r <= y1 <= r -> forall x1, - r <= x1 <= 0 -> 0 < x1 + Z.of_nat n ->
  exists l, left_loop x1 y1 (r * r) n = Ok (Some l) /\ x1 <= l <= 0 /\ l * l + y1 * y1 <= r * r /\ forall z, x1 <= z < l -> r * r < z * z + y1 * y1.
Proof.
  intros Hr Hy. induction n as [|n IH]; intros x1 Hx Hp; [lia|]. cbn [left_loop].
  assert (0 <= y1 * y1 <= 32767 * 32767) by nia. assert (0 <= x1 * x1 <= 32767 * 32767) by nia.
  rewrite !int_bind by lia. destruct (Z.leb_spec (x1 * x1 + y1 * y1) (r * r)).
  - exists x1. repeat split; auto; lia.
  - assert (x1 <> 0) by nia. destruct (IH (x1 + 1)) as (l & R & B & D & E); [lia|lia|].
    exists l. split; [auto|]. split; [lia|]. split; [auto|]. intros z Hz. destruct (Z.eq_dec z x1) as [->|]; [auto|]. apply E. lia.
Qed.
Lemma right_loop_ok y1 r fuel : 0 <= r <= 32767 -> - r <= y1 <= r -> forall x1, - r <= x1 <= r -> r - x1 < Z.of_nat fuel ->
  x1 * x1 + y1 * y1 <= r * r ->
  exists q, right_loop x1 y1 (r * r) r fuel = Ok q /\ x1 <= q <= r /\ (forall z, x1 <= z <= q -> z * z + y1 * y1 <= r * r) /\
    (q = r \/ r * r < (q + 1) * (q + 1) + y1 * y1).
Proof.
  intros Hr Hy. induction fuel as [|n IH]; intros x1 Hx Hp Hin; [lia|]. cbn [right_loop].
  rewrite int_bind by lia. destruct (Z.leb_spec (x1 + 1) r).
  - assert (0 <= y1 * y1 <= 32767 * 32767) by nia. assert (0 <= (x1 + 1) * (x1 + 1) <= 32767 * 32767) by nia.
    rewrite !int_bind by lia. destruct (Z.leb_spec ((x1 + 1) * (x1 + 1) + y1 * y1) (r * r)).
    + destruct (IH (x1 + 1)) as (q & R & B & D & E); [lia|lia|auto|].
      exists q. split; [auto|]. split; [lia|]. split; [|auto]. intros z Hz. destruct (Z.eq_dec z x1) as [->|]; [auto|]. apply D. lia.
    + exists x1. split; [auto|]. split; [lia|]. split; [|auto]. intros z Hz. replace z with x1 by lia. auto.
  - exists x1. split; [auto|]. split; [lia|]. split; [|left; lia]. intros z Hz. replace z with x1 by lia. auto.
Qed.
Lemma disc_loop_paints x y r n : 0 <= r <= 32767 -> near (x - r) -> near (x + r) -> near (y - r) -> near (y + r) ->
  forall y1, - r <= y1 -> y1 + Z.of_nat n <= r + 1 ->
  paints (fun px py => y + y1 <= py < y + y1 + Z.of_nat n /\ (px - x) * (px - x) + (py - y) * (py - y) <= r * r)
    (fun bs => disc_loop bs x y y1 (r * r) r c n).
Proof.
  intros Hr X1 X2 Y1 Y2. induction n as [|n IH]; intros y1 A B.
  - eapply paints_ext; [|apply paints_ok]. intros. lia.
  - destruct (left_loop_ok y1 r (Z.to_nat (2 * r + 1)) Hr ltac:(lia) (- r) ltac:(lia) ltac:(lia)) as (l & RL & Bl & Dl & El).
    destruct (right_loop_ok y1 r (Z.to_nat (r - l + 1)) Hr ltac:(lia) l ltac:(lia) ltac:(lia) Dl) as (q & RR & Bq & Dq & Eq).
    eapply paints_ext; cycle 1.
    + eapply paints_eq; [|eapply (paints_bind _ _ _ _ (fun px py => py = y + y1 /\ x + l <= px < x + l + (q - l + 1)) _ (fun bs => h_line bs (x + l) (y + y1) (q - l + 1) c) (fun bs => disc_loop bs x y (y1 + 1) (r * r) r c n))].
      * intros bs. cbn [disc_loop]. rewrite RL. cbn [bind]. rewrite RR. cbn [bind]. unfold near in *. rewrite !int_bind by lia. reflexivity.
      * apply h_line_paints; unfold near in *; lia.
      * apply IH; lia.
    + intros px py _ _. cbv beta.
      assert (py = y + y1 -> (x + l <= px < x + l + (q - l + 1) <-> (px - x) * (px - x) + (py - y) * (py - y) <= r * r)) as K.
      { intros ->. replace (y + y1 - y) with y1 by lia. set (z := px - x). replace px with (x + z) by lia.
        split.
        - intros Hz. apply Dq. lia.
        - intros Hz.
          assert (0 <= q) as Q0. { destruct (Z.leb_spec 0 q); auto. destruct Eq as [->|Eq]; [lia|]. specialize (Dq q ltac:(lia)). nia. }
          assert (- r <= z <= r) as Z0 by nia.
          assert (l <= z). { destruct (Z.leb_spec l z); auto. specialize (El z ltac:(lia)). lia. }
          assert (z <= q). { destruct Eq as [->|Eq]; [lia|]. destruct (Z.leb_spec z q); auto. nia. }
          lia. }
      split.
      * intros [(E & F)|(E & F)]; [split; [lia|apply K; auto]|split; [lia|auto]].
      * intros (E & F). destruct (Z.eq_dec py (y + y1)) as [e|]; [left; split; [auto|apply K; auto]|right; split; [lia|auto]].
Qed.
Lemma rows_paints x y l : Forall (fun t => near (x + fst (fst t)) /\ near (y + snd (fst t)) /\ x + fst (fst t) + snd t <= 2 ^ 16) l ->
  paints (fun px py => Exists (fun t => py = y + snd (fst t) /\ x + fst (fst t) <= px < x + fst (fst t) + snd t) l) (fun bs => rows bs x y c l).
Proof.
  induction 1 as [|[[dx dy] len] l (H1 & H2 & H3) Hl IH]; cbn [fst snd] in *.
  - eapply paints_ext; [|apply paints_ok]. intros. rewrite Exists_nil. tauto.
  - eapply paints_ext; cycle 1.
    + eapply paints_eq; [|eapply (paints_bind _ _ _ _ _ _ (fun bs => h_line bs (x + dx) (y + dy) len c) (fun bs => rows bs x y c l) (h_line_paints _ _ _ H1 H2 H3) IH)].
      intros bs. cbn [rows]. unfold near in *. rewrite !int_bind by lia. reflexivity.
    + intros px py _ _. cbv beta. rewrite Exists_cons. cbn [fst snd]. tauto.
Qed.
End drawing.

(* the points of a triangle that is not flat are the weighted means of its corners *)
Lemma signs_triangle x0 y0 x1 y1 x2 y2 x y : cross x0 y0 x1 y1 x2 y2 <> 0 ->
  (signs x0 y0 x1 y1 x2 y2 x y <-> in_triangle x0 y0 x1 y1 x2 y2 x y).
Proof.
  intros D. unfold signs, in_triangle. cbv zeta.
  set (a := cross x y x1 y1 x2 y2). set (b := cross x y x2 y2 x0 y0). set (d := cross x y x0 y0 x1 y1).
  assert (a + b + d = cross x0 y0 x1 y1 x2 y2) as E by (unfold a, b, d, cross; ring).
  assert ((a + b + d) * x = a * x0 + b * x1 + d * x2) as Ex by (unfold a, b, d, cross; ring).
  assert ((a + b + d) * y = a * y0 + b * y1 + d * y2) as Ey by (unfold a, b, d, cross; ring).
  split.
  - intros [(A & B & C)|(A & B & C)].
    + exists a, b, d. lia.
    + exists (- a), (- b), (- d). lia.
  - intros (u & v & t & Hu & Hv & Ht & Hs & Fx & Fy). set (s := u + v + t) in *. set (D' := cross x0 y0 x1 y1 x2 y2) in *.
    assert (s * a = u * D') as Ga.
    { unfold a, D', cross.
      replace (s * ((x - x1) * (y2 - y1) - (y - y1) * (x2 - x1))) with ((s * x - s * x1) * (y2 - y1) - (s * y - s * y1) * (x2 - x1)) by ring.
      rewrite Fx, Fy. unfold s. ring. }
    assert (s * b = v * D') as Gb.
    { unfold b, D', cross.
      replace (s * ((x - x2) * (y0 - y2) - (y - y2) * (x0 - x2))) with ((s * x - s * x2) * (y0 - y2) - (s * y - s * y2) * (x0 - x2)) by ring.
      rewrite Fx, Fy. unfold s. ring. }
    assert (s * d = t * D') as Gd.
    { unfold d, D', cross.
      replace (s * ((x - x0) * (y1 - y0) - (y - y0) * (x1 - x0))) with ((s * x - s * x0) * (y1 - y0) - (s * y - s * y0) * (x1 - x0)) by ring.
      rewrite Fx, Fy. unfold s. ring. }
    clearbody a b d D' s. destruct (Z.ltb_spec 0 D'); [left|right]; repeat split; nia.
Qed.
Lemma triangle_box x0 y0 x1 y1 x2 y2 x y : in_triangle x0 y0 x1 y1 x2 y2 x y ->
  Z.min x0 (Z.min x1 x2) <= x <= Z.max x0 (Z.max x1 x2) /\ Z.min y0 (Z.min y1 y2) <= y <= Z.max y0 (Z.max y1 y2).
Proof.
  intros (u & v & t & Hu & Hv & Ht & Hs & Fx & Fy).
  assert (forall a0 a1 a2 a, (u + v + t) * a = u * a0 + v * a1 + t * a2 -> Z.min a0 (Z.min a1 a2) <= a <= Z.max a0 (Z.max a1 a2)) as G.
  { clear -Hu Hv Ht Hs. intros a0 a1 a2 a E. set (lo := Z.min a0 (Z.min a1 a2)). set (hi := Z.max a0 (Z.max a1 a2)).
    assert (lo <= a0 <= hi) by lia. assert (lo <= a1 <= hi) by lia. assert (lo <= a2 <= hi) by lia. clearbody lo hi. nia. }
  split; eapply G; eauto.
Qed.
