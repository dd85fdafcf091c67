(* Lemmas on lines. *)
From Verif Require Import Base Disp_Model Disp_Spec Disp_Proofs Disp_Proofs2.
Local Open Scope Z_scope.

Section line.
Variables w h fmt c : Z.
Hypothesis Hn : normal w h.
Hypothesis Hc : color_of fmt c.
Variables x0 y0 x1 y1 dx D sx sy : Z.
Hypothesis Hdx : 0 <= dx <= 2 ^ 17.
Hypothesis HD : 0 <= D <= 2 ^ 17.
Hypothesis Hsx : sx = 1 \/ sx = -1.
Hypothesis Hsy : sy = 1 \/ sy = -1.
Hypothesis Ex : x1 = x0 + sx * dx.
Hypothesis Ey : y1 = y0 + sy * D.
Hypothesis N0 : near x0. Hypothesis N1 : near x1.
Hypothesis M0 : near y0. Hypothesis M1 : near y1.

Definition onpath (l : list (Z * Z)) (px py : Z) : Prop := exists p, In p l /\ px = x0 + sx * fst p /\ py = y0 + sy * snd p.

Lemma near_x a : 0 <= a <= dx -> near (x0 + sx * a).
Proof. unfold near in *. destruct Hsx as [->| ->]; lia. Qed.
Lemma near_y b : 0 <= b <= D -> near (y0 + sy * b).
Proof. unfold near in *. destruct Hsy as [->| ->]; lia. Qed.

Lemma onpath_cons a b l px py : onpath ((a, b) :: l) px py <-> (px = x0 + sx * a /\ py = y0 + sy * b) \/ onpath l px py.
Proof.
  unfold onpath. split.
  - intros (p & [<-|H] & E); [left; auto|right; exists p; auto].
  - intros [E|(p & H & E)]; [exists (a, b); simpl; auto|exists p; simpl; auto].
Qed.

Lemma onpath_one a b l px py : onpath [(a, b)] px py \/ onpath l px py <-> onpath ((a, b) :: l) px py.
Proof.
  rewrite (onpath_cons a b l), (onpath_cons a b []). assert (~ onpath [] px py) by (intros (p & [] & _)). tauto.
Qed.

Lemma line_loop_ok fuel : forall a b e, 0 <= a <= dx -> 0 <= b <= D -> e = (1 + b) * dx - (1 + a) * D ->
  - 3 * D <= 2 * e <= 3 * dx -> (dx <= D -> 2 * e <= dx) -> (D < dx -> 0 < e) -> (D < dx <= 2 * D -> a < dx) ->
  dx - a + (D - b) < Z.of_nat fuel ->
  exists t, walk ((a, b) :: t) /\ Forall (close dx D) ((a, b) :: t) /\
    last ((a, b) :: t) (0, 0) = (if (D <? dx) && (dx <=? 2 * D) then dx - 1 else dx, D) /\
    paints w h fmt c (onpath ((a, b) :: t)) (fun bs => line_loop fuel bs (x0 + sx * a) (y0 + sy * b) x1 y1 dx (- D) sx sy e c).
Proof.
  induction fuel as [|fuel IH]; intros a b e Ha Hb He Hi J1 J2 J3 Hf; [lia|].
  assert (close dx D (a, b)) as Hclose. { unfold close. cbn [fst snd]. split; [lia|]. split; [lia|]. nia. }
  assert (x0 + sx * a = x1 <-> a = dx) as Xeq by (destruct Hsx as [->| ->]; lia).
  assert (y0 + sy * b = y1 <-> b = D) as Yeq by (destruct Hsy as [->| ->]; lia).
  assert (paints w h fmt c (onpath [(a, b)]) (fun bs => putpixel bs (x0 + sx * a) (y0 + sy * b) c)) as Hput.
  { eapply paints_ext; [|apply putpixel_paints; auto; [apply near_x|apply near_y]; auto].
    intros px py _ _. rewrite onpath_cons. unfold onpath. split; [auto|]. intros [?|(p & [] & _)]; auto. }
  destruct (Z.eqb_spec a dx) as [Aeq|Aeq]; [destruct (Z.eqb_spec b D) as [Beq|Beq]|].
  - (* at the end *)
    exists []. split; [simpl; auto|]. split; [constructor; [exact Hclose|constructor]|]. split; [cbn [last]; subst a b; destruct (Z.ltb_spec D dx), (Z.leb_spec dx (2 * D)); cbn [andb]; try reflexivity; lia|].
    eapply paints_eq; [|exact Hput]. intros bs. cbn [line_loop].
    destruct (putpixel bs (x0 + sx * a) (y0 + sy * b) c); cbn [bind]; auto.
    destruct (Z.eqb_spec (x0 + sx * a) x1), (Z.eqb_spec (y0 + sy * b) y1); try tauto; reflexivity.
  - (* in the last column: up *)
    assert (2 * e < - D) by nia. assert (2 * e <= dx) by lia.
    destruct (IH a (b + 1) (e + dx)) as (t & W & C & La & P); [lia..|].
    exists ((a, b + 1) :: t). split; [cbn [walk]; split; [unfold step; cbn [fst snd]; lia|exact W]|]. split; [constructor; auto|]. split; [exact La|].
    eapply paints_ext; [|eapply paints_eq; [|apply (paints_bind _ _ _ _ _ _ _ _ Hput P)]].
    + intros px py _ _. apply onpath_one.
    + intros bs. cbn [line_loop]. destruct (putpixel bs (x0 + sx * a) (y0 + sy * b) c); cbn [bind]; auto.
      destruct (Z.eqb_spec (y0 + sy * b) y1); [tauto|]. rewrite !andb_false_r.
      rewrite int_bind by lia. rewrite Z.geb_leb. destruct (Z.leb_spec (- D) (e * 2)); [lia|]. cbn [andb bind].
      rewrite int_bind by lia. destruct (Z.leb_spec (e * 2) dx); [|lia].
      rewrite int_bind by lia. pose proof (near_y (b + 1) ltac:(lia)) as Nb. unfold near in Nb.
      replace (y0 + sy * b + sy) with (y0 + sy * (b + 1)) by ring. rewrite int_bind by lia. reflexivity.
  - destruct (Z.leb_spec (- D) (e * 2)) as [X|X].
    + (* a step to the right *)
      assert (- 3 * D <= 2 * (e - D)) by lia.
      destruct (Z.leb_spec ((e - D) * 2) dx) as [Y|Y].
      * (* and up *)
        destruct (Z.eqb_spec b D) as [Beq|Beq].
        -- (* stops in front of the end *)
           assert (a + 1 = dx) by nia.
           exists []. split; [simpl; auto|]. split; [constructor; [exact Hclose|constructor]|]. split; [cbn [last]; assert (e = dx) by nia; destruct (Z.ltb_spec D dx), (Z.leb_spec dx (2 * D)); cbn [andb]; f_equal; lia|].
           eapply paints_eq; [|exact Hput]. intros bs. cbn [line_loop].
           destruct (putpixel bs (x0 + sx * a) (y0 + sy * b) c); cbn [bind]; auto.
           destruct (Z.eqb_spec (x0 + sx * a) x1); [tauto|]. cbn [andb]. rewrite int_bind by lia. rewrite Z.geb_leb.
           destruct (Z.leb_spec (- D) (e * 2)); [|lia]. cbn [andb].
           rewrite int_bind by lia. pose proof (near_x (a + 1) ltac:(lia)) as Nb. unfold near in Nb.
           replace (x0 + sx * a + sx) with (x0 + sx * (a + 1)) by ring. rewrite int_bind by lia. cbn [bind]. rewrite int_bind by lia.
           replace (e + - D) with (e - D) by lia. destruct (Z.leb_spec ((e - D) * 2) dx); [|lia].
           destruct (Z.eqb_spec (y0 + sy * b) y1); [|tauto]. reflexivity.
        -- assert (D < dx <= 2 * D -> a + 1 < dx) by nia.
           destruct (IH (a + 1) (b + 1) (e - D + dx)) as (t & W & C & La & P); [lia..|].
           exists ((a + 1, b + 1) :: t). split; [cbn [walk]; split; [unfold step; cbn [fst snd]; lia|exact W]|]. split; [constructor; auto|]. split; [exact La|].
           eapply paints_ext; [|eapply paints_eq; [|apply (paints_bind _ _ _ _ _ _ _ _ Hput P)]].
           ++ intros px py _ _. apply onpath_one.
           ++ intros bs. cbn [line_loop]. destruct (putpixel bs (x0 + sx * a) (y0 + sy * b) c); cbn [bind]; auto.
              destruct (Z.eqb_spec (x0 + sx * a) x1); [tauto|]. cbn [andb]. rewrite int_bind by lia. rewrite Z.geb_leb.
              destruct (Z.leb_spec (- D) (e * 2)); [|lia]. cbn [andb].
              rewrite int_bind by lia. pose proof (near_x (a + 1) ltac:(lia)) as Nb. unfold near in Nb.
              replace (x0 + sx * a + sx) with (x0 + sx * (a + 1)) by ring. rewrite int_bind by lia. cbn [bind]. rewrite int_bind by lia.
              replace (e + - D) with (e - D) by lia. destruct (Z.leb_spec ((e - D) * 2) dx); [|lia].
              destruct (Z.eqb_spec (y0 + sy * b) y1); [tauto|]. cbn [andb].
              rewrite int_bind by lia. pose proof (near_y (b + 1) ltac:(lia)) as Nb'. unfold near in Nb'.
              replace (y0 + sy * b + sy) with (y0 + sy * (b + 1)) by ring. rewrite int_bind by lia. reflexivity.
      * assert (D < dx <= 2 * D -> a + 1 < dx) by nia.
        destruct (IH (a + 1) b (e - D)) as (t & W & C & La & P); [lia..|].
        exists ((a + 1, b) :: t). split; [cbn [walk]; split; [unfold step; cbn [fst snd]; lia|exact W]|]. split; [constructor; auto|]. split; [exact La|].
        eapply paints_ext; [|eapply paints_eq; [|apply (paints_bind _ _ _ _ _ _ _ _ Hput P)]].
        -- intros px py _ _. apply onpath_one.
        -- intros bs. cbn [line_loop]. destruct (putpixel bs (x0 + sx * a) (y0 + sy * b) c); cbn [bind]; auto.
           destruct (Z.eqb_spec (x0 + sx * a) x1); [tauto|]. cbn [andb]. rewrite int_bind by lia. rewrite Z.geb_leb.
           destruct (Z.leb_spec (- D) (e * 2)); [|lia]. cbn [andb].
           rewrite int_bind by lia. pose proof (near_x (a + 1) ltac:(lia)) as Nb. unfold near in Nb.
           replace (x0 + sx * a + sx) with (x0 + sx * (a + 1)) by ring. rewrite int_bind by lia. cbn [bind]. rewrite int_bind by lia.
           replace (e + - D) with (e - D) by lia. destruct (Z.leb_spec ((e - D) * 2) dx); [lia|]. cbn [andb bind]. reflexivity.
    + (* up *)
      assert (b < D) by nia.
      destruct (IH a (b + 1) (e + dx)) as (t & W & C & La & P); [lia..|].
      exists ((a, b + 1) :: t). split; [cbn [walk]; split; [unfold step; cbn [fst snd]; lia|exact W]|]. split; [constructor; auto|]. split; [exact La|].
      eapply paints_ext; [|eapply paints_eq; [|apply (paints_bind _ _ _ _ _ _ _ _ Hput P)]].
      * intros px py _ _. apply onpath_one.
      * intros bs. cbn [line_loop]. destruct (putpixel bs (x0 + sx * a) (y0 + sy * b) c); cbn [bind]; auto.
        destruct (Z.eqb_spec (y0 + sy * b) y1); [assert (b = D) by tauto; lia|]. rewrite !andb_false_r.
        rewrite int_bind by lia. rewrite Z.geb_leb. destruct (Z.leb_spec (- D) (e * 2)); [lia|]. cbn [andb bind].
        rewrite int_bind by lia. destruct (Z.leb_spec (e * 2) dx); [|lia].
        rewrite int_bind by lia. pose proof (near_y (b + 1) ltac:(lia)) as Nb. unfold near in Nb.
        replace (y0 + sy * b + sy) with (y0 + sy * (b + 1)) by ring. rewrite int_bind by lia. reflexivity.
Qed.
End line.

(* ---- small discs: a finite check ---- *)
Definition in_rows (l : list (Z * Z * Z)) (u v : Z) : bool :=
  existsb (fun t => (v =? snd (fst t)) && (fst (fst t) <=? u) && (u <? fst (fst t) + snd t)) l.
Definition rows_check (r : Z) (l : list (Z * Z * Z)) : bool :=
  forallb (fun a => forallb (fun b => Bool.eqb (in_rows l (a - 8) (b - 8)) ((2 * (a - 8) + 1) ^ 2 + (2 * (b - 8) + 1) ^ 2 <=? (2 * r) ^ 2)) (upto 17)) (upto 17).
Definition rows_small (l : list (Z * Z * Z)) : bool :=
  forallb (fun t => (-8 <=? fst (fst t)) && (fst (fst t) + snd t <=? 8) && (-8 <=? snd (fst t)) && (snd (fst t) <=? 8)) l.
Lemma rows_disc r l x y px py : 0 <= r <= 4 -> rows_check r l = true -> rows_small l = true ->
  (Exists (fun t => py = y + snd (fst t) /\ x + fst (fst t) <= px < x + fst (fst t) + snd t) l <->
   (2 * (px - x) + 1) ^ 2 + (2 * (py - y) + 1) ^ 2 <= (2 * r) ^ 2).
Proof.
  intros Hr C S. set (u := px - x). set (v := py - y). replace px with (x + u) by lia. replace py with (y + v) by lia.
  assert (Exists (fun t => y + v = y + snd (fst t) /\ x + fst (fst t) <= x + u < x + fst (fst t) + snd t) l <-> in_rows l u v = true) as E.
  { unfold in_rows. rewrite existsb_exists, Exists_exists. split; intros (t & H1 & H2); exists t; (split; [auto|lia]). }
  rewrite E.
  assert (-8 <= u <= 8 -> -8 <= v <= 8 -> (in_rows l u v = true <-> (2 * u + 1) ^ 2 + (2 * v + 1) ^ 2 <= (2 * r) ^ 2)) as K.
  { intros Hu Hv. unfold rows_check in C. pose proof (upto_all _ _ (upto_all _ _ C (u + 8) ltac:(lia)) (v + 8) ltac:(lia)) as Q. cbv beta in Q.
    replace (u + 8 - 8) with u in Q by lia. replace (v + 8 - 8) with v in Q by lia. apply Bool.eqb_prop in Q. rewrite Q. apply Z.leb_le. }
  split; intros H.
  - apply K; auto; rewrite <- E in H; apply Exists_exists in H as (t & H1 & H2); unfold rows_small in S; rewrite forallb_forall in S; specialize (S t H1); lia.
  - rewrite !Z.pow_2_r in H. assert (2 * r * (2 * r) <= 64) by nia.
    assert (forall a b, a * a + b * b <= 64 -> -8 <= a <= 8) as Q by (intros a b Hab; pose proof (Z.square_nonneg b); nia).
    pose proof (Q (2 * u + 1) (2 * v + 1) ltac:(lia)). pose proof (Q (2 * v + 1) (2 * u + 1) ltac:(lia)).
    apply K; [lia|lia|]. rewrite !Z.pow_2_r. exact H.
Qed.
