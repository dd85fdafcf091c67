(* C46: structural equality. *)
From Verif Require Import Base Value_Model Heap_Model Value_Proofs Value_Proofs2 Heap_Spec Heap_Proofs List_Proofs Eq_Model Eq_Spec.
From Coq Require Import ZifyBool.
Local Open Scope Z_scope.

(* ---- the relation [same] ---- *)

Lemma tree_rec_depth (P : tree -> Prop) :
  (forall k n, P (Leaf k n)) -> (forall a d, P a -> P d -> P (Pair a d)) -> (forall bs, P (Bytes bs)) ->
  (forall ts, Forall P ts -> P (Arr ts)) -> forall t, P t.
Proof.
  intros HL HP HB HA. fix IH 1. intros [k n|a d|bs|ts].
  - apply HL.
  - apply HP; apply IH.
  - apply HB.
  - apply HA. induction ts; constructor; [apply IH|auto].
Qed.

Lemma depth_in t ts : In t ts -> (depth t < depth (Arr ts))%nat.
Proof. induction ts; simpl; intros []; subst; simpl in *; [lia|]. specialize (IHts H). lia. Qed.

Lemma Forall2_length {T U} (R : T -> U -> Prop) l l' : Forall2 R l l' -> length l = length l'.
Proof. induction 1; simpl; auto. Qed.

Lemma ieee_refl e m x : ieee_value e m x <> NaN -> ieee_same e m x x.
Proof. split; auto. Qed.
Lemma ieee_sym e m x y : ieee_same e m x y -> ieee_same e m y x.
Proof. intros [N E]. split; congruence. Qed.
Lemma ieee_trans e m x y z : ieee_same e m x y -> ieee_same e m y z -> ieee_same e m x z.
Proof. intros [N E] [_ F]. split; congruence. Qed.

(* the magnitude of a finite number determines exponent and fraction *)
Definition mag (m E F : Z) : Z := if E =? 0 then F else (2 ^ m + F) * 2 ^ (E - 1).

Lemma mag_lt m E F E' F' : 0 <= m -> 0 <= F < 2 ^ m -> 0 <= F' < 2 ^ m -> 0 <= E < E' -> mag m E F < mag m E' F'.
Proof.
  intros M A B C. unfold mag. destruct (Z.eqb_spec E' 0); [lia|]. pose proof (Z.pow_pos_nonneg 2 m ltac:(lia) M).
  destruct (Z.eqb_spec E 0).
  - assert (1 <= 2 ^ (E' - 1)) by (pose proof (Z.pow_pos_nonneg 2 (E' - 1)); lia). nia.
  - assert (2 ^ (E' - 1) = 2 ^ (E - 1) * 2 * 2 ^ (E' - 1 - E)) as ->.
    { replace (2 ^ (E - 1) * 2) with (2 ^ E). { rewrite <- Z.pow_add_r by lia. f_equal. lia. }
      replace E with (E - 1 + 1) at 1 by lia. rewrite Z.pow_add_r by lia. lia. }
    assert (0 < 2 ^ (E - 1)) by (apply Z.pow_pos_nonneg; lia).
    assert (1 <= 2 ^ (E' - 1 - E)) by (pose proof (Z.pow_pos_nonneg 2 (E' - 1 - E)); lia). nia.
Qed.

Lemma mag_inj m E F E' F' : 0 <= m -> 0 <= F < 2 ^ m -> 0 <= F' < 2 ^ m -> 0 <= E -> 0 <= E' ->
  mag m E F = mag m E' F' -> E = E' /\ F = F'.
Proof.
  intros M A B C D H. destruct (Z.lt_trichotomy E E') as [L|[<-|L]].
  - pose proof (mag_lt m E F E' F'). lia.
  - split; auto. unfold mag in H. destruct (Z.eqb_spec E 0); auto.
    assert (0 < 2 ^ (E - 1)) by (apply Z.pow_pos_nonneg; lia). apply Z.mul_reg_r in H; lia.
  - pose proof (mag_lt m E' F' E F). lia.
Qed.

Lemma mag_zero m E F : 0 <= m -> 0 <= F < 2 ^ m -> 0 <= E -> (mag m E F = 0 <-> E = 0 /\ F = 0).
Proof.
  intros M A B. unfold mag. destruct (Z.eqb_spec E 0); [lia|]. assert (0 < 2 ^ (E - 1)) by (apply Z.pow_pos_nonneg; lia).
  pose proof (Z.pow_pos_nonneg 2 m). split; [nia|lia].
Qed.

Lemma mag_nonneg m E F : 0 <= m -> 0 <= F < 2 ^ m -> 0 <= E -> 0 <= mag m E F.
Proof.
  intros M A B. unfold mag. destruct (Z.eqb_spec E 0); [lia|]. assert (0 < 2 ^ (E - 1)) by (apply Z.pow_pos_nonneg; lia).
  pose proof (Z.pow_pos_nonneg 2 m). nia.
Qed.

(* sign, exponent, fraction *)
Lemma ieee_fields e m x : 0 < e -> 0 < m -> 0 <= x < 2 ^ (1 + e + m) ->
  let F := x mod 2 ^ m in let E := x / 2 ^ m mod 2 ^ e in
  exists s, (s = 0 \/ s = 1) /\ x = s * 2 ^ (e + m) + E * 2 ^ m + F /\ 0 <= F < 2 ^ m /\ 0 <= E < 2 ^ e /\
    (2 ^ (e + m) <=? x) = (s =? 1).
Proof.
  intros He Hm R F E. assert (Pm : 0 < 2 ^ m) by (apply Z.pow_pos_nonneg; lia). assert (Pe : 0 < 2 ^ e) by (apply Z.pow_pos_nonneg; lia).
  assert (RF : 0 <= F < 2 ^ m) by (apply Z.mod_pos_bound; auto). assert (RE : 0 <= E < 2 ^ e) by (apply Z.mod_pos_bound; auto).
  pose proof (Z.div_mod x (2 ^ m)) as D1. pose proof (Z.div_mod (x / 2 ^ m) (2 ^ e)) as D2. fold F in D1. fold E in D2.
  set (s := x / 2 ^ m / 2 ^ e) in *. rewrite Z.pow_add_r by lia.
  assert (PP : 2 ^ (1 + e + m) = 2 * (2 ^ e * 2 ^ m)) by (rewrite !Z.pow_add_r by lia; lia).
  assert (X : x = s * (2 ^ e * 2 ^ m) + E * 2 ^ m + F) by nia.
  assert (0 <= E * 2 ^ m + F < 2 ^ e * 2 ^ m) by nia.
  assert (s = 0 \/ s = 1) as HS by nia.
  exists s. split; auto. split; auto. split; auto. split; auto. destruct HS as [-> | ->]; cbn [Z.eqb].
  - destruct (Z.leb_spec (2 ^ e * 2 ^ m) x); auto. lia.
  - destruct (Z.leb_spec (2 ^ e * 2 ^ m) x); auto. cbn [Pos.eqb]. lia.
Qed.

Lemma pred_ones k : 2 ^ k - 1 = Z.ones k.
Proof. rewrite Z.ones_equiv. lia. Qed.

Lemma nan_fields e m x : 0 < e -> 0 < m -> 0 <= x ->
  is_nan e m x = (x / 2 ^ m mod 2 ^ e =? 2 ^ e - 1) && negb (x mod 2 ^ m =? 0).
Proof.
  intros He Hm R. unfold is_nan. rewrite Z.shiftr_div_pow2 by lia.
  rewrite !pred_ones, !Z.land_ones by lia. reflexivity.
Qed.

Lemma zero_fields e m x : 0 < e -> 0 < m -> 0 <= x < 2 ^ (1 + e + m) ->
  is_zero e m x = (x / 2 ^ m mod 2 ^ e =? 0) && (x mod 2 ^ m =? 0).
Proof.
  intros He Hm R. unfold is_zero. rewrite pred_ones, Z.land_ones by lia.
  destruct (ieee_fields e m x He Hm R) as (s&S&X&RF&RE&_). set (F := x mod 2 ^ m) in *. set (E := x / 2 ^ m mod 2 ^ e) in *.
  assert (PP : 2 ^ (e + m) = 2 ^ e * 2 ^ m) by (rewrite Z.pow_add_r by lia; lia).
  assert (0 <= E * 2 ^ m + F < 2 ^ (e + m)) by nia.
  assert (x mod 2 ^ (e + m) = E * 2 ^ m + F) as ->.
  { rewrite X, <- Z.add_assoc, Z.add_comm, Z.mod_add by lia. apply Z.mod_small. lia. }
  destruct (Z.eqb_spec E 0) as [->|N]; cbn [andb].
  - destruct (Z.eqb_spec F 0), (Z.eqb_spec (0 * 2 ^ m + F) 0); auto; lia.
  - destruct (Z.eqb_spec (E * 2 ^ m + F) 0); auto. nia.
Qed.

(* C ==, as modelled, is equality of IEEE numbers *)
Lemma float_eq_ieee e m x y : 0 < e -> 0 < m -> 0 <= x < 2 ^ (1 + e + m) -> 0 <= y < 2 ^ (1 + e + m) ->
  float_eq e m x y = true <-> ieee_same e m x y.
Proof.
  intros He Hm Rx Ry. unfold float_eq, ieee_same, ieee_value. rewrite !nan_fields, !zero_fields by lia.
  destruct (ieee_fields e m x He Hm Rx) as (s&S&X&RF&RE&NX). destruct (ieee_fields e m y He Hm Ry) as (s'&S'&Y&RF'&RE'&NY).
  rewrite NX, NY.
  set (F := x mod 2 ^ m) in *. set (E := x / 2 ^ m mod 2 ^ e) in *.
  set (F' := y mod 2 ^ m) in *. set (E' := y / 2 ^ m mod 2 ^ e) in *. clearbody F E F' E'. clear NX NY Rx Ry.
  fold (mag m E F) (mag m E' F').
  assert (XY : x = y <-> s = s' /\ E = E' /\ F = F').
  { split; [|intros (->&->&->); congruence]. intros H. 
    assert (PP : 2 ^ (e + m) = 2 ^ e * 2 ^ m) by (rewrite Z.pow_add_r by lia; lia).
    assert (s = s') by nia. subst s'. assert (E * 2 ^ m + F = E' * 2 ^ m + F') by lia.
    assert (E = E') by nia. subst. repeat split; lia. }
  assert (P2 : 2 <= 2 ^ e) by (change 2 with (2 ^ 1) at 1; apply Z.pow_le_mono_r; lia).
  destruct (Z.eqb_spec E (2 ^ e - 1)) as [E1|E1], (Z.eqb_spec E' (2 ^ e - 1)) as [E2|E2]; cbn [andb negb].
  - destruct (Z.eqb_spec F 0) as [F1|F1]; cbn [andb negb]; [|split; [discriminate|intros [N _]; exfalso; apply N; reflexivity]].
    destruct (Z.eqb_spec F' 0) as [F2|F2]; cbn [andb negb]; [|split; [discriminate|intros [_ N]; discriminate]].
    destruct (Z.eqb_spec E 0); [lia|]. cbn [andb]. rewrite orb_false_r, Z.eqb_eq, XY.
    split; [intros (->&_); split; [discriminate|reflexivity]|]. intros [_ H]. injection H as H. split; [|lia].
    destruct S as [-> | ->], S' as [-> | ->]; auto; discriminate.
  - destruct (Z.eqb_spec F 0) as [F1|F1]; cbn [andb negb]; [|split; [discriminate|intros [N _]; exfalso; apply N; reflexivity]].
    destruct (Z.eqb_spec E 0); [lia|]. cbn [andb]. rewrite orb_false_r, Z.eqb_eq, XY. split; [lia|]. intros [_ H]; discriminate.
  - destruct (Z.eqb_spec F' 0) as [F2|F2]; cbn [andb negb].
    + destruct (Z.eqb_spec E' 0); [lia|]. cbn [andb]. rewrite andb_false_r, orb_false_r, Z.eqb_eq, XY. split; [lia|]. intros [_ H]; discriminate.
    + split; [discriminate|intros [_ H]; discriminate].
  - pose proof (mag_zero m E F ltac:(lia) RF ltac:(lia)) as Z1. pose proof (mag_zero m E' F' ltac:(lia) RF' ltac:(lia)) as Z2.
    pose proof (mag_nonneg m E F ltac:(lia) RF ltac:(lia)) as N1. pose proof (mag_nonneg m E' F' ltac:(lia) RF' ltac:(lia)) as N2.
    pose proof (mag_inj m E F E' F' ltac:(lia) RF RF' ltac:(lia) ltac:(lia)) as MI.
    rewrite orb_true_iff, !andb_true_iff, !Z.eqb_eq, XY. split.
    + intros H. split; [discriminate|]. f_equal. destruct H as [(->&->&->)|(A&B)]; auto. apply Z1 in A. apply Z2 in B. rewrite A, B.
      destruct (s =? 1), (s' =? 1); reflexivity.
    + intros [_ H]. injection H as H.
      destruct S as [-> | ->], S' as [-> | ->]; cbn [Z.eqb Pos.eqb] in H.
      * left. split; auto.
      * right. rewrite <- Z1, <- Z2. lia.
      * right. rewrite <- Z1, <- Z2. lia.
      * left. split; auto. apply MI. lia.
Qed.

(* C46: reflexive without NaN *)
Theorem same_refl t : no_nan t -> same t t.
Proof.
  induction t as [k n|a d IHa IHd|bs|ts IH] using tree_rec_depth; intros N; inversion N; subst; constructor; auto.
  - destruct k; simpl; auto using ieee_refl.
  - clear N. induction ts; constructor; inversion IH; inversion H0; subst; auto.
Qed.

(* C46: symmetric *)
Theorem same_sym t : forall u, same t u -> same u t.
Proof.
  induction t as [k n|a d IHa IHd|bs|ts IH] using tree_rec_depth; intros u S; inversion S; subst; constructor; auto.
  - destruct k; simpl in *; auto; apply ieee_sym; auto.
  - clear S. revert ts' H0. induction ts; intros ts' F; inversion F; subst; constructor; inversion IH; subst; auto.
Qed.

(* C46: transitive *)
Theorem same_trans t : forall u v, same t u -> same u v -> same t v.
Proof.
  induction t as [k n|a d IHa IHd|bs|ts IH] using tree_rec_depth; intros u v S1 S2; inversion S1; subst; inversion S2; subst; constructor; eauto.
  - destruct k; simpl in *; try congruence; eapply ieee_trans; eauto.
  - clear S1 S2. revert ts' H0 ts'0 H1. induction ts; intros ts' F ts2 F2; inversion F; subst; inversion F2; subst; constructor; inversion IH; subst; eauto.
Qed.

(* C46: without floats the same datum is the same tree *)
Theorem same_is_equal t : forall u, no_float t -> (same t u <-> t = u).
Proof.
  intros u N. split.
  - revert u N. induction t as [k n|a d IHa IHd|bs|ts IH] using tree_rec_depth; intros u N S; inversion N; subst; inversion S; subst; auto.
    + destruct k; simpl in *; congruence.
    + f_equal; auto.
    + f_equal. clear S N. revert ts' H1. induction ts; intros ts' F; inversion F; subst; auto.
      inversion IH; inversion H0; subst. f_equal; auto.
  - intros <-. apply same_refl. induction t as [k n|a d IHa IHd|bs|ts IH] using tree_rec_depth; inversion N; subst; constructor; auto; try congruence.
    clear N. induction ts; constructor; inversion IH; inversion H0; subst; auto.
Qed.

(* ---- struct_eq ---- *)

Section Defs.
Context {A : Arch}.
Definition ktags : list Z := [TYPE_SYMBOL; TYPE_I; TYPE_U; TYPE_CHAR; TYPE_CONS; TYPE_I32; TYPE_U32; TYPE_FLOAT;
  TYPE_I64; TYPE_U64; TYPE_DOUBLE; TYPE_ARRAY; TYPE_LISPARRAY].

(* the tag of a tree's word *)
Definition tag_of (t : tree) : Z :=
  match t with Leaf k _ => kind_tag k | Pair _ _ => TYPE_CONS | Bytes _ => TYPE_ARRAY | Arr _ => TYPE_LISPARRAY end.

Inductive shape := ShLeaf (k : kind) | ShPair | ShBytes | ShArr.
Definition shape_of (t : tree) := match t with Leaf k _ => ShLeaf k | Pair _ _ => ShPair | Bytes _ => ShBytes | Arr _ => ShArr end.
Definition shape_tag (s : shape) := match s with ShLeaf k => kind_tag k | ShPair => TYPE_CONS | ShBytes => TYPE_ARRAY | ShArr => TYPE_LISPARRAY end.
End Defs.

Section Arch.
Context {A : Arch}.

Lemma ktags_nodup : NoDup ktags.
Proof. unfold ktags. destruct A; repeat constructor; simpl; intuition discriminate. Qed.

Lemma den_tag fl h v t : den fl h v t -> type_of_functional v = tag_of t.
Proof. inversion 1; subst; auto. Qed.

Lemma shape_tag_of t : tag_of t = shape_tag (shape_of t). Proof. destruct t; reflexivity. Qed.
Lemma shape_tag_inj s s' : shape_tag s = shape_tag s' -> s = s'.
Proof. destruct A, s as [[]| | |], s' as [[]| | |]; simpl; intros H; try reflexivity; vm_compute in H; discriminate. Qed.

Lemma same_shape t u : same t u -> shape_of t = shape_of u.
Proof. inversion 1; subst; auto. Qed.

Lemma struct_eq_dispatch n h a b s : type_of_functional a = shape_tag s -> type_of_functional b = shape_tag s ->
  struct_eq (S n) h a b =
  match s with
  | ShLeaf KSym => Ok (dec_sym a =? dec_sym b)
  | ShLeaf KI => Ok (dec_i a =? dec_i b)
  | ShLeaf KU => Ok (dec_u a =? dec_u b)
  | ShLeaf KChar => Ok (dec_char a =? dec_char b)
  | ShPair =>
        let! xa := car h a in
        let! xb := car h b in
        let! r := struct_eq n h xa xb in
        if r then
          let! da := cdr h a in
          let! db := cdr h b in
          struct_eq n h da db
        else Ok false
  | ShLeaf KI32 => eq2 payload32 (fun x y => sgn 32 x =? sgn 32 y) h a b
  | ShLeaf KU32 => eq2 payload32 (fun x y => wrap 32 x =? wrap 32 y) h a b
  | ShLeaf KFloat => eq2 payload32 (float_eq 8 23) h a b
  | ShLeaf KI64 => eq2 payload64 (fun x y => sgn 64 x =? sgn 64 y) h a b
  | ShLeaf KU64 => eq2 payload64 (fun x y => wrap 64 x =? wrap 64 y) h a b
  | ShLeaf KDouble => eq2 payload64 (float_eq 11 52) h a b
  | ShBytes => bytearray_equality h a b
  | ShArr => array_struct_equality (struct_eq n h) h a b
  end.
Proof.
  intros Ta Tb. cbn [struct_eq]. rewrite Ta, Tb, Z.eqb_refl.
  destruct A, s as [[]| | |]; reflexivity.
Qed.

Lemma bytes_eqb xs : forall ys, length xs = length ys ->
  (forallb (fun p => fst p =? snd p) (combine xs ys) = true <-> xs = ys).
Proof.
  induction xs; intros [|y ys] L; simpl in *; try discriminate; [tauto|].
  rewrite andb_true_iff, IHxs by lia. split; [intros (E&->); f_equal; lia|intros [= -> ->]; split; auto; lia].
Qed.

Lemma elts_ok fl h n xs ts (F1 : Forall2 (den fl h) xs ts) :
  (forall x y t u, den fl h x t -> den fl h y u -> (depth t <= n)%nat -> exists r, struct_eq n h x y = Ok r /\ (r = true <-> same t u)) ->
  Forall (fun t => (depth t <= n)%nat) ts ->
  forall pre ys us pre', length pre = length pre' -> Forall2 (den fl h) ys us -> length xs = length ys ->
  exists r, elts_equal (struct_eq n h) (length xs) (Z.of_nat (length pre)) (pre ++ xs) (pre' ++ ys) = Ok r /\ (r = true <-> Forall2 same ts us).
Proof.
  intros H. induction F1 as [|x t xs ts D F1 IH]; intros DN pre ys us pre' LP F2 L.
  - simpl. destruct ys; [|discriminate]. inversion F2; subst. exists true. split; auto. split; auto.
  - destruct F2 as [|y u ys us D2 F2]; [discriminate|]. inversion DN; subst. cbn [length elts_equal].
    rewrite (rd_nth _ _ x), (rd_nth _ _ y); try lia;
      try (rewrite Nat2Z.id, nth_error_app2, ?LP, Nat.sub_diag by lia; reflexivity).
    cbn [bind]. destruct (H x y t u) as (r&E&R); auto. rewrite E. cbn [bind]. destruct r.
    + destruct (IH ltac:(auto) (pre ++ [x]) ys us (pre' ++ [y])) as (r&E2&R2).
      { rewrite !app_length; simpl; lia. } { auto. } { simpl in L; lia. }
      rewrite <- !app_assoc in E2. simpl in E2. rewrite app_length in E2. simpl in E2.
      replace (Z.of_nat (length pre) + 1) with (Z.of_nat (length pre + 1)) by lia.
      exists r. split; auto. rewrite R2. split.
      * intros F3. constructor; [apply R|]; auto.
      * intros F3. inversion F3; auto.
    + exists false. split; auto. split; [discriminate|]. intros F3. inversion F3; subst. apply R; auto.
Qed.

(* C46.  eq decides whether the two values denote the same datum. *)
Theorem struct_eq_correct fl h fuel : forall a b t u, den fl h a t -> den fl h b u -> (depth t <= fuel)%nat ->
  exists r, struct_eq fuel h a b = Ok r /\ (r = true <-> same t u).
Proof.
  induction fuel as [|n IH]; intros a b t u Da Db L.
  - destruct t; simpl in L; lia.
  - pose proof (den_tag _ _ _ _ Da) as Ta. pose proof (den_tag _ _ _ _ Db) as Tb. rewrite shape_tag_of in Ta, Tb.
    destruct (Z.eq_dec (shape_tag (shape_of t)) (shape_tag (shape_of u))) as [E|N].
    + apply shape_tag_inj in E. rewrite <- E in Tb.
      rewrite (struct_eq_dispatch n h a b (shape_of t)) by auto.
      destruct Da as [a k x Ha Sa' Ka Ra|a a1 a2 t1 t2 Pa Ha Ka Ra D1 D2|a p q bs z Pa Ha Ka Ra Ma|a p q z size elts ix ts Pa Ha Ka Ra Ma Sa F]; simpl in E;
        destruct Db as [b k' y Hb Sb' Kb Rb|b b1 b2 u1 u2 Pb Hb Kb Rb D1' D2'|b p' q' bs' z' Pb Hb Kb Rb Mb|b p' q' z' size' elts' ix' us Pb Hb Kb Rb Mb Sb F'];
        try discriminate.
      * injection E as <-. cbn [shape_of].
        assert (G : forall (P : Prop) r (e : bool), Ok r = Ok e -> (e = true <-> P) -> P <-> num_same k x y ->
           exists r0, Ok r = Ok r0 /\ (r0 = true <-> same (Leaf k x) (Leaf k y))).
        { intros P r e EE HH HP. exists e. split; auto. rewrite HH, HP. split; [constructor; auto|inversion 1; auto]. }
        assert (G2 : forall e : bool, (e = true <-> num_same k x y) -> exists r0, Ok e = Ok r0 /\ (r0 = true <-> same (Leaf k x) (Leaf k y))).
        { intros e HH. eapply G; eauto. tauto. }
        clear G. destruct k; simpl in Ra, Rb; unfold eq2.
        1-4: subst; apply G2; simpl; apply Z.eqb_eq.
        1-4: destruct Ra as (x0&R1&->); destruct Rb as (y0&R2&->); rewrite R1; cbn [bind]; rewrite R2; cbn [bind]; apply G2; simpl; apply Z.eqb_eq.
        1-2: destruct Ra as [R1 B1], Rb as [R2 B2]; rewrite R1; cbn [bind]; rewrite R2; cbn [bind]; apply G2; simpl; apply float_eq_ieee; auto; lia.
      * cbn [shape_of]. simpl in L.
        rewrite (car_ptr h a _ _ Pa Ra), (car_ptr h b _ _ Pb Rb). cbn [bind].
        destruct (IH a1 b1 t1 u1) as (r1&E1&R1); auto; [lia|]. rewrite E1. cbn [bind]. destruct r1.
        -- rewrite (cdr_ptr h a _ _ Pa Ra), (cdr_ptr h b _ _ Pb Rb). cbn [bind].
           destruct (IH a2 b2 t2 u2) as (r2&E2&R2); auto; [lia|]. rewrite E2. exists r2. split; auto. rewrite R2. split.
           ++ intros; constructor; auto. apply R1; auto.
           ++ inversion 1; auto.
        -- exists false. split; auto. split; [discriminate|]. inversion 1; subst. apply R1; auto.
      * cbn [shape_of]. unfold bytearray_equality.
        rewrite (car_ptr h a _ _ Pa Ra), (car_ptr h b _ _ Pb Rb). cbn [bind]. rewrite Ma, Mb.
        destruct (Nat.eqb_spec (length bs) (length bs')) as [EL|NL].
        -- eexists. split; [reflexivity|]. rewrite bytes_eqb by auto. split; [intros ->; constructor|inversion 1; auto].
        -- exists false. split; auto. split; [discriminate|]. inversion 1; subst; congruence.
      * cbn [shape_of]. unfold array_struct_equality.
        rewrite (car_ptr h a _ _ Pa Ra), (car_ptr h b _ _ Pb Rb). cbn [bind]. rewrite Ma, Mb.
        assert (WBp : 0 < WB) by (destruct A; reflexivity).
        destruct (Z.eqb_spec size size') as [ES|NS].
        -- assert (EL : length elts = length elts') by nia.
           rewrite Sa, Z.div_mul, Nat2Z.id by lia.
           destruct (elts_ok fl h n elts ts F) with (pre := @nil Z) (pre' := @nil Z) (ys := elts') (us := us) as (r&Er&Rr); auto.
           { apply Forall_forall. intros t I. apply depth_in in I. lia. }
           simpl in Er. rewrite Er. exists r. split; auto. rewrite Rr. split; [constructor; auto|inversion 1; auto].
        -- exists false. split; auto. split; [discriminate|]. intros S. exfalso.
           assert (LL : length ts = length us) by (inversion S; subst; eapply Forall2_length; eauto).
           apply Forall2_length in F, F'. apply NS. congruence.
    + cbn [struct_eq]. rewrite Ta, Tb. destruct (Z.eqb_spec (shape_tag (shape_of t)) (shape_tag (shape_of u))); [congruence|].
      exists false. split; auto. split; [discriminate|]. intros S. apply same_shape in S. congruence.
Qed.

(* a channel, custom or other value is not equal to itself *)
Theorem struct_eq_other_false h a b fuel : (0 < fuel)%nat -> ~ In (type_of_functional a) ktags -> struct_eq fuel h a b = Ok false.
Proof.
  intros F N. destruct fuel as [|n]; [lia|]. cbn [struct_eq].
  destruct (Z.eqb_spec (type_of_functional a) (type_of_functional b)); auto.
  repeat match goal with |- context [type_of_functional a =? ?t] =>
    destruct (Z.eqb_spec (type_of_functional a) t) as [E|_]; [exfalso; apply N; rewrite E; unfold ktags; simpl; tauto|] end.
  reflexivity.
Qed.

(* a cyclic list is compared without end (in C: until the stack overflows) *)
Theorem struct_eq_cyclic h p x : is_ptr p = true -> type_of_functional p = TYPE_CONS -> ref_cell h p = Ok (x, p) ->
  (forall n, struct_eq n h x x = Ok true \/ struct_eq n h x x = Fuel) -> forall fuel, struct_eq fuel h p p = Fuel.
Proof.
  intros P T R X. induction fuel as [|n IH]; auto.
  rewrite (struct_eq_dispatch n h p p ShPair) by auto.
  rewrite (car_ptr h p _ _ P R). cbn [bind]. rewrite (cdr_ptr h p _ _ P R). cbn [bind].
  destruct (X n) as [-> | ->]; cbn [bind]; auto.
Qed.

End Arch.

(* C46 fails for values that are not data: a channel is not eq to itself *)
Theorem eq_reflexive_refuted : exists h v,
  type_of_functional (A := A32) v = TYPE_CHANNEL (A := A32) /\ ref_cell (A := A32) h v = Ok (4, enc_sym (A := A32) SYM_CHANNEL_TYPE) /\
  mem h 4 = Some (OChan 0 0) /\ forall fuel, (0 < fuel)%nat -> struct_eq (A := A32) fuel h v v = Ok false.
Proof.
  exists (mkHeap [(4, enc_sym (A := A32) SYM_CHANNEL_TYPE)] [] 0 1 [] 10 0 0 0 (fun p => if p =? 4 then Some (OChan 0 0) else None) [] false),
    (set_ptr_type (A := A32) (enc_cons_ptr (A := A32) 0) (TYPE_CHANNEL (A := A32))).
  split; [reflexivity|]. split; [reflexivity|]. split; [reflexivity|]. intros fuel F.
  apply struct_eq_other_false; auto. vm_compute. intuition discriminate.
Qed.

(* ... and for a cyclic list, which setcdr can build, eq does not return *)
Theorem eq_total_refuted : exists h p, type_of_functional (A := A32) p = TYPE_CONS (A := A32) /\
  forall fuel, struct_eq (A := A32) fuel h p p = Fuel.
Proof.
  set (p := enc_cons_ptr (A := A32) 0).
  exists (mkHeap [(0, p)] [] 0 1 [] 10 0 0 0 (fun _ => None) [] false), p. split; [reflexivity|].
  apply struct_eq_cyclic with (x := 0); try reflexivity. intros [|n]; auto.
Qed.

(* a non-trivial case: the lists (1 2) and (1 2) in different cells, the array [1 (2)] *)
Example ex_eq : exists h a b t, den (A := A32) [] h a t /\ den (A := A32) [] h b t /\ a <> b /\
  t = Pair (Leaf KI 1) (Pair (Arr [Leaf KU 3; Bytes [7; 8]]) (Leaf KSym 0)).
Proof.
  set (e := fun i => enc_cons_ptr (A := A32) i).
  set (arr := set_ptr_type (A := A32) (e 4) (TYPE_LISPARRAY (A := A32))).
  set (byt := set_ptr_type (A := A32) (e 5) (TYPE_ARRAY (A := A32))).
  exists (mkHeap [(enc_i (A := A32) 1, e 1); (arr, 0); (enc_i (A := A32) 1, e 3); (arr, 0); (16, 0); (32, 0)] [] 0 6 [] 10 0 0 0
    (fun p => if p =? 16 then Some (OLisp 20 8 [enc_u (A := A32) 3; byt] 0) else if p =? 32 then Some (OByte 36 [7; 8]) else None) [] false),
    (e 0), (e 2).
  eexists. repeat match goal with |- _ /\ _ => split end; [| |discriminate|reflexivity].
  1,2: eapply den_pair; [reflexivity|intros ? ? []|reflexivity|reflexivity| |].
  1,3: apply den_leaf; [intros ? ? []|reflexivity || discriminate|reflexivity|reflexivity].
  1,2: eapply den_pair; [reflexivity|intros ? ? []|reflexivity|reflexivity| |apply den_leaf; [intros ? ? []|reflexivity || discriminate|reflexivity|reflexivity]].
  1,2: eapply den_arr; [reflexivity|intros ? ? []|reflexivity|reflexivity|reflexivity|reflexivity|].
  1,2: constructor; [apply den_leaf; [intros ? ? []|reflexivity || discriminate|reflexivity|reflexivity]|constructor; [|constructor]].
  1,2: eapply den_bytes; [reflexivity|intros ? ? []|reflexivity|reflexivity|reflexivity].
Qed.

Print Assumptions same_refl.
Print Assumptions same_sym.
Print Assumptions same_trans.
Print Assumptions same_is_equal.
Print Assumptions struct_eq_correct.
Print Assumptions struct_eq_other_false.
Print Assumptions struct_eq_cyclic.
Print Assumptions eq_reflexive_refuted.
Print Assumptions eq_total_refuted.
