(* C35, C34: merge and sort. *)
From Verif Require Import Base Value_Model Heap_Model Value_Proofs Value_Proofs2 Heap_Spec Heap_Proofs List_Proofs
  Heap_Proofs2 Env_Model Env_Proofs Env_Props Sort_Model Seg_Proofs Heap_Props Rotate_Props Sort_Proofs.
From Coq Require Import Permutation Sorting.Sorted.
Local Open Scope Z_scope.

Section Spec.
(* [cmp x y] says that x may stand before y, and its negation that y may stand
   before x, in the preorder [le] of the values in [P]: "less or equal" as well as
   "strictly less" *)
Record orders (cmp : Z -> Z -> bool) (P : Z -> Prop) (le : Z -> Z -> Prop) : Prop := {
  ord_trans : forall x y z, P x -> P y -> P z -> le x y -> le y z -> le x z;
  ord_true : forall x y, P x -> P y -> cmp x y = true -> le x y;
  ord_false : forall x y, P x -> P y -> cmp x y = false -> le y x
}.
(* moreover the comparator is "less or equal" *)
Definition reflects (cmp : Z -> Z -> bool) (P : Z -> Prop) (le : Z -> Z -> Prop) : Prop :=
  orders cmp P le /\ forall x y, P x -> P y -> le x y -> cmp x y = true.
(* the values equivalent to [z], in the order in which they stand *)
Definition ties (cmp : Z -> Z -> bool) (z : Z) (l : list Z) : list Z := filter (fun x => cmp z x && cmp x z) l.
End Spec.

Section Order.
Variables (cmp : Z -> Z -> bool).

Fixpoint mergev (l : list Z) : list Z -> list Z :=
  match l with
  | [] => fun m => m
  | a :: l' =>
    fix aux (m : list Z) : list Z :=
      match m with
      | [] => a :: l'
      | b :: m' => if cmp a b then a :: mergev l' m else b :: aux m'
      end
  end.
Lemma mergev_nil_r l : mergev l [] = l. Proof. destruct l; auto. Qed.
Lemma mergev_cons a l b m : mergev (a :: l) (b :: m) = if cmp a b then a :: mergev l (b :: m) else b :: mergev (a :: l) m.
Proof. reflexivity. Qed.

Lemma mergeP_snd l : forall m, map snd (mergeP cmp l m) = mergev (map snd l) (map snd m).
Proof.
  induction l as [|a l IHl]; [reflexivity|]. induction m as [|b m IHm]; [reflexivity|].
  rewrite mergeP_cons. cbn [map]. rewrite mergev_cons. destruct (cmp (snd a) (snd b)); cbn [map]; f_equal; [apply IHl|apply IHm].
Qed.

Lemma mergeP_perm l : forall m, Permutation (mergeP cmp l m) (l ++ m).
Proof.
  induction l as [|a l IHl]; [reflexivity|]. induction m as [|b m IHm]; [rewrite app_nil_r; reflexivity|].
  rewrite mergeP_cons. destruct (cmp (snd a) (snd b)); [simpl; constructor; apply IHl|].
  rewrite IHm. apply (Permutation_middle (a :: l) m b).
Qed.

Lemma mergev_perm l : forall m, Permutation (mergev l m) (l ++ m).
Proof.
  induction l as [|a l IHl]; [reflexivity|]. induction m as [|b m IHm]; [rewrite app_nil_r; reflexivity|].
  rewrite mergev_cons. destruct (cmp a b); [simpl; constructor; apply IHl|].
  rewrite IHm. apply (Permutation_middle (a :: l) m b).
Qed.

Variables (P : Z -> Prop) (le : Z -> Z -> Prop).

Lemma mergev_sorted (O : orders cmp P le) l : forall m, Forall P l -> Forall P m -> StronglySorted le l -> StronglySorted le m -> StronglySorted le (mergev l m).
Proof.
  induction l as [|a l IHl]; [auto|]. induction m as [|b m IHm]; [auto|]. intros Pl Pm Sl Sm. rewrite mergev_cons.
  inversion Pl as [|? ? Pa Pl']; subst. inversion Pm as [|? ? Pb Pm']; subst.
  inversion Sl as [|? ? Sl' Fa]; subst. inversion Sm as [|? ? Sm' Fb]; subst. destruct (cmp a b) eqn:C; constructor; auto.
  - eapply Permutation_Forall; [symmetry; apply mergev_perm|]. apply Forall_app. split; auto.
    pose proof (ord_true _ _ _ O _ _ Pa Pb C). constructor; auto. rewrite Forall_forall in *. intros z I. apply (ord_trans _ _ _ O) with b; auto.
  - eapply Permutation_Forall; [symmetry; apply mergev_perm|]. pose proof (ord_false _ _ _ O _ _ Pa Pb C).
    simpl. constructor; auto. apply Forall_app. split; auto. rewrite Forall_forall in *. intros z I. apply (ord_trans _ _ _ O) with a; auto.
Qed.

Lemma mergev_stable (O : reflects cmp P le) z l : P z -> forall m, Forall P l -> Forall P m -> StronglySorted le l -> StronglySorted le m ->
  ties cmp z (mergev l m) = ties cmp z l ++ ties cmp z m.
Proof.
  intros Pz. destruct O as (O&Rf). induction l as [|a l IHl]; [auto|]. induction m as [|b m IHm]; [intros; rewrite app_nil_r; auto|]. intros Pl Pm Sl Sm. rewrite mergev_cons.
  inversion Pl as [|? ? Pa Pl']; subst. inversion Pm as [|? ? Pb Pm']; subst.
  inversion Sl as [|? ? Sl' Fa]; subst. inversion Sm as [|? ? Sm' Fb]; subst. destruct (cmp a b) eqn:C; unfold ties in *; cbn [filter].
  - rewrite IHl by auto. cbn [filter]. destruct (cmp z a && cmp a z); reflexivity.
  - rewrite IHm by auto. cbn [filter]. destruct (cmp z b && cmp b z) eqn:Cb; auto.
    assert (E : forall c, In c (a :: l) -> cmp z c && cmp c z = false).
    { intros c I. destruct (cmp z c && cmp c z) eqn:Cc; auto. exfalso. apply andb_prop in Cb as [b1 b2]. apply andb_prop in Cc as [c1 c2].
      rewrite Forall_forall in Pl. pose proof (Pl _ I) as Pc.
      assert (Lac : le a c \/ a = c) by (destruct I as [->|I]; auto; left; rewrite Forall_forall in Fa; auto).
      assert (Lcb : le c b) by (apply (ord_trans _ _ _ O) with z; auto; apply (ord_true _ _ _ O); auto).
      assert (le a b) by (destruct Lac as [Lac| ->]; auto; apply (ord_trans _ _ _ O) with c; auto).
      rewrite Rf in C by auto. discriminate. }
    rewrite (E a) by (simpl; auto). replace (filter (fun x => cmp z x && cmp x z) l) with (@nil Z); auto.
    symmetry. clear - E. induction l as [|c l IH]; auto. simpl. rewrite E by (simpl; auto). apply IH. intros d [<-|I]; apply E; simpl; auto.
Qed.

End Order.

Section Runs.
Variable le : Z -> Z -> Prop.
(* every aligned block of [k] is sorted *)
Definition runs (k : nat) (l : list Z) : Prop := forall i, StronglySorted le (firstn k (skipn (i * k) l)).

Lemma skipn_skipn' (a b : nat) (l : list Z) : skipn a (skipn b l) = skipn (b + a) l.
Proof. revert l. induction b as [|b IH]; intros l; auto. destruct l; simpl; [rewrite !skipn_nil; auto|apply IH]. Qed.

Lemma runs_skip k l : runs k l -> runs k (skipn k l).
Proof. intros R i. rewrite skipn_skipn'. apply (R (Datatypes.S i)). Qed.
Lemma runs_first k l : runs k l -> StronglySorted le (firstn k l).
Proof. intros R. apply (R O). Qed.
Lemma runs_all k l : runs k l -> (length l <= k)%nat -> StronglySorted le l.
Proof. intros R L. apply runs_first in R. rewrite firstn_all2 in R; auto. Qed.
Lemma runs_nil k : runs k []. Proof. intros i. rewrite skipn_nil, firstn_nil. constructor. Qed.
Lemma runs_one l : runs 1 l.
Proof. intros i. destruct (skipn (i * 1) l) as [|x m]; simpl; repeat constructor. Qed.

Lemma runs_snoc k j F R : length F = (j * k)%nat -> runs k F -> StronglySorted le R -> (length R <= k)%nat -> runs k (F ++ R).
Proof.
  intros LF RF SR LR i. rewrite skipn_app, firstn_app, skipn_length, LF.
  destruct (Nat.lt_ge_cases i j) as [C|C].
  - assert (k <= j * k - i * k)%nat by nia. replace (k - (j * k - i * k))%nat with O by lia. simpl. rewrite app_nil_r. apply RF.
  - assert (j * k <= i * k)%nat by nia. rewrite (skipn_all2 F) by lia. rewrite firstn_nil. simpl. replace (k - (j * k - i * k))%nat with k by lia.
    destruct (Nat.eq_dec i j) as [->|NE].
    + rewrite Nat.sub_diag. simpl. rewrite firstn_all2; auto.
    + assert (k <= i * k - j * k)%nat by nia. rewrite (skipn_all2 R) by lia. rewrite firstn_nil. constructor.
Qed.
End Runs.

Section Sort.
Context {A : Arch}.
Variables (cmp : Z -> Z -> bool) (ef : nat) (par1 par2 : Z).
Hypothesis P12 : par1 <> par2.

Lemma env_not_merror h v kvs cs : env_on h v kvs cs -> v <> MERROR.
Proof.
  intros E. inversion E as [|i j k x q kvs' cs' R]; subst; [intros E0; apply MERROR_neq0; auto|].
  intros E0. pose proof MERROR_not_ptr as M. rewrite <- E0, enc_is_ptr in M by auto. discriminate.
Qed.

Lemma env_init_ok h fl env kvs cs x y : heap_ok h fl -> env_at h fl env kvs cs -> (length kvs + 2 <= ef)%nat -> (4 <= length fl)%nat ->
  x <> PLACEHOLDER -> y <> PLACEHOLDER ->
  exists h' env' fl' cs', cmp_env_init ef par1 par2 h env x y = Ok (h', Some env') /\ cmp_ready ef par1 par2 h' fl' env' cs' x y /\
    incl fl' fl /\ incl cs' (cs ++ fl) /\ same_but (cs ++ fl) h h' /\ ccells h' = ccells h.
Proof.
  intros OK Ev L LF X Y. unfold cmp_env_init.
  destruct (env_set_correct h fl env kvs cs par1 x ef OK Ev ltac:(lia)) as (h1&v1&fl1&cs1&E1&St1&C1).
  assert (G1 : exists kvs1, env_at h1 fl1 v1 kvs1 cs1 /\ (length kvs1 <= 1 + length kvs)%nat /\ (2 <= length fl1)%nat /\ assoc par1 (visible kvs1) = Some x).
  { destruct C1 as [(AK&->&->&->&kvs1&Ev1&Ky&_&V)|[(AK&_&->&_&Ev1)|(AK&Lt&_)]]; [| |lia].
    - exists kvs1. split; auto. split; [|split; [lia|rewrite V, Z.eqb_refl by auto; auto]].
      assert (LE : length (map fst kvs1) = length (map fst kvs)) by (rewrite Ky; auto). rewrite !map_length in LE. lia.
    - exists ((par1, x) :: kvs). split; auto. split; [simpl; lia|]. split; [rewrite skipn_length; lia|].
      simpl. destruct (Z.eqb_spec x PLACEHOLDER); [contradiction|]. simpl. rewrite Z.eqb_refl. auto. }
  destruct G1 as (kvs1&Ev1&L1&LF1&V1). rewrite E1. cbn [bind].
  destruct (Z.eqb_spec v1 MERROR) as [E0|_]; [destruct Ev1 as (Eo&_); destruct (env_not_merror _ _ _ _ Eo E0)|].
  destruct (env_set_correct h1 fl1 v1 kvs1 cs1 par2 y ef (st_heap _ _ _ _ _ _ St1) Ev1 ltac:(lia)) as (h2&v2&fl2&cs2&E2&St2&C2).
  assert (G2 : exists kvs2, env_at h2 fl2 v2 kvs2 cs2 /\ (length kvs2 <= 2 + length kvs)%nat /\ assoc par1 (visible kvs2) = Some x /\ assoc par2 (visible kvs2) = Some y).
  { destruct C2 as [(AK&->&->&->&kvs2&Ev2&Ky&_&V)|[(AK&_&->&_&Ev2)|(AK&Lt&_)]]; [| |lia].
    - exists kvs2. split; auto. rewrite !V, Z.eqb_refl by auto. destruct (Z.eqb_spec par1 par2); [contradiction|]. split; auto.
      assert (LE : length (map fst kvs2) = length (map fst kvs1)) by (rewrite Ky; auto). rewrite !map_length in LE. lia.
    - exists ((par2, y) :: kvs1). split; auto. split; [simpl; lia|].
      simpl. destruct (Z.eqb_spec y PLACEHOLDER); [contradiction|]. simpl. rewrite Z.eqb_refl.
      destruct (Z.eqb_spec par2 par1); [congruence|]. auto. }
  destruct G2 as (kvs2&Ev2&L2&V2a&V2b). rewrite E2. cbn [bind].
  destruct (Z.eqb_spec v2 MERROR) as [E0|_]; [destruct Ev2 as (Eo&_); destruct (env_not_merror _ _ _ _ Eo E0)|].
  exists h2, v2, fl2, cs2. split; auto. split; [|split; [|split; [|split]]].
  - split; [apply (st_heap _ _ _ _ _ _ St2)|]. exists kvs2. split; auto. split; [lia|auto].
  - intros i I. apply (st_fl _ _ _ _ _ _ St1), (st_fl _ _ _ _ _ _ St2). auto.
  - intros i I. apply (st_cs _ _ _ _ _ _ St2) in I. apply in_app_iff in I as [I|I]; [apply (st_cs _ _ _ _ _ _ St1); auto|].
    apply in_or_app. right. apply (st_fl _ _ _ _ _ _ St1). auto.
  - intros i I. rewrite (st_same _ _ _ _ _ _ St2); [apply (st_same _ _ _ _ _ _ St1); auto|].
    intros J. apply I. apply in_app_iff in J as [J|J]; [apply (st_cs _ _ _ _ _ _ St1); auto|].
    apply in_or_app. right. apply (st_fl _ _ _ _ _ _ St1). auto.
  - rewrite (st_ccells _ _ _ _ _ _ St2). apply (st_ccells _ _ _ _ _ _ St1).
Qed.

Lemma link_ok h ca xa qa cb xb qb : 0 <= ca < 2 ^ (W - 8) -> 0 <= cb < 2 ^ (W - 8) -> ca <> cb -> cell h ca = Some (xa, qa) -> cell h cb = Some (xb, qb) ->
  exists h4 h5, setd h (enc_cons_ptr ca) (enc_cons_ptr cb) = Ok h4 /\ setd h4 (enc_cons_ptr cb) NIL = Ok h5 /\ cell h5 ca = Some (xa, enc_cons_ptr cb) /\ cell h5 cb = Some (xb, 0) /\ same_but [ca; cb] h h5 /\ meta h h5.
Proof.
  intros Ra Rb NE Ca Cb. exists (hput h ca (xa, enc_cons_ptr cb)), (hput (hput h ca (xa, enc_cons_ptr cb)) cb (xb, 0)).
  assert (Cb1 : cell (hput h ca (xa, enc_cons_ptr cb)) cb = Some (xb, qb)) by (rewrite cell_hput_neq by lia; auto).
  split; [eapply setd_enc; eauto|]. split; [rewrite NIL_0; eapply setd_enc; eauto|].
  split; [rewrite cell_hput_neq by lia; eapply cell_hput_eq; eauto|]. split; [eapply cell_hput_eq; eauto|]. split.
  - intros i I. simpl in I. rewrite !cell_hput_neq; auto; lia.
  - eapply meta_trans; apply meta_hput.
Qed.

Definition no_hole (xs : list Z) : Prop := Forall (fun x => x <> PLACEHOLDER) xs.
Lemma no_hole_vals l : no_hole (map snd l) -> vals_ok l.
Proof. unfold no_hole, vals_ok. rewrite Forall_map. auto. Qed.

(* The result of merge is a new list that consists of the elements of both; when
   both are sorted the result is, and when the comparator is "less or equal" the
   elements that are equivalent keep their order, those of the first list first.
   The cells of the arguments and all other cells in use keep their contents,
   except for the cells of the comparator's own environment [cs]. *)
Theorem merge_correct h fl env kvs cs v1 xs ps1 v2 ys ps2 fuel : heap_ok h fl ->
  list_on h v1 xs ps1 -> used fl ps1 -> list_on h v2 ys ps2 -> used fl ps2 -> env_at h fl env kvs cs -> (length kvs + 2 <= ef)%nat ->
  (length xs + length ys + 4 <= length fl)%nat -> Z.of_nat (length fl) < 2 ^ 31 -> (length xs + length ys <= fuel)%nat ->
  no_hole xs -> no_hole ys ->
  exists h' r zs, apply_merge cmp ef par1 par2 fuel h env v1 v2 = Ok (h', Some r) /\ list_at h' r zs /\ Permutation zs (xs ++ ys) /\
    (forall i, ~ In i fl -> ~ In i cs -> cell h' i = cell h i) /\
    (forall P le, orders cmp P le -> Forall P xs -> Forall P ys -> StronglySorted le xs -> StronglySorted le ys -> StronglySorted le zs) /\
    (forall P le z, reflects cmp P le -> Forall P xs -> Forall P ys -> StronglySorted le xs -> StronglySorted le ys -> P z ->
       ties cmp z zs = ties cmp z xs ++ ties cmp z ys).
Proof.
  intros OK L1 U1 L2 U2 Ev LK LF LB F NX NY. unfold apply_merge.
  destruct (copy_seg h fl v1 xs ps1 fuel OK L1 U1 ltac:(lia) ltac:(lia) ltac:(lia)) as (h1&r1&l1&E1&NM1&OK1&S1&Sn1&Fs1&_&Cc1&Sm1). rewrite E1. cbn [bind].
  destruct (Z.eqb_spec r1 MERROR); [contradiction|].
  set (fl1 := skipn (length xs) fl) in *.
  assert (Inc1 : forall i, In i fl1 -> In i fl) by (intros i; apply In_skipn).
  assert (L21 : list_on h1 v2 ys ps2) by (apply (list_on_same h h1 v2 ys ps2 fl fl); auto; apply incl_refl).
  assert (LF1 : length fl1 = (length fl - length xs)%nat) by (unfold fl1; apply skipn_length).
  destruct (copy_seg h1 fl1 v2 ys ps2 fuel OK1 L21) as (h2&r2&l2&E2&NM2&OK2&S2&Sn2&Fs2&_&Cc2&Sm2); try lia.
  { intros p I C J. apply (U2 p I C). auto. }
  rewrite E2. cbn [bind]. destruct (Z.eqb_spec r2 MERROR); [contradiction|].
  set (fl2 := skipn (length ys) fl1) in *.
  assert (Inc2 : forall i, In i fl2 -> In i fl1) by (intros i; apply In_skipn).
  assert (I1 : forall i, In i (map fst l1) -> In i fl /\ ~ In i fl1).
  { intros i. rewrite Fs1. intros I. split; [eapply In_firstn; eauto|]. eapply NoDup_split; eauto. apply (ok_nodup _ _ OK). }
  assert (I2 : forall i, In i (map fst l2) -> In i fl1 /\ ~ In i fl2).
  { intros i. rewrite Fs2. intros I. split; [eapply In_firstn; eauto|]. eapply NoDup_split; eauto. apply (ok_nodup _ _ OK1). }
  assert (ND1 : NoDup (map fst l1)) by (rewrite Fs1; apply NoDup_firstn, (ok_nodup _ _ OK)).
  assert (ND2 : NoDup (map fst l2)) by (rewrite Fs2; apply NoDup_firstn, (ok_nodup _ _ OK1)).
  assert (S12 : seg h2 r1 l1 0) by (eapply seg_frame; eauto; intros i I; apply Sm2, I1; auto).
  assert (Sm12 : forall i, ~ In i fl -> cell h2 i = cell h i) by (intros i I; rewrite Sm2 by auto; apply Sm1; auto).
  destruct (Z.eqb_spec (Z.of_nat (length xs)) 0) as [X0|X0].
  { assert (xs = []) as -> by (destruct xs; auto; simpl in X0; lia). exists h2, r2, ys. split; auto.
    split; [eexists; rewrite <- Sn2; apply seg_list; auto|]. split; [reflexivity|]. auto. }
  destruct (Z.eqb_spec (Z.of_nat (length ys)) 0) as [Y0|Y0].
  { assert (ys = []) as -> by (destruct ys; auto; simpl in Y0; lia). exists h2, r1, xs. split; auto.
    split; [eexists; rewrite <- Sn1; apply seg_list; auto|]. rewrite app_nil_r. split; [reflexivity|]. split; auto. split; auto.
    intros. rewrite app_nil_r. auto. }
  destruct l1 as [|[ca xa] la]; [simpl in Sn1; subst xs; simpl in X0; lia|].
  destruct l2 as [|[cb xb] lb]; [simpl in Sn2; subst ys; simpl in Y0; lia|].
  inversion S12 as [|? ? ar ? ? Ra Ca Sa]; subst r1. inversion S2 as [|? ? br ? ? Rb Cb Sb]; subst r2. subst. clear S1.
  rewrite (cdr_enc _ _ _ _ Ra Ca). cbn [bind]. rewrite (cdr_enc _ _ _ _ Rb Cb). cbn [bind].
  rewrite (car_enc _ _ _ _ Ra Ca). cbn [bind]. rewrite (car_enc _ _ _ _ Rb Cb). cbn [bind].
  destruct Ev as (Eo&Nc&Dc).
  assert (Ev2 : env_at h2 fl2 env kvs cs).
  { split; [eapply env_on_frame; eauto; intros c C; apply Sm12; auto|]. split; auto. intros c C I. eapply Dc; eauto. }
  destruct (env_init_ok h2 fl2 env kvs cs xa xb OK2 Ev2) as (h3&env'&fl3&cs3&E3&J3&If&Ic&Sm3&Cc3); auto.
  { unfold fl2. rewrite skipn_length. lia. } { inversion NX; auto. } { inversion NY; auto. }
  rewrite E3. cbn [bind].
  assert (D3 : forall i, In i (map fst ((ca, xa) :: la ++ (cb, xb) :: lb)) -> ~ In i (cs ++ fl2)).
  { intros i I J. rewrite in_app_iff in J. assert (In i fl /\ ~ In i fl2) as (K1&K2).
    { change ((ca, xa) :: la ++ (cb, xb) :: lb) with (((ca, xa) :: la) ++ (cb, xb) :: lb) in I. rewrite map_app, in_app_iff in I.
      destruct I as [I|I]; [apply I1 in I as (?&?); auto|apply I2 in I as (?&?); auto]. }
    destruct J as [J|J]; auto. eapply Dc; eauto. }
  assert (Ica : In ca (map fst ((ca, xa) :: la ++ (cb, xb) :: lb))) by (simpl; auto).
  assert (Icb : In cb (map fst ((ca, xa) :: la ++ (cb, xb) :: lb))) by (simpl; right; rewrite map_app; apply in_or_app; simpl; auto).
  assert (Ila : forall i, In i (map fst la) -> In i (map fst ((ca, xa) :: la ++ (cb, xb) :: lb))) by (intros i I; simpl; right; rewrite map_app; apply in_or_app; auto).
  assert (Ilb : forall i, In i (map fst lb) -> In i (map fst ((ca, xa) :: la ++ (cb, xb) :: lb))) by (intros i I; simpl; right; rewrite map_app; apply in_or_app; simpl; auto).
  assert (NDa : NoDup (map fst ((ca, xa) :: la ++ (cb, xb) :: lb))).
  { change ((ca, xa) :: la ++ (cb, xb) :: lb) with (((ca, xa) :: la) ++ (cb, xb) :: lb). rewrite map_app. apply NoDup_app_build; auto.
    intros i J1 J2. apply I1 in J1 as (_&J1). apply I2 in J2 as (J2&_). auto. }
  pose proof (nd_facts [] ca (map fst la) cb (map fst lb)) as NF. simpl app in NF.
  destruct NF as (_&_&_&NE&Nala&Nalb&Nbla&Nblb&_&_); [simpl in NDa; rewrite map_app in NDa; exact NDa|].
  assert (C3a : cell h3 ca = Some (xa, ar)) by (rewrite Sm3; auto).
  assert (C3b : cell h3 cb = Some (xb, br)) by (rewrite Sm3; auto).
  destruct (link_ok h3 ca xa ar cb xb br Ra Rb NE C3a C3b) as (h4&h5&E4&E5&C5a&C5b&Sm5&M5). rewrite E4. cbn [bind]. rewrite E5. cbn [bind].
  assert (J5 : cmp_ready ef par1 par2 h5 fl3 env' cs3 xa xb).
  { apply (ready_frame ef par1 par2 h3 h5 [ca; cb]); auto. intros i I. assert (K : ~ In i (cs ++ fl2)) by (apply D3; destruct I as [<-|[<-|[]]]; auto).
    split; intros J; apply K; [apply Ic; auto|apply in_or_app; auto]. }
  rewrite NIL_0.
  destruct (merge_loop_ok cmp ef par1 par2 P12 fl3 env' cs3 fuel h5 [] 0 0 ca xa ar la cb xb 0 br lb) as (h'&r&xa'&xb'&E'&S'&Sm'&M'&J'); auto.
  { left; auto. }
  { eapply seg_frame with (h := h2); eauto. intros i I. rewrite Sm5 by (intros [<-|[<-|[]]]; auto). apply Sm3, D3; auto. }
  { eapply seg_frame with (h := h2); eauto. intros i I. rewrite Sm5 by (intros [<-|[<-|[]]]; auto). apply Sm3, D3; auto. }
  { intros i I. apply D3 in I. split; intros J; apply I; [apply Ic; auto|apply in_or_app; auto]. }
  { apply no_hole_vals; auto. } { apply no_hole_vals; auto. }
  { simpl in F. rewrite !map_length in F. lia. }
  rewrite app_nil_l in S'. exists h', r, (map snd (mergeP cmp ((ca, xa) :: la) ((cb, xb) :: lb))). split; auto.
  split; [eexists; apply seg_list; eauto|]. split; [rewrite <- map_app; apply Permutation_map, mergeP_perm|]. split; [|split].
  - intros i I J. rewrite Sm'.
    + rewrite Sm5; [rewrite Sm3; [apply Sm12; auto|]|].
      * rewrite in_app_iff. intros [K|K]; auto.
      * intros [<-|[<-|[]]]; [apply I, I1; simpl; auto|]. destruct (I2 cb) as (K&_); simpl; auto.
    + rewrite in_app_iff. intros [K|K].
      * rewrite app_nil_l in K. change ((ca, xa) :: la ++ (cb, xb) :: lb) with (((ca, xa) :: la) ++ (cb, xb) :: lb) in K. rewrite map_app, in_app_iff in K.
        destruct K as [K|K]; [apply I1 in K|apply I2 in K]; destruct K as (K&_); auto.
      * apply Ic, in_app_iff in K as [K|K]; auto.
  - intros P le O P1 P2 So1 So2. rewrite mergeP_snd. eapply mergev_sorted; eauto.
  - intros P le z O P1 P2 So1 So2 Pz. rewrite mergeP_snd. eapply mergev_stable; eauto.
Qed.


(* ---- sort ---- *)

Lemma cdr_zero h : cdr h 0 = Ok 0.
Proof. apply cdr_nil. Qed.

Lemma cut_ok h v Q K : seg h v Q 0 -> NoDup (map fst Q) -> (1 <= K)%nat ->
  exists c w h', walk (K - 1) h v = Ok c /\ cdr h c = Ok w /\ setd h c NIL = Ok h' /\
    seg h' v (firstn K Q) 0 /\ seg h' w (skipn K Q) 0 /\ same_but (map fst (firstn K Q)) h h' /\ meta h h'.
Proof.
  intros S N K1. destruct (walk_ok h v Q S (K - 1)) as (w0&E&S1&S2).
  destruct (skipn (K - 1) Q) as [|[i x] Q2] eqn:EQ.
  - pose proof (seg_nil_inv _ _ _ _ S2 eq_refl) as ->. exists 0, 0, h. split; auto. split; [apply cdr_zero|]. split; [apply setd_nil|].
    assert (LQ : (length Q <= K - 1)%nat) by (pose proof (skipn_length (K - 1) Q) as SL; rewrite EQ in SL; simpl in SL; lia).
    rewrite (firstn_all2 Q) by lia. rewrite (skipn_all2 Q) by lia. split; auto. split; [constructor|]. split; [apply same_but_refl|apply meta_refl].
  - inversion S2 as [|? ? w ? ? R C S3]; subst. exists (enc_cons_ptr i), w, (hput h i (x, 0)). split; auto. split; [eapply cdr_enc; eauto|].
    split; [rewrite NIL_0; eapply setd_enc; eauto|].
    assert (EF : firstn K Q = firstn (K - 1) Q ++ [(i, x)] /\ skipn K Q = Q2).
    { assert (QE : Q = firstn (K - 1) Q ++ (i, x) :: Q2) by (rewrite <- EQ; symmetry; apply firstn_skipn).
      assert (L1 : length (firstn (K - 1) Q) = (K - 1)%nat).
      { rewrite firstn_length. pose proof (skipn_length (K - 1) Q) as SL; rewrite EQ in SL; simpl in SL; lia. }
      split.
      - rewrite QE at 1. rewrite firstn_app, L1, (firstn_all2 (n := K)) by lia. replace (K - (K - 1))%nat with 1%nat by lia. reflexivity.
      - rewrite QE at 1. rewrite skipn_app, L1, (skipn_all2 (n := K)) by lia. replace (K - (K - 1))%nat with 1%nat by lia. reflexivity. }
    destruct EF as (EF1&EF2). rewrite EF1, EF2.
    pose proof N as N0. rewrite <- (firstn_skipn K Q), map_app, EF1, EF2 in N0. apply NoDup_app_parts in N0 as (N1&N2&D).
    split; [|split; [|split]].
    + apply seg_last_put with (w := w); auto. eapply seg_app; eauto. econstructor; eauto. constructor.
    + apply seg_hput; auto; [lia|]. apply D. rewrite map_app. apply in_or_app. simpl; auto.
    + eapply same_but_incl; [|apply hput_same; lia]. intros k [<-|[]]. rewrite map_app. apply in_or_app. simpl; auto.
    + apply meta_hput.
Qed.

Definition cont (n fuel : nat) (m : heap * lres) : res (heap * option Z) :=
    let '(h1, o) := m in
    match o with
    | LErr => Ok (h1, None)
    | LDone v => Ok (h1, Some v)
    | LSkip f' v => layer_loop cmp ef par1 par2 n fuel h1 f' v
    | LMerge f' mf env =>
      let! v := merge_loop cmp ef par1 par2 fuel h1 mf env in
      match v with
      | (h2, None) => Ok (h2, None)
      | (h2, Some v) => layer_loop cmp ef par1 par2 n fuel h2 f' v
      end
    end.

Lemma layer_step n fuel h f rest Q fl cs x0 y0 K : l_layer f = Z.of_nat K -> (1 <= K)%nat ->
  cmp_ready ef par1 par2 h fl (l_env f) cs x0 y0 -> seg h rest Q 0 -> Q <> [] -> NoDup (map fst Q) ->
  (forall i, In i (map fst Q) -> ~ In i cs /\ ~ In i fl) -> vals_ok Q -> (length Q <= fuel)%nat ->
  exists h' v rest2 x1 y1, bind (layer_next ef par1 par2 h f rest) (cont n fuel) =
      layer_loop cmp ef par1 par2 n fuel h' (mkL (l_env f) (l_first f) (l_last f) rest2 (l_layer f) (l_len f)) v /\
    seg h' v (mergeP cmp (firstn K Q) (firstn K (skipn K Q))) 0 /\ seg h' rest2 (skipn K (skipn K Q)) 0 /\
    same_but (map fst Q ++ cs) h h' /\ meta h h' /\ cmp_ready ef par1 par2 h' fl (l_env f) cs x1 y1.
Proof.
  intros EK K1 J S NQ ND D V LF. unfold layer_next. rewrite EK. replace (Z.to_nat (Z.of_nat K - 1)) with (K - 1)%nat by lia.
  destruct (cut_ok h rest Q K S ND K1) as (c&rest1&h1&E1&E2&E3&Sa&Sq&Sm1&M1). rewrite E1. cbn [bind]. rewrite E2. cbn [bind]. rewrite E3. cbn [bind].
  pose proof ND as ND0. rewrite <- (firstn_skipn K Q), map_app in ND0. apply NoDup_app_parts in ND0 as (NA&NQ1&D1).
  destruct (cut_ok h1 rest1 (skipn K Q) K Sq NQ1 K1) as (c'&rest2&h2&E4&E5&E6&Sb&Sr&Sm2&M2). rewrite E4. cbn [bind]. rewrite E5. cbn [bind]. rewrite E6. cbn [bind].
  pose proof NQ1 as ND0. rewrite <- (firstn_skipn K (skipn K Q)), map_app in ND0. apply NoDup_app_parts in ND0 as (NB&NR&D2).
  set (a := firstn K Q) in *. set (b := firstn K (skipn K Q)) in *. set (q := skipn K (skipn K Q)) in *.
  assert (Ia : forall i, In i (map fst a) -> In i (map fst Q)) by (intros i I; rewrite <- (firstn_skipn K Q), map_app; apply in_or_app; auto).
  assert (Ib0 : forall i, In i (map fst b) -> In i (map fst (skipn K Q))) by (intros i I; rewrite <- (firstn_skipn K (skipn K Q)), map_app; apply in_or_app; auto).
  assert (Ib : forall i, In i (map fst b) -> In i (map fst Q)) by (intros i I; rewrite <- (firstn_skipn K Q), map_app; apply in_or_app; auto).
  assert (Iq0 : forall i, In i (map fst q) -> In i (map fst (skipn K Q))) by (intros i I; rewrite <- (firstn_skipn K (skipn K Q)), map_app; apply in_or_app; auto).
  assert (Iq : forall i, In i (map fst q) -> In i (map fst Q)) by (intros i I; rewrite <- (firstn_skipn K Q), map_app; apply in_or_app; auto).
  assert (Sa2 : seg h2 rest a 0) by (eapply seg_frame; eauto; intros i I; apply Sm2; intros I'; eapply D1; eauto).
  assert (G2 : same_but (map fst Q ++ cs) h h2).
  { intros i I. rewrite in_app_iff in I. rewrite Sm2 by (intros I'; auto). apply Sm1. auto. }
  assert (ME2 : meta h h2) by (eapply meta_trans; eauto).
  assert (J2 : cmp_ready ef par1 par2 h2 fl (l_env f) cs x0 y0).
  { apply (ready_frame ef par1 par2 h h2 (map fst Q)); auto. intros i I. rewrite Sm2 by auto. apply Sm1; auto. }
  assert (Ea : a <> []) by (unfold a; destruct Q; [congruence|]; destruct K; [lia|]; discriminate).
  pose proof (seg_null _ _ _ Sb) as Z0. rewrite Z0.
  destruct b as [|[cb xb] lb] eqn:Eb.
  { cbn [bind cont]. exists h2, rest, rest2, x0, y0. split; [reflexivity|]. rewrite mergeP_nil_r. auto 9. }
  destruct a as [|[ca xa] la] eqn:Ea'; [congruence|].
  inversion Sa2 as [|? ? ar ? ? Ra Ca Sar]; subst rest. inversion Sb as [|? ? br ? ? Rb Cb Sbr]; subst rest1. subst.
  rewrite (cdr_enc _ _ _ _ Ra Ca). cbn [bind]. rewrite (cdr_enc _ _ _ _ Rb Cb). cbn [bind].
  assert (NDa : NoDup (map fst ((ca, xa) :: la ++ (cb, xb) :: lb))).
  { change ((ca, xa) :: la ++ (cb, xb) :: lb) with (((ca, xa) :: la) ++ (cb, xb) :: lb). rewrite map_app. apply NoDup_app_build; auto.
    intros i J1 I2. eapply D1; eauto. }
  assert (Iall : forall i, In i (map fst ((ca, xa) :: la ++ (cb, xb) :: lb)) -> In i (map fst Q)).
  { intros i I. change ((ca, xa) :: la ++ (cb, xb) :: lb) with (((ca, xa) :: la) ++ (cb, xb) :: lb) in I. rewrite map_app, in_app_iff in I. destruct I; auto. }
  pose proof (nd_facts [] ca (map fst la) cb (map fst lb)) as NF. simpl app in NF.
  destruct NF as (_&_&_&NE&Nala&Nalb&Nbla&Nblb&_&_); [simpl in NDa; rewrite map_app in NDa; exact NDa|].
  assert (Ica : In ca (map fst Q)) by (apply Ia; simpl; auto). assert (Icb : In cb (map fst Q)) by (apply Ib; simpl; auto).
  destruct (link_ok h2 ca xa ar cb xb br Ra Rb NE Ca Cb) as (h3&h4&E7&E8&C4a&C4b&Sm4&M4). rewrite E7. cbn [bind]. rewrite E8. cbn [bind].
  assert (J4 : cmp_ready ef par1 par2 h4 fl (l_env f) cs x0 y0).
  { apply (ready_frame ef par1 par2 h2 h4 [ca; cb]); auto. intros i [<-|[<-|[]]]; auto. }
  rewrite (car_enc _ _ _ _ Ra C4a). cbn [bind].
  assert (Va : vals_ok ((ca, xa) :: la)).
  { unfold vals_ok in *. rewrite <- Ea'. rewrite <- (firstn_skipn K Q) in V. apply Forall_app in V as (V&_). auto. }
  assert (Vb : vals_ok ((cb, xb) :: lb)).
  { unfold vals_ok in *. rewrite <- Eb. rewrite <- (firstn_skipn K Q) in V. apply Forall_app in V as (_&V).
    rewrite <- (firstn_skipn K (skipn K Q)) in V. apply Forall_app in V as (V&_). auto. }
  destruct (bind2 cmp ef par1 par2 P12 h4 fl (l_env f) cs x0 y0 xa xb J4) as (h5&h6&E9&Sm5&E10&Sm6&M6&J6); [inversion Va; auto|inversion Vb; auto|].
  rewrite E9. cbn [bind].
  assert (C5b : cell h5 cb = Some (xb, 0)) by (rewrite Sm5; auto; apply D; auto).
  rewrite (car_enc _ _ _ _ Rb C5b). cbn [bind]. rewrite E10. cbn [bind].
  rewrite (ready_sym _ _ _ _ _ _ _ _ _ J6). cbn [orb bind cont]. rewrite NIL_0.
  assert (Keep : forall i, In i (map fst Q) -> i <> ca -> i <> cb -> cell h6 i = cell h2 i).
  { intros i I i1 i2. rewrite Sm6 by (apply D; auto). apply Sm4. intros [|[|[]]]; congruence. }
  destruct (merge_loop_ok cmp ef par1 par2 P12 fl (l_env f) cs fuel h6 [] 0 0 ca xa ar la cb xb 0 br lb) as (h'&r&xa'&xb'&E'&S'&Sm'&M'&J'); auto.
  { left; auto. } { rewrite Sm6; auto; apply D; auto. } { rewrite Sm6; auto; apply D; auto. }
  { eapply seg_frame; [exact Sar|]. intros i I. apply Keep; [apply Ia; simpl; auto|intros ->; auto|intros ->; auto]. }
  { eapply seg_frame; [exact Sbr|]. intros i I. apply Keep; [apply Ib; simpl; auto|intros ->; auto|intros ->; auto]. }
  { pose proof (f_equal (@length _) Ea') as La. pose proof (f_equal (@length _) Eb) as Lb. unfold a in La. unfold b in Lb.
    rewrite !firstn_length in La, Lb. rewrite skipn_length in Lb. simpl in La, Lb. lia. }
  rewrite E'. cbn [bind]. exists h', r, rest2, xa', xb'. split; [reflexivity|]. split; [exact S'|]. rewrite app_nil_l in Sm'. split; [|split; [|split; auto]].
  - eapply seg_frame; [exact Sr|]. intros i I.
    assert (Ni : ~ In i (map fst ((ca, xa) :: la ++ (cb, xb) :: lb))).
    { change ((ca, xa) :: la ++ (cb, xb) :: lb) with (((ca, xa) :: la) ++ (cb, xb) :: lb). rewrite map_app, in_app_iff. intros [K2|K2].
      - eapply D1; eauto.
      - eapply D2; eauto. }
    rewrite Sm'.
    + apply Keep; auto; intros ->; apply Ni; simpl; auto. right. rewrite map_app. apply in_or_app. simpl; auto.
    + rewrite in_app_iff. intros [K2|K2]; auto. destruct (D i (Iq i I)); auto.
  - intros i I. rewrite in_app_iff in I. rewrite Sm'.
    + rewrite Sm6 by auto. rewrite Sm4 by (intros [<-|[<-|[]]]; auto). apply G2. rewrite in_app_iff. auto.
    + rewrite in_app_iff. intros [K2|K2]; auto.
  - eapply meta_trans; [exact ME2|]. eapply meta_trans; [exact M4|]. eapply meta_trans; eauto.
Qed.

(* what two runs and the rest become *)
Definition R_of (K : nat) (L : list (Z * Z)) := mergeP cmp (firstn K L) (firstn K (skipn K L)).
Definition Q_of (K : nat) (L : list (Z * Z)) := skipn K (skipn K L).

Lemma RQ_perm K L : Permutation (R_of K L ++ Q_of K L) L.
Proof.
  unfold R_of, Q_of. rewrite mergeP_perm, <- app_assoc, firstn_skipn, firstn_skipn. reflexivity.
Qed.

Lemma RQ_len K L : (1 <= K)%nat -> L <> [] ->
  (length (R_of K L) = 2 * K \/ (length (R_of K L) <= 2 * K /\ Q_of K L = []))%nat /\ R_of K L <> [] /\ (length (Q_of K L) < length L)%nat.
Proof.
  intros K1 NL. assert (LR : length (R_of K L) = length (firstn K L ++ firstn K (skipn K L))) by (apply Permutation_length, mergeP_perm).
  rewrite app_length, !firstn_length, skipn_length in LR.
  assert (L1 : (1 <= length L)%nat) by (destruct L; [congruence|simpl; lia]).
  split; [|split].
  - destruct (Nat.le_gt_cases (2 * K) (length L)); [left; lia|right; split; [lia|]]. unfold Q_of. apply skipn_all2. rewrite skipn_length. lia.
  - intros E. rewrite E in LR. simpl in LR. lia.
  - unfold Q_of. rewrite !skipn_length. lia.
Qed.

Lemma RQ_order P le K L : orders cmp P le -> Forall P (map snd L) -> runs le K (map snd L) ->
  StronglySorted le (map snd (R_of K L)) /\ runs le K (map snd (Q_of K L)) /\
  (reflects cmp P le -> forall z, P z -> ties cmp z (map snd (R_of K L ++ Q_of K L)) = ties cmp z (map snd L)).
Proof.
  intros O PL R. unfold R_of, Q_of. rewrite !mergeP_snd, <- !skipn_map, <- !firstn_map, <- skipn_map.
  set (l := map snd L) in *.
  assert (P1 : Forall P (firstn K l) /\ Forall P (skipn K l)) by (rewrite <- Forall_app, firstn_skipn; auto).
  destruct P1 as (P1&P2). assert (P3 : Forall P (firstn K (skipn K l)) /\ Forall P (skipn K (skipn K l))) by (rewrite <- Forall_app, firstn_skipn; auto).
  destruct P3 as (P3&P4). pose proof (runs_first _ _ _ R). pose proof (runs_skip _ _ _ R) as R1. pose proof (runs_first _ _ _ R1).
  split; [eapply mergev_sorted; eauto|]. split; [apply runs_skip; auto|].
  intros Rf z Pz. rewrite map_app, mergeP_snd, <- !skipn_map, <- !firstn_map, <- skipn_map. fold l.
  unfold ties. rewrite filter_app. fold (ties cmp z (mergev cmp (firstn K l) (firstn K (skipn K l)))).
  rewrite (mergev_stable cmp P le Rf) by auto. unfold ties. rewrite <- app_assoc, <- !filter_app, firstn_skipn, firstn_skipn. auto.
Qed.

Lemma layer_loop_ok fuel fl env cs N : forall lf h F R Q first last r rest K j x0 y0,
  cmp_ready ef par1 par2 h fl env cs x0 y0 -> head_ok h F first last -> seg h r R 0 -> seg h rest Q 0 ->
  NoDup (map fst (F ++ R ++ Q)) -> (forall i, In i (map fst (F ++ R ++ Q)) -> ~ In i cs /\ ~ In i fl) -> vals_ok (F ++ R ++ Q) ->
  (1 <= K)%nat -> N = length (F ++ R ++ Q) -> R <> [] -> (length R = 2 * K \/ (length R <= 2 * K /\ Q = []))%nat ->
  length F = (j * (2 * K))%nat -> (N <= fuel)%nat -> ((N - K) * (N + 1) + length Q < lf)%nat ->
  exists h' r' L, layer_loop cmp ef par1 par2 lf fuel h (mkL env first last rest (Z.of_nat K) (Z.of_nat N)) r = Ok (h', Some r') /\
    seg h' r' L 0 /\ Permutation L (F ++ R ++ Q) /\ same_but (map fst (F ++ R ++ Q) ++ cs) h h' /\ meta h h' /\
    (forall P le, orders cmp P le -> Forall P (map snd (F ++ R ++ Q)) -> runs le (2 * K) (map snd F) -> StronglySorted le (map snd R) -> runs le K (map snd Q) ->
       StronglySorted le (map snd L) /\
       (reflects cmp P le -> forall z, P z -> ties cmp z (map snd L) = ties cmp z (map snd (F ++ R ++ Q)))).
Proof.
  induction lf as [|lf IH]; intros h F R Q first last r rest K j x0 y0 J HO SR SQ ND D V K1 EN NR LR LF FU MU; [destruct (Nat.nlt_0_r _ MU)|].
  cbn [layer_loop]. unfold merge_layer. cbn [l_env l_first l_last l_rest l_layer l_len].
  rewrite !map_app in ND. apply NoDup_app_parts in ND as (NF&NRQ&DF). pose proof NRQ as NRQ0. apply NoDup_app_parts in NRQ as (NRr&NQ&DR).
  assert (INr : forall i, In i (map fst R) -> In i (map fst (F ++ R ++ Q))) by (intros i I; rewrite !map_app, !in_app_iff; auto).
  assert (INf : forall i, In i (map fst F) -> In i (map fst (F ++ R ++ Q))) by (intros i I; rewrite !map_app, !in_app_iff; auto).
  assert (INq : forall i, In i (map fst Q) -> In i (map fst (F ++ R ++ Q))) by (intros i I; rewrite !map_app, !in_app_iff; auto).
  assert (LN : N = (length F + (length R + length Q))%nat) by (rewrite EN, !app_length; auto).
  rewrite (last_loop_ok _ _ _ SR) by lia. cbn [bind].
  (* the merged part gets R appended *)
  assert (App : exists h1 first1, (if first =? NIL then Ok (h, r) else let! h1 := setd h last r in Ok (h1, first)) = Ok (h1, first1) /\
    seg h1 first1 (F ++ R) 0 /\ same_but (map fst F) h h1 /\ meta h h1).
  { destruct HO as [(->&->)|(M0&i&x&w&->&->&S)].
    - rewrite NIL_0. exists h, r. split; auto. split; auto. split; [apply same_but_refl|apply meta_refl].
    - assert (Ri : 0 <= i < 2 ^ (W - 8)).
      { pose proof (seg_range _ _ _ _ S) as RR. rewrite map_app in RR. apply Forall_app in RR as [_ RR]. simpl in RR. inversion RR; auto. }
      destruct (Z.eqb_spec first NIL) as [E0|_].
      { exfalso. rewrite NIL_0 in E0. destruct M0 as [|[k z] M0]; simpl in S; inversion S; subst;
        match goal with H : enc_cons_ptr ?k = _, R : 0 <= ?k < _ |- _ => exact (enc_nonzero k R H) end. }
      destruct (seg_cell _ _ _ _ i x S) as (qi&Ci); [apply in_or_app; simpl; auto|].
      rewrite (setd_enc h i _ _ _ Ri Ci). cbn [bind]. exists (hput h i (x, r)), first. split; auto.
      assert (Ii : In i (map fst (M0 ++ [(i, x)]))) by (rewrite map_app; apply in_or_app; simpl; auto). split; [|split; [|apply meta_hput]].
      + eapply seg_app; [eapply seg_last_put; eauto|]. apply seg_hput; auto; [lia|]. intros I. eapply DF; eauto. apply in_or_app; auto.
      + eapply same_but_incl; [|apply hput_same; lia]. intros k [<-|[]]. auto. }
  destruct App as (h1&first1&EA&S1&Sm1&M1). rewrite EA. cbn [bind].
  assert (J1 : cmp_ready ef par1 par2 h1 fl env cs x0 y0) by (apply (ready_frame ef par1 par2 h h1 (map fst F)); auto).
  assert (SQ1 : seg h1 rest Q 0).
  { eapply seg_frame; eauto. intros i I. apply Sm1. intros I'. eapply DF; eauto. apply in_or_app; auto. }
  pose proof (seg_null _ _ _ SQ) as Z0. rewrite Z0.
  assert (NFR : NoDup (map fst (F ++ R))).
  { rewrite map_app. apply NoDup_app_build; auto. intros i I I'. eapply DF; eauto. apply in_or_app; auto. }
  assert (RFR : forall le, runs le (2 * K) (map snd F) -> StronglySorted le (map snd R) -> runs le (2 * K) (map snd (F ++ R))).
  { intros le H1 H2. rewrite map_app. apply (runs_snoc le (2 * K) j); [rewrite map_length; auto|auto|auto|rewrite map_length; destruct LR as [|(?&_)]; lia]. }
  destruct Q as [|q0 Q0] eqn:EQ.
  - rewrite app_nil_r in *. destruct (Z.leb_spec (Z.of_nat N) (Z.of_nat K * 2)) as [Le|Gt].
    + exists h1, first1, (F ++ R). split; auto. split; auto. split; [reflexivity|]. split; [|split; auto].
      * intros i I. apply Sm1. intros I'. apply I. apply in_or_app. left. rewrite map_app. apply in_or_app; auto.
      * intros P le O PP RF SR' _. split; auto. eapply runs_all; eauto. rewrite map_length. lia.
    + replace (Z.of_nat K * 2) with (Z.of_nat (2 * K)) by lia.
      assert (NE : F ++ R <> []) by (destruct F; simpl; congruence).
      destruct (layer_step lf fuel h1 (mkL env NIL NIL rest (Z.of_nat (2 * K)) (Z.of_nat N)) first1 (F ++ R) fl cs x0 y0 (2 * K)) as (h2&v&rest2&x1&y1&E2&Sv&Sr2&Sm2&M2&J2); auto; try lia.
      cbn [l_env l_first l_last l_layer l_len] in *. unfold cont in E2. rewrite E2.
      destruct (RQ_len (2 * K) (F ++ R) ltac:(lia) NE) as (LRQ&NRQ'&LQ').
      pose proof (RQ_perm (2 * K) (F ++ R)) as PRQ. fold (R_of (2 * K) (F ++ R)) in Sv. fold (Q_of (2 * K) (F ++ R)) in Sr2.
      destruct (IH h2 [] (R_of (2 * K) (F ++ R)) (Q_of (2 * K) (F ++ R)) NIL NIL v rest2 (2 * K)%nat O x1 y1) as (h'&r'&L&E3&S3&P3&Sm3&M3&O3); auto; try lia.
      * left. rewrite NIL_0. auto.
      * eapply Permutation_NoDup; [symmetry; apply Permutation_map; exact PRQ|auto].
      * intros i I. apply D. eapply Permutation_in; [apply Permutation_map; exact PRQ|auto].
      * eapply Permutation_Forall; [symmetry; exact PRQ|auto].
      * rewrite app_nil_l. rewrite (Permutation_length PRQ). auto.
      * assert (length (Q_of (2 * K) (F ++ R)) < N)%nat by lia. nia.
      * exists h', r', L. split; auto. split; auto. rewrite app_nil_l in *. split; [rewrite P3; auto|]. split; [|split].
        -- intros i I. rewrite Sm3; [rewrite Sm2; [apply Sm1|]|]; auto.
           ++ intros I'. apply I. apply in_or_app. left. rewrite map_app. apply in_or_app; auto.
           ++ intros I'. apply I. rewrite in_app_iff in *. destruct I' as [I'|I']; auto. left. eapply Permutation_in; [apply Permutation_map; exact PRQ|auto].
        -- eapply meta_trans; [exact M1|]. eapply meta_trans; eauto.
        -- intros P le O PP RF SR' _. destruct (RQ_order P le (2 * K) (F ++ R) O PP (RFR le RF SR')) as (SS&RR&TT).
           destruct (O3 P le O) as (C1&C2); auto; [|apply runs_nil|].
           { eapply Permutation_Forall; [apply Permutation_map; symmetry; exact PRQ|auto]. }
           split; auto. intros Rf z Pz. rewrite C2 by auto. apply TT; auto.
  - rewrite <- EQ in *. assert (NEQ : Q <> []) by (rewrite EQ; congruence).
    assert (LR' : length R = (2 * K)%nat) by (destruct LR as [|(_&?)]; [auto|contradiction]).
    destruct (rev R) as [|[li lx] t] eqn:ER.
    { exfalso. apply NR. rewrite <- (rev_involutive R), ER. auto. }
    assert (ERt : R = rev t ++ [(li, lx)]) by (rewrite <- (rev_involutive R), ER; auto).
    destruct (layer_step lf fuel h1 (mkL env first1 (enc_cons_ptr li) rest (Z.of_nat K) (Z.of_nat N)) rest Q fl cs x0 y0 K) as (h2&v&rest2&x1&y1&E2&Sv&Sr2&Sm2&M2&J2); auto; try lia.
    { unfold vals_ok in *. apply Forall_app in V as (_&V). apply Forall_app in V. tauto. }
    cbn [l_env l_first l_last l_layer l_len] in *. unfold cont in E2. rewrite E2.
    destruct (RQ_len K Q K1 NEQ) as (LRQ&NRQ'&LQ'). pose proof (RQ_perm K Q) as PRQ. fold (R_of K Q) in Sv. fold (Q_of K Q) in Sr2.
    assert (PP1 : Permutation ((F ++ R) ++ R_of K Q ++ Q_of K Q) (F ++ R ++ Q)) by (rewrite <- app_assoc; do 2 apply Permutation_app_head; auto).
    destruct (IH h2 (F ++ R) (R_of K Q) (Q_of K Q) first1 (enc_cons_ptr li) v rest2 K (j + 1)%nat x1 y1) as (h'&r'&L&E3&S3&P3&Sm3&M3&O3); auto; try lia.
    + right. exists (F ++ rev t), li, lx, 0. split; [rewrite <- app_assoc, <- ERt; auto|]. split; auto.
      eapply seg_frame; eauto. intros i I. apply Sm2. rewrite in_app_iff. intros [I'|I'].
      * rewrite map_app, in_app_iff in I. destruct I as [I|I]; [eapply DF; eauto; apply in_or_app; auto|eapply DR; eauto].
      * assert (In i (map fst (F ++ R ++ Q))) by (rewrite map_app, in_app_iff in I; destruct I; auto). destruct (D i); auto.
    + eapply Permutation_NoDup; [symmetry; apply Permutation_map; exact PP1|]. rewrite !map_app. apply NoDup_app_build; auto.
    + intros i I. apply D. eapply Permutation_in; [apply Permutation_map; exact PP1|auto].
    + eapply Permutation_Forall; [symmetry; exact PP1|auto].
    + rewrite (Permutation_length PP1). auto.
    + rewrite app_length. lia.
    + exists h', r', L. split; auto. split; auto. split; [rewrite P3; auto|]. split; [|split].
      * intros i I. rewrite Sm3; [rewrite Sm2; [apply Sm1|]|]; auto.
        -- intros I'. apply I. apply in_or_app. auto.
        -- intros I'. apply I. rewrite in_app_iff in *. destruct I'; auto.
        -- intros I'. apply I. rewrite in_app_iff in *. destruct I' as [I'|I']; auto. left. eapply Permutation_in; [apply Permutation_map; exact PP1|auto].
      * eapply meta_trans; [exact M1|]. eapply meta_trans; eauto.
      * intros P le O PP RF SR' RQ. rewrite !map_app in PP. pose proof PP as PQ. apply Forall_app in PQ as (_&PQ). apply Forall_app in PQ as (_&PQ).
        destruct (RQ_order P le K Q O PQ RQ) as (SS&RR&TT).
        destruct (O3 P le O) as (C1&C2); auto.
        { eapply Permutation_Forall; [apply Permutation_map; symmetry; exact PP1|rewrite !map_app; auto]. }
        split; auto. intros Rf z Pz. rewrite C2 by auto. rewrite <- app_assoc, (map_app snd F), (map_app snd R).
        pose proof (TT Rf z Pz) as T1. unfold ties in *. rewrite !map_app, !filter_app in *. rewrite T1. auto.
Qed.


(* C34.  The result of sort is a new list with the elements of the argument in
   order; when the comparator is "less or equal", elements that are equivalent keep
   their order.  The fuel is the number of passes through MERGE_LAYER and the list
   length: sort terminates.  All cells in use keep their contents, except for those
   of the comparator's own environment [cs]. *)
Theorem sort_correct h fl env kvs cs v xs ps lf fuel : heap_ok h fl ->
  list_on h v xs ps -> used fl ps -> env_at h fl env kvs cs -> (length kvs + 2 <= ef)%nat ->
  (length xs + 4 <= length fl)%nat -> Z.of_nat (length fl) < 2 ^ 31 -> (length xs <= fuel)%nat ->
  (length xs * length xs + length xs <= lf)%nat -> no_hole xs ->
  exists h' r zs, apply_sort cmp ef par1 par2 lf fuel h env v = Ok (h', Some r) /\ list_at h' r zs /\ Permutation zs xs /\
    (forall i, ~ In i fl -> ~ In i cs -> cell h' i = cell h i) /\
    (forall P le, orders cmp P le -> Forall P xs -> StronglySorted le zs) /\
    (forall P le z, reflects cmp P le -> Forall P xs -> P z -> ties cmp z zs = ties cmp z xs).
Proof.
  intros OK L U Ev LK LF LB F FL NX. unfold apply_sort.
  destruct (copy_seg h fl v xs ps fuel OK L U ltac:(lia) ltac:(lia) ltac:(lia)) as (h1&r1&l1&E1&NM1&OK1&S1&Sn1&Fs1&_&Cc1&Sm1). rewrite E1. cbn [bind].
  destruct (Z.eqb_spec r1 MERROR); [contradiction|].
  destruct (Z.leb_spec (Z.of_nat (length xs)) 1) as [Short|Long].
  { exists h1, r1, xs. split; auto. split; [eexists; rewrite <- Sn1; apply seg_list; eauto|]. split; [reflexivity|]. split; auto. split; auto.
    intros P le O _. destruct xs as [|x [|y xs]]; [constructor|repeat constructor|simpl in Short; lia]. }
  set (fl1 := skipn (length xs) fl) in *.
  assert (I1 : forall i, In i (map fst l1) -> In i fl /\ ~ In i fl1).
  { intros i. rewrite Fs1. intros I. split; [eapply In_firstn; eauto|]. eapply NoDup_split; eauto. apply (ok_nodup _ _ OK). }
  assert (ND1 : NoDup (map fst l1)) by (rewrite Fs1; apply NoDup_firstn, (ok_nodup _ _ OK)).
  destruct l1 as [|[ca xa] [|[cb xb] Q]]; [simpl in Sn1; subst xs; simpl in Long; lia|simpl in Sn1; subst xs; simpl in Long; lia|].
  inversion S1 as [|? ? ar ? ? Ra Ca Sa]; subst r1. inversion Sa as [|? ? rest ? ? Rb Cb SQ]; subst ar. subst. clear S1.
  rewrite (cdr_enc _ _ _ _ Ra Ca). cbn [bind]. rewrite (cdr_enc _ _ _ _ Rb Cb). cbn [bind].
  rewrite (car_enc _ _ _ _ Ra Ca). cbn [bind]. rewrite (car_enc _ _ _ _ Rb Cb). cbn [bind].
  destruct Ev as (Eo&Nc&Dc).
  assert (Ev1 : env_at h1 fl1 env kvs cs).
  { split; [eapply env_on_frame; eauto; intros c C; apply Sm1; auto|]. split; auto. intros c C I. eapply Dc; eauto. eapply In_skipn; eauto. }
  set (L0 := (ca, xa) :: (cb, xb) :: Q) in *. set (xs := map snd L0) in *.
  inversion NX as [|? ? NXa NX']; subst. inversion NX' as [|? ? NXb NXq]; subst.
  destruct (env_init_ok h1 fl1 env kvs cs xa xb OK1 Ev1) as (h2&env'&fl2&cs2&E2&J2&If&Ic&Sm2&Cc2); auto.
  { unfold fl1. rewrite skipn_length. lia. }
  rewrite E2. cbn [bind].
  assert (D2 : forall i, In i (map fst L0) -> ~ In i (cs ++ fl1)).
  { intros i I J. apply I1 in I as (K1&K2). apply in_app_iff in J as [J|J]; auto. eapply Dc; eauto. }
  assert (D3 : forall i, In i (map fst L0) -> ~ In i cs2 /\ ~ In i fl2).
  { intros i I. apply D2 in I. split; intros J; apply I; [apply Ic; auto|apply in_or_app; auto]. }
  assert (Ica : In ca (map fst L0)) by (simpl; auto). assert (Icb : In cb (map fst L0)) by (simpl; auto).
  inversion ND1 as [|? ? Na ND2]; subst. inversion ND2 as [|? ? Nb NDQ]; subst.
  assert (NE : ca <> cb) by (intros ->; apply Na; simpl; auto).
  assert (C2a : cell h2 ca = Some (xa, enc_cons_ptr cb)) by (rewrite Sm2; auto).
  assert (C2b : cell h2 cb = Some (xb, rest)) by (rewrite Sm2; auto).
  rewrite (setd_enc _ _ _ _ _ Rb C2b). cbn [bind]. rewrite NIL_0. set (h3 := hput h2 cb (xb, 0)).
  assert (Sm3 : same_but [cb] h2 h3) by (apply hput_same; lia).
  assert (J3 : cmp_ready ef par1 par2 h3 fl2 env' cs2 xa xb).
  { apply (ready_frame ef par1 par2 h2 h3 [cb]); auto; [apply meta_hput|]. intros i [<-|[]]; auto. }
  destruct (merge_loop_ok cmp ef par1 par2 P12 fl2 env' cs2 fuel h3 [] 0 0 ca xa 0 [] cb xb 0 0 []) as (h4&r&xa'&xb'&E4&S4&Sm4&M4&J4); auto.
  { left; auto. } { rewrite Sm3; auto. intros [|[]]; congruence. } { unfold h3. eapply cell_hput_eq; eauto. }
  { constructor. } { constructor. } { simpl. repeat constructor; simpl; intuition auto. }
  { intros i I. apply D3. simpl in I. destruct I as [<-|[<-|[]]]; auto. }
  { repeat constructor; auto. } { repeat constructor; auto. } { unfold xs, L0 in F. simpl in F. simpl. lia. }
  rewrite E4. cbn [bind]. rewrite app_nil_l in S4, Sm4. simpl app in Sm4. simpl map in Sm4.
  set (R := mergeP cmp [(ca, xa)] [(cb, xb)]) in *.
  assert (PR : Permutation R [(ca, xa); (cb, xb)]) by apply mergeP_perm.
  assert (PL : Permutation (R ++ Q) L0) by (unfold L0; change ((ca, xa) :: (cb, xb) :: Q) with ([(ca, xa); (cb, xb)] ++ Q); apply Permutation_app_tail; auto).
  assert (LR : length R = 2%nat) by (rewrite (Permutation_length PR); auto).
  assert (LX : length xs = length L0) by (unfold xs; apply map_length).
  destruct (layer_loop_ok fuel fl2 env' cs2 (length xs) lf h4 [] R Q 0 0 r rest 1 O xa' xb') as (h'&r'&Lr&E5&S5&P5&Sm5&M5&O5); auto.
  { left; auto. }
  { eapply seg_frame; [exact SQ|]. intros i I. assert (Ii : In i (map fst L0)) by (simpl; auto).
    rewrite Sm4 by (simpl; intros [<-|[<-|K]]; [apply Na; simpl; auto|auto|destruct (D3 _ Ii); auto]).
    rewrite Sm3 by (intros [<-|[]]; auto). apply Sm2; auto. }
  { eapply Permutation_NoDup; [apply Permutation_map; symmetry; exact PL|auto]. }
  { intros i I. apply D3. eapply Permutation_in; [apply Permutation_map; exact PL|auto]. }
  { eapply Permutation_Forall; [symmetry; exact PL|]. apply no_hole_vals; auto. }
  { rewrite app_nil_l, (Permutation_length PL). auto. }
  { intros E0. rewrite E0 in LR. discriminate. }
  { assert (length Q = length xs - 2)%nat by (rewrite LX; simpl; lia). assert (2 <= length xs)%nat by lia. nia. }
  change (Z.of_nat 1) with 1 in E5. rewrite E5. rewrite app_nil_l in *.
  exists h', r', (map snd Lr). split; auto. split; [eexists; apply seg_list; eauto|].
  split; [unfold xs; apply Permutation_map; rewrite P5; auto|]. split; [|split].
  - intros i I J. rewrite Sm5.
    + rewrite Sm4.
      * rewrite Sm3 by (intros [<-|[]]; apply I, I1; auto). rewrite Sm2 by (rewrite in_app_iff; intros [K|K]; auto; apply I; eapply In_skipn; eauto). apply Sm1; auto.
      * simpl. intros [<-|[<-|K]]; [apply I, I1; auto|apply I, I1; auto|]. apply Ic, in_app_iff in K as [K|K]; auto. apply I. eapply In_skipn; eauto.
    + rewrite in_app_iff. intros [K|K].
      * apply I, I1. eapply Permutation_in; [apply Permutation_map; exact PL|auto].
      * apply Ic, in_app_iff in K as [K|K]; auto. apply I. eapply In_skipn; eauto.
  - intros P le O PP. apply (O5 P le O).
    + eapply Permutation_Forall; [apply Permutation_map; symmetry; exact PL|auto].
    + apply runs_nil.
    + unfold R. rewrite mergeP_snd. inversion PP as [|? ? Pa PP']; subst. inversion PP' as [|? ? Pb _]; subst.
      eapply mergev_sorted; eauto; repeat constructor; auto.
    + apply runs_one.
  - intros P le z Rf PP Pz. pose proof Rf as (O&_). inversion PP as [|? ? Pa PP']; subst. inversion PP' as [|? ? Pb _]; subst.
    destruct (O5 P le O) as (_&T); auto.
    + eapply Permutation_Forall; [apply Permutation_map; symmetry; exact PL|auto].
    + apply runs_nil.
    + unfold R. rewrite mergeP_snd. eapply mergev_sorted; eauto; repeat constructor; auto.
    + apply runs_one.
    + rewrite T by auto. unfold ties. rewrite map_app, filter_app. unfold R. rewrite mergeP_snd.
      fold (ties cmp z (mergev cmp (map snd [(ca, xa)]) (map snd [(cb, xb)]))). rewrite (mergev_stable cmp P le Rf) by (auto; repeat constructor; auto).
      unfold ties. rewrite <- !filter_app. reflexivity.
Qed.

End Sort.

Section Witness.
Let e := enc_cons_ptr (A := A32).
(* a list of three at cell 0, an environment with one binding of 100 at cells 3 and
   4, and ten free cells *)
Let h0 (a b c : Z) := mkHeap ([(a, e 1); (b, e 2); (c, 0); (e 4, 0); (100, 77)] ++
  [(0, e 6); (0, e 7); (0, e 8); (0, e 9); (0, e 10); (0, e 11); (0, e 12); (0, e 13); (0, e 14); (0, 0)]) [] (e 5) 5 [] 10 0 0 0 (fun _ => None) [] false.
Let free := [5; 6; 7; 8; 9; 10; 11; 12; 13; 14].

Lemma h0_ok a b c : heap_ok (A := A32) (h0 a b c) free /\ list_on (A := A32) (h0 a b c) (e 0) [a; b; c] [e 0; e 1; e 2] /\
  used (A := A32) free [e 0; e 1; e 2] /\ env_at (A := A32) (h0 a b c) free (e 3) [(100, 77)] [3; 4].
Proof.
  split; [|split; [|split]].
  - split.
    + vm_compute; discriminate.
    + repeat econstructor; try reflexivity; vm_compute; congruence.
    + repeat constructor; simpl; intuition lia.
    + reflexivity.
  - repeat (eapply list_on_cons; [split; [discriminate|reflexivity]|reflexivity|reflexivity|]). constructor.
  - intros p [<-|[<-|[<-|[]]]] _; vm_compute; intuition lia.
  - split; [|split].
    + apply env_cons with (q := 0); try reflexivity; try (vm_compute; intuition congruence). constructor.
    + repeat constructor; simpl; intuition lia.
    + intros i I J. simpl in I, J. lia.
Qed.

(* FINDING.  The comparator's parameters are bound by overwriting a binding of the
   same name in the environment the closure captured: after the sort, a captured
   variable that has the name of a parameter has another value. *)
Theorem sort_clobbers_captured_refuted : exists h fl v xs ps env kvs cs par1 par2 y, par1 <> par2 /\
  heap_ok (A := A32) h fl /\ list_on (A := A32) h v xs ps /\ used (A := A32) fl ps /\ env_at (A := A32) h fl env kvs cs /\ (length xs + 4 <= length fl)%nat /\
  (forall n, (2 <= n)%nat -> env_lookup (A := A32) n h par1 env = Ok (Some 77)) /\
  match apply_sort (A := A32) Z.leb 9 par1 par2 20 20 h env v with
  | Ok (h', Some _) => env_lookup (A := A32) 9 h' par1 env = Ok (Some y) /\ y <> 77
  | _ => False
  end.
Proof.
  exists (h0 3 1 2), free, (e 0), [3; 1; 2], [e 0; e 1; e 2], (e 3), [(100, 77)], [3; 4], 100, 101, 3.
  destruct (h0_ok 3 1 2) as (H1&H2&H3&H4). split; [lia|]. split; auto. split; auto. split; auto. split; auto. split; [simpl; lia|]. split.
  - intros n N. destruct H4 as (E&_). rewrite (env_lookup_correct _ _ _ _ 100 n E) by (simpl; lia). reflexivity.
  - vm_compute. split; [reflexivity|discriminate].
Qed.

(* FINDING.  With a comparator that means "strictly less" equivalent elements are
   reversed: keys are tens, 12 and 11 have the same key. *)
Theorem sort_strict_unstable_refuted : let cmp x y := x / 10 <? y / 10 in
  orders cmp (fun _ => True) (fun x y => x / 10 <= y / 10) /\
  exists h fl v ps env kvs cs, heap_ok (A := A32) h fl /\ list_on (A := A32) h v [12; 11; 35] ps /\ used (A := A32) fl ps /\ env_at (A := A32) h fl env kvs cs /\
  match apply_sort (A := A32) cmp 9 100 101 20 20 h env v with
  | Ok (h', Some r) => list_at (A := A32) h' r [11; 12; 35]
  | _ => False
  end.
Proof.
  intros cmp. split.
  - split; unfold cmp; intros; lia.
  - exists (h0 12 11 35), free, (e 0), [e 0; e 1; e 2], (e 3), [(100, 77)], [3; 4].
    destruct (h0_ok 12 11 35) as (H1&H2&H3&H4). split; auto. split; auto. split; auto. split; auto.
    destruct (apply_sort (A := A32) cmp 9 100 101 20 20 (h0 12 11 35) (e 3) (e 0)) as [[h' [r|]]| |] eqn:E; vm_compute in E; try discriminate E.
    injection E as <- <-. eexists.
    repeat (eapply list_on_cons; [split; [discriminate|reflexivity]|reflexivity|reflexivity|]). constructor.
Qed.

(* the hypotheses of sort_correct and merge_correct are met: sorting 3 1 2 *)
Example ex_sort : exists h' r zs, apply_sort (A := A32) Z.leb 9 100 101 20 20 (h0 3 1 2) (e 3) (e 0) = Ok (h', Some r) /\ list_at (A := A32) h' r zs /\
  Permutation zs [3; 1; 2] /\ StronglySorted Z.le zs.
Proof.
  destruct (h0_ok 3 1 2) as (H1&H2&H3&H4).
  destruct (sort_correct (A := A32) Z.leb 9 100 101 ltac:(lia) _ _ _ _ _ _ _ _ 20%nat 20%nat H1 H2 H3 H4) as (h'&r&zs&E&L&P&_&S&_); try (simpl; lia).
  { repeat constructor; vm_compute; discriminate. }
  exists h', r, zs. split; auto. split; auto. split; auto. apply (S (fun _ => True)); [split; lia|repeat constructor].
Qed.

Example ex_merge : exists h' r zs, apply_merge (A := A32) Z.leb 9 100 101 20 (h0 1 2 3) (e 3) (e 0) (e 1) = Ok (h', Some r) /\ list_at (A := A32) h' r zs /\
  Permutation zs [1; 2; 3; 2; 3] /\ StronglySorted Z.le zs.
Proof.
  destruct (h0_ok 1 2 3) as (H1&H2&H3&H4).
  assert (L2 : list_on (A := A32) (h0 1 2 3) (e 1) [2; 3] [e 1; e 2]) by (repeat (eapply list_on_cons; [split; [discriminate|reflexivity]|reflexivity|reflexivity|]); constructor).
  assert (U2 : used (A := A32) free [e 1; e 2]) by (intros p I; apply H3; simpl in *; tauto).
  destruct (merge_correct (A := A32) Z.leb 9 100 101 ltac:(lia) _ _ _ _ _ _ _ _ _ _ _ 20%nat H1 H2 H3 L2 U2 H4) as (h'&r&zs&E&L&P&_&S&_); try (simpl; lia).
  { repeat constructor; vm_compute; discriminate. } { repeat constructor; vm_compute; discriminate. }
  exists h', r, zs. split; auto. split; auto. split; auto. apply (S (fun _ => True)); [split; lia| | | |]; repeat constructor; lia.
Qed.
End Witness.

Print Assumptions merge_correct.
Print Assumptions sort_correct.
Print Assumptions sort_clobbers_captured_refuted.
Print Assumptions sort_strict_unstable_refuted.
