From Verif Require Import Base Mem_Model Mem_Spec.
From Coq Require Import Permutation.
Open Scope Z_scope.
Ltac eqz := repeat match goal with |- Ok _ = Ok _ => f_equal | |- (_,_) = (_,_) => f_equal | |- Some _ = Some _ => f_equal end; try lia; auto.
Local Ltac Zify.zify_post_hook ::= Z.div_mod_to_equations.

(* ------------------------------------------------------------------ *)
(* Segments                                                            *)
Inductive seg := F | B (k : nat).   (* free word; block of k+1 words *)

Definition lay (s : seg) : list Z :=
  match s with
  | F => [0]
  | B O => [3]
  | B (S k) => 2 :: repeat 0 k ++ [1]
  end.
Definition layout (l : list seg) : list Z := flat_map lay l.
Definition ssize (s : seg) : nat := match s with F => 1 | B k => S k end.
Definition size (l : list seg) : nat := length (layout l).

Lemma lay_len s : length (lay s) = ssize s.
Proof. destruct s as [|[|k]]; simpl; auto. rewrite app_length, repeat_length; simpl; lia. Qed.

Lemma layout_app a b : layout (a ++ b) = layout a ++ layout b.
Proof. apply flat_map_app. Qed.
Lemma size_app a b : size (a ++ b) = (size a + size b)%nat.
Proof. unfold size. rewrite layout_app, app_length; auto. Qed.
Lemma size_cons s l : size (s :: l) = (ssize s + size l)%nat.
Proof. unfold size; simpl. rewrite app_length, lay_len; auto. Qed.
Lemma size_nil : size [] = O. Proof. reflexivity. Qed.
Lemma layout_F n : layout (repeat F n) = repeat 0 n.
Proof. induction n; simpl; f_equal; auto. Qed.
Lemma size_F n : size (repeat F n) = n.
Proof. unfold size. rewrite layout_F, repeat_length; auto. Qed.
Lemma repeat_app' {A} (x : A) a b : repeat x (a + b) = repeat x a ++ repeat x b.
Proof. induction a; simpl; f_equal; auto. Qed.
Lemma repeat_snoc {A} (x : A) n : repeat x (S n) = repeat x n ++ [x].
Proof. replace (S n) with (n + 1)%nat by lia. rewrite repeat_app'; reflexivity. Qed.
Global Hint Rewrite size_app size_cons size_nil size_F : sz.
Global Opaque size.

Section Cfg.
Variable sh : Z.
Hypothesis Hsh : sh = 5 \/ sh = 6.
Notation W := (W sh).
Notation wb := (wbytes sh).
Notation K := (2 ^ (sh - 1)).

Lemma W_val : W = 2 * K.
Proof. unfold Mem_Model.W. destruct Hsh as [-> | ->]; reflexivity. Qed.
Lemma K_pos : 16 <= K <= 32.
Proof. destruct Hsh as [-> | ->]; vm_compute; intuition discriminate. Qed.
Lemma wb_pos : 4 <= wb <= 8.
Proof. unfold wbytes. destruct Hsh as [-> | ->]; vm_compute; intuition discriminate. Qed.

(* ------------------------------------------------------------------ *)
(* Bit fields                                                          *)
Definition fld (b : list Z) (i : Z) : Z :=
  Z.land (Z.shiftr (nth (Z.to_nat (i / K)) b 0) (2 * (i mod K))) 3.

Lemma ix_facts i : 0 <= i < 2 ^ (W - 1) ->
  let ix := wr_w sh (Z.shiftl i 1) in
  Z.shiftr ix sh = i / K /\ Z.land ix (Z.ones sh) = 2 * (i mod K).
Proof.
  intros Hi ix.
  assert (ix = 2 * i) as ->.
  { unfold ix, wr_w. rewrite Z.shiftl_mul_pow2 by lia.
    rewrite wrap_small. lia.
    replace (2 ^ W) with (2 ^ (W - 1) * 2). lia.
    change (2 ^ (W - 1) * 2) with (2 ^ (W - 1) * 2 ^ 1).
    rewrite <- Z.pow_add_r; try lia. f_equal; lia.
    pose proof W_val; pose proof K_pos; lia. }
  assert (2 ^ sh = 2 * K) as HK by (destruct Hsh as [-> | ->]; reflexivity).
  pose proof K_pos.
  split.
  - rewrite Z.shiftr_div_pow2 by lia. rewrite HK.
    rewrite Z.div_mul_cancel_l by lia. auto.
  - rewrite Z.land_ones by lia. rewrite HK.
    rewrite Z.mul_mod_distr_l by lia. auto.
Qed.

Lemma land3 x : 0 <= Z.land x 3 <= 3.
Proof.
  change 3 with (Z.ones 2) at 1 2. rewrite Z.land_ones by lia.
  pose proof (Z.mod_pos_bound x (2 ^ 2)). change (2 ^ 2) with 4 in *. lia.
Qed.

Lemma fld_range b i : 0 <= fld b i <= 3.
Proof. unfold fld. apply land3. Qed.

(* Well-formed static data. *)
Definition wfm (m : mem) : Prop :=
  Z.of_nat (length (bm m)) = bsize m /\ 0 <= bsize m /\
  bsize m * K = msize m /\ msize m < 2 ^ (W - 3) /\ 0 < base m /\
  base m + msize m * wb < 2 ^ W /\ word sh (nfree m) /\ word sh (reserve m).

Lemma pow_W : 2 ^ W = 8 * 2 ^ (W - 3).
Proof.
  change 8 with (2 ^ 3). rewrite <- Z.pow_add_r; try lia. f_equal; lia.
  pose proof W_val; pose proof K_pos; lia.
Qed.
Lemma pow_W1 : 2 ^ (W - 1) = 4 * 2 ^ (W - 3).
Proof.
  change 4 with (2 ^ 2). rewrite <- Z.pow_add_r; try lia. f_equal; lia.
  pose proof W_val; pose proof K_pos; lia.
Qed.

Lemma loop_max_val m : wfm m -> loop_max sh m = msize m.
Proof.
  intros (H1 & H2 & H3 & H4 & _). unfold loop_max, wr_w.
  assert (0 <= sh - 1) by lia.
  rewrite Z.shiftl_mul_pow2 by auto. pose proof K_pos.
  rewrite wrap_small. auto. pose proof pow_W. nia.
Qed.

Lemma status_fld m i : wfm m -> 0 <= i < msize m ->
  status sh m i = Ok (fld (bm m) i).
Proof.
  intros Hw Hi. destruct Hw as (H1 & H2 & H3 & H4 & _).
  unfold status. pose proof pow_W1.
  destruct (ix_facts i) as [E1 E2]; [lia|]. rewrite E1, E2.
  pose proof K_pos.
  assert (0 <= i / K < bsize m) as Hq.
  { split. apply Z.div_pos; lia. apply Z.div_lt_upper_bound; lia. }
  destruct (Z.ltb_spec (bsize m) (i / K)); try lia.
  rewrite (rd_ok _ _ 0) by lia. cbn [bind]. f_equal.
  unfold fld. pose proof (Z.mod_pos_bound i K).
  pose proof W_val.
  set (b := 2 * (i mod K)) in *.
  assert (wr_w sh (Z.shiftl 3 b) = Z.shiftl 3 b) as ->.
  { unfold wr_w. apply wrap_small. rewrite Z.shiftl_mul_pow2 by lia.
    split. pose proof (Z.pow_nonneg 2 b). lia.
    assert (2 ^ b * 4 <= 2 ^ W); [|pose proof (Z.pow_pos_nonneg 2 b); lia].
    change 4 with (2 ^ 2). rewrite <- Z.pow_add_r by lia.
    apply Z.pow_le_mono_r; lia. }
  rewrite Z.shiftr_land. rewrite Z.shiftr_shiftl_l by lia.
  rewrite Z.sub_diag, Z.shiftl_0_r. auto.
Qed.

Lemma testbit_fld b i k : 0 <= i ->  0 <= k ->
  Z.testbit (fld b i) k =
  Z.testbit (nth (Z.to_nat (i / K)) b 0) (k + 2 * (i mod K)) && (k <? 2).
Proof.
  intros Hi Hk. unfold fld. rewrite Z.land_spec, Z.shiftr_spec by lia.
  f_equal. change 3 with (Z.ones 2).
  rewrite Z.testbit_ones_nonneg by lia. auto.
Qed.

Lemma testbit_3 k : 0 <= k -> Z.testbit 3 k = (k <? 2).
Proof. intros. change 3 with (Z.ones 2). rewrite Z.testbit_ones_nonneg by lia. auto. Qed.

Lemma testbit_small s k : 0 <= s <= 3 -> 2 <= k -> Z.testbit s k = false.
Proof.
  intros. apply Z.bits_above_log2; try lia.
  destruct (Z.eq_dec s 0) as [->|]. simpl; lia.
  assert (Z.log2 s < 2); try lia. apply Z.log2_lt_pow2; try lia. 
Qed.

Lemma testbit_wrap w x k : 0 <= w -> 0 <= k ->
  Z.testbit (wrap w x) k = (k <? w) && Z.testbit x k.
Proof.
  intros. unfold wrap. destruct (Z.ltb_spec k w).
  - rewrite Z.mod_pow2_bits_low by lia. auto.
  - rewrite Z.mod_pow2_bits_high by lia. auto.
Qed.

Lemma set_status_fld m i s : wfm m -> 0 <= i < msize m -> 0 <= s <= 3 ->
  exists b', set_status sh m i s = Ok (set_bm m b') /\ length b' = length (bm m) /\
    (forall j, 0 <= j < msize m -> fld b' j = if j =? i then s else fld (bm m) j).
Proof.
  intros Hw Hi Hs. destruct Hw as (H1 & H2 & H3 & H4 & _).
  unfold set_status. pose proof pow_W1.
  destruct (ix_facts i) as [E1 E2]; [lia|]. rewrite E1, E2.
  pose proof K_pos.
  assert (0 <= i / K < bsize m) as Hq.
  { split. apply Z.div_pos; lia. apply Z.div_lt_upper_bound; lia. }
  rewrite (rd_ok _ _ 0) by lia. cbn [bind].
  rewrite wr_ok by lia. cbn [bind].
  rewrite (rd_ok _ _ 0) by (rewrite length_upd; lia). cbn [bind].
  rewrite nth_upd_eq by lia.
  rewrite wr_ok by (rewrite length_upd; lia). cbn [bind].
  eexists. split; [reflexivity|].
  split. rewrite !length_upd; auto.
  intros j Hj.
  pose proof (Z.mod_pos_bound i K ltac:(lia)).
  pose proof (Z.mod_pos_bound j K ltac:(lia)).
  pose proof W_val.
  pose proof (Z.div_mod i K ltac:(lia)) as Di.
  pose proof (Z.div_mod j K ltac:(lia)) as Dj.
  assert (0 <= j / K < bsize m) as Hqj.
  { split. apply Z.div_pos; lia. apply Z.div_lt_upper_bound; lia. }
  destruct (Z.eq_dec (j / K) (i / K)) as [Eq|Nq].
  - apply Z.bits_inj'. intros k Hk.
    rewrite testbit_fld by lia. rewrite Eq.
    rewrite nth_upd_eq by (rewrite length_upd; lia).
    assert (HW0 : 0 <= W) by lia.
    assert (Hbj : 0 <= 2 * (j mod K) <= W - 2) by lia.
    assert (Hbi : 0 <= 2 * (i mod K) <= W - 2) by lia.
    set (bi := 2 * (i mod K)) in *. set (bj := 2 * (j mod K)) in *.
    destruct (Z.ltb_spec k 2) as [Hk2|Hk2].
    + rewrite andb_true_r. rewrite Z.lor_spec, Z.land_spec.
      unfold wr_w. rewrite !testbit_wrap by lia.
      rewrite Z.lnot_spec by lia. rewrite testbit_wrap by lia.
      rewrite !Z.shiftl_spec by lia.
      replace (k + bj <? W) with true by lia. cbn [andb].
      destruct (Z.eqb_spec j i) as [->|Nji].
      * assert (bj = bi) as -> by reflexivity.
        replace (k + bi - bi) with k by lia. rewrite testbit_3 by lia.
        replace (k <? 2) with true by lia. simpl. rewrite andb_false_r. auto.
      * rewrite testbit_fld by lia. rewrite Eq. fold bj.
        replace (k <? 2) with true by lia. rewrite andb_true_r.
        assert (j mod K <> i mod K) by (intro; apply Nji; rewrite Di, Dj, Eq; lia).
        destruct (Z.ltb_spec (k + bj) bi).
        -- rewrite (Z.testbit_neg_r 3), (Z.testbit_neg_r s) by lia. simpl. rewrite andb_true_r, orb_false_r. auto.
        -- rewrite testbit_3 by lia. replace (k + bj - bi <? 2) with false by lia.
           simpl. rewrite andb_true_r.
           rewrite (testbit_small s) by lia. rewrite orb_false_r. auto.
    + rewrite andb_false_r. destruct (Z.eqb_spec j i).
      * rewrite testbit_small; auto.
      * rewrite testbit_small; auto. apply fld_range.
  - destruct (Z.eqb_spec j i) as [->|]; [congruence|].
    unfold fld. rewrite nth_upd_neq by lia. rewrite nth_upd_neq by lia. auto.
Qed.

(* ------------------------------------------------------------------ *)
(* The status array seen through the bitmap                            *)
Definition View (m : mem) (l : list Z) : Prop :=
  wfm m /\ Z.of_nat (length l) = msize m /\
  forall i, (i < length l)%nat -> fld (bm m) (Z.of_nat i) = nth i l 0.

Lemma view_status m l1 s l2 :
  View m (l1 ++ s :: l2) -> status sh m (Z.of_nat (length l1)) = Ok s.
Proof.
  intros (Hw & Hl & Hv). rewrite app_length in *; cbn [length] in *.
  rewrite status_fld by (auto; lia). rewrite Hv by lia.
  rewrite app_nth2 by lia. rewrite Nat.sub_diag. auto.
Qed.

Lemma view_set m l1 a l2 s :
  View m (l1 ++ a :: l2) -> 0 <= s <= 3 ->
  exists b, set_status sh m (Z.of_nat (length l1)) s = Ok (set_bm m b) /\
    View (set_bm m b) (l1 ++ s :: l2).
Proof.
  intros (Hw & Hl & Hv) Hs. rewrite app_length in *; cbn [length] in *.
  destruct (set_status_fld m (Z.of_nat (length l1)) s) as (b & E & Lb & Fb); auto; try lia.
  exists b. split; auto. split; [|split].
  - destruct Hw as (?&?&?&?&?&?&?&?). unfold wfm; simpl. rewrite Lb. tauto.
  - simpl. rewrite app_length; simpl. lia.
  - intros i Hi. simpl. rewrite app_length in Hi; cbn [length] in Hi.
    rewrite Fb by lia.
    destruct (Z.eqb_spec (Z.of_nat i) (Z.of_nat (length l1))).
    + assert (i = length l1) as -> by lia. rewrite nth_middle. auto.
    + rewrite Hv by lia. 
      destruct (Nat.lt_ge_cases i (length l1)).
      * rewrite !app_nth1 by lia. auto.
      * rewrite !app_nth2 by lia.
        destruct (i - length l1)%nat eqn:E'; try lia. auto.
Qed.

Lemma view_irrel m m' l : View m l ->
  bm m' = bm m -> bsize m' = bsize m -> base m' = base m -> msize m' = msize m ->
  word sh (nfree m') -> word sh (reserve m') -> View m' l.
Proof.
  intros (Hw & Hl & Hv) E1 E2 E3 E4 H5 H6. unfold View, wfm in *.
  rewrite E1, E2, E3, E4. tauto.
Qed.

(* ------------------------------------------------------------------ *)
(* The allocation search                                               *)
Lemma infix_split (A : list seg) j S t1 t2 c :
  (0 < c)%nat ->
  A ++ B j :: S = t1 ++ repeat F c ++ t2 ->
  (exists u, t1 = A ++ B j :: u /\ S = u ++ repeat F c ++ t2) \/
  (exists u, A = t1 ++ repeat F c ++ u).
Proof.
  intros Hc. revert t1. induction A as [|a A IH]; intros t1 E.
  - simpl in E. destruct t1 as [|b t1].
    + destruct c; try lia. simpl in E. discriminate.
    + simpl in E. injection E as <- E. left. exists t1. auto.
  - destruct t1 as [|b t1].
    + right. clear IH. simpl in E.
      revert A a E. induction c as [|c IHc]; intros A a E; try lia.
      simpl in E. injection E as -> E.
      destruct c as [|c].
      * exists A. auto.
      * destruct A as [|a' A]. { simpl in E. discriminate. }
        destruct (IHc ltac:(lia) A a' E) as (u & Eu). exists u. simpl in Eu |- *. rewrite Eu. auto.
    + simpl in E. injection E as -> E.
      destruct (IH t1 E) as [(u & -> & ->)|(u & ->)].
      * left; exists u; auto.
      * right; exists u; auto.
Qed.

Section Search.
Variable m : mem.
Variable n : Z.
Variable l : list Z.
Hypothesis HV : View m l.
Let N := msize m.

Definition cont (k : nat) (st : ast) (start fl o : Z) :=
  if o =? N then alloc_loop sh k m n INIT start 0 0
  else alloc_loop sh k m n st start fl o.

Lemma HN : loop_max sh m = N.
Proof. apply loop_max_val. apply HV. Qed.

Lemma alloc_S k st start fl o s :
  status sh m o = Ok s ->
  alloc_loop sh (S k) m n st start fl o =
  match s with
    | 0 => match st with
           | INIT => if n =? 1 then Ok (Some (o, o), o)
                     else cont k FREE_LENGTH_CHECK o 1 (o + 1)
           | FREE_LENGTH_CHECK =>
                     if fl + 1 =? n then Ok (Some (start, o), o)
                     else cont k FREE_LENGTH_CHECK start (fl + 1) (o + 1)
           | SKIP => cont k SKIP start fl (o + 1)
           end
    | 1 => cont k INIT start fl (o + 1)
    | 2 => cont k SKIP start fl (o + 1)
    | 3 => cont k INIT start fl (o + 1)
    | _ => Ok (None, o)
  end.
Proof.
  intros E. cbn [alloc_loop]. rewrite E. cbn [bind]. unfold cont.
  rewrite HN. destruct s; auto.
Qed.

Lemma irrel k : forall st start fl start' fl' o,
  st <> FREE_LENGTH_CHECK ->
  alloc_loop sh k m n st start fl o = alloc_loop sh k m n st start' fl' o.
Proof.
  induction k as [|k IH]; intros st start fl start' fl' o Hst; auto.
  cbn [alloc_loop]. destruct (status sh m o) as [s| |]; auto. cbn [bind].
  assert (forall a b c d, alloc_loop sh k m n INIT a b 0 = alloc_loop sh k m n INIT c d 0)
    as H0 by (intros; apply IH; discriminate).
  assert (forall st', st' <> FREE_LENGTH_CHECK -> forall a b c d e, alloc_loop sh k m n st' a b e = alloc_loop sh k m n st' c d e)
    as H1 by (intros; apply IH; auto).
  destruct s as [|[[p|p|]|[p|p|]|]|p]; auto;
   try (destruct (_ =? loop_max sh m); [apply H0| apply H1; discriminate]).
  destruct st; auto. congruence.
  destruct (_ =? loop_max sh m); [apply H0| apply H1; discriminate].
Qed.

Lemma cont_irrel k st start fl start' fl' o :
  st <> FREE_LENGTH_CHECK -> cont k st start fl o = cont k st start' fl' o.
Proof.
  intros. unfold cont. destruct (o =? N); apply irrel; auto; discriminate.
Qed.

Lemma cont_lt k st start fl o : o < N -> cont k st start fl o = alloc_loop sh k m n st start fl o.
Proof. intros. unfold cont. replace (o =? N) with false by lia. auto. Qed.

Lemma in_range l1 a l2 : l = l1 ++ a :: l2 -> Z.of_nat (length l1) < N.
Proof.
  intros E. destruct HV as (_ & Hl & _). rewrite E, app_length in Hl. simpl in Hl.
  unfold N; lia.
Qed.

(* skip the interior zeroes and the END of a block *)
Lemma skip_zeros : forall z k l1 l2 start fl,
  l = l1 ++ repeat 0 z ++ 1 :: l2 ->
  cont (S z + k) SKIP start fl (Z.of_nat (length l1)) =
  cont k INIT start fl (Z.of_nat (length l1 + S z)).
Proof.
  induction z as [|z IH]; intros k l1 l2 start fl E; simpl in E.
  - rewrite cont_lt by (eapply in_range; eauto). cbn [Nat.add].
    rewrite (alloc_S _ _ _ _ _ 1).
    2:{ rewrite E in HV. eapply view_status; eauto. }
    f_equal. lia.
  - rewrite cont_lt by (eapply in_range; eauto). cbn [Nat.add].
    rewrite (alloc_S _ _ _ _ _ 0).
    2:{ rewrite E in HV. eapply view_status; eauto. }
    replace (Z.of_nat (length l1) + 1) with (Z.of_nat (length (l1 ++ [0]))) by (rewrite app_length; simpl; lia).
    change (S (z + k)) with (S z + k)%nat.
    rewrite (IH k (l1 ++ [0]) l2).
    + f_equal. rewrite app_length; simpl; lia.
    + rewrite <- app_assoc. auto.
Qed.

Lemma skip_block j k s1 s2 st start fl start' fl' :
  l = layout (s1 ++ B j :: s2) ->
  cont (S j + k) st start fl (Z.of_nat (size s1)) =
  cont k INIT start' fl' (Z.of_nat (size s1 + S j)).
Proof.
  intros E. rewrite layout_app in E. cbn [layout flat_map] in E.
  change (size s1) with (length (layout s1)).
  destruct j as [|j]; cbn [lay app] in E.
  - rewrite cont_lt by (eapply in_range; eauto). cbn [Nat.add].
    rewrite (alloc_S _ _ _ _ _ 3).
    2:{ rewrite E in HV. eapply view_status; eauto. }
    rewrite (cont_irrel _ _ start fl start' fl') by discriminate. f_equal. lia.
  - rewrite cont_lt by (eapply in_range; eauto). cbn [Nat.add].
    rewrite (alloc_S _ _ _ _ _ 2).
    2:{ rewrite E in HV. eapply view_status; eauto. }
    replace (Z.of_nat (length (layout s1)) + 1)
      with (Z.of_nat (length (layout s1 ++ [2]))) by (rewrite app_length; simpl; lia).
    change (S (j + k)) with (S j + k)%nat.
    rewrite <- app_assoc in E. 
    rewrite (skip_zeros j k (layout s1 ++ [2]) (layout s2)).
    + rewrite (cont_irrel _ _ start fl start' fl') by discriminate.
      f_equal. rewrite app_length; simpl; lia.
    + rewrite E. rewrite <- app_assoc. auto.
Qed.

Hypothesis Hn : 0 < n.
Let nn := Z.to_nat n.

Lemma scan_segs : forall s2 s1 s3 c k start,
  l = layout (s1 ++ repeat F c ++ s2 ++ s3) ->
  Z.of_nat c < n ->
  (c = 0%nat \/ start = Z.of_nat (size s1)) ->
  (exists t1 t2, repeat F c ++ s2 = t1 ++ repeat F nn ++ t2 /\
     let p := Z.of_nat (size s1 + size t1) in
     cont (size s2 + k) (if (c =? 0)%nat then INIT else FREE_LENGTH_CHECK) start (Z.of_nat c)
          (Z.of_nat (size s1 + c)) = Ok (Some (p, p + n - 1), p + n - 1)) \/
  ((forall t1 t2, repeat F c ++ s2 <> t1 ++ repeat F nn ++ t2) /\
   exists st start' fl',
     cont (size s2 + k) (if (c =? 0)%nat then INIT else FREE_LENGTH_CHECK) start (Z.of_nat c)
          (Z.of_nat (size s1 + c)) =
     cont k st start' fl' (Z.of_nat (size s1 + c + size s2))).
Proof.
  induction s2 as [|s s2 IH]; intros s1 s3 c k start E Hc Hstart.
  - right. split.
    + intros t1 t2 E'. apply (f_equal (@length seg)) in E'.
      rewrite !app_length, !repeat_length in E'. simpl in E'. unfold nn in E'; lia.
    + rewrite size_nil. rewrite Nat.add_0_r. do 3 eexists. cbn [Nat.add]. reflexivity.
  - destruct s as [|j].
    + (* a free word *)
      assert (E' : l = layout (s1 ++ repeat F (S c) ++ s2 ++ s3)).
      { rewrite E. f_equal. f_equal. rewrite repeat_snoc. rewrite <- app_assoc. auto. }
      assert (Eq : repeat F c ++ F :: s2 = repeat F (S c) ++ s2).
      { rewrite repeat_snoc. rewrite <- app_assoc. auto. }
      assert (Est : status sh m (Z.of_nat (size s1 + c)) = Ok 0).
      { rewrite app_assoc, layout_app in E. cbn [app] in E.
        change (layout (F :: s2 ++ s3)) with (0 :: layout (s2 ++ s3)) in E.
        rewrite E in HV.
        replace (size s1 + c)%nat with (length (layout (s1 ++ repeat F c))).
        eapply view_status; eauto. change (size (s1 ++ repeat F c) = (size s1 + c)%nat).
        autorewrite with sz. auto. }
      assert (Hlt : Z.of_nat (size s1 + c) < N).
      { rewrite app_assoc, layout_app in E. cbn [app] in E.
        change (layout (F :: s2 ++ s3)) with (0 :: layout (s2 ++ s3)) in E.
        replace (size s1 + c)%nat with (length (layout (s1 ++ repeat F c))).
        eapply in_range; eauto. change (size (s1 ++ repeat F c) = (size s1 + c)%nat).
        autorewrite with sz. auto. }
      rewrite size_cons. cbn [ssize Nat.add].
      rewrite cont_lt by auto. rewrite (alloc_S _ _ _ _ _ 0) by auto.
      rewrite Eq.
      destruct (Z.eq_dec (Z.of_nat c + 1) n) as [Hd|Hd].
      * left. exists [], s2. split.
        { simpl. replace nn with (S c) by (unfold nn; lia). auto. }
        rewrite size_nil, Nat.add_0_r.
        destruct (Nat.eqb_spec c 0) as [->|Hc0].
        -- replace (n =? 1) with true by lia. eqz.
        -- replace (Z.of_nat c + 1 =? n) with true by lia.
           destruct Hstart as [|Hstart]; try lia. subst start.
           eqz.
      * assert (Hst : (if (c =? 0)%nat
                 then if n =? 1 then Ok (Some (Z.of_nat (size s1 + c), Z.of_nat (size s1 + c)), Z.of_nat (size s1 + c))
                      else cont (size s2 + k) FREE_LENGTH_CHECK (Z.of_nat (size s1 + c)) 1 (Z.of_nat (size s1 + c) + 1)
                 else if Z.of_nat c + 1 =? n then Ok (Some (start, Z.of_nat (size s1 + c)), Z.of_nat (size s1 + c))
                      else cont (size s2 + k) FREE_LENGTH_CHECK start (Z.of_nat c + 1) (Z.of_nat (size s1 + c) + 1))
                = cont (size s2 + k) FREE_LENGTH_CHECK (Z.of_nat (size s1)) (Z.of_nat (S c)) (Z.of_nat (size s1 + S c))).
        { destruct (Nat.eqb_spec c 0) as [->|Hc0].
          - replace (n =? 1) with false by lia. f_equal; lia.
          - replace (Z.of_nat c + 1 =? n) with false by lia.
            destruct Hstart as [|Hstart]; try lia. subst start. f_equal; lia. }
        destruct (IH s1 s3 (S c) k (Z.of_nat (size s1)) E' ltac:(lia) (or_intror eq_refl))
          as [(t1 & t2 & Et & Ec)|(Hno & st & start' & fl' & Ec)].
        -- left. exists t1, t2. split; auto. cbn [Nat.eqb] in Ec.
           rewrite <- Ec. rewrite <- Hst. destruct (c =? 0)%nat; auto.
        -- right. split; auto. exists st, start', fl'. cbn [Nat.eqb] in Ec.
           replace (size s1 + c + S (size s2))%nat with (size s1 + S c + size s2)%nat by lia.
           rewrite <- Ec, <- Hst. destruct (c =? 0)%nat; auto.
    + (* a block *)
      rewrite size_cons. cbn [ssize].
      assert (E1 : l = layout ((s1 ++ repeat F c) ++ B j :: (s2 ++ s3))).
      { rewrite E. f_equal. rewrite <- app_assoc. auto. }
      replace (size s1 + c)%nat with (size (s1 ++ repeat F c)) by (autorewrite with sz; auto).
      replace (S j + size s2 + k)%nat with (S j + (size s2 + k))%nat by lia.
      rewrite (skip_block j (size s2 + k) _ _ _ _ _ 0 0 E1).
      set (s1' := s1 ++ repeat F c ++ [B j]).
      assert (E2 : l = layout (s1' ++ repeat F 0 ++ s2 ++ s3)).
      { rewrite E. f_equal. unfold s1'. rewrite <- !app_assoc. auto. }
      assert (Es : (size (s1 ++ repeat F c) + S j = size s1' + 0)%nat).
      { unfold s1'. autorewrite with sz. simpl. lia. }
      rewrite Es.
      destruct (IH s1' s3 0%nat k 0 E2 ltac:(lia) (or_introl eq_refl))
          as [(t1 & t2 & Et & Ec)|(Hno & st & start' & fl' & Ec)].
      * left. exists (repeat F c ++ B j :: t1), t2. simpl in Et. split.
        { rewrite Et. rewrite <- app_assoc. auto. }
        cbn [Nat.eqb] in Ec. change (Z.of_nat 0) with 0 in Ec. rewrite Ec.
        assert (size s1' + size t1 = size s1 + size (repeat F c ++ B j :: t1))%nat as ->
          by (unfold s1'; autorewrite with sz; cbn [ssize]; lia).
        reflexivity.
      * right. split.
        { intros t1 t2 E'. destruct (infix_split _ _ _ _ _ nn ltac:(unfold nn; lia) E') as [(u & _ & E'')|(u & E'')].
          - apply (Hno u t2). auto.
          - apply (f_equal (@length seg)) in E''.
            rewrite !app_length, !repeat_length in E''. unfold nn in E''. lia. }
        exists st, start', fl'. cbn [Nat.eqb] in Ec. change (Z.of_nat 0) with 0 in Ec. rewrite Ec.
        f_equal. lia.
Qed.

End Search.


(* ------------------------------------------------------------------ *)
(* Failure leaves the cursor where it was                              *)
Lemma status_cases m l o : View m l -> 0 <= o < msize m ->
  exists s, status sh m o = Ok s /\ 0 <= s <= 3.
Proof.
  intros HV Ho. exists (fld (bm m) o). split. apply status_fld; auto. apply HV.
  apply fld_range.
Qed.

Lemma alloc_none m n l : View m l -> forall k st start fl o,
  0 <= o < msize m ->
  exists r o', alloc_loop sh k m n st start fl o = Ok (r, o') /\
    (r = None -> o' = (o + Z.of_nat k) mod msize m).
Proof.
  intros HV. induction k as [|k IH]; intros st start fl o Ho.
  - do 2 eexists. split; [reflexivity|]. intros _. rewrite Z.mod_small; lia.
  - destruct (status_cases m l o HV Ho) as (s & Es & Hs).
    rewrite (alloc_S m n l HV _ _ _ _ _ s Es).
    assert (Hc : forall st start fl, exists r o',
              cont m n k st start fl (o + 1) = Ok (r, o') /\
              (r = None -> o' = (o + Z.of_nat (S k)) mod msize m)).
    { intros st' start' fl'. unfold cont. destruct (Z.eqb_spec (o + 1) (msize m)).
      - destruct (IH INIT start' 0 0 ltac:(lia)) as (r & o' & E & H).
        exists r, o'. split; auto. intros Hr. rewrite (H Hr).
        replace (o + Z.of_nat (S k)) with (Z.of_nat k + 1 * msize m) by lia.
        rewrite Z.mod_add by lia. f_equal.
      - destruct (IH st' start' fl' (o + 1) ltac:(lia)) as (r & o' & E & H).
        exists r, o'. split; auto. intros Hr. rewrite (H Hr). f_equal. lia. }
    assert (s = 0 \/ s = 1 \/ s = 2 \/ s = 3) as [->|[->|[->| ->]]] by lia; auto.
    destruct st; auto.
    + destruct (n =? 1); auto. do 2 eexists. split; [reflexivity|]. discriminate.
    + destruct (fl + 1 =? n); auto. do 2 eexists. split; [reflexivity|]. discriminate.
Qed.

(* n = 0 is never satisfied. *)
Lemma alloc_zero m l : View m l -> forall k st start fl o,
  0 <= o < msize m -> 0 <= fl ->
  exists o', alloc_loop sh k m 0 st start fl o = Ok (None, o').
Proof.
  intros HV. induction k as [|k IH]; intros st start fl o Ho Hf.
  - eexists. reflexivity.
  - destruct (status_cases m l o HV Ho) as (s & Es & Hs).
    rewrite (alloc_S m 0 l HV _ _ _ _ _ s Es).
    assert (Hc : forall st start fl, 0 <= fl -> exists o',
              cont m 0 k st start fl (o + 1) = Ok (None, o')).
    { intros st' start' fl' Hf'. unfold cont. destruct (Z.eqb_spec (o + 1) (msize m));
      apply IH; lia. }
    assert (s = 0 \/ s = 1 \/ s = 2 \/ s = 3) as [->|[->|[->| ->]]] by lia; auto.
    destruct st; auto.
    + apply Hc; lia.
    + replace (fl + 1 =? 0) with false by lia. apply Hc; lia.
Qed.

(* ------------------------------------------------------------------ *)
(* Invariant on segments                                               *)
Definition endsB (s : list seg) : Prop := s = [] \/ exists s' j, s = s' ++ [B j].

Definition offok (o : Z) (segs : list seg) : Prop :=
  exists s1 s2, segs = s1 ++ s2 /\ endsB s1 /\
    (o = Z.of_nat (size s1) \/ (s1 <> [] /\ o = Z.of_nat (size s1) - 1)).

Fixpoint nF (s : list seg) : nat :=
  match s with [] => 0 | F :: t => S (nF t) | B _ :: t => nF t end.

Lemma nF_app a b : nF (a ++ b) = (nF a + nF b)%nat.
Proof. induction a as [|[|j] a IH]; simpl; auto; lia. Qed.
Lemma nF_F n : nF (repeat F n) = n.
Proof. induction n; simpl; auto. Qed.
Lemma nF_size s : (nF s <= size s)%nat.
Proof. induction s as [|[|j] s IH]; autorewrite with sz; simpl; lia. Qed.

Definition Inv (m : mem) (segs : list seg) : Prop :=
  View m (layout segs) /\ 0 <= off m < msize m /\ offok (off m) segs /\
  nfree m = Z.of_nat (nF segs).

Lemma inv_size m segs : Inv m segs -> Z.of_nat (size segs) = msize m.
Proof. intros ((_ & H & _) & _). auto. Qed.

Lemma split_endsB s : exists s' q, s = s' ++ repeat F q /\ endsB s'.
Proof.
  induction s as [|x s IH] using rev_ind.
  - exists [], 0%nat. split; auto. left; auto.
  - destruct x as [|j].
    + destruct IH as (s' & q & -> & H). exists s', (S q). split; auto.
      rewrite repeat_snoc, app_assoc. auto.
    + exists (s ++ [B j]), 0%nat. split. rewrite app_nil_r; auto.
      right. eauto.
Qed.

Lemma size_last_pos s : s <> [] -> endsB s -> (0 < size s)%nat.
Proof.
  intros Hne [->|(s' & j & ->)]; try congruence. autorewrite with sz. simpl; lia.
Qed.

Lemma skip_zeros_partial m n l : View m l -> forall z z' l1 l2 start fl,
  l = l1 ++ repeat 0 z ++ 1 :: l2 -> (z' <= z)%nat ->
  exists o, cont m n z' SKIP start fl (Z.of_nat (length l1)) = Ok (None, o).
Proof.
  intros HV. induction z as [|z IH]; intros z' l1 l2 start fl E Hz.
  - assert (z' = 0%nat) as -> by lia. unfold cont. destruct (_ =? _); eexists; reflexivity.
  - destruct z' as [|z']. { unfold cont. destruct (_ =? _); eexists; reflexivity. }
    simpl in E.
    rewrite cont_lt by (eapply in_range; eauto).
    rewrite (alloc_S m n l HV _ _ _ _ _ 0).
    2:{ rewrite E in HV. eapply view_status; eauto. }
    replace (Z.of_nat (length l1) + 1) with (Z.of_nat (length (l1 ++ [0]))) by (rewrite app_length; simpl; lia).
    apply (IH z' (l1 ++ [0]) l2); [|lia]. rewrite <- app_assoc. auto.
Qed.

Lemma skip_block_partial m n j s1 s2 st start fl :
  View m (layout (s1 ++ B j :: s2)) ->
  exists o, cont m n j st start fl (Z.of_nat (size s1)) = Ok (None, o).
Proof.
  intros HV. rewrite layout_app in HV. cbn [layout flat_map] in HV.
  change (size s1) with (length (layout s1)).
  destruct j as [|j]; cbn [lay app] in HV.
  - unfold cont. destruct (_ =? _); eexists; reflexivity.
  - rewrite cont_lt by (eapply in_range; eauto).
    rewrite (alloc_S m n _ HV _ _ _ _ _ 2) by (eapply view_status; eauto).
    replace (Z.of_nat (length (layout s1)) + 1)
      with (Z.of_nat (length (layout s1 ++ [2]))) by (rewrite app_length; simpl; lia).
    rewrite <- app_assoc in HV.
    eapply (skip_zeros_partial m n _ HV j j (layout s1 ++ [2]) (layout s2)); auto.
    rewrite <- app_assoc. reflexivity.
Qed.

Lemma block_last_status m s j l2 :
  View m (layout (s ++ [B j]) ++ l2) ->
  exists v, status sh m (Z.of_nat (size (s ++ [B j])) - 1) = Ok v /\ (v = 1 \/ v = 3).
Proof.
  intros HV. rewrite layout_app in HV. cbn [layout flat_map] in HV. rewrite app_nil_r in HV.
  rewrite <- app_assoc in HV.
  autorewrite with sz. cbn [ssize].
  destruct j as [|j]; cbn [lay app] in HV.
  - exists 3. split; auto.
    replace (Z.of_nat (size s + (1 + 0)) - 1) with (Z.of_nat (length (layout s))).
    eapply view_status; eauto. change (length (layout s)) with (size s). lia.
  - exists 1. split; auto.
    rewrite <- app_assoc in HV. cbn [app] in HV.
    replace (Z.of_nat (size s + (S (S j) + 0)) - 1) with (Z.of_nat (length (layout s ++ 2 :: repeat 0 j))).
    eapply view_status. rewrite <- app_assoc. cbn [app]. eauto.
    rewrite app_length. cbn [length]. rewrite repeat_length. change (length (layout s)) with (size s). lia.
Qed.

Definition nohole (segs : list seg) (n : nat) : Prop :=
  forall t1 t2, segs <> t1 ++ repeat F n ++ t2.

Lemma nohole_app s1 s2 n : (0 < n)%nat -> endsB s1 ->
  nohole s2 n -> (forall s j, s1 = s ++ [B j] -> nohole s n) -> nohole (s1 ++ s2) n.
Proof.
  intros Hn [->|(s' & j & ->)] H2 H1; auto.
  intros t1 t2 E. rewrite <- app_assoc in E. cbn [app] in E.
  apply infix_split in E; auto. destruct E as [(u & _ & E)|(u & E)].
  - eapply H2; eauto.
  - eapply (H1 s' j eq_refl); eauto.
Qed.

Lemma nohole_prefix s1 s2 n : nohole (s1 ++ s2) n -> nohole s1 n.
Proof. intros H t1 t2 ->. apply (H t1 (t2 ++ s2)). rewrite <- !app_assoc. auto. Qed.

(* The search itself. *)
Lemma search m segs n : Inv m segs -> 0 < n ->
  (exists t1 t2, segs = t1 ++ repeat F (Z.to_nat n) ++ t2 /\
     let p := Z.of_nat (size t1) in
     alloc_loop sh (Z.to_nat (loop_max sh m)) m n INIT 0 0 (off m)
       = Ok (Some (p, p + n - 1), p + n - 1)) \/
  (nohole segs (Z.to_nat n) /\
     alloc_loop sh (Z.to_nat (loop_max sh m)) m n INIT 0 0 (off m) = Ok (None, off m)).
Proof.
  intros HI Hn. pose proof (inv_size _ _ HI) as Hsz.
  destruct HI as (HV & Ho & (s1 & s2 & Es & He & Hoff) & Hnf).
  pose proof HV as (Hw & _).
  rewrite (loop_max_val m Hw).
  assert (Hnone : forall o', alloc_loop sh (Z.to_nat (msize m)) m n INIT 0 0 (off m) = Ok (None, o') ->
             alloc_loop sh (Z.to_nat (msize m)) m n INIT 0 0 (off m) = Ok (None, off m)).
  { intros o' E. rewrite E. f_equal. f_equal.
    destruct (alloc_none m n _ HV (Z.to_nat (msize m)) INIT 0 0 (off m) Ho) as (r & o'' & E' & H).
    rewrite E in E'. injection E' as <- <-. rewrite (H eq_refl).
    rewrite Z2Nat.id by lia. replace (off m + msize m) with (off m + 1 * msize m) by lia.
    rewrite Z.mod_add by lia. apply Z.mod_small; auto. }
  assert (Hns : msize m = Z.of_nat (size s2 + size s1)).
  { rewrite <- Hsz, Es, size_app. lia. }
  (* second phase: scan from 0 a prefix a of s1, then k more steps *)
  assert (Ph2 : forall a b k start, segs = a ++ b ->
     (exists t1 t2, a = t1 ++ repeat F (Z.to_nat n) ++ t2 /\
        let p := Z.of_nat (size t1) in
        alloc_loop sh (size a + k) m n INIT start 0 0 = Ok (Some (p, p + n - 1), p + n - 1)) \/
     (nohole a (Z.to_nat n) /\ exists st start' fl',
        alloc_loop sh (size a + k) m n INIT start 0 0 = cont m n k st start' fl' (Z.of_nat (size a)))).
  { intros a b k start Eab.
    rewrite <- (cont_lt m n (size a + k) INIT start 0 0) by lia.
    destruct (scan_segs m n (layout segs) HV Hn a [] b 0 k start) as
      [(t1 & t2 & E1 & E2)|(E1 & st & start' & fl' & E2)]; auto.
    - rewrite Eab. auto.
    - left. exists t1, t2. split; auto. 
    - right. split; auto. exists st, start', fl'. rewrite size_nil in E2. exact E2. }
  destruct Hoff as [Hoff|(Hne & Hoff)].
  - (* the cursor is on a segment boundary *)
    assert (Estart : alloc_loop sh (Z.to_nat (msize m)) m n INIT 0 0 (off m)
               = cont m n (size s2 + size s1) INIT 0 0 (Z.of_nat (size s1 + 0))).
    { rewrite cont_lt by lia. f_equal; lia. }
    destruct (scan_segs m n (layout segs) HV Hn s2 s1 [] 0 (size s1) 0) as
      [(t1 & t2 & E1 & E2)|(E1 & st & start' & fl' & E2)]; auto.
    { rewrite Es. cbn [repeat app]. rewrite app_nil_r. auto. }
    + left. exists (s1 ++ t1), t2. split.
      { rewrite Es. simpl in E1. rewrite E1, <- app_assoc. auto. }
      rewrite Estart. rewrite size_app. exact E2.
    + cbn [Nat.eqb] in E2. change (Z.of_nat 0) with 0 in E2. rewrite <- Estart in E2.
      assert (Ec : cont m n (size s1) st start' fl' (Z.of_nat (size s1 + 0 + size s2))
                 = alloc_loop sh (size s1 + 0) m n INIT start' 0 0).
      { unfold cont. replace (Z.of_nat (size s1 + 0 + size s2) =? msize m) with true by lia.
        f_equal; lia. }
      rewrite Ec in E2.
      destruct (Ph2 s1 s2 0%nat start' Es) as [(t1 & t2 & E3 & E4)|(E3 & st4 & start4 & fl4 & E4)].
      * left. exists t1, (t2 ++ s2). split. { rewrite Es, E3, <- !app_assoc; auto. }
        rewrite E2. exact E4.
      * right. split.
        { rewrite Es. apply nohole_app; auto. lia.
          intros s j ->. eapply nohole_prefix; eauto. }
        rewrite E4 in E2. unfold cont in E2.
        destruct (_ =? _); cbn [alloc_loop] in E2; eapply Hnone; eauto.
  - (* the cursor is on the last word of a block *)
    destruct He as [->|(s' & j & ->)]; [congruence|].
    rewrite Es, layout_app in HV.
    destruct (block_last_status m s' j _ HV) as (v & Ev & Hv).
    rewrite <- layout_app, <- Es in HV.
    pose proof (size_last_pos (s' ++ [B j]) Hne (or_intror (ex_intro _ s' (ex_intro _ j eq_refl)))) as Hpos.
    assert (Estart : alloc_loop sh (Z.to_nat (msize m)) m n INIT 0 0 (off m)
               = cont m n (size s2 + (size s' + j)) INIT 0 0 (Z.of_nat (size (s' ++ [B j]) + 0))).
    { assert (Z.to_nat (msize m) = S (size s2 + (size s' + j))) as ->.
      { autorewrite with sz in Hns. cbn [ssize] in Hns. lia. }
      rewrite <- Hoff in Ev.
      rewrite (alloc_S m n _ HV _ _ _ _ _ v Ev).
      destruct Hv as [->| ->]; f_equal; lia. }
    destruct (scan_segs m n (layout segs) HV Hn s2 (s' ++ [B j]) [] 0 (size s' + j) 0) as
      [(t1 & t2 & E1 & E2)|(E1 & st & start' & fl' & E2)]; auto.
    { rewrite Es. cbn [repeat app]. rewrite app_nil_r. auto. }
    + left. exists ((s' ++ [B j]) ++ t1), t2. split.
      { rewrite Es. simpl in E1. rewrite E1, <- !app_assoc. auto. }
      rewrite Estart. rewrite size_app. exact E2.
    + cbn [Nat.eqb] in E2. change (Z.of_nat 0) with 0 in E2. rewrite <- Estart in E2.
      assert (Ec : cont m n (size s' + j) st start' fl' (Z.of_nat (size (s' ++ [B j]) + 0 + size s2))
                 = alloc_loop sh (size s' + j) m n INIT start' 0 0).
      { unfold cont. replace (Z.of_nat (size (s' ++ [B j]) + 0 + size s2) =? msize m) with true by lia.
        auto. }
      rewrite Ec in E2.
      assert (Es' : segs = s' ++ B j :: s2) by (rewrite Es, <- app_assoc; auto).
      destruct (Ph2 s' (B j :: s2) j start' Es') as [(t1 & t2 & E3 & E4)|(E3 & st4 & start4 & fl4 & E4)].
      * left. exists t1, (t2 ++ B j :: s2). split. { rewrite Es', E3, <- !app_assoc; auto. }
        rewrite E2. exact E4.
      * right. split.
        { rewrite Es. apply nohole_app; auto. lia. right; eauto.
          intros s j' Ej. apply app_inj_tail in Ej. destruct Ej as [Ej _]. subst s. auto. }
        rewrite E4 in E2.
        destruct (skip_block_partial m n j s' s2 st4 start4 fl4) as (o & Eo).
        { rewrite <- Es'. auto. }
        rewrite Eo in E2. eapply Hnone; eauto.
Qed.

Definition same_static (m m' : mem) : Prop :=
  base m' = base m /\ msize m' = msize m /\ reserve m' = reserve m /\ gcreq m' = gcreq m.

Lemma set_off_same m : set_off m (off m) = m.
Proof. destruct m; reflexivity. Qed.

Lemma view_setoff m o l : View m l -> View (set_off m o) l.
Proof. intros H. pose proof H as (Hw & _). eapply view_irrel; eauto; apply Hw. Qed.
Lemma view_setnfree m o l : View m l -> word sh o -> View (set_nfree m o) l.
Proof. intros H Ho. pose proof H as (Hw & _). eapply view_irrel; eauto; apply Hw. Qed.

Lemma layout_B_split j : lay (B (S j)) = 2 :: repeat 0 j ++ [1].
Proof. reflexivity. Qed.

Lemma nfree_word m segs : Inv m segs -> word sh (Z.of_nat (nF segs)) /\ Z.of_nat (nF segs) <= msize m.
Proof.
  intros HI. pose proof (inv_size _ _ HI). pose proof (nF_size segs).
  destruct HI as ((Hw & _) & _). destruct Hw as (_&_&_&H4&_). pose proof pow_W.
  unfold word. lia.
Qed.

Lemma alloc_internal_spec m segs n : Inv m segs -> word sh n ->
  (exists t1 t2 m', 0 < n /\ segs = t1 ++ repeat F (Z.to_nat n) ++ t2 /\
     allocate_internal sh m n = Ok (ix_to_addr sh m (Z.of_nat (size t1)), m') /\
     Inv m' (t1 ++ B (Z.to_nat n - 1) :: t2) /\ same_static m m') \/
  ((n = 0 \/ nohole segs (Z.to_nat n)) /\ allocate_internal sh m n = Ok (0, m)).
Proof.
  intros HI Hn. unfold allocate_internal.
  destruct (Z.eq_dec n 0) as [->|Hn0].
  - right. split; auto.
    destruct HI as (HV & Ho & _).
    destruct (alloc_zero m _ HV (Z.to_nat (loop_max sh m)) INIT 0 0 (off m) Ho ltac:(lia)) as (o' & E).
    destruct (alloc_none m 0 _ HV (Z.to_nat (loop_max sh m)) INIT 0 0 (off m) Ho) as (r & o'' & E' & H).
    rewrite E in *. injection E' as <- <-. rewrite (H eq_refl). cbn [bind].
    pose proof HV as (Hw & _). rewrite (loop_max_val m Hw).
    rewrite Z2Nat.id by lia. replace (off m + msize m) with (off m + 1 * msize m) by lia.
    rewrite Z.mod_add by lia. rewrite Z.mod_small by auto. rewrite set_off_same. auto.
  - destruct (search m segs n HI) as [(t1 & t2 & Es & E)|(Hno & E)].
    { destruct Hn; lia. }
    + left. exists t1, t2.
      cbn zeta in E. rewrite E. cbn [bind].
      pose proof (nfree_word _ _ HI) as [Hnw Hnl].
      pose proof (inv_size _ _ HI) as Hsz.
      destruct HI as (HV & Ho & _ & Hnf).
      set (m1 := set_off m (Z.of_nat (size t1) + n - 1)).
      assert (HV1 : View m1 (layout segs)) by (apply view_setoff; auto).
      assert (Hend : exists b, 
        (if Z.of_nat (size t1) =? Z.of_nat (size t1) + n - 1
         then set_status sh m1 (Z.of_nat (size t1)) 3
         else let! m' := set_status sh m1 (Z.of_nat (size t1)) 2 in
              set_status sh m' (Z.of_nat (size t1) + n - 1) 1) = Ok (set_bm m1 b) /\
        View (set_bm m1 b) (layout (t1 ++ B (Z.to_nat n - 1) :: t2))).
      { rewrite Es, !layout_app, layout_F in HV1. rewrite layout_app.
        change (size t1) with (length (layout t1)).
        destruct (Z.eqb_spec (Z.of_nat (length (layout t1))) (Z.of_nat (length (layout t1)) + n - 1)) as [E1|E1].
        - assert (n = 1) as -> by lia. change (Z.to_nat 1) with 1%nat in HV1. cbn [repeat app] in HV1.
          destruct (view_set m1 _ _ _ 3 HV1 ltac:(lia)) as (b & Eb & HVb).
          exists b. split; auto.
        - assert (Z.to_nat n = S (S (Z.to_nat n - 2))) as En by (destruct Hn; lia).
          set (z := (Z.to_nat n - 2)%nat) in *.
          rewrite En in HV1. cbn [repeat app] in HV1.
          destruct (view_set m1 _ _ _ 2 HV1 ltac:(lia)) as (b & Eb & HVb).
          rewrite Eb. cbn [bind].
          change (0 :: repeat 0 z ++ layout t2) with (repeat 0 (S z) ++ layout t2) in HVb.
          rewrite repeat_snoc in HVb.
          replace (Z.of_nat (length (layout t1)) + n - 1)
            with (Z.of_nat (length (layout t1 ++ 2 :: repeat 0 z))).
          2:{ rewrite app_length; cbn [length]; rewrite repeat_length. destruct Hn; lia. }
          replace (layout t1 ++ 2 :: (repeat 0 z ++ [0]) ++ layout t2)
            with ((layout t1 ++ 2 :: repeat 0 z) ++ 0 :: layout t2) in HVb
            by (rewrite <- !app_assoc; cbn [app]; rewrite <- ?app_assoc; reflexivity).
          destruct (view_set _ _ _ _ 1 HVb ltac:(lia)) as (b' & Eb' & HVb').
          rewrite Eb'. exists b'. split; auto.
          replace (Z.to_nat n - 1)%nat with (S z) by lia.
          cbn [layout flat_map]. change (lay (B (S z))) with (2 :: repeat 0 z ++ [1]). cbn [app]. rewrite <- app_assoc. cbn [app].
          rewrite <- app_assoc in HVb'. cbn [app] in HVb'. exact HVb'. }
      destruct Hend as (b & Eb & HVb). rewrite Eb. cbn [bind].
      eexists. split; [destruct Hn; lia|]. split; [auto|]. split; [reflexivity|].
      cbn [nfree set_bm m1 set_off].
      assert (HnF : nF segs = (nF t1 + (Z.to_nat n + nF t2))%nat)
        by (rewrite Es, !nF_app, nF_F; auto).
      assert (Hsn : size segs = (size t1 + (Z.to_nat n + size t2))%nat)
        by (rewrite Es; autorewrite with sz; auto).
      assert (Enf : wr_w sh (nfree m - n) = Z.of_nat (nF (t1 ++ B (Z.to_nat n - 1) :: t2))).
      { unfold wr_w. rewrite nF_app. cbn [nF].
        rewrite wrap_small; destruct Hnw, Hn; lia. }
      split; [|unfold same_static; simpl; auto].
      split; [|split; [|split]].
      * apply view_setnfree. auto. rewrite Enf. unfold word. rewrite nF_app. cbn [nF].
        destruct Hnw; lia.
      * cbn [off set_nfree set_bm m1 set_off msize]. destruct Hn; lia.
      * exists (t1 ++ [B (Z.to_nat n - 1)]), t2. split. rewrite <- app_assoc; auto.
        split. right; eauto.
        right. split. intro E0; symmetry in E0; apply app_cons_not_nil in E0; auto.
        cbn [off set_nfree set_bm m1 set_off]. autorewrite with sz. cbn [ssize]. destruct Hn; lia.
      * cbn [nfree set_nfree]. auto.
    + right. split; auto. rewrite E. cbn [bind]. rewrite set_off_same. auto.
Qed.

(* ------------------------------------------------------------------ *)
(* free                                                                *)
Lemma free_loop_spec : forall z k m l1 l2 cnt,
  View m (l1 ++ repeat 0 z ++ 1 :: l2) -> (z < k)%nat ->
  exists b, free_loop sh k m (Z.of_nat (length l1)) cnt
              = Ok (true, cnt + Z.of_nat z + 1, set_bm m b) /\
            View (set_bm m b) (l1 ++ repeat 0 z ++ 0 :: l2).
Proof.
  induction z as [|z IH]; intros k m l1 l2 cnt HV Hk; (destruct k as [|k]; [lia|]).
  - cbn [repeat app] in *. cbn [free_loop].
    rewrite (view_status _ _ _ _ HV). cbn [bind]. change (1 =? 1) with true. cbv iota.
    destruct (view_set m _ _ _ 0 HV ltac:(lia)) as (b & Eb & HVb).
    rewrite Eb. cbn [bind]. exists b. split; auto. eqz.
  - cbn [repeat app] in *. cbn [free_loop].
    rewrite (view_status _ _ _ _ HV). cbn [bind]. change (0 =? 1) with false. cbv iota.
    replace (Z.of_nat (length l1) + 1) with (Z.of_nat (length (l1 ++ [0]))) by (rewrite app_length; simpl; lia).
    destruct (IH k m (l1 ++ [0]) l2 (cnt + 1)) as (b & Eb & HVb).
    { rewrite <- app_assoc. auto. } { lia. }
    exists b. rewrite Eb. split. eqz.
    rewrite <- app_assoc in HVb. auto.
Qed.

Lemma back_loop_spec : forall q k m s l2,
  View m (layout s ++ repeat 0 q ++ l2) -> endsB s -> (size s + q <= k)%nat ->
  back_loop sh k m (Z.of_nat (size s + q)) = Ok (Z.of_nat (size s)).
Proof.
  induction q as [|q IH]; intros k m s l2 HV He Hk.
  - rewrite Nat.add_0_r in *. destruct He as [->|(s' & j & ->)].
    + rewrite size_nil. destruct k; reflexivity.
    + destruct (block_last_status m s' j _ HV) as (v & Ev & Hv).
      assert (0 < size (s' ++ [B j]))%nat by (autorewrite with sz; cbn [ssize]; lia).
      destruct k as [|k]; [lia|]. cbn [back_loop].
      replace (0 <? Z.of_nat (size (s' ++ [B j]))) with true by lia.
      rewrite Ev. cbn [bind]. replace (v =? 0) with false by lia. auto.
  - destruct k as [|k]; [lia|]. cbn [back_loop].
    replace (0 <? Z.of_nat (size s + S q)) with true by lia.
    replace (Z.of_nat (size s + S q) - 1) with (Z.of_nat (size s + q)) by lia.
    assert (Est : status sh m (Z.of_nat (size s + q)) = Ok 0).
    { rewrite repeat_snoc in HV.
      replace (layout s ++ (repeat 0 q ++ [0]) ++ l2) with ((layout s ++ repeat 0 q) ++ 0 :: l2) in HV
        by (rewrite <- !app_assoc; auto).
      apply view_status in HV. rewrite app_length, repeat_length in HV. exact HV. }
    rewrite Est. cbn [bind]. change (0 =? 0) with true. cbv iota.
    apply (IH k m s (0 :: l2)); auto; [|lia].
    rewrite repeat_snoc in HV. rewrite <- app_assoc in HV. auto.
Qed.

Lemma addr_ix m i : wfm m -> 0 <= i < msize m ->
  addr_to_ix sh m (ix_to_addr sh m i) = i /\ ptr_inside sh m (ix_to_addr sh m i) = true.
Proof.
  intros (H1 & H2 & H3 & H4 & H5 & H6 & _) Hi. pose proof wb_pos.
  unfold addr_to_ix, ix_to_addr, ptr_inside, wr_w.
  replace (base m + i * wb - base m) with (i * wb) by lia.
  rewrite !wrap_small by nia.
  split.
  - rewrite Z.shiftr_div_pow2 by lia. change (2 ^ (sh - 3)) with wb.
    apply Z.div_mul. lia.
  - replace (base m <=? base m + i * wb) with true by nia. 
    replace (base m + i * wb <? base m + msize m * wb) with true by nia. auto.
Qed.

Lemma free_spec m s1 j s2 : Inv m (s1 ++ B j :: s2) ->
  exists m', mfree sh m (ix_to_addr sh m (Z.of_nat (size s1))) = Ok (1, m') /\
    Inv m' (s1 ++ repeat F (S j) ++ s2) /\ same_static m m'.
Proof.
  intros HI. pose proof (nfree_word _ _ HI) as [Hnw Hnl].
  pose proof (inv_size _ _ HI) as Hsz. autorewrite with sz in Hsz. cbn [ssize] in Hsz.
  destruct HI as (HV & Ho & _ & Hnf). pose proof HV as (Hw & _).
  unfold mfree.
  destruct (addr_ix m (Z.of_nat (size s1)) Hw ltac:(lia)) as [E1 E2].
  rewrite E1, E2. rewrite (loop_max_val m Hw).
  set (m0 := set_off m (Z.of_nat (size s1))).
  assert (HV0 : View m0 (layout s1 ++ lay (B j) ++ layout s2)).
  { apply view_setoff. rewrite layout_app in HV. exact HV. }
  assert (Hfree : exists b,
    (let! s := status sh m0 (Z.of_nat (size s1)) in
     (if s =? 2 then
         let! m' := set_status sh m0 (Z.of_nat (size s1)) 0 in
         free_loop sh (Z.to_nat (msize m - Z.of_nat (size s1))) m' (Z.of_nat (size s1)) 0
       else if s =? 3 then
         let! m' := set_status sh m0 (Z.of_nat (size s1)) 0 in Ok (true, 1, m')
       else Ok (false, 0, m0))) = Ok (true, Z.of_nat (S j), set_bm m0 b) /\
    View (set_bm m0 b) (layout s1 ++ repeat 0 (S j) ++ layout s2)).
  { destruct j as [|j]; cbn [lay app] in HV0.
    - rewrite (view_status _ _ _ _ HV0 : status sh m0 (Z.of_nat (size s1)) = Ok 3). cbn [bind].
      change (3 =? 2) with false. change (3 =? 3) with true. cbv iota.
      destruct (view_set m0 _ _ _ 0 HV0 ltac:(lia)) as (b & Eb & HVb).
      change (size s1) with (length (layout s1)). rewrite Eb. cbn [bind].
      exists b. split; auto.
    - rewrite (view_status _ _ _ _ HV0 : status sh m0 (Z.of_nat (size s1)) = Ok 2). cbn [bind].
      change (2 =? 2) with true. cbv iota.
      destruct (view_set m0 _ _ _ 0 HV0 ltac:(lia)) as (b & Eb & HVb).
      change (set_status sh m0 (Z.of_nat (size s1)) 0) with (set_status sh m0 (Z.of_nat (length (layout s1))) 0).
      rewrite Eb. cbn [bind].
      rewrite <- app_assoc in HVb. cbn [app] in HVb.
      destruct (free_loop_spec (S j) (Z.to_nat (msize m - Z.of_nat (size s1))) (set_bm m0 b) (layout s1) (layout s2) 0)
        as (b' & Eb' & HVb').
      { exact HVb. } { lia. }
      change (size s1) with (length (layout s1)) in Eb' |- *. rewrite Eb'.
      exists b'. split. f_equal. f_equal. f_equal. lia.
      rewrite (repeat_snoc 0 (S j)). rewrite <- app_assoc. exact HVb'. }
  destruct Hfree as (b & Eb & HVb).
  set (X := status sh m0 (Z.of_nat (size s1))) in *.
  destruct X as [s| |]; cbn [bind] in Eb |- *; try discriminate.
  rewrite Eb. cbn [bind].
  change (off (set_bm m0 b)) with (Z.of_nat (size s1)).
  destruct (split_endsB s1) as (s' & q & E & He).
  assert (Hback : back_loop sh (Z.to_nat (Z.of_nat (size s1))) (set_bm m0 b) (Z.of_nat (size s1)) = Ok (Z.of_nat (size s'))).
  { rewrite E. autorewrite with sz.
    apply (back_loop_spec q _ _ _ (repeat 0 (S j) ++ layout s2)); auto; [|lia].
    rewrite E, layout_app, layout_F, <- app_assoc in HVb. exact HVb. }
  rewrite Hback. cbn [bind].
  eexists. split; [reflexivity|].
  cbn [nfree set_off set_bm m0].
  assert (Hsz1 : size s1 = (size s' + q)%nat) by (rewrite E; autorewrite with sz; auto).
  assert (Ecount : wr_w sh (nfree m + Z.of_nat (S j)) = Z.of_nat (nF (s1 ++ repeat F (S j) ++ s2)) /\
                   word sh (Z.of_nat (nF (s1 ++ repeat F (S j) ++ s2)))).
  { rewrite !nF_app, nF_F. rewrite Hnf, nF_app. cbn [nF].
    pose proof (nF_size s1); pose proof (nF_size s2).
    destruct Hw as (_&_&_&H4&_). pose proof pow_W.
    unfold wr_w, word. rewrite wrap_small; lia. }
  destruct Ecount as [-> Hword].
  split; [|unfold same_static; simpl; auto].
  split; [|split; [|split]].
  - apply view_setnfree; auto. apply view_setoff. 
    rewrite !layout_app, layout_F. exact HVb.
  - cbn [off set_nfree set_off msize set_bm m0]. lia.
  - exists s', (repeat F q ++ repeat F (S j) ++ s2). split.
    { rewrite E, <- !app_assoc. auto. }
    split; auto. 
  - reflexivity.
Qed.

(* ------------------------------------------------------------------ *)
(* shrink                                                              *)
(* i words of the block (START and i-1 zeroes) have been passed *)
Lemma shrink_loop1_fail : forall z k m l1 l2 (i : nat) n,
  View m (l1 ++ repeat 0 z ++ 1 :: l2) -> (z < k)%nat ->
  Z.of_nat i + Z.of_nat z < n -> (0 < i)%nat -> (i <= length l1)%nat ->
  shrink_loop1 sh k m (Z.of_nat (length l1 - i)) n (Z.of_nat i) = Ok None.
Proof.
  induction z as [|z IH]; intros k m l1 l2 i n HV Hk Hn Hi Hl; (destruct k as [|k]; [lia|]);
    cbn [repeat app] in HV; cbn [shrink_loop1];
    replace (Z.of_nat (length l1 - i) + Z.of_nat i) with (Z.of_nat (length l1)) by lia;
    rewrite (view_status _ _ _ _ HV); cbn [bind].
  - change (1 =? 1) with true. replace (Z.of_nat i <? n) with true by lia. auto.
  - change (0 =? 1) with false. cbn [andb].
    replace (Z.of_nat i =? n - 1) with false by lia.
    replace (Z.of_nat (length l1 - i)) with (Z.of_nat (length (l1 ++ [0]) - S i)).
    2:{ rewrite app_length. simpl. lia. }
    replace (Z.of_nat i + 1) with (Z.of_nat (S i)) by lia.
    apply (IH k m (l1 ++ [0]) l2); try lia.
    { rewrite <- app_assoc. auto. }
    { rewrite app_length; simpl; lia. }
Qed.

Lemma shrink_loop1_ok : forall z k m l1 l2 (i : nat) n,
  View m (l1 ++ repeat 0 z ++ 0 :: l2) -> (z < k)%nat ->
  Z.of_nat i + Z.of_nat z = n - 1 -> (0 < i)%nat -> (i <= length l1)%nat ->
  exists b, shrink_loop1 sh k m (Z.of_nat (length l1 - i)) n (Z.of_nat i)
     = Ok (Some (false, n - 1, set_bm m b)) /\
     View (set_bm m b) (l1 ++ repeat 0 z ++ 1 :: l2).
Proof.
  induction z as [|z IH]; intros k m l1 l2 i n HV Hk Hn Hi Hl; (destruct k as [|k]; [lia|]);
    cbn [repeat app] in HV; cbn [shrink_loop1];
    replace (Z.of_nat (length l1 - i) + Z.of_nat i) with (Z.of_nat (length l1)) by lia;
    rewrite (view_status _ _ _ _ HV); cbn [bind];
    change (0 =? 1) with false; change (0 =? 3) with false; cbn [andb orb].
  - replace (Z.of_nat i =? n - 1) with true by lia.
    replace (Z.of_nat i =? 0) with false by lia.
    destruct (view_set m _ _ _ 1 HV ltac:(lia)) as (b & Eb & HVb).
    rewrite Eb. cbn [bind]. exists b. split; auto. eqz.
  - replace (Z.of_nat i =? n - 1) with false by lia.
    replace (Z.of_nat (length l1 - i)) with (Z.of_nat (length (l1 ++ [0]) - S i)).
    2:{ rewrite app_length. simpl. lia. }
    replace (Z.of_nat i + 1) with (Z.of_nat (S i)) by lia.
    destruct (IH k m (l1 ++ [0]) l2 (S i) n) as (b & Eb & HVb); try lia.
    { rewrite <- app_assoc. auto. }
    { rewrite app_length; simpl; lia. }
    exists b. split; auto. rewrite <- app_assoc in HVb. auto.
Qed.

Lemma shrink_loop2_spec : forall z k m l1 l2 ix i cnt,
  View m (l1 ++ repeat 0 z ++ 1 :: l2) -> (z < k)%nat -> ix + i = Z.of_nat (length l1) ->
  exists b, shrink_loop2 sh k m ix i cnt = Ok (cnt + Z.of_nat z + 1, set_bm m b) /\
            View (set_bm m b) (l1 ++ repeat 0 z ++ 0 :: l2).
Proof.
  induction z as [|z IH]; intros k m l1 l2 ix i cnt HV Hk Hi; (destruct k as [|k]; [lia|]);
    cbn [repeat app] in HV; cbn [shrink_loop2]; rewrite Hi;
    rewrite (view_status _ _ _ _ HV); cbn [bind].
  - change (1 =? 1) with true. cbv iota.
    destruct (view_set m _ _ _ 0 HV ltac:(lia)) as (b & Eb & HVb).
    rewrite Eb. cbn [bind]. exists b. split; auto. eqz.
  - change (0 =? 1) with false. cbv iota.
    destruct (IH k m (l1 ++ [0]) l2 ix (i + 1) (cnt + 1)) as (b & Eb & HVb).
    { rewrite <- app_assoc. auto. } { lia. } { rewrite app_length; simpl; lia. }
    exists b. rewrite Eb. split. eqz.
    rewrite <- app_assoc in HVb. auto.
Qed.

(* Shrinking a block of j+1 words to n words. *)
Lemma shrink_spec m s1 j s2 n : Inv m (s1 ++ B j :: s2) -> 0 <= n ->
  exists r m', shrink sh m (ix_to_addr sh m (Z.of_nat (size s1))) n = Ok (r, m') /\
    same_static m m' /\
    ((n = 0 /\ r = 0 /\ m' = m) \/
     (0 < n /\ j = O /\ r = 1 /\ m' = m) \/
     (0 < n /\ (0 < j)%nat /\ Z.of_nat j + 1 <= n /\ r = 0 /\ m' = m) \/
     (0 < n <= Z.of_nat j /\ r = 1 /\
      Inv m' (s1 ++ B (Z.to_nat n - 1) :: repeat F (S j - Z.to_nat n) ++ s2))).
Proof.
  intros HI Hn. pose proof (nfree_word _ _ HI) as [Hnw Hnl].
  pose proof (inv_size _ _ HI) as Hsz. autorewrite with sz in Hsz. cbn [ssize] in Hsz.
  destruct HI as (HV & Ho & Hoff & Hnf). pose proof HV as (Hw & _).
  unfold shrink.
  destruct (addr_ix m (Z.of_nat (size s1)) Hw ltac:(lia)) as [E1 E2].
  rewrite E1, E2. rewrite (loop_max_val m Hw). cbn [negb orb].
  assert (Hss : same_static m m) by (unfold same_static; auto).
  destruct (Z.eqb_spec n 0) as [->|Hn0].
  { exists 0, m. repeat split; auto. }
  pose proof HV as HV0. rewrite layout_app in HV0. cbn [layout flat_map] in HV0.
  fold (layout s2) in HV0.
  destruct j as [|j]; cbn [lay app] in HV0.
  { rewrite (view_status _ _ _ _ HV0 : status sh m (Z.of_nat (size s1)) = Ok 3). cbn [bind].
    change (3 =? 3) with true. cbv iota.
    exists 1, m. split; auto. split; auto. right. left. repeat split; auto. lia. }
  rewrite (view_status _ _ _ _ HV0 : status sh m (Z.of_nat (size s1)) = Ok 2). cbn [bind].
  change (2 =? 3) with false. change (2 =? 2) with true. cbn [negb]. cbv iota.
  destruct (Z.to_nat (msize m - Z.of_nat (size s1))) as [|k] eqn:Ek; [lia|].
  (* first iteration, i = 0 *)
  cbn [shrink_loop1]. rewrite Z.add_0_r.
  rewrite (view_status _ _ _ _ HV0 : status sh m (Z.of_nat (size s1)) = Ok 2). cbn [bind].
  change (2 =? 1) with false. change (2 =? 3) with false. cbn [andb orb].
  change (0 =? 0) with true. cbv iota.
  rewrite <- app_assoc in HV0. cbn [app] in HV0.
  destruct (Z.eqb_spec 0 (n - 1)) as [En1|En1].
  - (* n = 1 *)
    assert (n = 1) as -> by lia.
    destruct (view_set m _ _ _ 3 HV0 ltac:(lia)) as (b & Eb & HVb).
    change (set_status sh m (Z.of_nat (size s1)) 3) with (set_status sh m (Z.of_nat (length (layout s1))) 3).
    rewrite Eb. cbn [bind].
    set (m2 := set_off (set_bm m b) (Z.of_nat (size s1) + 0)).
    destruct (shrink_loop2_spec j (Z.to_nat (msize m - Z.of_nat (size s1) - (0 + 1))) m2
                (layout s1 ++ [3]) (layout s2) (Z.of_nat (size s1)) (0 + 1) 0) as (b' & Eb' & HVb').
    { apply view_setoff. rewrite <- app_assoc. exact HVb. }
    { lia. }
    { rewrite app_length. cbn [length]. change (size s1) with (length (layout s1)). lia. }
    rewrite Eb'. cbn [bind]. cbn [nfree set_bm m2 set_off].
    assert (Ecount : wr_w sh (nfree m + (0 + Z.of_nat j + 1)) = Z.of_nat (nF (s1 ++ B 0 :: repeat F (S j) ++ s2)) /\
                   word sh (Z.of_nat (nF (s1 ++ B 0 :: repeat F (S j) ++ s2)))).
    { rewrite nF_app. cbn [nF]. rewrite nF_app, nF_F. rewrite Hnf, nF_app. cbn [nF].
      pose proof (nF_size s1); pose proof (nF_size s2).
      destruct Hw as (_&_&_&H4&_). pose proof pow_W.
      unfold wr_w, word. rewrite wrap_small; lia. }
    destruct Ecount as [-> Hword].
    do 2 eexists. split; [reflexivity|]. split; [unfold same_static; simpl; auto|].
    right. right. right. split; [lia|]. split; auto.
    change (Z.to_nat 1) with 1%nat. cbn [Nat.sub]. 
    split; [|split; [|split]].
    + apply view_setnfree; auto.
      rewrite layout_app. cbn [layout flat_map lay]. fold (layout (repeat F (S j) ++ s2)).
      rewrite layout_app, layout_F. rewrite (repeat_snoc 0 j).
      rewrite <- app_assoc in HVb'. rewrite <- (app_assoc (repeat 0 j)). exact HVb'.
    + cbn [off set_nfree set_off msize set_bm m2]. lia.
    + exists (s1 ++ [B 0]), (repeat F (S j) ++ s2). split. { rewrite <- app_assoc. auto. }
      split. right; eauto. right. split.
      intro E0; symmetry in E0; apply app_cons_not_nil in E0; auto.
      cbn [off set_nfree set_off msize set_bm m2]. autorewrite with sz. cbn [ssize]. lia.
    + reflexivity.
  - destruct (Z_lt_le_dec (Z.of_nat (S j)) n) as [Hbig|Hsmall].
    + (* too large *)
      change (0 + 1) with (Z.of_nat 1).
      replace (Z.of_nat (size s1)) with (Z.of_nat (length (layout s1 ++ [2]) - 1)).
      2:{ rewrite app_length. cbn [length]. change (size s1) with (length (layout s1)). lia. }
      rewrite (shrink_loop1_fail j k m (layout s1 ++ [2]) (layout s2) 1 n); try lia.
      * cbn [bind]. exists 0, m. split; auto. split; auto. right. right. left. repeat split; auto; lia.
      * rewrite <- app_assoc. exact HV0.
      * rewrite app_length. cbn [length]. lia.
    + (* genuine shrink: 2 <= n <= j+1 *)
      assert (Hz : exists z y, j = (z + S y)%nat /\ n = Z.of_nat z + 2).
      { exists (Z.to_nat (n - 2)), (j - Z.to_nat (n - 2) - 1)%nat. lia. }
      destruct Hz as (z & y & Ej & Enz).
      change (0 + 1) with (Z.of_nat 1).
      destruct (shrink_loop1_ok z k m (layout s1 ++ [2]) (repeat 0 y ++ 1 :: layout s2) 1 n)
        as (b & Eb & HVb); try lia.
      { rewrite <- app_assoc. cbn [app]. rewrite Ej, repeat_app' in HV0. cbn [repeat] in HV0.
        rewrite <- app_assoc in HV0. exact HV0. }
      { rewrite app_length. cbn [length]. lia. }
      replace (length (layout s1 ++ [2%Z]) - 1)%nat with (size s1) in Eb.
      2:{ rewrite app_length. cbn [length]. change (size s1) with (length (layout s1)). lia. }
      rewrite Eb. cbn [bind].
      set (m2 := set_off (set_bm m b) (Z.of_nat (size s1) + (n - 1))).
      destruct (shrink_loop2_spec y (Z.to_nat (msize m - Z.of_nat (size s1) - (n - 1 + 1))) m2
                (layout s1 ++ 2 :: repeat 0 z ++ [1]) (layout s2) (Z.of_nat (size s1)) (n - 1 + 1) 0) as (b' & Eb' & HVb').
      { apply view_setoff. rewrite <- app_assoc. cbn [app]. rewrite <- app_assoc.
        rewrite <- app_assoc in HVb. exact HVb. }
      { lia. }
      { rewrite app_length. cbn [length]. rewrite app_length, repeat_length. cbn [length].
        change (size s1) with (length (layout s1)). lia. }
      rewrite Eb'. cbn [bind]. cbn [nfree set_bm m2 set_off].
      assert (Er : (S (S j) - Z.to_nat n = S y)%nat) by lia.
      assert (En' : (Z.to_nat n - 1 = S z)%nat) by lia.
      assert (Ecount : wr_w sh (nfree m + (0 + Z.of_nat y + 1)) = Z.of_nat (nF (s1 ++ B (S z) :: repeat F (S y) ++ s2)) /\
                   word sh (Z.of_nat (nF (s1 ++ B (S z) :: repeat F (S y) ++ s2)))).
      { rewrite nF_app. cbn [nF]. rewrite nF_app, nF_F. rewrite Hnf, nF_app. cbn [nF].
        pose proof (nF_size s1); pose proof (nF_size s2).
        destruct Hw as (_&_&_&H4&_). pose proof pow_W.
        unfold wr_w, word. rewrite wrap_small; lia. }
      destruct Ecount as [-> Hword].
      do 2 eexists. split; [reflexivity|]. split; [unfold same_static; simpl; auto|].
      right. right. right. split; [lia|]. split; auto.
      rewrite Er, En'.
      split; [|split; [|split]].
      * apply view_setnfree; auto.
        rewrite layout_app. cbn [layout flat_map lay]. fold (layout (repeat F (S y) ++ s2)).
        rewrite layout_app, layout_F. rewrite (repeat_snoc 0 y).
        rewrite <- app_assoc in HVb'. rewrite <- (app_assoc (repeat 0 y)). exact HVb'.
      * cbn [off set_nfree set_off msize set_bm m2]. lia.
      * exists (s1 ++ [B (S z)]), (repeat F (S y) ++ s2). split. { rewrite <- app_assoc. auto. }
        split. right; eauto. right. split.
        intro E0; symmetry in E0; apply app_cons_not_nil in E0; auto.
        cbn [off set_nfree set_off msize set_bm m2]. autorewrite with sz. cbn [ssize]. lia.
      * reflexivity.
Qed.

End Cfg.
