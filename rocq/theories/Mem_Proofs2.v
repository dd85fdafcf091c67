From Verif Require Import Base Mem_Model Mem_Spec Mem_Proofs.
From Coq Require Import Permutation.
Open Scope Z_scope.

(* blocks of a segment list, as (word index, words) *)
Fixpoint blocks (b : nat) (s : list seg) : list (Z * Z) :=
  match s with
  | [] => []
  | F :: t => blocks (S b) t
  | B j :: t => (Z.of_nat b, Z.of_nat (S j)) :: blocks (b + S j) t
  end.

Lemma blocks_app a c : forall b, blocks b (a ++ c) = blocks b a ++ blocks (b + size a) c.
Proof.
  induction a as [|[|j] a IH]; intros b; cbn [blocks app]; autorewrite with sz; cbn [ssize].
  - rewrite Nat.add_0_r. auto.
  - rewrite IH. f_equal. f_equal. lia.
  - rewrite IH. cbn [app]. f_equal. f_equal. f_equal. lia.
Qed.

Lemma blocks_F n : forall b, blocks b (repeat F n) = [].
Proof. induction n; intros b; simpl; auto. Qed.

Lemma blocks_range s : forall b i n, In (i, n) (blocks b s) ->
  Z.of_nat b <= i /\ 0 < n /\ i + n <= Z.of_nat (b + size s).
Proof.
  induction s as [|[|j] s IH]; intros b i n H; cbn [blocks In] in H; autorewrite with sz; cbn [ssize].
  - tauto.
  - apply IH in H. lia.
  - destruct H as [[= <- <-]|H]; [lia|]. apply IH in H. lia.
Qed.

Lemma blocks_disj s : forall b i n i' n', In (i, n) (blocks b s) -> In (i', n') (blocks b s) ->
  (i, n) = (i', n') \/ i + n <= i' \/ i' + n' <= i.
Proof.
  induction s as [|[|j] s IH]; intros b i n i' n' H H'; cbn [blocks In] in H, H'.
  - tauto.
  - eapply IH; eauto.
  - destruct H as [[= <- <-]|H]; destruct H' as [[= <- <-]|H']; auto.
    + apply blocks_range in H'. lia.
    + apply blocks_range in H. lia.
    + eapply IH; eauto.
Qed.

Lemma blocks_nodup s : forall b, NoDup (map fst (blocks b s)).
Proof.
  induction s as [|[|j] s IH]; intros b; cbn [blocks map fst]; auto.
  - constructor.
  - constructor; auto. intros H. apply in_map_iff in H. destruct H as ([i n] & E & H).
    apply blocks_range in H. simpl in E. lia.
Qed.

Lemma blocks_in s : forall b i n, In (i, n) (blocks b s) ->
  exists s1 j s2, s = s1 ++ B j :: s2 /\ i = Z.of_nat (b + size s1) /\ n = Z.of_nat (S j).
Proof.
  induction s as [|[|j] s IH]; intros b i n H; cbn [blocks In] in H.
  - tauto.
  - destruct (IH _ _ _ H) as (s1 & j & s2 & -> & -> & ->).
    exists (F :: s1), j, s2. autorewrite with sz. cbn [ssize]. repeat split; auto. lia.
  - destruct H as [[= <- <-]|H].
    + exists [], j, s. autorewrite with sz. rewrite Nat.add_0_r. auto.
    + destruct (IH _ _ _ H) as (s1 & j' & s2 & -> & -> & ->).
      exists (B j :: s1), j', s2. autorewrite with sz. cbn [ssize]. repeat split; auto. lia.
Qed.

Lemma total_app a b : total (a ++ b) = total a + total b.
Proof. induction a as [|x a IH]; simpl; auto. rewrite IH. lia. Qed.

Lemma total_perm a b : Permutation a b -> total a = total b.
Proof. induction 1; simpl; lia. Qed.

Lemma blocks_total s : forall b, total (blocks b s) + Z.of_nat (nF s) = Z.of_nat (size s).
Proof.
  induction s as [|[|j] s IH]; intros b; cbn [blocks nF total fold_right snd]; autorewrite with sz; cbn [ssize].
  - reflexivity.
  - specialize (IH (S b)). unfold total in *. cbn [fold_right snd]. lia.
  - specialize (IH (b + S j)%nat). unfold total in *. cbn [fold_right snd]. lia.
Qed.

Lemma free_prefix n : forall s b,
  (n <= size s)%nat ->
  (forall i k, In (i, k) (blocks b s) -> Z.of_nat (b + n) <= i) ->
  exists t, s = repeat F n ++ t.
Proof.
  induction n as [|n IH]; intros s b Hn Hd.
  - exists s. auto.
  - destruct s as [|[|j] s]; autorewrite with sz in Hn; cbn [ssize] in Hn.
    + lia.
    + destruct (IH s (S b)) as (t & ->).
      * lia.
      * intros i k H. apply Hd in H. lia.
      * exists t. auto.
    + specialize (Hd _ _ (or_introl eq_refl)). lia.
Qed.

Lemma hole_infix n : (0 < n)%nat -> forall s b i,
  (b <= i)%nat -> (i + n <= b + size s)%nat ->
  (forall a k, In (a, k) (blocks b s) -> Z.of_nat (i + n) <= a \/ a + k <= Z.of_nat i) ->
  exists t1 t2, s = t1 ++ repeat F n ++ t2.
Proof.
  intros Hn. induction s as [|[|j] s IH]; intros b i Hb Hi Hd; autorewrite with sz in Hi; cbn [ssize] in Hi.
  - lia.
  - destruct (Nat.eq_dec i b) as [->|Hne].
    + destruct (free_prefix n (F :: s) b) as (t & E).
      * autorewrite with sz. cbn [ssize]. lia.
      * intros a k H. pose proof (blocks_range _ _ _ _ H). apply Hd in H. lia.
      * exists [], t. auto.
    + destruct (IH (S b) i) as (t1 & t2 & ->); try lia.
      * intros a k H. apply Hd in H. auto.
      * exists (F :: t1), t2. auto.
  - pose proof (Hd _ _ (or_introl eq_refl)) as H0.
    destruct (IH (b + S j)%nat i) as (t1 & t2 & ->); try lia.
    + intros a k H. apply Hd. right; auto.
    + exists (B j :: t1), t2. auto.
Qed.

Lemma perm_filter {A} (f : A -> bool) (l l' : list A) :
  Permutation l l' -> Permutation (filter f l) (filter f l').
Proof.
  induction 1; simpl; auto.
  - destruct (f x); auto.
  - destruct (f x), (f y); auto. apply perm_swap.
  - eapply Permutation_trans; eauto.
Qed.

Lemma filter_all {A} (f : A -> bool) l : (forall x, In x l -> f x = true) -> filter f l = l.
Proof.
  induction l as [|x l IH]; simpl; intros H; auto.
  rewrite H by auto. f_equal. auto.
Qed.

Section Cfg.
Variable sh : Z.
Hypothesis Hsh : sh = 5 \/ sh = 6.
Notation W := (W sh).
Notation wb := (wbytes sh).

Definition toaddr (m : mem) (b : Z * Z) : Z * Z := (ix_to_addr sh m (fst b), snd b).

Definition Rel (data dsize : Z) (m : mem) (led : ledger) : Prop :=
  base m = data /\ msize m = dsize /\
  exists segs, Inv sh m segs /\ Permutation led (map (toaddr m) (blocks 0 segs)).

Lemma toaddr_inj m i i' : ix_to_addr sh m i = ix_to_addr sh m i' -> i = i'.
Proof. unfold ix_to_addr. pose proof (wb_pos sh Hsh). nia. Qed.

Lemma inv_irrel m m' segs : Inv sh m segs ->
  bm m' = bm m -> bsize m' = bsize m -> base m' = base m -> msize m' = msize m ->
  nfree m' = nfree m -> off m' = off m -> word sh (reserve m') -> Inv sh m' segs.
Proof.
  intros (HV & Ho & Hoff & Hnf) E1 E2 E3 E4 E5 E6 Hr.
  pose proof HV as (Hw & _).
  unfold Inv. rewrite E4, E5, E6. split; [|auto].
  eapply view_irrel; eauto. rewrite E5. apply Hw.
Qed.

Lemma init_rel data dsize bits bsz m :
  0 < data -> 0 <= dsize -> 0 <= bsz < 2 ^ (W - 8) -> data + dsize * wb < 2 ^ W ->
  mem_init sh data dsize bits bsz = Some m -> Rel data dsize m [].
Proof.
  intros Hd Hs Hbz Hf. unfold mem_init.
  destruct ((data =? 0) || (bits =? 0)); try discriminate.
  destruct (negb _ || _ || _ || _ || _ || _) eqn:C; try discriminate.
  intros [= <-].
  rewrite !orb_false_iff in C. destruct C as (((((C1 & C2) & C3) & C4) & C5) & C6).
  pose proof (wb_pos sh Hsh) as Hwb.
  assert (HW8 : 2 ^ W = 256 * 2 ^ (W - 8)).
  { change 256 with (2 ^ 8). rewrite <- Z.pow_add_r; try lia. f_equal; lia.
    pose proof (W_val sh Hsh); pose proof (K_pos sh Hsh); lia. }
  assert (HWp : 2 ^ W = 8 * 2 ^ (W - 3)) by (apply pow_W; auto).
  assert (Ed : dsize * 2 = bsz * wb * 8).
  { apply negb_false_iff in C2. apply Z.eqb_eq in C2. unfold wr_w in C2.
    rewrite !wrap_small in C2; nia. }
  assert (EK : 2 ^ (sh - 1) = wb * 4).
  { unfold wbytes. change 4 with (2 ^ 2). rewrite <- Z.pow_add_r by lia. f_equal; lia. }
  assert (EKd : bsz * 2 ^ (sh - 1) = dsize) by nia.
  split; [reflexivity|]. split; [reflexivity|].
  exists (repeat F (Z.to_nat dsize)).
  assert (Hdp : 0 < dsize) by nia.
  assert (Hpos : 0 < 2 ^ W) by (apply Z.pow_pos_nonneg; try lia; pose proof (W_val sh Hsh); pose proof (K_pos sh Hsh); lia).
  split.
  - split; [|split; [|split]].
    + split; [|split].
      * unfold wfm. cbn [bm bsize base msize nfree reserve]. rewrite repeat_length.
        unfold word.
        assert (dsize <= 32 * bsz) by (clear - EK EKd Hwb Hbz; nia).
        assert (0 <= dsize / 10 <= dsize).
        { split. apply Z.div_pos; lia. apply Z.div_le_upper_bound; lia. }
        clear - H Hbz HWp HW8 EKd H0 Hd Hdp Hf Hs. repeat split; try lia.
      * cbn [msize]. change (length (layout (repeat F (Z.to_nat dsize)))) with (size (repeat F (Z.to_nat dsize))).
        rewrite size_F. lia.
      * intros i Hi. rewrite layout_F. cbn [bm]. rewrite layout_F, repeat_length in Hi.
        unfold fld. rewrite !nth_repeat. rewrite Z.shiftr_0_l. reflexivity.
    + cbn [off msize]. lia.
    + exists [], (repeat F (Z.to_nat dsize)). split; auto. split. left; auto. left. reflexivity.
    + cbn [nfree]. rewrite nF_F. lia.
  - rewrite blocks_F. simpl. constructor.
Qed.

(* What each call does, in terms of the relation. *)
Lemma nohole_iff data dsize m led segs n :
  base m = data -> msize m = dsize -> Inv sh m segs ->
  Permutation led (map (toaddr m) (blocks 0 segs)) -> 0 < n ->
  (hole sh data dsize led n <-> ~ nohole segs (Z.to_nat n)).
Proof.
  intros Eb Em HI HP Hn. pose proof (wb_pos sh Hsh) as Hwb.
  pose proof (inv_size _ _ _ HI) as Hsz.
  split.
  - intros (a & (Ha1 & Ha2 & _ & Ha4) & Hd) Hno. cbn [fst snd] in *.
    set (i := (a - data) / wb).
    assert (Ea : a = data + i * wb).
    { pose proof (Z.div_mod (a - data) wb ltac:(lia)). unfold i. lia. }
    assert (0 <= i) by (apply Z.div_pos; lia).
    assert (i + n <= dsize) by nia.
    destruct (hole_infix (Z.to_nat n) ltac:(lia) segs 0 (Z.to_nat i)) as (t1 & t2 & E).
    + lia.
    + lia.
    + intros x k Hx. 
      assert (Hin : In (toaddr m (x, k)) led).
      { eapply Permutation_in. apply Permutation_sym; eauto. apply in_map; auto. }
      apply Hd in Hin. unfold disjoint, toaddr, ix_to_addr in Hin. cbn [fst snd] in Hin.
      rewrite Eb in Hin. destruct Hin; nia.
    + apply (Hno t1 t2 E).
  - intros Hno.
    assert (Hex : exists t1 t2, segs = t1 ++ repeat F (Z.to_nat n) ++ t2).
    { destruct (search sh Hsh m segs n HI Hn) as [(t1 & t2 & E & _)|(Hn' & _)]; eauto. tauto. }
    destruct Hex as (t1 & t2 & E).
    exists (ix_to_addr sh m (Z.of_nat (size t1))).
    assert (Hs : size segs = (size t1 + (Z.to_nat n + size t2))%nat) by (rewrite E; autorewrite with sz; auto).
    unfold inside, ix_to_addr. cbn [fst snd]. rewrite Eb.
    split.
    + repeat split; try nia. 
      replace (data + Z.of_nat (size t1) * wb - data) with (Z.of_nat (size t1) * wb) by lia.
      apply Z.mod_mul. lia.
    + intros b Hb. eapply Permutation_in in Hb; eauto.
      apply in_map_iff in Hb. destruct Hb as ([x k] & <- & Hx).
      rewrite E, blocks_app, blocks_app, blocks_F in Hx. cbn [app] in Hx.
      unfold disjoint, toaddr, ix_to_addr. cbn [fst snd]. rewrite Eb.
      apply in_app_or in Hx. rewrite size_F in Hx. destruct Hx as [Hx|Hx]; apply blocks_range in Hx; nia.
Qed.

Lemma toaddr_same m m' l : base m' = base m -> map (toaddr m') l = map (toaddr m) l.
Proof. intros E. unfold toaddr, ix_to_addr. rewrite E. auto. Qed.

Lemma addr_nonzero m segs i : Inv sh m segs -> 0 <= i -> ix_to_addr sh m i <> 0.
Proof.
  intros (((_&_&_&_&H&_) & _) & _) Hi. unfold ix_to_addr. pose proof (wb_pos sh Hsh). nia.
Qed.

Lemma alloc_int_rel data dsize m led n :
  Rel data dsize m led -> word sh n ->
  exists p m', allocate_internal sh m n = Ok (p, m') /\ same_static m m' /\
    ((p <> 0 /\ 0 < n /\ hole sh data dsize led n /\ inside sh data dsize (p, n) /\
      (forall b, In b led -> disjoint sh (p, n) b) /\
      Rel data dsize m' ((p, n) :: led)) \/
     (p = 0 /\ m' = m /\ ~ (0 < n /\ hole sh data dsize led n))).
Proof.
  intros (Eb & Em & segs & HI & HP) Hn.
  pose proof (wb_pos sh Hsh) as Hwb.
  pose proof (inv_size _ _ _ HI) as Hsz.
  destruct (alloc_internal_spec sh Hsh m segs n HI Hn) as
    [(t1 & t2 & m' & Hn0 & E & Ea & HI' & Hs)|(Hno & Ea)].
  - do 2 eexists. split; [exact Ea|]. split; auto. left.
    assert (Hss : size segs = (size t1 + (Z.to_nat n + size t2))%nat) by (rewrite E; autorewrite with sz; auto).
    assert (Hd : forall b, In b led -> disjoint sh (ix_to_addr sh m (Z.of_nat (size t1)), n) b).
    { intros b Hb. eapply Permutation_in in Hb; eauto.
      apply in_map_iff in Hb. destruct Hb as ([x k] & <- & Hx).
      rewrite E, blocks_app, blocks_app, blocks_F in Hx. cbn [app] in Hx.
      unfold disjoint, toaddr, ix_to_addr. cbn [fst snd]. 
      apply in_app_or in Hx. rewrite size_F in Hx. destruct Hx as [Hx|Hx]; apply blocks_range in Hx; nia. }
    assert (Hin : inside sh data dsize (ix_to_addr sh m (Z.of_nat (size t1)), n)).
    { unfold inside, ix_to_addr. cbn [fst snd]. rewrite Eb. repeat split; try nia.
      replace (data + Z.of_nat (size t1) * wb - data) with (Z.of_nat (size t1) * wb) by lia.
      apply Z.mod_mul. lia. }
    split. { eapply addr_nonzero; eauto. lia. }
    split; auto. split; [eexists; eauto|]. split; auto. split; auto.
    destruct Hs as (Hs1 & Hs2 & Hs3 & Hs4).
    split; [congruence|]. split; [congruence|].
    eexists. split; [exact HI'|].
    rewrite (toaddr_same m m') by auto.
    rewrite blocks_app. cbn [blocks]. rewrite map_app. cbn [map].
    replace (Z.of_nat (S (Z.to_nat n - 1))) with n by lia.
    unfold toaddr at 2. cbn [fst snd Nat.add].
    apply Permutation_cons_app.
    rewrite E, blocks_app, blocks_app, blocks_F in HP. cbn [app] in HP. rewrite map_app in HP.
    rewrite size_F in HP. cbn [Nat.add] in HP.
    replace (S (Z.to_nat n - 1)) with (Z.to_nat n) by lia. auto.
  - do 2 eexists. split; [exact Ea|]. split. { unfold same_static; auto. } right. split; auto. split; auto.
    intros (Hn0 & Hh). destruct Hno as [->|Hno]; [lia|].
    eapply nohole_iff in Hh; eauto.
Qed.

Lemma free_rel data dsize m led p :
  Rel data dsize m led -> In p (map fst led) ->
  exists m', mfree sh m p = Ok (1, m') /\ same_static m m' /\
    Rel data dsize m' (filter (fun b => negb (fst b =? p)) led).
Proof.
  intros (Eb & Em & segs & HI & HP) Hp.
  apply in_map_iff in Hp. destruct Hp as ([p' n] & Ep & Hp). simpl in Ep. subst p'.
  eapply Permutation_in in Hp; eauto. apply in_map_iff in Hp.
  destruct Hp as ([i k] & Ei & Hi). unfold toaddr in Ei. cbn [fst snd] in Ei. injection Ei as <- <-.
  pose proof Hi as Hi0.
  apply blocks_in in Hi. destruct Hi as (s1 & j & s2 & Es & -> & ->). cbn [Nat.add].
  rewrite Es in HI.
  destruct (free_spec sh Hsh m s1 j s2 HI) as (m' & Ef & HI' & Hs).
  exists m'. split; auto. split; auto.
  destruct Hs as (Hs1 & Hs2 & Hs3 & Hs4).
  split; [congruence|]. split; [congruence|].
  eexists. split; [exact HI'|].
  rewrite (toaddr_same m m') by auto.
  apply perm_filter with (f := fun b => negb (fst b =? ix_to_addr sh m (Z.of_nat (size s1)))) in HP.
  eapply Permutation_trans; [exact HP|].
  rewrite Es, !blocks_app, blocks_F. cbn [blocks]. rewrite !map_app. cbn [map app].
  rewrite filter_app. cbn [filter toaddr fst]. cbn [Nat.add]. rewrite Z.eqb_refl. cbn [negb].
  rewrite size_F.
  rewrite !filter_all. apply Permutation_refl.
  - intros x Hx. apply in_map_iff in Hx. destruct Hx as ([a b] & <- & Hx).
    apply blocks_range in Hx. cbn [toaddr fst].
    apply negb_true_iff, Z.eqb_neq. intros E. apply toaddr_inj in E. lia.
  - intros x Hx. apply in_map_iff in Hx. destruct Hx as ([a b] & <- & Hx).
    apply blocks_range in Hx. cbn [toaddr fst].
    apply negb_true_iff, Z.eqb_neq. intros E. apply toaddr_inj in E. lia.
Qed.

Lemma map_id_in {A} (f : A -> A) l : (forall x, In x l -> f x = x) -> map f l = l.
Proof. intros H. rewrite <- (map_id l) at 2. apply map_ext_in. auto. Qed.

Lemma shrink_rel data dsize m led p len n :
  Rel data dsize m led -> In (p, len) led -> word sh n ->
  exists r m', shrink sh m p n = Ok (r, m') /\ same_static m m' /\
    (r = if (0 <? n) && ((n <? len) || (len =? 1)) then 1 else 0) /\
    Rel data dsize m' (led_step sh led (OShrink p n) r).
Proof.
  intros (Eb & Em & segs & HI & HP) Hp Hn.
  eapply Permutation_in in Hp; eauto. apply in_map_iff in Hp.
  destruct Hp as ([i k] & Ei & Hi). unfold toaddr in Ei. cbn [fst snd] in Ei. injection Ei as <- <-.
  pose proof Hi as Hi0.
  apply blocks_in in Hi. destruct Hi as (s1 & j & s2 & Es & -> & ->). cbn [Nat.add].
  pose proof HI as HI0. rewrite Es in HI.
  destruct (shrink_spec sh Hsh m s1 j s2 n HI) as (r & m' & Ef & Hs & Hcase).
  { destruct Hn; lia. }
  exists r, m'. split; auto. split; auto.
  assert (Hkeep : Rel data dsize m led) by (repeat split; auto; eauto).
  (* effect of the ledger update *)
  assert (HP' : forall q, Permutation
      (map (fun b => if fst b =? ix_to_addr sh m (Z.of_nat (size s1))
                     then (ix_to_addr sh m (Z.of_nat (size s1)), Z.min q (snd b)) else b) led)
      (map (toaddr m) (blocks 0 s1) ++
       (ix_to_addr sh m (Z.of_nat (size s1)), Z.min q (Z.of_nat (S j))) ::
       map (toaddr m) (blocks (size s1 + S j) s2))).
  { intros q. 
    apply Permutation_map with (f := fun b => if fst b =? ix_to_addr sh m (Z.of_nat (size s1))
                     then (ix_to_addr sh m (Z.of_nat (size s1)), Z.min q (snd b)) else b) in HP.
    eapply Permutation_trans; [exact HP|].
    rewrite Es, blocks_app. cbn [blocks]. rewrite !map_app. cbn [map].
    cbn [toaddr fst snd Nat.add]. rewrite Z.eqb_refl.
    rewrite (map_id_in _ (map (toaddr m) (blocks 0 s1))).
    rewrite (map_id_in _ (map (toaddr m) (blocks (size s1 + S j) s2))).
    apply Permutation_refl.
    - intros x Hx. apply in_map_iff in Hx. destruct Hx as ([a b] & <- & Hx).
      apply blocks_range in Hx. cbn [toaddr fst].
      destruct (Z.eqb_spec (ix_to_addr sh m a) (ix_to_addr sh m (Z.of_nat (size s1)))) as [E|]; auto.
      apply toaddr_inj in E. lia.
    - intros x Hx. apply in_map_iff in Hx. destruct Hx as ([a b] & <- & Hx).
      apply blocks_range in Hx. cbn [toaddr fst].
      destruct (Z.eqb_spec (ix_to_addr sh m a) (ix_to_addr sh m (Z.of_nat (size s1)))) as [E|]; auto.
      apply toaddr_inj in E. lia. }
  destruct Hs as (Hs1 & Hs2 & Hs3 & Hs4).
  destruct Hcase as [(-> & -> & ->)|[(Hn0 & -> & -> & ->)|[(Hn0 & Hj & Hjn & -> & ->)|(Hn0 & -> & HI')]]].
  - split; auto.
  - split. { replace (0 <? n) with true by lia. rewrite orb_true_r. auto. }
    cbn [led_step]. change (1 =? 1) with true. cbv iota.
    split; auto. split; auto. exists segs. split; auto.
    eapply Permutation_trans; [apply HP'|].
    rewrite Es, blocks_app. cbn [blocks]. rewrite !map_app. cbn [map toaddr fst snd].
    replace (Z.min n (Z.of_nat 1)) with (Z.of_nat 1) by lia. cbn [Nat.add]. apply Permutation_refl.
  - split. { replace (n <? Z.of_nat (S j)) with false by lia. replace (Z.of_nat (S j) =? 1) with false by lia.
             cbn [orb]. rewrite andb_false_r. auto. }
    auto.
  - split. { replace (0 <? n) with true by lia. replace (n <? Z.of_nat (S j)) with true by lia. auto. }
    cbn [led_step]. change (1 =? 1) with true. cbv iota.
    split; [congruence|]. split; [congruence|]. eexists. split; [exact HI'|].
    eapply Permutation_trans; [apply HP'|].
    rewrite (toaddr_same m m') by auto.
    rewrite blocks_app. cbn [blocks]. rewrite blocks_app, blocks_F. cbn [app].
    rewrite !map_app. cbn [map toaddr fst snd Nat.add].
    replace (Z.min n (Z.of_nat (S j))) with (Z.of_nat (S (Z.to_nat n - 1))) by lia.
    rewrite size_F.
    replace (size s1 + S (Z.to_nat n - 1) + (S j - Z.to_nat n))%nat with (size s1 + S j)%nat by lia.
    apply Permutation_refl.
Qed.

Lemma rel_irrel data dsize m m' led : Rel data dsize m led ->
  bm m' = bm m -> bsize m' = bsize m -> base m' = base m -> msize m' = msize m ->
  nfree m' = nfree m -> off m' = off m -> word sh (reserve m') -> Rel data dsize m' led.
Proof.
  intros (Eb & Em & segs & HI & HP) E1 E2 E3 E4 E5 E6 Hr.
  split; [congruence|]. split; [congruence|]. exists segs. split.
  eapply inv_irrel; eauto. rewrite (toaddr_same m m') by auto. auto.
Qed.

Lemma rel_gcreq data dsize m led : Rel data dsize m led -> Rel data dsize (set_gcreq m) led.
Proof.
  intros H. pose proof H as (_ & _ & segs & ((Hw & _) & _) & _).
  eapply rel_irrel; eauto. apply Hw.
Qed.

Lemma bytes_words s : word sh s -> s <> 0 ->
  word sh (bytes_to_words sh s) /\ bytes_to_words sh s = (s + wb - 1) / wb.
Proof.
  intros Hs H0. unfold bytes_to_words, word in *. pose proof (wb_pos sh Hsh).
  pose proof (Z.div_mod s wb ltac:(lia)) as D.
  pose proof (Z.mod_pos_bound s wb ltac:(lia)) as M.
  assert (Hq : 0 <= s / wb) by (apply Z.div_pos; lia).
  destruct (Z.eqb_spec (s mod wb) 0) as [E|E].
  - split. nia. rewrite Z.add_0_r.
    apply Z.div_unique with (r := wb - 1). left; lia. lia.
  - split. nia.
    apply Z.div_unique with (r := s mod wb - 1). left; lia. lia.
Qed.

Lemma step_rel data dsize m led o :
  Rel data dsize m led -> valid sh led o ->
  exists out m', step sh m o = Ok (out, m') /\
    Rel data dsize m' (led_step sh led o out).
Proof.
  intros HR Hv.
  assert (Hint : forall m1 n, Rel data dsize m1 led -> word sh n ->
     exists out m', allocate_internal sh m1 n = Ok (out, m') /\
       Rel data dsize m' (if out =? 0 then led else (out, n) :: led)).
  { intros m1 n HR1 Hn. destruct (alloc_int_rel data dsize m1 led n HR1 Hn) as
     (p & m' & E & Hs & [(Hp & _ & _ & _ & _ & HR')|(-> & -> & _)]).
    - exists p, m'. split; auto. replace (p =? 0) with false by lia. auto.
    - exists 0, m1. auto. }
  destruct o as [n|s|s|p|p n|n]; cbn [valid step led_step] in *.
  - unfold allocate. destruct (wr_w sh (nfree m - n) <? reserve m); auto.
    do 2 eexists. split; [reflexivity|]. apply rel_gcreq; auto.
  - unfold malloc. destruct (Z.eqb_spec s 0).
    { do 2 eexists. split; [reflexivity|]. auto. }
    destruct (bytes_words s Hv n) as [Hw Ew]. rewrite <- Ew.
    destruct (wr_w sh (nfree m - bytes_to_words sh s) <? reserve m); [|apply Hint; auto].
    do 2 eexists. split; [reflexivity|]. apply rel_gcreq; auto.
  - unfold malloc_reserve. destruct (Z.eqb_spec s 0).
    { do 2 eexists. split; [reflexivity|]. auto. }
    destruct (bytes_words s Hv n) as [Hw Ew]. rewrite <- Ew.
    cbn zeta. apply Hint; auto.
    destruct (wr_w sh (nfree m - bytes_to_words sh s) <? reserve m); auto using rel_gcreq.
  - destruct (free_rel data dsize m led p HR Hv) as (m' & E & _ & HR').
    exists 1, m'. auto.
  - destruct Hv as [Hp Hn]. apply in_map_iff in Hp. destruct Hp as ([p' len] & Ep & Hp).
    cbn [fst] in Ep. subst p'.
    destruct (shrink_rel data dsize m led p len n HR Hp Hn) as (r & m' & E & _ & _ & HR').
    exists r, m'. auto.
  - do 2 eexists. split; [reflexivity|].
    pose proof HR as (_ & _ & segs & ((Hw & _) & _) & _).
    eapply rel_irrel; eauto.
Qed.

Lemma reach_rel data dsize bits bsz m led :
  Reach sh data dsize bits bsz m led -> Rel data dsize m led.
Proof.
  induction 1 as [m H1 H2 H3 H4 H5|m led o out m' HR IH Hv E].
  - eapply init_rel; eauto.
  - destruct (step_rel data dsize m led o IH Hv) as (out' & m'' & E' & HR').
    rewrite E in E'. injection E' as <- <-. auto.
Qed.

(* ---- consequences ---- *)
Lemma rel_sound data dsize m led : Rel data dsize m led ->
  NoDup (map fst led) /\
  (forall b, In b led -> inside sh data dsize b) /\
  (forall b c, In b led -> In c led -> b <> c -> disjoint sh b c) /\
  nfree m = dsize - total led.
Proof.
  intros (Eb & Em & segs & HI & HP). pose proof (wb_pos sh Hsh).
  pose proof (inv_size _ _ _ HI) as Hsz.
  split; [|split; [|split]].
  - eapply Permutation_NoDup. apply Permutation_map. apply Permutation_sym; eauto.
    rewrite map_map. cbn [toaddr fst].
    rewrite <- (map_map fst (ix_to_addr sh m)).
    apply FinFun.Injective_map_NoDup. intros x y; apply toaddr_inj. apply blocks_nodup.
  - intros b Hb. eapply Permutation_in in Hb; eauto. apply in_map_iff in Hb.
    destruct Hb as ([i k] & <- & Hi). apply blocks_range in Hi.
    unfold inside, toaddr, ix_to_addr. cbn [fst snd]. rewrite Eb.
    repeat split; try nia.
    replace (data + i * wb - data) with (i * wb) by lia. apply Z.mod_mul. lia.
  - intros b c Hb Hc Hne. eapply Permutation_in in Hb; eauto. eapply Permutation_in in Hc; eauto.
    apply in_map_iff in Hb. destruct Hb as ([i k] & <- & Hi).
    apply in_map_iff in Hc. destruct Hc as ([i' k'] & <- & Hi').
    destruct (blocks_disj _ _ _ _ _ _ Hi Hi') as [E|[E|E]].
    + rewrite E in Hne. congruence.
    + left. unfold toaddr, ix_to_addr. cbn [fst snd]. nia.
    + right. unfold toaddr, ix_to_addr. cbn [fst snd]. nia.
  - rewrite (total_perm _ _ HP).
    assert (forall l, total (map (toaddr m) l) = total l) as ->.
    { induction l as [|x l IH]; cbn; auto. unfold total in IH. rewrite IH. reflexivity. }
    pose proof (blocks_total segs 0). destruct HI as (_ & _ & _ & Hnf). lia.
Qed.

(* ------------------------------------------------------------------ *)
(* longest_free                                                        *)
Lemma longest_S k m i st cur mx s : status sh m i = Ok s ->
  longest_loop sh (S k) m i st cur mx =
    match s with
    | 0 => match st with
           | INIT => longest_loop sh k m (i + 1) FREE_LENGTH_CHECK 1 (if mx <? 1 then 1 else mx)
           | FREE_LENGTH_CHECK =>
                     longest_loop sh k m (i + 1) FREE_LENGTH_CHECK (cur + 1)
                       (if mx <? cur + 1 then cur + 1 else mx)
           | SKIP => longest_loop sh k m (i + 1) SKIP cur mx
           end
    | 1 => longest_loop sh k m (i + 1) INIT cur mx
    | 2 => longest_loop sh k m (i + 1) SKIP cur mx
    | 3 => longest_loop sh k m (i + 1) INIT cur mx
    | _ => Ok None
    end.
Proof. intros E. cbn [longest_loop]. rewrite E. reflexivity. Qed.

Lemma longest_zeros : forall z k m l1 l2 cur mx,
  View sh m (l1 ++ repeat 0 z ++ 1 :: l2) ->
  longest_loop sh (S z + k) m (Z.of_nat (length l1)) SKIP cur mx =
  longest_loop sh k m (Z.of_nat (length l1 + S z)) INIT cur mx.
Proof.
  induction z as [|z IH]; intros k m l1 l2 cur mx HV;
    cbn [repeat app] in HV; cbn [Nat.add];
    rewrite (longest_S _ _ _ _ _ _ _ (view_status sh Hsh _ _ _ _ HV)).
  - f_equal. lia.
  - replace (Z.of_nat (length l1) + 1) with (Z.of_nat (length (l1 ++ [0]))) by (rewrite app_length; simpl; lia).
    change (S (z + k)) with (S z + k)%nat.
    rewrite (IH k m (l1 ++ [0]) l2).
    + f_equal. rewrite app_length; simpl; lia.
    + rewrite <- app_assoc. auto.
Qed.

Lemma longest_irrel k : forall m i st cur cur' mx, st <> FREE_LENGTH_CHECK ->
  longest_loop sh k m i st cur mx = longest_loop sh k m i st cur' mx.
Proof.
  induction k as [|k IH]; intros m i st cur cur' mx Hst; auto.
  cbn [longest_loop]. destruct (status sh m i) as [s| |]; auto. cbn [bind].
  destruct s as [|[[p|p|]|[p|p|]|]|p]; auto; try (apply IH; discriminate).
  destruct st; auto; congruence.
Qed.

Lemma longest_block m j k s1 s2 st cur cur' mx :
  View sh m (layout (s1 ++ B j :: s2)) ->
  longest_loop sh (S j + k) m (Z.of_nat (size s1)) st cur mx =
  longest_loop sh k m (Z.of_nat (size s1 + S j)) INIT cur' mx.
Proof.
  intros HV. rewrite layout_app in HV. cbn [layout flat_map] in HV.
  change (size s1) with (length (layout s1)).
  destruct j as [|j]; cbn [lay app] in HV.
  - cbn [Nat.add]. rewrite (longest_S _ _ _ _ _ _ _ (view_status sh Hsh _ _ _ _ HV)).
    rewrite (longest_irrel _ _ _ _ cur cur') by discriminate. f_equal. lia.
  - cbn [Nat.add]. rewrite (longest_S _ _ _ _ _ _ _ (view_status sh Hsh _ _ _ _ HV)).
    rewrite (longest_irrel _ _ _ _ cur cur') by discriminate.
    replace (Z.of_nat (length (layout s1)) + 1)
      with (Z.of_nat (length (layout s1 ++ [2]))) by (rewrite app_length; simpl; lia).
    change (S (j + k)) with (S j + k)%nat.
    rewrite <- app_assoc in HV.
    rewrite (longest_zeros j k m (layout s1 ++ [2]) (layout s2)).
    + f_equal. rewrite app_length; simpl; lia.
    + rewrite <- app_assoc. auto.
Qed.

Lemma nohole_mono s n n' : nohole s n -> (n <= n')%nat -> nohole s n'.
Proof.
  intros H Hl t1 t2 E. replace n' with (n + (n' - n))%nat in E by lia.
  rewrite repeat_app', <- app_assoc in E. eapply H; eauto.
Qed.

Lemma longest_segs m : forall s2 s1 c mx,
  View sh m (layout (s1 ++ repeat F c ++ s2)) -> (c <= mx)%nat ->
  exists r, longest_loop sh (size s2) m (Z.of_nat (size s1 + c))
       (if (c =? 0)%nat then INIT else FREE_LENGTH_CHECK) (Z.of_nat c) (Z.of_nat mx) = Ok (Some (Z.of_nat r)) /\
    (mx <= r)%nat /\ nohole (repeat F c ++ s2) (S r) /\
    (r = mx \/ exists t1 t2, repeat F c ++ s2 = t1 ++ repeat F r ++ t2).
Proof.
  induction s2 as [|s s2 IH]; intros s1 c mx HV Hc.
  - rewrite size_nil. exists mx. cbn [longest_loop]. repeat split; auto.
    intros t1 t2 E. apply (f_equal (@length seg)) in E.
    rewrite !app_length, !repeat_length in E. simpl in E. lia.
  - destruct s as [|j].
    + assert (Eq : repeat F c ++ F :: s2 = repeat F (S c) ++ s2).
      { rewrite repeat_snoc. rewrite <- app_assoc. auto. }
      assert (HV' : View sh m (layout (s1 ++ repeat F (S c) ++ s2))) by (rewrite <- Eq; auto).
      assert (Est : status sh m (Z.of_nat (size s1 + c)) = Ok 0).
      { rewrite app_assoc, layout_app in HV.
        change (layout (F :: s2)) with (0 :: layout s2) in HV.
        replace (size s1 + c)%nat with (length (layout (s1 ++ repeat F c))).
        eapply view_status; eauto. change (size (s1 ++ repeat F c) = (size s1 + c)%nat).
        autorewrite with sz. auto. }
      rewrite size_cons. cbn [ssize Nat.add]. rewrite (longest_S _ _ _ _ _ _ _ Est).
      rewrite Eq.
      assert (Hn : forall st, (st = INIT /\ c = 0%nat) \/ (st = FREE_LENGTH_CHECK /\ c <> 0%nat) ->
        (match st with
         | INIT => longest_loop sh (size s2) m (Z.of_nat (size s1 + c) + 1) FREE_LENGTH_CHECK 1
                       (if Z.of_nat mx <? 1 then 1 else Z.of_nat mx)
         | FREE_LENGTH_CHECK => longest_loop sh (size s2) m (Z.of_nat (size s1 + c) + 1) FREE_LENGTH_CHECK (Z.of_nat c + 1)
                       (if Z.of_nat mx <? Z.of_nat c + 1 then Z.of_nat c + 1 else Z.of_nat mx)
         | SKIP => longest_loop sh (size s2) m (Z.of_nat (size s1 + c) + 1) SKIP (Z.of_nat c) (Z.of_nat mx)
         end) = longest_loop sh (size s2) m (Z.of_nat (size s1 + S c)) FREE_LENGTH_CHECK (Z.of_nat (S c)) (Z.of_nat (Nat.max mx (S c)))).
      { intros st [[-> ->]|[-> Hc0]]; f_equal; try lia.
        - destruct (Z.ltb_spec (Z.of_nat mx) 1); lia.
        - destruct (Z.ltb_spec (Z.of_nat mx) (Z.of_nat c + 1)); lia. }
      rewrite Hn by (destruct (Nat.eqb_spec c 0); auto).
      destruct (IH s1 (S c) (Nat.max mx (S c)) HV' ltac:(lia)) as (r & E & Hr & Hno & Hex).
      exists r. cbn [Nat.eqb] in E. split; auto. split; [lia|]. split; auto.
      destruct Hex as [->|Hex]; auto.
      destruct (Nat.max_spec mx (S c)) as [[Hlt ->]|[Hle ->]]; auto.
      right. exists [], s2. auto.
    + rewrite size_cons. cbn [ssize].
      replace (size s1 + c)%nat with (size (s1 ++ repeat F c)) by (autorewrite with sz; auto).
      assert (E1 : s1 ++ repeat F c ++ B j :: s2 = (s1 ++ repeat F c) ++ B j :: s2) by (rewrite <- app_assoc; auto).
      rewrite E1 in HV. rewrite (longest_block m j (size s2) _ _ _ _ 0 _ HV).
      set (s1' := s1 ++ repeat F c ++ [B j]).
      replace (size (s1 ++ repeat F c) + S j)%nat with (size s1' + 0)%nat
        by (unfold s1'; autorewrite with sz; cbn [ssize]; lia).
      destruct (IH s1' 0%nat mx) as (r & E & Hr & Hno & Hex).
      { unfold s1'. cbn [repeat app]. rewrite <- !app_assoc. rewrite <- app_assoc in HV. auto. }
      { lia. }
      exists r. cbn [Nat.eqb] in E. change (Z.of_nat 0) with 0 in E. split; auto. split; auto.
      split.
      * intros t1 t2 E'. apply infix_split in E'; [|lia].
        destruct E' as [(u & _ & E'')|(u & E'')].
        -- apply (Hno u t2). auto.
        -- apply (f_equal (@length seg)) in E''.
           rewrite !app_length, !repeat_length in E''. lia.
      * destruct Hex as [->|(t1 & t2 & E')]; auto.
        right. exists (repeat F c ++ B j :: t1), t2. cbn [repeat app] in E'. rewrite E', <- app_assoc. auto.
Qed.

Lemma longest_spec data dsize m led : Rel data dsize m led -> reserve m <= nfree m ->
  exists L, longest_free sh m = Ok L /\
    forall n, 0 < n -> word sh n ->
      ((exists p m', allocate sh m n = Ok (p, m') /\ p <> 0) <-> n <= L).
Proof.
  intros HR Hres. pose proof HR as (Eb & Em & segs & HI & HP).
  pose proof (nfree_word sh Hsh _ _ HI) as [Hnw Hnl].
  pose proof HI as (HV & _ & _ & Hnf). pose proof HV as (Hw & _).
  pose proof (inv_size _ _ _ HI) as Hsz.
  assert (Hrw : 0 <= reserve m) by (destruct Hw as (_&_&_&_&_&_&_&H); apply H).
  unfold longest_free. rewrite (loop_max_val sh Hsh m Hw).
  destruct (longest_segs m segs [] 0 0 HV ltac:(lia)) as (r & E & _ & Hno & Hex).
  rewrite size_nil in E. cbn [Nat.add Nat.eqb] in E. change (Z.of_nat 0) with 0 in E.
  replace (Z.to_nat (msize m)) with (size segs) by lia.
  rewrite E. cbn [bind]. cbn [repeat app] in Hno, Hex.
  assert (Hhole : forall n, 0 < n -> (hole sh data dsize led n <-> n <= Z.of_nat r)).
  { intros n Hn. rewrite (nohole_iff data dsize m led segs n Eb Em HI HP Hn). split.
    - intros Hnn. destruct (Z_le_gt_dec n (Z.of_nat r)); auto.
      exfalso. apply Hnn. eapply nohole_mono; eauto. lia.
    - intros Hle Hnn. destruct Hex as [->|(t1 & t2 & Es)]; [lia|].
      apply (nohole_mono _ _ r Hnn ltac:(lia) t1 t2 Es). }
  assert (Hrn : Z.of_nat r <= nfree m).
  { destruct Hex as [->|(t1 & t2 & Es)]; [destruct Hnw; lia|].
    rewrite Hnf, Es, !nF_app, nF_F. lia. }
  assert (Halloc : forall n, 0 < n -> word sh n ->
    ((exists p m', allocate sh m n = Ok (p, m') /\ p <> 0) <-> n <= Z.of_nat r /\ n <= nfree m - reserve m)).
  { intros n Hn Hnw'. unfold allocate, wr_w.
    destruct (Z_le_gt_dec n (nfree m)) as [Hle|Hgt].
    - rewrite wrap_small by (destruct Hnw; lia).
      destruct (Z.ltb_spec (nfree m - n) (reserve m)).
      + split. intros (p & m' & [= <- <-] & Hp); congruence. lia.
      + destruct (alloc_int_rel data dsize m led n HR Hnw') as
          (p & m' & Ea & _ & [(Hp & _ & Hh & _)|(-> & -> & Hnh)]).
        * split; [|intros _; eauto]. intros _. apply Hhole in Hh; auto. lia.
        * split. intros (p & m' & Ea' & Hp). rewrite Ea in Ea'. injection Ea' as <- <-. congruence.
          intros [Hle' _]. exfalso. apply Hnh. split; auto. apply Hhole; auto.
    - split; [|lia].
      destruct (_ <? _).
      + intros (p & m' & [= <- <-] & Hp); congruence.
      + destruct (alloc_int_rel data dsize m led n HR Hnw') as
          (p & m' & Ea & _ & [(Hp & _ & Hh & _)|(-> & -> & Hnh)]).
        * apply Hhole in Hh; auto. lia.
        * intros (p & m' & Ea' & Hp). rewrite Ea in Ea'. injection Ea' as <- <-. congruence. }
  unfold wr_w. rewrite (wrap_small _ (nfree m - Z.of_nat r)) by (destruct Hnw; lia).
  destruct (Z.ltb_spec (nfree m - Z.of_nat r) (reserve m)).
  - rewrite (wrap_small _ (reserve m - _)) by (destruct Hnw; lia).
    rewrite wrap_small by (destruct Hnw; lia).
    eexists. split; [reflexivity|]. intros n Hn Hnw'. rewrite Halloc by auto. lia.
  - eexists. split; [reflexivity|]. intros n Hn Hnw'. rewrite Halloc by auto. lia.
Qed.

End Cfg.
