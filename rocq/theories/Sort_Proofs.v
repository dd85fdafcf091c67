(* merge and sort: one merge, on cells. *)
From Verif Require Import Base Value_Model Heap_Model Value_Proofs Value_Proofs2 Heap_Spec Heap_Proofs List_Proofs
  Heap_Proofs2 Env_Model Env_Proofs Env_Props Sort_Model Seg_Proofs Heap_Props Rotate_Props.
From Coq Require Import Permutation.
Local Open Scope Z_scope.

Section Proofs.
Context {A : Arch}.
Variables (cmp : Z -> Z -> bool) (ef : nat) (par1 par2 : Z).
Hypothesis P12 : par1 <> par2.

(* merging lists of (cell, value) *)
Fixpoint mergeP (l : list (Z * Z)) : list (Z * Z) -> list (Z * Z) :=
  match l with
  | [] => fun m => m
  | a :: l' =>
    fix aux (m : list (Z * Z)) : list (Z * Z) :=
      match m with
      | [] => a :: l'
      | b :: m' => if cmp (snd a) (snd b) then a :: mergeP l' m else b :: aux m'
      end
  end.

Lemma mergeP_nil_r l : mergeP l [] = l. Proof. destruct l; auto. Qed.
Lemma mergeP_cons a l b m : mergeP (a :: l) (b :: m) = if cmp (snd a) (snd b) then a :: mergeP l (b :: m) else b :: mergeP (a :: l) m.
Proof. reflexivity. Qed.

(* the comparator's environment: both parameters bound to what is to be compared *)
Definition cmp_ready (h : heap) (fl : list Z) (env : Z) (cs : list Z) (xa xb : Z) : Prop :=
  heap_ok h fl /\ exists kvs, env_at h fl env kvs cs /\ (length kvs <= ef)%nat /\
    assoc par1 (visible kvs) = Some xa /\ assoc par2 (visible kvs) = Some xb.

Lemma assoc_vis k kvs x : assoc k (visible kvs) = Some x -> assoc k kvs <> None.
Proof.
  induction kvs as [|[k' y] r IH]; simpl; [discriminate|]. destruct (negb (y =? PLACEHOLDER)); simpl; destruct (k' =? k); auto; discriminate.
Qed.

Lemma ready_eval h fl env cs xa xb : cmp_ready h fl env cs xa xb -> eval_cmp cmp ef par1 par2 h env = Ok (Some (cmp xa xb)).
Proof.
  intros (_&kvs&(E&_)&L&A1&A2). unfold eval_cmp. rewrite !(env_lookup_correct _ _ _ _ _ _ E L). cbn [bind].
  rewrite A1. cbn [bind]. rewrite A2. reflexivity.
Qed.

Lemma ready_frame h h' l fl env cs xa xb : cmp_ready h fl env cs xa xb -> same_but l h h' -> meta h h' ->
  (forall i, In i l -> ~ In i cs /\ ~ In i fl) -> cmp_ready h' fl env cs xa xb.
Proof.
  intros (OK&kvs&(E&N&D)&R) S M F. split; [eapply meta_ok; eauto; intros i I; apply F; auto|].
  exists kvs. split; auto. split; auto. eapply env_on_frame; eauto. intros c C. apply S. intros I. destruct (F _ I). auto.
Qed.

Lemma ready_sym h fl env cs xa xb : cmp_ready h fl env cs xa xb -> is_symbol env = false.
Proof.
  intros (_&kvs&(E&_)&_&A1&_). inversion E as [|i j k x q kvs' cs' R]; subst; [discriminate|].
  destruct (is_symbol (enc_cons_ptr i)) eqn:S; auto. apply is_symbol_not_ptr in S. rewrite enc_is_ptr in S by auto. discriminate.
Qed.

Lemma set_one h fl env cs kvs key x : heap_ok h fl -> env_at h fl env kvs cs -> (length kvs <= ef)%nat -> assoc key kvs <> None -> x <> PLACEHOLDER ->
  exists h' kvs', env_set ef h env key x = Ok (h', env) /\ same_but cs h h' /\ meta h h' /\ heap_ok h' fl /\ env_at h' fl env kvs' cs /\
    length kvs' = length kvs /\ (forall k, assoc k (visible kvs') = if k =? key then Some x else assoc k (visible kvs)).
Proof.
  intros OK (E&N&D) L AK NP. unfold env_set. pose proof (set_loop_ok h env kvs cs key x E N ef L) as SL.
  destruct (assoc key kvs) as [y|] eqn:AE; [|congruence]. destruct SL as (j&c&I&Cj&R&E'). rewrite R. cbn [bind].
  assert (Rj := env_on_range _ _ _ _ _ E I).
  exists (hput h j c), (aset key x kvs). split; auto. split; [eapply same_but_incl; [|apply hput_same; lia]; intros k [<-|[]]; auto|].
  split; [apply meta_hput|]. split; [apply heap_ok_put; auto; lia|]. split; [split; auto|].
  split. { rewrite <- (map_length fst), aset_keys, map_length. auto. }
  intros k. apply assoc_visible_aset; auto. congruence.
Qed.

Lemma bind2 h fl env cs x0 y0 x y : cmp_ready h fl env cs x0 y0 -> x <> PLACEHOLDER -> y <> PLACEHOLDER ->
  exists h1 h2, env_set ef h env par1 x = Ok (h1, env) /\ same_but cs h h1 /\
    env_set ef h1 env par2 y = Ok (h2, env) /\ same_but cs h h2 /\ meta h h2 /\ cmp_ready h2 fl env cs x y.
Proof.
  intros (OK&kvs&Ev&L&A1&A2) X Y.
  destruct (set_one h fl env cs kvs par1 x OK Ev L) as (h1&kvs1&E1&S1&M1&OK1&Ev1&L1&V1); auto; [eapply assoc_vis; eauto|].
  destruct (set_one h1 fl env cs kvs1 par2 y OK1 Ev1) as (h2&kvs2&E2&S2&M2&OK2&Ev2&L2&V2); auto; [lia| |].
  { apply assoc_vis with (x := y0). rewrite V1. destruct (Z.eqb_spec par2 par1); [congruence|auto]. }
  exists h1, h2. split; auto. split; auto. split; auto. split; [eapply same_but_trans; eauto|]. split; [eapply meta_trans; eauto|].
  split; auto. exists kvs2. split; auto. split; [lia|]. rewrite !V2, !V1. rewrite !Z.eqb_refl.
  destruct (Z.eqb_spec par1 par2); [congruence|auto].
Qed.

Lemma merge_next_ok h f fl cs x0 y0 ca xa q cb xb qb : m_a f = enc_cons_ptr ca -> cmp_ready h fl (m_env f) cs x0 y0 ->
  0 <= ca < 2 ^ (W - 8) -> 0 <= cb < 2 ^ (W - 8) -> cell h ca = Some (xa, q) -> cell h cb = Some (xb, qb) -> ca <> cb ->
  ~ In ca cs -> ~ In cb cs -> ~ In ca fl -> xa <> PLACEHOLDER -> xb <> PLACEHOLDER ->
  exists h', merge_next ef par1 par2 h f (enc_cons_ptr cb) = Ok (h', MAgain f (m_env f)) /\ cmp_ready h' fl (m_env f) cs xa xb /\
    cell h' ca = Some (xa, enc_cons_ptr cb) /\ same_but (ca :: cs) h h' /\ meta h h'.
Proof.
  intros Ea J Ra Rb Ca Cb NE Na Nb Nf Px Py. unfold merge_next. rewrite Ea, (setd_enc h ca _ _ _ Ra Ca). cbn [bind].
  set (h1 := hput h ca (xa, enc_cons_ptr cb)).
  assert (C1 : cell h1 ca = Some (xa, enc_cons_ptr cb)) by (eapply cell_hput_eq; eauto).
  rewrite (car_enc h1 ca _ _ Ra C1). cbn [bind].
  assert (J1 : cmp_ready h1 fl (m_env f) cs x0 y0).
  { eapply ready_frame; eauto; [apply hput_same; lia|apply meta_hput|]. intros i [<-|[]]; auto. }
  destruct (bind2 h1 fl (m_env f) cs x0 y0 xa xb J1 Px Py) as (h2&h3&E2&S2&E3&S3&M3&J3).
  rewrite E2. cbn [bind].
  assert (C2 : cell h2 cb = Some (xb, qb)) by (rewrite S2 by auto; unfold h1; rewrite cell_hput_neq by lia; auto).
  rewrite (car_enc h2 cb _ _ Rb C2). cbn [bind]. rewrite E3. cbn [bind].
  rewrite (ready_sym _ _ _ _ _ _ J3). cbn [orb]. exists h3. split; auto. split; auto. split; [rewrite S3 by auto; auto|]. split.
  - intros i I. simpl in I. rewrite S3 by tauto. unfold h1. apply cell_hput_neq; [lia|tauto].
  - eapply meta_trans; [apply meta_hput|exact M3].
Qed.

(* the merged part: nothing yet, or a segment ending in the cell [la] *)
Definition head_ok (h : heap) (M : list (Z * Z)) (hd la : Z) : Prop :=
  (M = [] /\ hd = 0) \/ (exists M0 i x w, M = M0 ++ [(i, x)] /\ la = enc_cons_ptr i /\ seg h hd M w).

Lemma push_ok h M hd la c x q f : head_ok h M hd la -> m_head f = hd -> m_last f = la -> NoDup (map fst M) ->
  0 <= c < 2 ^ (W - 8) -> cell h c = Some (x, q) -> ~ In c (map fst M) ->
  exists h' hd', merge_push h f (enc_cons_ptr c) = Ok (h', hd') /\ seg h' hd' (M ++ [(c, x)]) q /\ same_but (map fst M) h h' /\ meta h h'.
Proof.
  intros HO <- <- N R C NI. unfold merge_push. rewrite NIL_0. destruct HO as [(->&->)|(M0&i&y&w&->&->&S)].
  - simpl. exists h, (enc_cons_ptr c). split; auto. split; [econstructor; eauto; constructor|]. split; [apply same_but_refl|apply meta_refl].
  - assert (Ri : 0 <= i < 2 ^ (W - 8)).
    { pose proof (seg_range _ _ _ _ S) as RR. rewrite map_app in RR. apply Forall_app in RR as [_ RR]. simpl in RR. inversion RR; auto. }
    destruct (Z.eqb_spec (m_head f) 0) as [E0|_].
    { exfalso. destruct M0 as [|[j z] M0]; simpl in S; inversion S; subst;
      match goal with H : enc_cons_ptr ?j = _, R : 0 <= ?j < _ |- _ => rewrite E0 in H; exact (enc_nonzero j R H) end. }
    destruct (seg_cell _ _ _ _ i y S) as (qi&Ci); [apply in_or_app; simpl; auto|].
    rewrite (setd_enc h i _ _ _ Ri Ci). cbn [bind].
    assert (NE : i <> c) by (intros ->; apply NI; rewrite map_app; apply in_or_app; simpl; auto).
    exists (hput h i (y, enc_cons_ptr c)), (m_head f). split; auto. split; [|split; [|apply meta_hput]].
    + eapply seg_app; [eapply seg_last_put; eauto|]. econstructor; [auto|rewrite cell_hput_neq by lia; eauto|constructor].
    + eapply same_but_incl; [|apply hput_same; lia]. intros k [<-|[]]. rewrite map_app. apply in_or_app. simpl; auto.
Qed.

Lemma nd_facts (M : list Z) ca la cb lb : NoDup (M ++ ca :: la ++ cb :: lb) ->
  NoDup M /\ ~ In ca M /\ ~ In cb M /\ ca <> cb /\ ~ In ca la /\ ~ In ca lb /\ ~ In cb la /\ ~ In cb lb /\
  (forall i, In i M -> ~ In i la /\ ~ In i lb) /\ (forall i, In i la -> ~ In i lb).
Proof.
  intros N. apply NoDup_app_parts in N as (NM&N2&D). inversion N2 as [|? ? Na N3]; subst.
  apply NoDup_app_parts in N3 as (Nla&N4&D2). inversion N4 as [|? ? Nb N5]; subst.
  split; auto. split; [intros I; eapply D; eauto; simpl; auto|].
  split; [intros I; eapply D; eauto; right; apply in_or_app; simpl; auto|].
  split; [intros ->; apply Na, in_or_app; simpl; auto|].
  split; [intros I; apply Na, in_or_app; simpl; auto|].
  split; [intros I; apply Na, in_or_app; simpl; auto|].
  split; [intros I; eapply D2; eauto; simpl; auto|]. split; auto. split.
  - intros i I. split; intros J; eapply D; eauto; right; apply in_or_app; simpl; auto.
  - intros i I J. eapply D2; eauto. simpl; auto.
Qed.

Definition vals_ok (l : list (Z * Z)) : Prop := Forall (fun p => snd p <> PLACEHOLDER) l.

Lemma merge_loop_ok fl env cs : forall fuel h M hd la ca xa ar la_ cb xb qb br lb,
  cmp_ready h fl env cs xa xb -> head_ok h M hd la ->
  0 <= ca < 2 ^ (W - 8) -> 0 <= cb < 2 ^ (W - 8) ->
  cell h ca = Some (xa, enc_cons_ptr cb) -> cell h cb = Some (xb, qb) -> seg h ar la_ 0 -> seg h br lb 0 ->
  NoDup (map fst (M ++ (ca, xa) :: la_ ++ (cb, xb) :: lb)) ->
  (forall i, In i (map fst (M ++ (ca, xa) :: la_ ++ (cb, xb) :: lb)) -> ~ In i cs /\ ~ In i fl) ->
  vals_ok ((ca, xa) :: la_) -> vals_ok ((cb, xb) :: lb) -> (length la_ + length lb < fuel)%nat ->
  exists h' r xa' xb', merge_loop cmp ef par1 par2 fuel h (mkM hd la (enc_cons_ptr ca) ar br env) env = Ok (h', Some r) /\
    seg h' r (M ++ mergeP ((ca, xa) :: la_) ((cb, xb) :: lb)) 0 /\
    same_but (map fst (M ++ (ca, xa) :: la_ ++ (cb, xb) :: lb) ++ cs) h h' /\ meta h h' /\ cmp_ready h' fl env cs xa' xb'.
Proof.
  induction fuel as [|fuel IH]; intros h M hd la ca xa ar la_ cb xb qb br lb J HO Ra Rb Ca Cb Sa Sb N F Va Vb LF; [lia|].
  cbn [merge_loop]. rewrite (ready_eval _ _ _ _ _ _ J). cbn [bind].
  pose proof N as N0. rewrite map_app in N0. simpl in N0. rewrite map_app in N0. simpl in N0.
  destruct (nd_facts _ _ _ _ _ N0) as (NM&NcaM&NcbM&Nab&Nala&Nalb&Nbla&Nblb&DM&Dl).
  set (L := map fst (M ++ (ca, xa) :: la_ ++ (cb, xb) :: lb)) in *.
  assert (IL : forall i, In i L <-> In i (map fst M) \/ i = ca \/ In i (map fst la_) \/ i = cb \/ In i (map fst lb)).
  { intros i. unfold L. rewrite map_app. simpl. rewrite map_app. simpl. rewrite in_app_iff. simpl. rewrite in_app_iff. simpl. intuition auto. }
  assert (Fca : ~ In ca cs /\ ~ In ca fl) by (apply F, IL; auto). assert (Fcb : ~ In cb cs /\ ~ In cb fl) by (apply F, IL; auto).
  unfold merge_rest. cbn [m_a m_arest m_brest m_head m_last m_env]. rewrite (cdr_enc h ca _ _ Ra Ca). cbn [bind].
  rewrite (setd_enc h ca _ _ _ Ra Ca). cbn [bind]. rewrite NIL_0.
  set (h1 := hput h ca (xa, 0)).
  assert (C1a : cell h1 ca = Some (xa, 0)) by (eapply cell_hput_eq; eauto).
  assert (C1b : cell h1 cb = Some (xb, qb)) by (unfold h1; rewrite cell_hput_neq by lia; auto).
  assert (HO1 : head_ok h1 M hd la).
  { destruct HO as [HO|(M0&i&x&w&E1&E2&S)]; [left; auto|right]. exists M0, i, x, w. split; auto. split; auto. apply seg_hput; auto; lia. }
  assert (Sa1 : seg h1 ar la_ 0) by (apply seg_hput; auto; lia).
  assert (Sb1 : seg h1 br lb 0) by (apply seg_hput; auto; lia).
  destruct (cmp xa xb) eqn:CMP; cbn [negb].
  - (* take a *)
    destruct (push_ok h1 M hd la ca xa 0 (mkM hd la (enc_cons_ptr ca) ar br env) HO1) as (h2&hd2&E2&S2&Sm2&M2); auto.
    rewrite E2. cbn [bind].
    assert (J2 : cmp_ready h2 fl env cs xa xb).
    { eapply ready_frame with (h := h1) (l := map fst M); eauto; [|intros i I; apply F, IL; auto].
      apply (ready_frame h h1 [ca]); auto; [apply hput_same; lia|apply meta_hput|]. intros i [<-|[]]; auto. }
    assert (C2a : cell h2 ca = Some (xa, 0)) by (rewrite Sm2; auto).
    assert (C2b : cell h2 cb = Some (xb, qb)) by (rewrite Sm2; auto).
    assert (Sa2 : seg h2 ar la_ 0) by (eapply seg_frame; eauto; intros i I; apply Sm2; intros K; destruct (DM _ K); auto).
    assert (Sb2 : seg h2 br lb 0) by (eapply seg_frame; eauto; intros i I; apply Sm2; intros K; destruct (DM _ K); auto).
    assert (G2 : same_but (L ++ cs) h h2).
    { intros i I. rewrite in_app_iff, IL in I. rewrite Sm2 by tauto. unfold h1. apply cell_hput_neq; [lia|]. intros ->. tauto. }
    assert (ME2 : meta h h2) by (eapply meta_trans; [apply meta_hput|exact M2]).
    pose proof (seg_null _ _ _ Sa2) as Z0. rewrite NIL_0 in Z0. rewrite Z0.
    destruct la_ as [|[ca2 x2] la2].
    + rewrite (setd_enc h2 cb _ _ _ Rb C2b). cbn [bind]. set (h3 := hput h2 cb (xb, br)).
      assert (C3a : cell h3 ca = Some (xa, 0)) by (unfold h3; rewrite cell_hput_neq by lia; auto).
      rewrite (setd_enc h3 ca _ _ _ Ra C3a). cbn [bind]. set (h4 := hput h3 ca (xa, enc_cons_ptr cb)).
      exists h4, hd2, xa, xb. split; auto. split; [|split; [|split]].
      * rewrite mergeP_cons. cbn [snd]. rewrite CMP. cbn [mergeP].
        replace (M ++ (ca, xa) :: (cb, xb) :: lb) with ((M ++ [(ca, xa)]) ++ (cb, xb) :: lb) by (rewrite <- app_assoc; auto).
        eapply seg_app with (w := enc_cons_ptr cb).
        -- unfold h4. apply seg_last_put with (w := 0).
           ++ apply seg_hput; auto; [lia|]. rewrite map_app, in_app_iff. simpl. intros [K|[K|[]]]; auto.
           ++ rewrite map_app. simpl. apply NoDup_app_build; auto; [repeat constructor; auto|]. intros i I [<-|[]]; auto.
        -- apply seg_cons with (q := br); auto.
           ++ unfold h4. rewrite cell_hput_neq by lia. eapply cell_hput_eq; eauto.
           ++ unfold h4, h3. apply seg_hput; [|lia|auto]. apply seg_hput; [|lia|auto]. auto.
      * intros i I. unfold h4, h3. pose proof I as I0. rewrite in_app_iff, IL in I. rewrite !cell_hput_neq; auto; try lia; intros ->; tauto.
      * eapply meta_trans; [exact ME2|]. eapply meta_trans; apply meta_hput.
      * eapply ready_frame with (h := h3) (l := [ca]); [|apply hput_same; lia|apply meta_hput|intros i [<-|[]]; auto].
        eapply ready_frame with (h := h2) (l := [cb]); [auto|apply hput_same; lia|apply meta_hput|intros i [<-|[]]; auto].
    + inversion Sa2 as [|? ? q2 ? ? R2 C2 Sa2']; subst. rewrite (cdr_enc h2 ca2 _ _ R2 C2). cbn [bind].
      rewrite (setd_enc h2 ca2 _ _ _ R2 C2). cbn [bind]. set (h3 := hput h2 ca2 (x2, 0)).
      assert (E2b : ca2 <> cb) by (intros ->; apply Nbla; simpl; auto).
      assert (F2 : ~ In ca2 cs /\ ~ In ca2 fl) by (apply F, IL; simpl; auto).
      destruct (merge_next_ok h3 (mkM hd2 (enc_cons_ptr ca) (enc_cons_ptr ca2) q2 br env) fl cs xa xb ca2 x2 0 cb xb qb) as (h4&E4&J4&C4&S4&M4); auto; try tauto.
      { cbn [m_env]. eapply ready_frame with (h := h2) (l := [ca2]); [auto|apply hput_same; lia|apply meta_hput|intros i [<-|[]]; auto]. }
      { eapply cell_hput_eq; eauto. } { unfold h3. rewrite cell_hput_neq by lia. auto. }
      { inversion Va as [|? ? _ V']; subst. inversion V'; auto. } { inversion Vb; auto. }
      cbn [m_env] in *. rewrite E4. cbn [bind].
      assert (Keep : forall i, i <> ca2 -> ~ In i cs -> cell h4 i = cell h2 i).
      { intros i I1 I2. rewrite S4 by (simpl; intros [K|K]; auto). unfold h3. apply cell_hput_neq; [lia|auto]. }
      assert (N2 : NoDup (ca2 :: map fst la2)).
      { simpl in N0. apply NoDup_app_parts in N0 as (_&N0&_). inversion N0 as [|? ? _ N1]; subst. inversion N1 as [|? ? Na1 N1']; subst.
        constructor; [intros K; apply Na1, in_or_app; auto|]. apply NoDup_app_parts in N1'. tauto. }
      inversion N2 as [|? ? N2a N2b]; subst.
      destruct (IH h4 (M ++ [(ca, xa)]) hd2 (enc_cons_ptr ca) ca2 x2 q2 la2 cb xb qb br lb) as (h'&r&xa'&xb'&E'&S'&Sm'&M'&J'); auto.
      * right. exists M, ca, xa, 0. split; auto. split; auto. eapply seg_frame; eauto. intros i I.
        assert (I' : In i (map fst M) \/ i = ca) by (rewrite map_app, in_app_iff in I; simpl in I; intuition auto).
        apply Keep; [|apply F, IL; tauto]. intros ->. destruct I' as [K| ->]; [destruct (DM _ K) as (K1&_); apply K1; simpl; auto|apply Nala; simpl; auto].
      * rewrite Keep; auto; tauto.
      * eapply seg_frame; eauto. intros i I. apply Keep; [intros ->; auto|]. apply F, IL. simpl; auto.
      * eapply seg_frame; eauto. intros i I. apply Keep; [|apply F, IL; auto]. intros ->. apply (Dl ca2); simpl; auto.
      * rewrite <- app_assoc. exact N.
      * rewrite <- app_assoc. exact F.
      * inversion Va; auto.
      * simpl in LF. lia.
      * exists h', r, xa', xb'. split; auto. split; [|split; [|split; auto]].
        -- rewrite mergeP_cons. cbn [snd]. rewrite CMP. rewrite <- app_assoc in S'. exact S'.
        -- intros i I. rewrite Sm'.
           ++ pose proof I as I0. rewrite in_app_iff, IL in I. rewrite Keep by (try intros ->; simpl in I; tauto). apply G2; auto.
           ++ rewrite <- app_assoc. exact I.
        -- eapply meta_trans; [exact ME2|]. eapply meta_trans; [apply (meta_hput h2 ca2 (x2, 0))|]. eapply meta_trans; eauto.
  - (* take b *)
    destruct (push_ok h1 M hd la cb xb qb (mkM hd la (enc_cons_ptr ca) ar br env) HO1) as (h2&hd2&E2&S2&Sm2&M2); auto.
    rewrite E2. cbn [bind].
    assert (J2 : cmp_ready h2 fl env cs xa xb).
    { eapply ready_frame with (h := h1) (l := map fst M); eauto; [|intros i I; apply F, IL; auto].
      apply (ready_frame h h1 [ca]); auto; [apply hput_same; lia|apply meta_hput|]. intros i [<-|[]]; auto. }
    assert (C2a : cell h2 ca = Some (xa, 0)) by (rewrite Sm2; auto).
    assert (C2b : cell h2 cb = Some (xb, qb)) by (rewrite Sm2; auto).
    assert (Sa2 : seg h2 ar la_ 0) by (eapply seg_frame; eauto; intros i I; apply Sm2; intros K; destruct (DM _ K); auto).
    assert (Sb2 : seg h2 br lb 0) by (eapply seg_frame; eauto; intros i I; apply Sm2; intros K; destruct (DM _ K); auto).
    assert (G2 : same_but (L ++ cs) h h2).
    { intros i I. rewrite in_app_iff, IL in I. rewrite Sm2 by tauto. unfold h1. apply cell_hput_neq; [lia|]. intros ->. tauto. }
    assert (ME2 : meta h h2) by (eapply meta_trans; [apply meta_hput|exact M2]).
    assert (NMb : NoDup (map fst (M ++ [(cb, xb)]))).
    { rewrite map_app. simpl. apply NoDup_app_build; auto; [repeat constructor; auto|]. intros i I [<-|[]]; auto. }
    pose proof (seg_null _ _ _ Sb2) as Z0. rewrite NIL_0 in Z0. rewrite Z0.
    destruct lb as [|[cb2 y2] lb2].
    + rewrite (setd_enc h2 ca _ _ _ Ra C2a). cbn [bind]. set (h3 := hput h2 ca (xa, ar)).
      assert (C3b : cell h3 cb = Some (xb, qb)) by (unfold h3; rewrite cell_hput_neq by lia; auto).
      rewrite (setd_enc h3 cb _ _ _ Rb C3b). cbn [bind]. set (h4 := hput h3 cb (xb, enc_cons_ptr ca)).
      exists h4, hd2, xa, xb. split; auto. split; [|split; [|split]].
      * rewrite mergeP_cons. cbn [snd]. rewrite CMP. rewrite mergeP_nil_r.
        replace (M ++ (cb, xb) :: (ca, xa) :: la_) with ((M ++ [(cb, xb)]) ++ (ca, xa) :: la_) by (rewrite <- app_assoc; auto).
        eapply seg_app with (w := enc_cons_ptr ca).
        -- unfold h4. apply seg_last_put with (w := qb); auto.
           apply seg_hput; auto; [lia|]. rewrite map_app, in_app_iff. simpl. intros [K|[K|[]]]; auto.
        -- apply seg_cons with (q := ar); auto.
           ++ unfold h4. rewrite cell_hput_neq by lia. eapply cell_hput_eq; eauto.
           ++ unfold h4, h3. apply seg_hput; [|lia|auto]. apply seg_hput; [|lia|auto]. auto.
      * intros i I. unfold h4, h3. pose proof I as I0. rewrite in_app_iff, IL in I. rewrite !cell_hput_neq; auto; try lia; intros ->; tauto.
      * eapply meta_trans; [exact ME2|]. eapply meta_trans; apply meta_hput.
      * eapply ready_frame with (h := h3) (l := [cb]); [|apply hput_same; lia|apply meta_hput|intros i [<-|[]]; auto].
        eapply ready_frame with (h := h2) (l := [ca]); [auto|apply hput_same; lia|apply meta_hput|intros i [<-|[]]; auto].
    + inversion Sb2 as [|? ? q2 ? ? R2 C2 Sb2']; subst. rewrite (cdr_enc h2 cb2 _ _ R2 C2). cbn [bind].
      rewrite (setd_enc h2 cb2 _ _ _ R2 C2). cbn [bind]. set (h3 := hput h2 cb2 (y2, 0)).
      assert (E2b : ca <> cb2) by (intros ->; apply Nalb; simpl; auto).
      assert (F2 : ~ In cb2 cs /\ ~ In cb2 fl) by (apply F, IL; do 4 right; simpl; auto).
      destruct (merge_next_ok h3 (mkM hd2 (enc_cons_ptr cb) (enc_cons_ptr ca) ar q2 env) fl cs xa xb ca xa 0 cb2 y2 0) as (h4&E4&J4&C4&S4&M4); auto; try tauto.
      { cbn [m_env]. eapply ready_frame with (h := h2) (l := [cb2]); [auto|apply hput_same; lia|apply meta_hput|intros i [<-|[]]; auto]. }
      { unfold h3. rewrite cell_hput_neq by lia. auto. } { eapply cell_hput_eq; eauto. }
      { inversion Va; auto. } { inversion Vb as [|? ? _ V']; subst. inversion V'; auto. }
      cbn [m_env] in *. rewrite E4. cbn [bind].
      assert (Keep : forall i, i <> ca -> i <> cb2 -> ~ In i cs -> cell h4 i = cell h2 i).
      { intros i I1 I2 I3. rewrite S4 by (simpl; intros [K|K]; auto). unfold h3. apply cell_hput_neq; [lia|auto]. }
      assert (N2 : NoDup (cb2 :: map fst lb2)).
      { simpl in N0. apply NoDup_app_parts in N0 as (_&N0&_). inversion N0 as [|? ? _ N1]; subst.
        apply NoDup_app_parts in N1 as (_&N1&_). inversion N1; auto. }
      inversion N2 as [|? ? N2a N2b]; subst.
      assert (PP : Permutation (M ++ (ca, xa) :: la_ ++ (cb, xb) :: (cb2, y2) :: lb2) ((M ++ [(cb, xb)]) ++ (ca, xa) :: la_ ++ (cb2, y2) :: lb2)).
      { rewrite <- app_assoc. apply Permutation_app_head. simpl.
        apply (Permutation_middle ((ca, xa) :: la_) ((cb2, y2) :: lb2) (cb, xb)) || symmetry; apply (Permutation_middle ((ca, xa) :: la_) ((cb2, y2) :: lb2) (cb, xb)). }
      assert (PP1 : Permutation L (map fst ((M ++ [(cb, xb)]) ++ (ca, xa) :: la_ ++ (cb2, y2) :: lb2))) by (unfold L; apply Permutation_map; auto).
      destruct (IH h4 (M ++ [(cb, xb)]) hd2 (enc_cons_ptr cb) ca xa ar la_ cb2 y2 0 q2 lb2) as (h'&r&xa'&xb'&E'&S'&Sm'&M'&J'); auto.
      * right. exists M, cb, xb, qb. split; auto. split; auto. eapply seg_frame; eauto. intros i I.
        assert (I' : In i (map fst M) \/ i = cb) by (rewrite map_app, in_app_iff in I; simpl in I; intuition auto).
        apply Keep; [| |apply F, IL; tauto]; intros ->; destruct I' as [K|K]; subst; auto; [destruct (DM _ K) as (_&K1); apply K1; simpl; auto|apply Nblb; simpl; auto].
      * rewrite S4 by (simpl; intros [K|K]; tauto). eapply cell_hput_eq; eauto.
      * eapply seg_frame; eauto. intros i I. apply Keep; [intros ->; auto| |apply F, IL; auto]. intros ->. apply (Dl cb2); simpl; auto.
      * eapply seg_frame; eauto. intros i I. apply Keep; [intros ->; apply Nalb; simpl; auto|intros ->; auto|apply F, IL; simpl; auto 9].
      * eapply Permutation_NoDup; eauto.
      * intros i I. apply F. eapply Permutation_in; [symmetry; exact PP1|exact I].
      * inversion Vb; auto.
      * simpl in LF. lia.
      * exists h', r, xa', xb'. split; auto. split; [|split; [|split; auto]].
        -- rewrite mergeP_cons. cbn [snd]. rewrite CMP. rewrite <- app_assoc in S'. exact S'.
        -- intros i I. rewrite Sm'.
           ++ pose proof I as I0. rewrite in_app_iff, IL in I. rewrite Keep by (try intros ->; simpl in I; tauto). apply G2; auto.
           ++ rewrite in_app_iff in *. intros [K|K]; apply I; auto. left. eapply Permutation_in; [symmetry; exact PP1|exact K].
        -- eapply meta_trans; [exact ME2|]. eapply meta_trans; [apply (meta_hput h2 cb2 (y2, 0))|]. eapply meta_trans; eauto.
Qed.

End Proofs.
