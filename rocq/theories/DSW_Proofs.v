(* Pointer reversal marking: a visit marks what is reachable and puts everything back. *)
From Verif Require Import Base Value_Model Heap_Model Value_Proofs Value_Proofs2 Heap_Spec Heap_Proofs GC_Model GC_Spec
  GC_Proofs GC_Term DSW_Model DSW_Spec.
Local Open Scope Z_scope.

Section Arch.
Context {A : Arch}.

(* ---- words ---- *)
Lemma land_mask a : Z.land a GC_MASK = if get_gc_mark a then GC_MARKED else 0.
Proof.
  unfold get_gc_mark. change GC_MASK with (Z.shiftl (Z.ones 1) 1). change GC_MARKED with (1 * 2 ^ 1).
  rewrite (land_field a 1 1) by lia.
  pose proof (Z.mod_pos_bound (a / 2 ^ 1) (2 ^ 1) ltac:(lia)) as B.
  destruct (Z.eqb_spec ((a / 2 ^ 1) mod 2 ^ 1 * 2 ^ 1) 0); cbn [negb]; lia.
Qed.

Lemma va_eq a b : word b -> f_gc b = 0 -> value_assign a b = if get_gc_mark a then set_gc_mark b else b.
Proof.
  intros Wb G. unfold value_assign. rewrite land_mask. change (Z.land b (wnot GC_MASK)) with (clr_gc_mark b).
  rewrite (clr_id b Wb G). destruct (get_gc_mark a); [|reflexivity]. rewrite Z.lor_comm. reflexivity.
Qed.
Lemma va_clear a b : f_gc a = 0 -> word b -> f_gc b = 0 -> value_assign a b = b.
Proof. intros G Wb Gb. rewrite va_eq by auto. rewrite get_mark_f, G. reflexivity. Qed.
Lemma get_set_mark d : word d -> get_gc_mark (set_gc_mark d) = true.
Proof. apply get_set. Qed.
Lemma va_set a b : word a -> word b -> f_gc b = 0 -> value_assign (set_gc_mark a) b = set_gc_mark b.
Proof. intros Wa Wb Gb. rewrite va_eq, get_set_mark by auto. reflexivity. Qed.
Lemma va_of_set a b : f_gc a = 0 -> word b -> f_gc b = 0 -> value_assign a (set_gc_mark b) = b.
Proof.
  intros G Wb Gb. unfold value_assign. rewrite land_mask, get_mark_f, G. change (Z.land (set_gc_mark b) (wnot GC_MASK)) with (clr_gc_mark (set_gc_mark b)).
  rewrite clr_set by auto. reflexivity.
Qed.
Lemma gc0 : f_gc 0 = 0. Proof. reflexivity. Qed.
Lemma flag_mark x : get_gc_flag x = get_gc_mark x. Proof. reflexivity. Qed.
Lemma null_ix : PTR_NULL = 2 ^ (W - 8) - 1. Proof. arch; reflexivity. Qed.
Lemma null_fields : word NULL_PTR /\ f_gc NULL_PTR = 0 /\ is_ptr NULL_PTR = true /\ dec_ptr NULL_PTR = PTR_NULL.
Proof.
  assert (R : 0 <= PTR_NULL < 2 ^ (W - 8)) by (rewrite null_ix; pose proof pow8_pos; lia).
  destruct (enc_cons_fields _ R) as (Wn&T&I&G&P). unfold NULL_PTR.
  split; auto. split; auto. rewrite is_ptr_f, P, dec_ptr_f. auto.
Qed.

(* ---- fuel ---- *)
Lemma mark_elts_mono f f' es : forall h r, (forall h e r, f h e = r -> r <> Fuel -> f' h e = r) ->
  mark_elts f es h = r -> r <> Fuel -> mark_elts f' es h = r.
Proof.
  induction es as [|e t IH]; intros h r M E N; cbn [mark_elts] in *; auto.
  destruct (f h e) as [h1| |] eqn:F.
  - rewrite (M _ _ _ F) by discriminate. cbn [bind] in *. apply IH; auto.
  - rewrite (M _ _ _ F) by discriminate. exact E.
  - exfalso. apply N. rewrite <- E. reflexivity.
Qed.

Lemma dsw_mono k : forall dep h c p ph r, dsw dep k h c p ph = r -> r <> Fuel -> dsw dep (S k) h c p ph = r.
Proof.
  induction k as [|k IH]; intros dep h c p ph r E N; [exfalso; apply N; rewrite <- E; reflexivity|].
  remember (S k) as k1. cbn [dsw]. rewrite Heqk1 in E. cbn [dsw] in E.
  destruct ph.
  - destruct (down_cond h c) as [g| |]; cbn [bind] in *; auto. destruct g.
    2: subst k1; apply IH; auto.
    destruct (rd (cells h) (dec_ptr c)) as [x| |]; cbn [bind] in *; auto.
    destruct (is_cons_rw c).
    + destruct (wr _ _ _) as [cs| |]; cbn [bind] in *; auto; subst k1; apply IH; auto.
    + destruct (mark_cell h (dec_ptr c)) as [h1| |]; cbn [bind] in *; auto.
      destruct (type_of c =? TYPE_LISPARRAY); [|subst k1; apply IH; auto].
      destruct (mem h1 (fst x)) as [[dat size elts ix| | | |]|]; auto.
      destruct (size / WB <=? Z.of_nat (length elts)); auto.
      destruct dep as [|d]; auto.
      destruct (mark_elts (fun h e => if is_ptr e then dsw d k h e NULL_PTR Down else Ok h)
                  (firstn (Z.to_nat (size / WB)) elts) h1) as [h2| |] eqn:ME.
      * eapply mark_elts_mono in ME.
        -- rewrite ME. cbn [bind] in *. subst k1; apply IH; auto.
        -- intros h' e r' E' N'. cbv beta in *. destruct (is_ptr e); auto; subst k1; apply IH; auto.
        -- discriminate.
      * eapply mark_elts_mono in ME.
        -- rewrite ME. exact E.
        -- intros h' e r' E' N'. cbv beta in *. destruct (is_ptr e); auto; subst k1; apply IH; auto.
        -- discriminate.
      * exfalso. apply N. rewrite <- E. reflexivity.
  - destruct (is_ptr p); [|subst k1; apply IH; auto]. destruct (dec_ptr p =? PTR_NULL); auto.
    destruct (ref_cell h p) as [x| |]; cbn [bind] in *; auto. destruct (get_gc_flag (fst x)).
    + destruct (put_cell _ _ _) as [h1| |]; cbn [bind] in *; auto; subst k1; apply IH; auto.
    + destruct (put_cell _ _ _) as [h1| |]; cbn [bind] in *; auto; subst k1; apply IH; auto.
Qed.

Lemma dsw_le k k' dep h c p ph r : (k <= k')%nat -> dsw dep k h c p ph = r -> r <> Fuel -> dsw dep k' h c p ph = r.
Proof. intros L E N. induction L; auto. apply dsw_mono; auto. Qed.

(* ---- counting ---- *)
Lemma filter_same {T} (f : T -> bool) l n x y : nth_error l n = Some x -> f x = f y ->
  length (filter f (upd l n y)) = length (filter f l).
Proof.
  revert n. induction l as [|z l IH]; intros [|n] E F; try discriminate; simpl in *.
  - injection E as ->. rewrite F. destruct (f y); reflexivity.
  - destruct (f z); simpl; erewrite IH; eauto.
Qed.
Lemma cell_nth h i c : cell h i = Some c -> nth_error (cells h) (Z.to_nat i) = Some c.
Proof. unfold cell. destruct (i <? 0); [discriminate|auto]. Qed.
Lemma Mz_put_dec h i c c' : cell h i = Some c -> unm c = true -> unm c' = false -> S (Mz (hput h i c')) = Mz h.
Proof. intros C U U'. apply cell_nth in C. unfold Mz, hput. cbn [cells set_cells]. eapply filter_upd; eauto. Qed.
Lemma Mz_put_same h i c c' : cell h i = Some c -> unm c = unm c' -> Mz (hput h i c') = Mz h.
Proof. intros C U. apply cell_nth in C. unfold Mz, hput. cbn [cells set_cells]. eapply filter_same; eauto. Qed.

Lemma reach_mono h (P Q : Z -> Prop) w : (forall v, P v -> heap_ptr v -> reach h Q v) -> reach h P w -> reach h Q w.
Proof. intros H R. induction R as [w P1 P2|w v R IH Pt Hv]; auto. eapply reach_step; eauto. Qed.

Section Visit.
Variable h0 : heap.
Variable root : Z -> Prop.
Hypothesis RDY : dsw_ready h0 root.
Notation R := (reach h0 root).

(* unmarked cells are as they were at the start *)
Record St (h : heap) : Prop := {
  st_size : hsize h = hsize h0;
  st_mem : mem h = mem h0;
  st_un : forall i a d, cell h i = Some (a, d) -> get_gc_mark d = false -> cell h0 i = Some (a, d)
}.

(* h' is h with some cells marked: what is reachable from P *)
Record Post (h : heap) (P : Z -> Prop) (h' : heap) : Prop := {
  po_rest : h' = set_cells h (cells h');
  po_size : hsize h' = hsize h;
  po_keep : forall i a d, cell h i = Some (a, d) -> get_gc_mark d = true -> cell h' i = Some (a, d);
  po_new : forall i a d, cell h i = Some (a, d) -> get_gc_mark d = false ->
    cell h' i = Some (a, d) \/ cell h' i = Some (a, set_gc_mark d);
  po_sound : forall i, marked h' i -> ~ marked h i -> live h0 P i;
  po_root : forall w, P w -> heap_ptr w -> marked h' (f_ix w);
  po_closed : forall w v, R w -> ~ marked h (f_ix w) -> marked h' (f_ix w) -> points h0 w v -> heap_ptr v -> marked h' (f_ix v);
  po_count : (Mz h' <= Mz h)%nat
}.

Lemma marked_of h i a d : cell h i = Some (a, d) -> get_gc_mark d = true -> marked h i.
Proof. intros C M. exists a, d. auto. Qed.
Lemma unmarked_of h i a d : cell h i = Some (a, d) -> get_gc_mark d = false -> ~ marked h i.
Proof. intros C M (a'&d'&C'&M'). congruence. Qed.
Lemma marked_decide h i : marked h i \/ ~ marked h i.
Proof.
  destruct (cell h i) as [[a d]|] eqn:C.
  - destruct (get_gc_mark d) eqn:M; [left; eapply marked_of|right; eapply unmarked_of]; eauto.
  - right. intros (a&d&C'&_). congruence.
Qed.
Lemma po_mono h P h' i : Post h P h' -> marked h i -> marked h' i.
Proof. intros PO (a&d&C&M). exists a, d. split; auto. eapply po_keep; eauto. Qed.

Lemma cdr_word i a d : cell h0 i = Some (a, d) -> word d /\ f_gc d = 0.
Proof. apply (dr_cdr _ _ RDY). Qed.

Lemma St_post h P h' : St h -> Post h P h' -> St h'.
Proof.
  intros [s1 s2 s3] PO. constructor.
  - rewrite (po_size _ _ _ PO). auto.
  - rewrite (po_rest _ _ _ PO). cbn. auto.
  - intros i a d C M. destruct (cell_some h i) as ([a0 d0]&C0).
    { rewrite <- (po_size _ _ _ PO). eapply cell_range; eauto. }
    destruct (get_gc_mark d0) eqn:M0.
    + pose proof (po_keep _ _ _ PO _ _ _ C0 M0). congruence.
    + destruct (po_new _ _ _ PO _ _ _ C0 M0) as [E|E]; rewrite E in C; injection C as <- <-.
      * apply s3; auto.
      * exfalso. destruct (cdr_word i a0 d0) as [Wd _]; [apply s3; auto|]. rewrite get_set_mark in M by auto. discriminate.
Qed.

(* changing a marked cell, keeping the mark *)
Lemma St_put h i a d a' d' : St h -> cell h i = Some (a, d) -> get_gc_mark d' = true -> St (hput h i (a', d')).
Proof.
  intros [s1 s2 s3] C M. pose proof (cell_range _ _ _ C) as Rg. constructor; auto.
  - rewrite hput_size. auto.
  - intros j b e C' M'. destruct (Z.eq_dec i j) as [<-|N].
    + rewrite (cell_hput_eq _ _ _ _ C) in C'. injection C' as <- <-. congruence.
    + rewrite cell_hput_neq in C' by lia. apply s3; auto.
Qed.

Lemma Post_refl h (P : Z -> Prop) : (forall w, P w -> heap_ptr w -> marked h (f_ix w)) -> Post h P h.
Proof.
  intros H. constructor; auto; try tauto; try lia.
  destruct h; reflexivity.
Qed.

Lemma Post_trans h P h1 Q h2 : St h -> Post h P h1 -> Post h1 Q h2 -> Post h (fun w => P w \/ Q w) h2.
Proof.
  intros S0 P1 P2. pose proof (St_post _ _ _ S0 P1) as S1. constructor.
  - rewrite (po_rest _ _ _ P2), (po_rest _ _ _ P1). reflexivity.
  - rewrite (po_size _ _ _ P2), (po_size _ _ _ P1). reflexivity.
  - intros i a d C M. apply (po_keep _ _ _ P2); auto. apply (po_keep _ _ _ P1); auto.
  - intros i a d C M. destruct (po_new _ _ _ P1 _ _ _ C M) as [E|E].
    + apply (po_new _ _ _ P2); auto.
    + right. apply (po_keep _ _ _ P2); auto. apply get_set_mark. eapply cdr_word, (st_un _ S0); eauto.
  - intros i M2 M0. destruct (marked_decide h1 i) as [M1|M1].
    + destruct (po_sound _ _ _ P1 i M1 M0) as (w&Rw&E). exists w. split; auto. eapply reach_mono; [|exact Rw]. intros v V Hv. apply reach_root; auto.
    + destruct (po_sound _ _ _ P2 i M2 M1) as (w&Rw&E). exists w. split; auto. eapply reach_mono; [|exact Rw]. intros v V Hv. apply reach_root; auto.
  - intros w [Pw|Qw] Hw; [eapply po_mono; eauto; eapply po_root; eauto|eapply po_root; eauto].
  - intros w v Rw N M Pt Hv. destruct (marked_decide h1 (f_ix w)) as [M1|M1].
    + eapply po_mono; eauto. eapply (po_closed _ _ _ P1); eauto.
    + eapply (po_closed _ _ _ P2); eauto.
  - pose proof (po_count _ _ _ P1). pose proof (po_count _ _ _ P2). lia.
Qed.

Lemma Post_weaken h (P Q : Z -> Prop) h' : Post h P h' -> (forall w, P w <-> Q w) -> Post h Q h'.
Proof.
  intros PO E. constructor; try apply PO.
  - intros i M N. destruct (po_sound _ _ _ PO i M N) as (w&Rw&Ei). exists w. split; auto.
    eapply reach_mono; [|exact Rw]. intros v V Hv. apply reach_root; auto. apply E; auto.
  - intros w Qw. apply (po_root _ _ _ PO). apply E; auto.
Qed.

(* a value the marker may be handed *)
Definition okv (v : Z) : Prop := word v /\ f_gc v = 0 /\ (heap_ptr v -> R v).

(* the fuel a visit takes, before it goes on in phase Up *)
Definition visits (dep : nat) (h : heap) (curr prev : Z) (h' : heap) : Prop :=
  forall k r, dsw dep k h' curr prev Up = Ok r -> dsw dep (k + (5 * (Mz h - Mz h') + 2)) h curr prev Down = Ok r.

Lemma down_false h v : St h -> okv v -> (heap_ptr v -> marked h (f_ix v)) -> down_cond h v = Ok false.
Proof.
  intros S0 (Wv&Gv&Rv) M. unfold down_cond. rewrite !dec_ptr_f, rd_cell.
  destruct (is_ptr v) eqn:P; auto. destruct (is_const_ptr v) eqn:C; [rewrite andb_false_r; auto|].
  destruct (f_ix v =? PTR_NULL); auto. cbn [andb negb].
  destruct (M (conj P C)) as (a&d&Cv&Md). rewrite Cv. cbn [bind snd]. rewrite Md. reflexivity.
Qed.

Lemma down_true h v c : St h -> okv v -> heap_ptr v -> cell h (f_ix v) = Some c -> get_gc_mark (snd c) = false ->
  down_cond h v = Ok true.
Proof.
  intros S0 (Wv&Gv&Rv) [P C] Cv M. unfold down_cond. rewrite !dec_ptr_f, rd_cell, P, C, Cv.
  destruct (dr_in _ _ RDY v (Rv (conj P C))) as (_&_&L). pose proof (dr_size _ _ RDY). rewrite null_ix.
  destruct (Z.eqb_spec (f_ix v) (2 ^ (W - 8) - 1)); [lia|]. cbn [negb andb bind]. rewrite M. reflexivity.
Qed.

Lemma not_null v : heap_ptr v -> R v -> (dec_ptr v =? PTR_NULL) = false.
Proof.
  intros Hv Rv. destruct (dr_in _ _ RDY v Rv) as (_&_&L). pose proof (dr_size _ _ RDY). rewrite dec_ptr_f, null_ix.
  apply Z.eqb_neq. lia.
Qed.

(* a visit that has nothing to do *)
Lemma visit_skip dep h v prev : St h -> okv v -> (heap_ptr v -> marked h (f_ix v)) -> visits dep h v prev h.
Proof.
  intros S0 V M k r E. rewrite Nat.sub_diag. replace (k + (5 * 0 + 2))%nat with (S (S k)) by lia.
  apply (dsw_le (S k)); [lia| |discriminate]. cbn [dsw]. rewrite (down_false h v S0 V M). cbn [bind]. exact E.
Qed.

Lemma okv_car w a d : R w -> type_of w = TYPE_CONS -> cell h0 (f_ix w) = Some (a, d) -> okv a.
Proof.
  intros Rw T C. destruct (dr_car _ _ RDY w a d Rw T C) as [Wa Ga]. split; auto. split; auto.
  intros Ha. eapply reach_step; eauto. eapply pt_car; eauto.
Qed.
Lemma okv_cdr w a d : R w -> type_of w = TYPE_CONS -> cell h0 (f_ix w) = Some (a, d) -> okv d.
Proof.
  intros Rw T C. destruct (cdr_word _ _ _ C) as [Wa Ga]. split; auto. split; auto.
  intros Ha. eapply reach_step; eauto. eapply pt_cdr; eauto.
Qed.


(* the elements of an array, each by a nested call *)
Lemma visit_elts n d : (forall h curr prev, (Mz h <= n)%nat -> St h -> okv curr -> word prev -> f_gc prev = 0 ->
    exists h', Post h (eq curr) h' /\ visits d h curr prev h') ->
  forall es h, (Mz h <= n)%nat -> St h -> Forall okv es ->
  exists h', Post h (fun v => In v es) h' /\ forall k, (5 * (Mz h - Mz h') + 3 <= k)%nat ->
    mark_elts (fun h e => if is_ptr e then dsw d k h e NULL_PTR Down else Ok h) es h = Ok h'.
Proof.
  intros V es. induction es as [|e t IH]; intros h L S0 F.
  - exists h. split; [apply Post_refl; intros w []|reflexivity].
  - inversion F as [|? ? He Ft]; subst.
    assert (exists h1, Post h (eq e) h1 /\ forall k, (5 * (Mz h - Mz h1) + 3 <= k)%nat ->
      (if is_ptr e then dsw d k h e NULL_PTR Down else Ok h) = Ok h1) as (h1&P1&E1).
    { destruct null_fields as (Wn&Gn&Pn&Dn). destruct (is_ptr e) eqn:P.
      - destruct (V h e NULL_PTR L S0 He Wn Gn) as (h1&P1&V1). exists h1. split; auto. intros k K.
        specialize (V1 1%nat h1). eapply dsw_le; [|apply V1|discriminate].
        + pose proof (po_count _ _ _ P1). lia.
        + cbn [dsw]. rewrite Pn, Dn, Z.eqb_refl. reflexivity.
      - exists h. split; auto. apply Post_refl. intros w <- [Hp _]. congruence. }
    pose proof (po_count _ _ _ P1) as C1. destruct (IH h1) as (h2&P2&E2); auto; try lia.
    { eapply St_post; eauto. }
    pose proof (po_count _ _ _ P2) as C2.
    exists h2. split.
    + eapply Post_weaken; [eapply Post_trans; eauto|]. intros w. cbn [In]. intuition.
    + intros k K. cbn [mark_elts]. rewrite E1 by lia. cbn [bind]. apply E2. lia.
Qed.

(* marking one cell whose contents are not followed *)
Lemma Post_mark h v c : St h -> R v -> heap_ptr v -> cell h (f_ix v) = Some c -> get_gc_mark (snd c) = false ->
  St (mk h (f_ix v) c) /\ S (Mz (mk h (f_ix v) c)) = Mz h /\ marked (mk h (f_ix v) c) (f_ix v) /\
  (forall i, marked (mk h (f_ix v) c) i -> i = f_ix v \/ marked h i) /\
  (forall i, marked h i -> marked (mk h (f_ix v) c) i).
Proof.
  intros S0 Rv Hv C M. destruct c as [a d]. cbn [snd] in M. unfold mk. cbn [fst snd].
  pose proof (cell_range _ _ _ C) as Rg.
  destruct (cdr_word _ _ _ (st_un _ S0 _ _ _ C M)) as [Wd Gd].
  split; [eapply St_put; eauto; apply get_set_mark; auto|]. split; [|split; [|split]].
  - eapply Mz_put_dec; eauto; unfold unm; cbn [snd]; [rewrite M|rewrite get_set_mark by auto]; reflexivity.
  - exists a, (set_gc_mark d). rewrite (cell_hput_eq _ _ _ _ C). split; auto. apply get_set_mark; auto.
  - intros i (b&e&C'&M'). destruct (Z.eq_dec (f_ix v) i) as [<-|N]; auto. right. rewrite cell_hput_neq in C' by lia. exists b, e. auto.
  - intros i (b&e&C'&M'). destruct (Z.eq_dec (f_ix v) i) as [<-|N]; [congruence|]. exists b, e. rewrite cell_hput_neq by lia. auto.
Qed.

Lemma marked_put h i a d a' d' j : cell h i = Some (a, d) -> get_gc_mark d = true -> get_gc_mark d' = true ->
  marked (hput h i (a', d')) j <-> marked h j.
Proof.
  intros C M M'. pose proof (cell_range _ _ _ C). destruct (Z.eq_dec i j) as [<-|N].
  - split; intros _; [exists a, d; auto|]. exists a', d'. rewrite (cell_hput_eq _ _ _ _ C). auto.
  - unfold marked. rewrite cell_hput_neq by lia. tauto.
Qed.

Lemma visit n : forall dep h curr prev, (Mz h <= n)%nat -> (n <= dep)%nat \/ no_arrays h0 root ->
  St h -> okv curr -> word prev -> f_gc prev = 0 ->
  exists h', Post h (eq curr) h' /\ visits dep h curr prev h'.
Proof.
  induction n as [n IHn] using (well_founded_induction lt_wf).
  intros dep h curr prev Ln Dp S0 V Wp Gp.
  assert (Skip : (heap_ptr curr -> marked h (f_ix curr)) -> exists h', Post h (eq curr) h' /\ visits dep h curr prev h').
  { intros H. exists h. split; [apply Post_refl; intros w <-; auto|apply visit_skip; auto]. }
  destruct (is_ptr curr) eqn:P; [|apply Skip; intros [H _]; congruence].
  destruct (is_const_ptr curr) eqn:Cn; [apply Skip; intros [_ H]; congruence|].
  assert (Hc : heap_ptr curr) by (split; auto). pose proof V as (Wc&Gc&Rc). specialize (Rc Hc).
  destruct (dr_in _ _ RDY curr Rc) as (_&_&Lc). pose proof (f_ix_range curr) as Ic.
  destruct (cell_some h (f_ix curr)) as ([a d]&C). { rewrite (st_size _ S0). lia. }
  destruct (get_gc_mark d) eqn:M; [apply Skip; intros _; eapply marked_of; eauto|]. clear Skip.
  pose proof (down_true h curr (a, d) S0 V Hc C M) as DT.
  pose proof (st_un _ S0 _ _ _ C M) as C0. destruct (cdr_word _ _ _ C0) as [Wd Gd].
  pose proof (cell_range _ _ _ C) as Rg.
  destruct (Post_mark h curr (a, d) S0 Rc Hc C M) as (S1&Z1&K1&MM1&MO1). unfold mk in *. cbn [fst snd] in *.
  destruct (is_cons_rw curr) eqn:RW.
  - (* a cons cell *)
    assert (T : type_of curr = TYPE_CONS) by (apply Z.eqb_eq; exact RW).
    pose proof (okv_car _ _ _ Rc T C0) as Va. pose proof (okv_cdr _ _ _ Rc T C0) as Vd. pose proof Va as (Wa&Ga&_).
    set (h1 := hput h (f_ix curr) (prev, set_gc_mark d)) in *.
    assert (S1' : St h1) by (eapply St_put; eauto; apply get_set_mark; auto).
    assert (Z1' : S (Mz h1) = Mz h).
    { eapply Mz_put_dec; eauto; unfold unm; cbn [snd]; [rewrite M|rewrite get_set_mark by auto]; reflexivity. }
    assert (C1 : cell h1 (f_ix curr) = Some (prev, set_gc_mark d)) by (eapply cell_hput_eq; eauto).
    assert (MM : forall i, marked h1 i <-> i = f_ix curr \/ marked h i).
    { intros i. split.
      - intros (b&e&C'&M'). destruct (Z.eq_dec (f_ix curr) i) as [<-|N]; auto. right. unfold h1 in C'. rewrite cell_hput_neq in C' by lia. exists b, e. auto.
      - intros [-> |(b&e&C'&M')]; [eapply marked_of; [exact C1|apply get_set_mark; auto]|].
        destruct (Z.eq_dec (f_ix curr) i) as [<-|N]; [congruence|]. exists b, e. unfold h1. rewrite cell_hput_neq by lia. auto. }
    destruct (IHn (Mz h1) ltac:(lia) dep h1 a curr ltac:(lia) ltac:(destruct Dp; [left; lia|right; auto]) S1' Va Wc Gc) as (h2&P2&V2).
    pose proof (po_count _ _ _ P2) as L2. pose proof (St_post _ _ _ S1' P2) as S2.
    pose proof (po_keep _ _ _ P2 _ _ _ C1 (get_set_mark d Wd)) as C2.
    set (h3 := hput h2 (f_ix curr) (set_gc_mark a, set_gc_mark prev)) in *.
    assert (S3 : St h3) by (eapply St_put; eauto; apply get_set_mark; auto).
    assert (C3 : cell h3 (f_ix curr) = Some (set_gc_mark a, set_gc_mark prev)) by (eapply cell_hput_eq; eauto).
    assert (Z3 : Mz h3 = Mz h2).
    { eapply Mz_put_same; eauto. unfold unm. cbn [snd]. rewrite !get_set_mark by auto. reflexivity. }
    assert (M3 : forall i, marked h3 i <-> marked h2 i) by (intros i; eapply marked_put; eauto; apply get_set_mark; auto).
    destruct (IHn (Mz h3) ltac:(lia) dep h3 d curr ltac:(lia) ltac:(destruct Dp; [left; lia|right; auto]) S3 Vd Wc Gc) as (h4&P4&V4).
    pose proof (po_count _ _ _ P4) as L4. pose proof (po_keep _ _ _ P4 _ _ _ C3 (get_set_mark prev Wp)) as C4.
    set (h5 := hput h4 (f_ix curr) (a, set_gc_mark d)) in *.
    assert (C5 : cell h5 (f_ix curr) = Some (a, set_gc_mark d)) by (eapply cell_hput_eq; eauto).
    assert (Z5 : Mz h5 = Mz h4).
    { eapply Mz_put_same; eauto. unfold unm. cbn [snd]. rewrite !get_set_mark by auto. reflexivity. }
    assert (M5 : forall i, marked h5 i <-> marked h4 i) by (intros i; eapply marked_put; eauto; apply get_set_mark; auto).
    assert (N1 : forall j, j <> f_ix curr -> cell h1 j = cell h j) by (intros j N; unfold h1; apply cell_hput_neq; lia).
    assert (N3 : forall j, j <> f_ix curr -> cell h3 j = cell h2 j) by (intros j N; unfold h3; apply cell_hput_neq; lia).
    assert (N5 : forall j, j <> f_ix curr -> cell h5 j = cell h4 j) by (intros j N; unfold h5; apply cell_hput_neq; lia).
    assert (U : ~ marked h (f_ix curr)) by (eapply unmarked_of; eauto).
    exists h5. split.
    + constructor.
      * unfold h5, hput. rewrite (po_rest _ _ _ P4). unfold h3, hput. rewrite (po_rest _ _ _ P2). reflexivity.
      * unfold h5. rewrite hput_size, (po_size _ _ _ P4). unfold h3. rewrite hput_size, (po_size _ _ _ P2). apply hput_size.
      * intros j b e Cj Mj. assert (N : j <> f_ix curr) by (intros ->; congruence).
        rewrite N5 by auto. apply (po_keep _ _ _ P4); auto. rewrite N3 by auto. apply (po_keep _ _ _ P2); auto. rewrite N1 by auto. auto.
      * intros j b e Cj Mj. destruct (Z.eq_dec j (f_ix curr)) as [->|N].
        -- rewrite C in Cj. injection Cj as <- <-. auto.
        -- rewrite N5 by auto. rewrite <- N1 in Cj by auto.
           pose proof (proj1 (cdr_word _ _ _ (st_un _ S1' _ _ _ Cj Mj))) as We.
           destruct (po_new _ _ _ P2 _ _ _ Cj Mj) as [E|E]; rewrite <- N3 in E by auto.
           ++ apply (po_new _ _ _ P4); auto.
           ++ right. apply (po_keep _ _ _ P4); auto. apply get_set_mark; auto.
      * intros i Mi Ni. rewrite M5 in Mi. destruct (Z.eq_dec i (f_ix curr)) as [->|N].
        { exists curr. split; auto. apply reach_root; auto. }
        assert (RA : forall v w, points h0 curr v -> reach h0 (eq v) w -> reach h0 (eq curr) w).
        { intros v w Pt Rw. eapply reach_mono; [|exact Rw]. intros u <- Hv. eapply reach_step; [apply reach_root; [reflexivity|auto]|eauto|auto]. }
        destruct (marked_decide h2 i) as [Mi2|Mi2].
        -- destruct (po_sound _ _ _ P2 i Mi2) as (w&Rw&E); [rewrite MM; tauto|].
           exists w. split; auto. eapply RA; eauto. eapply pt_car; eauto.
        -- destruct (po_sound _ _ _ P4 i Mi) as (w&Rw&E); [rewrite M3; tauto|].
           exists w. split; auto. eapply RA; eauto. eapply pt_cdr; eauto.
      * intros w <- _. rewrite M5. eapply po_mono; eauto. rewrite M3. eapply po_mono; eauto. apply MM. auto.
      * intros w v Rw Nw Mw Pt Hv. rewrite M5 in *.
        assert (Up2 : marked h2 (f_ix v) -> marked h4 (f_ix v)) by (intros X; eapply po_mono; eauto; apply M3; auto).
        destruct (Z.eq_dec (f_ix w) (f_ix curr)) as [Ew|Ne].
        -- pose proof (dr_typed _ _ RDY w curr Rw Rc Ew) as Tw. rewrite T in Tw.
           inversion Pt as [b e T1 Cw|b e T1 Cw|b e dat sz el ix v' T1|b e st dep' T1]; subst; rewrite ?Ew in *.
           ++ rewrite C0 in Cw. injection Cw as <- <-. apply Up2. eapply (po_root _ _ _ P2); eauto.
           ++ rewrite C0 in Cw. injection Cw as <- <-. eapply (po_root _ _ _ P4); eauto.
           ++ exfalso. rewrite Tw in T1. revert T1. clear. arch; discriminate.
           ++ exfalso. rewrite Tw in T1. revert T1. clear. arch; discriminate.
        -- destruct (marked_decide h2 (f_ix w)) as [Mw2|Mw2].
           ++ apply Up2. eapply (po_closed _ _ _ P2); eauto. rewrite MM. tauto.
           ++ eapply (po_closed _ _ _ P4); eauto. rewrite M3. tauto.
      * lia.
    + intros k r E.
      (* last: restore the cdr and go up *)
      assert (E5 : dsw dep (S k) h4 d curr Up = Ok r).
      { cbn [dsw]. rewrite P, (not_null curr Hc Rc), ref_cell_rw, C4 by auto. cbn [bind fst snd].
        rewrite flag_mark, get_set_mark by auto. rewrite put_cell_rw, C4 by auto. cbn [bind].
        change (clr_gc_flag (set_gc_mark a)) with (clr_gc_mark (set_gc_mark a)). rewrite clr_set by auto.
        rewrite va_set, va_clear by auto. rewrite (va_of_set 0 prev) by auto. rewrite (va_clear curr prev) by auto. exact E. }
      apply V4 in E5.
      assert (E3 : dsw dep (S (S k + (5 * (Mz h3 - Mz h4) + 2))) h2 a curr Up = Ok r).
      { remember (S k + (5 * (Mz h3 - Mz h4) + 2))%nat as k3. cbn [dsw].
        rewrite P, (not_null curr Hc Rc), ref_cell_rw, C2 by auto. cbn [bind fst snd].
        rewrite flag_mark, get_mark_f, Gp. cbn [Z.eqb]. rewrite put_cell_rw, C2 by auto. cbn [bind].
        change (set_gc_flag prev) with (set_gc_mark prev). rewrite (va_of_set 0 prev) by auto.
        rewrite (va_set prev a), (va_set d prev), (va_of_set a d) by auto. exact E5. }
      apply V2 in E3.
      eapply dsw_le with (k := S (S (S k + (5 * (Mz h3 - Mz h4) + 2)) + (5 * (Mz h1 - Mz h2) + 2))); [lia| |discriminate].
      remember (S (S k + (5 * (Mz h3 - Mz h4) + 2)) + (5 * (Mz h1 - Mz h2) + 2))%nat as k1. cbn [dsw].
      rewrite DT. cbn [bind]. rewrite dec_ptr_f, rd_cell, C. cbn [bind fst snd]. rewrite RW, wr_cell, C. cbn [bind].
      rewrite (va_clear a prev), (va_clear 0 a), (va_clear curr a), (va_clear prev curr) by auto. exact E3.
  - set (h1 := hput h (f_ix curr) (a, set_gc_mark d)) in *.
    assert (C1 : cell h1 (f_ix curr) = Some (a, set_gc_mark d)) by (eapply cell_hput_eq; eauto).
    assert (MC : mark_cell h (dec_ptr curr) = Ok h1) by (rewrite dec_ptr_f; apply (mark_cell_ok h (f_ix curr) (a, d)); auto).
    assert (N1 : forall j, j <> f_ix curr -> cell h1 j = cell h j) by (intros j N; unfold h1; apply cell_hput_neq; lia).
    assert (U : ~ marked h (f_ix curr)) by (eapply unmarked_of; eauto).
    (* whatever is marked from the contents then *)
    assert (Fin : forall P h2, Post h1 P h2 -> (forall v, P v -> points h0 curr v \/ ~ heap_ptr v) ->
       (forall v, points h0 curr v -> heap_ptr v -> marked h2 (f_ix v)) -> Post h (eq curr) h2).
    { intros Q h2 P2 QP PM. constructor.
      - rewrite (po_rest _ _ _ P2). reflexivity.
      - rewrite (po_size _ _ _ P2). apply hput_size.
      - intros j b e Cj Mj. apply (po_keep _ _ _ P2); auto. rewrite N1; auto. intros ->. congruence.
      - intros j b e Cj Mj. destruct (Z.eq_dec j (f_ix curr)) as [->|N].
        + rewrite C in Cj. injection Cj as <- <-. right. apply (po_keep _ _ _ P2); auto. apply get_set_mark; auto.
        + apply (po_new _ _ _ P2); auto. rewrite N1; auto.
      - intros i Mi Ni. destruct (Z.eq_dec i (f_ix curr)) as [->|N].
        { exists curr. split; auto. apply reach_root; auto. }
        destruct (po_sound _ _ _ P2 i Mi) as (w&Rw&E).
        { intros X. apply MM1 in X as [X|X]; auto. }
        exists w. split; auto. eapply reach_mono; [|exact Rw]. intros v Qv Hv. destruct (QP v Qv) as [Pt|X]; [|tauto].
        eapply reach_step; [apply reach_root; [reflexivity|auto]|eauto|auto].
      - intros w <- _. eapply po_mono; eauto.
      - intros w v Rw Nw Mw Pt Hv. destruct (Z.eq_dec (f_ix w) (f_ix curr)) as [Ew|Ne].
        + apply PM; auto. pose proof (dr_typed _ _ RDY w curr Rw Rc Ew) as Tw.
          inversion Pt; subst; rewrite Ew, Tw in *; [eapply pt_car|eapply pt_cdr|eapply pt_elt|eapply pt_dep]; eauto.
        + eapply (po_closed _ _ _ P2); eauto. intros X. apply MM1 in X as [X|X]; auto.
      - pose proof (po_count _ _ _ P2). lia. }
    destruct (type_of curr =? TYPE_LISPARRAY) eqn:TL.
    + (* a lisp array *)
      apply Z.eqb_eq in TL. destruct (dr_array _ _ RDY curr a d Rc TL C0) as (dat&elts&ix&Em&El).
      assert (Emh : mem h1 a = Some (OLisp dat (WB * Z.of_nat (length elts)) elts ix)) by (change (mem h1) with (mem h); rewrite (st_mem _ S0); auto).
      assert (Sz : WB * Z.of_nat (length elts) / WB = Z.of_nat (length elts)).
      { rewrite Z.mul_comm, Z.div_mul; auto. clear. arch; lia. }
      destruct Dp as [Dp|NA]; [|exfalso; apply (NA curr Rc); auto].
      destruct dep as [|dp]; [lia|].
      assert (Fe : Forall okv elts).
      { apply Forall_forall. intros e Ie. destruct (El e Ie) as (We&Ge&Ne). split; auto. split; auto. intros He.
        eapply reach_step; [exact Rc| |auto]. eapply pt_elt; eauto. }
      assert (VE : forall h curr prev, (Mz h <= Mz h1)%nat -> St h -> okv curr -> word prev -> f_gc prev = 0 ->
        exists h', Post h (eq curr) h' /\ visits dp h curr prev h').
      { intros hh cc pp L' S' V' W' G'. apply (IHn (Mz h1)); auto; lia. }
      destruct (visit_elts (Mz h1) dp VE elts h1 (Nat.le_refl _) S1 Fe) as (h2&P2&E2).
      assert (P5 : Post h (eq curr) h2).
      { apply (Fin _ _ P2).
        - intros v Iv. destruct (is_ptr v) eqn:Pv; [|right; intros [X _]; congruence]. left.
          eapply pt_elt; eauto. apply El; auto.
        - intros v Pt Hv. eapply (po_root _ _ _ P2); auto.
          inversion Pt as [b e T1 Cw|b e T1 Cw|b e dat' sz el ix' v' T1 Cw Mw Iw|b e st dep' T1]; subst.
          + exfalso. rewrite TL in T1. revert T1. clear. arch; discriminate.
          + exfalso. rewrite TL in T1. revert T1. clear. arch; discriminate.
          + rewrite C0 in Cw. injection Cw as <- <-. rewrite Em in Mw. injection Mw as <- <- <- <-. auto.
          + exfalso. rewrite TL in T1. revert T1. clear. arch; discriminate. }
      exists h2. split; auto. pose proof (po_count _ _ _ P2) as L2.
      assert (S2 : St h2) by (eapply St_post; eauto).
      intros k r E. eapply dsw_le with (k := S (k + (5 * (Mz h1 - Mz h2) + 3))); [lia| |discriminate].
      remember (k + (5 * (Mz h1 - Mz h2) + 3))%nat as k1. cbn [dsw]. rewrite DT. cbn [bind].
      rewrite MC, dec_ptr_f, rd_cell, C. cbn [bind fst snd]. rewrite RW, TL, Z.eqb_refl, Emh, Sz, Z.leb_refl, Nat2Z.id, firstn_all.
      rewrite E2 by lia. cbn [bind]. eapply dsw_le with (k := S k); [lia| |discriminate].
      cbn [dsw]. rewrite (down_false h2 curr S2 V). { cbn [bind]. exact E. }
      intros _. eapply (po_mono _ _ _ _ P2); eauto.
    + (* any other object *)
      apply Z.eqb_neq in TL.
      assert (P2 : Post h1 (fun _ => False) h1) by (apply Post_refl; tauto).
      exists h1. split.
      * apply (Fin _ _ P2); [tauto|]. intros v Pt Hv. exfalso.
        inversion Pt as [b e T1 Cw|b e T1 Cw|b e dat' sz el ix' v' T1 Cw Mw Iw|b e st dep' T1 Cw Nb Mw]; subst.
        -- unfold is_cons_rw in RW. rewrite T1, Z.eqb_refl in RW. discriminate.
        -- unfold is_cons_rw in RW. rewrite T1, Z.eqb_refl in RW. discriminate.
        -- auto.
        -- apply (dr_chan _ _ RDY curr b e st v Rc T1 Cw Mw). auto.
      * intros k r E. eapply dsw_le with (k := S (S k)); [lia| |discriminate].
        remember (S k) as k1. cbn [dsw]. rewrite DT. cbn [bind]. rewrite MC, dec_ptr_f, rd_cell, C. cbn [bind fst snd].
        rewrite RW. destruct (Z.eqb_spec (type_of curr) TYPE_LISPARRAY); [contradiction|]. subst k1. cbn [dsw].
        rewrite (down_false h1 curr S1 V); [exact E|]. auto.
Qed.

End Visit.
End Arch.
