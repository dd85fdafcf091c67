(* The marking loop, roots, environments and contexts. *)
From Verif Require Import Base Value_Model Heap_Model Value_Proofs Value_Proofs2 Heap_Spec Heap_Proofs GC_Model GC_Spec GC_Proofs GC_Proofs2.
Local Open Scope Z_scope.

Section Arch.
Context {A : Arch}.

Section Mark.
Variable h0 : heap.
Variable root : Z -> Prop.
Hypothesis RDY : gc_ready h0 root.
Notation R := (reach h0 root).
Notation Inv := (Inv h0 root).

Definition opt (pc : option Z) : list Z := match pc with Some w => [w] | None => [] end.

(* what a marking function returns: out of fuel, or a heap; if it was not left by
   a critical error the GC stack is empty and the pending words are P *)
Definition mres (K : list Z) (h : heap) (P : list Z) (r : res (heap * bool)) : Prop :=
  r = Fuel \/ exists h' b, r = Ok (h', b) /\ gframe h h' /\ nolost h0 root h h' /\
    (b = true -> gstack h' = [] /\ Inv K h' [] P).

Lemma mres_bind K h P P1 r f : mres K h P1 r ->
  (forall h1, gframe h h1 -> gstack h1 = [] -> Inv K h1 [] P1 -> mres K h1 P (f (h1, true))) ->
  mres K h P (let! m := r in if snd m then f m else Ok m).
Proof.
  intros [->|(h'&b&->&F'&L'&G)] N; [left; auto|]. cbn [bind snd]. destruct b.
  - destruct (G eq_refl) as [G1 G2]. destruct (N h' F' G1 G2) as [->|(h2&b2&->&F2&L2&G3)]; [left; auto|].
    right. exists h2, b2. split; auto. split; [eapply gframe_trans; eauto|]. split; [eapply nolost_trans; eauto|]. auto.
  - right. exists h', false. split; auto. split; auto. split; auto. discriminate.
Qed.

Lemma mark_run_inv K P fuel : forall h pc, Inv K h (opt pc ++ gstack h) P -> stack_ok h ->
  mres K h P (mark_run fuel h pc).
Proof.
  induction fuel as [|fuel IH]; intros h pc I SO; [left; auto|]. cbn [mark_run].
  destruct pc as [w|].
  - simpl in I. destruct (body_inv h0 root RDY K h w P I SO) as (h'&nx&->&SO'&F&L&Nx). cbn [bind fst snd].
    assert (T : forall pc', Inv K h' (opt pc' ++ gstack h') P -> mres K h P (mark_run fuel h' pc')).
    { intros pc' I'. destruct (IH h' pc' I' SO') as [->|(h2&b2&->&F2&L2&G3)]; [left; auto|].
      right. exists h2, b2. split; auto. split; [eapply gframe_trans; eauto|]. split; [eapply nolost_trans; eauto|]. auto. }
    destruct nx as [|w'|].
    + destruct Nx as [X|Nx]; [discriminate|]. apply T. exact Nx.
    + destruct Nx as [X|Nx]; [discriminate|]. apply T. exact Nx.
    + right. exists h', false. split; auto. split; auto. split; auto. discriminate.
  - simpl in I. destruct (gstack h) as [|v s] eqn:Eg.
    + right. exists h, true. split; auto. split; [apply gframe_refl|]. split; [apply nolost_refl; auto|]. auto.
    + destruct (IH (set_gstack h s) (Some v)) as [->|(h2&b2&->&F2&L2&G3)]; [| |left; auto|right; exists h2, b2; split; auto].
      * simpl. eapply inv_ext; eauto.
      * destruct SO as [s1 s2]. rewrite Eg in s1. simpl in s1. split; simpl; lia.
Qed.

Lemma inv_pending K h P P' : Inv K h [] P ->
  (forall p, In p P -> heap_ptr p -> exists q, In q P' /\ heap_ptr q /\ f_ix q = f_ix p) ->
  (forall p, In p P' -> heap_ptr p -> rlike h0 root p) ->
  Inv K h [] P'.
Proof.
  intros [i1 i2 i3 i4 i5 i6 ik i7] F NP. constructor; auto.
  - intros NL w s Rw M Pt Hs. destruct (i6 NL w s Rw M Pt Hs) as [Ms|(p&Ip&Hp&Ep)]; auto.
    destruct (F p Ip Hp) as (q&Iq&Hq&Eq). right. exists q. split; auto. split; auto. congruence.
  - intros NL s Is Hs. destruct (ik NL s Is Hs) as [Rs [Ms|(p&Ip&Hp&Ep)]]; split; auto.
    destruct (F p Ip Hp) as (q&Iq&Hq&Eq). right. exists q. split; auto. split; auto. congruence.
Qed.

Lemma inv_drop K h P c : Inv K h [] (c :: P) -> ~ heap_ptr c -> Inv K h [] P.
Proof.
  intros I N. eapply inv_pending; eauto.
  - intros p [<-|Ip] Hp; [tauto|]. exists p. auto.
  - intros p Ip Hp. apply (iv_pend _ _ _ _ _ _ I); auto. right; auto.
Qed.

Lemma mark_phase_inv K h P r fuel : Inv K h [] (r :: P) -> gstack h = [] -> 1 <= gsize h ->
  mres K h P (mark_phase fuel h r).
Proof.
  intros I G S. unfold mark_phase. rewrite G. cbn [length]. change (Z.of_nat 0) with 0.
  destruct (Z.ltb_spec 0 (gsize h)); [|lia].
  destruct (mark_run_inv K P fuel (set_gstack h [r]) None) as [->|(h2&b2&->&F2&L2&G3)]; [| |left; auto|right; exists h2, b2; split; auto].
  - simpl. eapply inv_ext with (h := h); [|reflexivity|reflexivity|auto].
    eapply inv_weaken with (S := []) (P := r :: P); eauto.
    + intros _ p [].
    + apply (iv_pend _ _ _ _ _ _ I).
  - split; simpl; lia.
Qed.

Lemma mark_roots_inv K fuel rs : forall h P, Inv K h [] (rs ++ P) -> gstack h = [] -> 1 <= gsize h ->
  mres K h P (mark_roots fuel h rs).
Proof.
  induction rs as [|r rs IH]; intros h P I G S.
  - right. exists h, true. split; auto. split; [apply gframe_refl|]. split; [apply nolost_refl; auto|]. auto.
  - cbn [mark_roots]. eapply mres_bind; [apply mark_phase_inv; eauto|].
    intros h1 F G1 I1. cbn [fst]. apply IH; auto. destruct F as (_&_&_&_&_&_&->). auto.
Qed.

Definition auxs (n : Z) (xs : list Z) : list Z :=
  filter (fun x => is_ptr x && (POINTER_TYPE_FIRST <=? type_of x) && (type_of x <=? POINTER_TYPE_LAST) && (dec_ptr x <? n)) xs.

Lemma mark_aux_inv K fuel xs : forall h P, Inv K h [] (auxs (hsize h0) xs ++ P) -> gstack h = [] -> 1 <= gsize h ->
  mres K h P (mark_aux fuel h xs).
Proof.
  induction xs as [|r rs IH]; intros h P I G S.
  - right. exists h, true. split; auto. split; [apply gframe_refl|]. split; [apply nolost_refl; auto|]. auto.
  - cbn [mark_aux]. cbn [auxs filter] in I.
    assert (E : aux_ok h r = is_ptr r && (POINTER_TYPE_FIRST <=? type_of r) && (type_of r <=? POINTER_TYPE_LAST) && (dec_ptr r <? hsize h0)).
    { unfold aux_ok. fold (hsize h). rewrite (iv_size _ _ _ _ _ _ I). reflexivity. }
    rewrite <- E in I. destruct (aux_ok h r).
    + eapply mres_bind; [apply mark_phase_inv; eauto|].
      intros h1 F G1 I1. cbn [fst]. apply IH; auto. destruct F as (_&_&_&_&_&_&->). auto.
    + apply IH; auto.
Qed.

(* c is the pointer e, perhaps with the mark bit set *)
Definition same_ptr (e c : Z) : Prop := c = e \/ c = set_gc_mark e /\ word e.

Lemma same_ptr_facts e c : same_ptr e c -> is_ptr c = is_ptr e /\ is_const_ptr c = is_const_ptr e /\ f_ix c = f_ix e /\
  (is_ptr e = true -> type_of c = type_of e).
Proof. intros [->|[-> We]]; auto. apply set_mark_ptr; auto. Qed.

Lemma same_ptr_heap e c : same_ptr e c -> heap_ptr c <-> heap_ptr e.
Proof. intros H. destruct (same_ptr_facts _ _ H) as (E1&E2&_). unfold heap_ptr. rewrite E1, E2. tauto. Qed.

Lemma inv_swap K h P d d1 c : same_ptr d d1 -> same_ptr d c -> Inv K h [] (d1 :: P) -> Inv K h [] (c :: P).
Proof.
  intros S1 S2 I. pose proof (same_ptr_heap _ _ S1) as H1. pose proof (same_ptr_heap _ _ S2) as H2.
  destruct (same_ptr_facts _ _ S1) as (_&_&X1&X2). destruct (same_ptr_facts _ _ S2) as (_&_&X3&X4).
  eapply inv_pending; eauto.
  - intros p [<-|Ip] Hp; [exists c|exists p; simpl; auto].
    split; [left; auto|]. split; [tauto|congruence].
  - intros p [<-|Ip] Hp; [|apply (iv_pend _ _ _ _ _ _ I); auto; right; auto].
    destruct (iv_pend _ _ _ _ _ _ I d1) as (w&Rw&Ix&Ty); [left; auto|tauto|].
    assert (Hd : heap_ptr d) by tauto. destruct Hd as [Hd _]. specialize (X2 Hd). specialize (X4 Hd).
    exists w. split; auto. split; congruence.
Qed.

(* marking a cons cell by reference *)
Lemma mark_ref_inv K h P p e a d : Inv K h [] (p :: P) -> same_ptr e p -> heap_ptr e -> type_of e = TYPE_CONS ->
  cell h0 (f_ix e) = Some (a, d) ->
  exists h' d', mark_ref h p = Ok h' /\ same_ptr d d' /\ cell h' (f_ix e) = Some (a, d') /\ gframe h h' /\ lost h' = lost h /\
    gstack h' = gstack h /\ Inv K h' [] (a :: d' :: P).
Proof.
  intros I SP He Te C0. destruct (same_ptr_facts _ _ SP) as (E1&E2&E3&E4). destruct He as [He1 He2].
  assert (Hp : heap_ptr p) by (apply (same_ptr_heap _ _ SP); split; auto).
  destruct (iv_pend _ _ _ _ _ _ I p) as (w&Rw&Ix&Ty); [left; auto|auto|].
  destruct (gr_cdr _ _ RDY _ _ _ C0) as [Wd Gd].
  assert (C : exists d1, cell h (f_ix e) = Some (a, d1) /\ same_ptr d d1 /\ set_gc_mark d1 = set_gc_mark d).
  { destruct (iv_cells _ _ _ _ _ _ I _ _ _ C0) as [E|E]; eexists; split; eauto; split; auto.
    - left; auto.
    - right; auto.
    - apply set_set; auto. }
  destruct C as (d1&C&Sd&Ed).
  exists (mk h (f_ix e) (a, d1)), (set_gc_mark d).
  split. { unfold mark_ref. rewrite ref_cell_rw, E3, C by congruence. cbn [bind].
           rewrite put_cell_rw, E3, C by congruence. reflexivity. }
  split; [right; auto|]. split; [unfold mk; simpl; rewrite Ed; eapply cell_hput_eq; eauto|].
  split; [repeat split|]. split; auto. split; auto.
  assert (Tw : type_of w = TYPE_CONS) by (rewrite Ty, E4; auto).
  rewrite <- E3, <- Ix in *.
  assert (Pa : points h0 w a) by (eapply pt_car; eauto; rewrite Ty, E4; auto).
  assert (Pd : points h0 w d) by (eapply pt_cdr; eauto; rewrite Ty, E4; auto).
  eapply inv_mark with (S := []) (P := p :: P); [eassumption|eassumption|eassumption|eassumption|..].
  - intros _ q [].
  - intros _ q [<-|Iq] Hq Nq; [congruence|]. simpl. auto.
  - intros q [<-|[<-|Iq]] Hq.
    + apply rlike_reach. eapply reach_step; eauto.
    + rewrite heap_ptr_set in Hq by auto. exists d. split; [eapply reach_step; eauto|].
      destruct (set_mark_ptr d Wd) as (_&_&X1&X2). rewrite X1, X2 by apply Hq. auto.
    + apply (iv_pend _ _ _ _ _ _ I); auto. right; auto.
  - intros s Ps Hs. right; right.
    assert (s = a \/ s = d) as [->| ->].
    { pose proof lisp_not_cons. pose proof chan_not_cons.
      inversion Ps as [a1 d1' T1 C1|a1 d1' T1 C1|? ? ? ? ? ? ? T1|? ? ? ? T1]; subst; [left|right|exfalso|exfalso]; congruence. }
    + exists a. simpl; auto.
    + exists (set_gc_mark d). rewrite heap_ptr_set by auto. split; [simpl; auto|]. split; auto.
      apply set_mark_ptr; auto.
  - intros T. exfalso. pose proof lisp_not_cons. congruence.
Qed.

Lemma mark_env_inv K fuel : forall h P e c, Inv K h [] (c :: P) -> gstack h = [] -> 1 <= gsize h ->
  env_at h0 e -> same_ptr e c -> mres K h P (mark_env fuel h c).
Proof.
  induction fuel as [|fuel IH]; intros h P e c I G S E SP;
    destruct (same_ptr_facts _ _ SP) as (E1&E2&E3&E4); cbn [mark_env];
    (destruct (is_ptr c) eqn:Pc; [|right; exists h, true; split; auto; split; [apply gframe_refl|]; split; [apply nolost_refl; auto|];
       intros _; split; auto; apply (inv_drop K h P c I); intros [Hc _]; congruence]).
  - left; auto.
  - destruct E as [e Ne|e b d k v He Te Ce Hb Tb Cb Nk Ed]; [congruence|].
    destruct (mark_ref_inv K h P c e b d I SP He Te Ce) as (h1&d1&->&Sd&C1&F1&L1&G1&I1). cbn [bind].
    assert (Cc : forall hh, ref_cell hh c = match cell hh (f_ix e) with Some x => Ok x | None => UB end).
    { intros hh. rewrite ref_cell_rw, E3; auto. rewrite E2. apply He. }
    rewrite Cc, C1. cbn [bind fst].
    destruct (mark_ref_inv K h1 (d1 :: P) b b k v I1 (or_introl eq_refl) Hb Tb Cb) as (h2&v1&->&Sv&C2&F2&L2&G2&I2). cbn [bind].
    rewrite ref_cell_rw by apply Hb. rewrite C2. cbn [bind fst snd].
    assert (I2' : Inv K h2 [] (v1 :: d1 :: P)).
    { apply (inv_drop K h2 (v1 :: d1 :: P) k I2). intros [X _]; congruence. }
    pose proof (gframe_trans _ _ _ F1 F2) as F12.
    assert (S2 : 1 <= gsize h2) by (destruct F12 as (_&_&_&_&_&_&->); auto).
    destruct (mark_phase_inv K h2 (d1 :: P) v1 (Datatypes.S fuel) I2' ltac:(congruence) S2)
      as [->|(h3&bb&->&F3&L3&G3)]; [left; auto|]. cbn [bind fst snd]. destruct bb.
    + destruct (G3 eq_refl) as [G3' I3]. clear G3.
      set (h4 := set_counts h3 _ _ _).
      assert (F4 : gframe h h4) by (eapply gframe_trans; [exact F12|]; exact F3).
      assert (S4 : 1 <= gsize h4) by (destruct F4 as (_&_&_&_&_&_&->); auto).
      assert (STEP : forall c', same_ptr d c' -> mres K h P (mark_env fuel h4 c')).
      { intros c' SP'.
        assert (I4 : Inv K h4 [] (c' :: P)).
        { eapply inv_ext with (h := h3); [|reflexivity|reflexivity|auto]. exact (inv_swap K h3 P d d1 c' Sd SP' I3). }
        destruct (IH h4 P d _ I4 G3' S4 Ed SP') as [->|(h5&b5&->&F5&L5&G5)]; [left; auto|].
        right; exists h5, b5; split; auto; split; [eapply gframe_trans; eauto|]; split; auto.
        eapply nolost_trans; [|exact L5]. eapply nolost_trans with (b := h2); [apply nolost_refl; congruence|]. exact L3. }
      destruct (iv_cells _ _ _ _ _ _ I3 _ _ _ Ce) as [C3|C3].
      all: rewrite Cc; change (cell h4 (f_ix e)) with (cell h3 (f_ix e)); rewrite C3; cbn [bind snd].
      all: eapply STEP; unfold same_ptr; destruct (gr_cdr _ _ RDY _ _ _ Ce); auto.
    + right. exists h3, false. split; auto. split; [eapply gframe_trans; eauto|]. split; [|discriminate].
      eapply nolost_trans with (b := h2); [apply nolost_refl; congruence|]. exact L3.
Qed.

Lemma mark_envs_inv K fuel es : forall h P, Inv K h [] (es ++ P) -> gstack h = [] -> 1 <= gsize h ->
  Forall (env_at h0) es -> mres K h P (mark_envs fuel h es).
Proof.
  induction es as [|e es IH]; intros h P I G S F.
  - right. exists h, true. split; auto. split; [apply gframe_refl|]. split; [apply nolost_refl; auto|]. auto.
  - cbn [mark_envs]. inversion F; subst. eapply mres_bind; [eapply mark_env_inv with (e := e); eauto; left; auto|].
    intros h1 Fr G1 I1. cbn [fst]. apply IH; auto. destruct Fr as (_&_&_&_&_&_&->). auto.
Qed.

(* the words a context keeps alive *)
Definition ctx_words (n : Z) (c : croots) : list Z := c_env c :: c_roots c ++ auxs n (c_stack c).

Lemma mark_context_inv K fuel h P c : Inv K h [] (ctx_words (hsize h0) c ++ P) -> gstack h = [] -> 1 <= gsize h ->
  env_at h0 (c_env c) -> mres K h P (mark_context fuel h c).
Proof.
  intros I G S E. unfold mark_context. unfold ctx_words in I. cbn [app] in I. rewrite <- app_assoc in I.
  eapply mres_bind; [eapply mark_env_inv with (e := c_env c); eauto; left; auto|].
  intros h1 Fr G1 I1. cbn [fst].
  assert (S1 : 1 <= gsize h1) by (destruct Fr as (_&_&_&_&_&_&->); auto).
  eapply mres_bind; [eapply mark_roots_inv; eauto|].
  intros h2 Fr2 G2 I2. cbn [fst]. apply mark_aux_inv; auto. destruct Fr2 as (_&_&_&_&_&_&->). auto.
Qed.

Lemma mark_contexts_inv K fuel cs : forall h P, Inv K h [] (flat_map (ctx_words (hsize h0)) cs ++ P) -> gstack h = [] -> 1 <= gsize h ->
  Forall (fun c => env_at h0 (c_env c)) cs -> mres K h P (mark_contexts fuel h cs).
Proof.
  induction cs as [|c cs IH]; intros h P I G S F.
  - right. exists h, true. split; auto. split; [apply gframe_refl|]. split; [apply nolost_refl; auto|]. auto.
  - cbn [mark_contexts]. inversion F; subst. cbn [flat_map] in I. rewrite <- app_assoc in I.
    eapply mres_bind; [eapply mark_context_inv; eauto|].
    intros h1 Fr G1 I1. cbn [fst]. apply IH; auto. destruct Fr as (_&_&_&_&_&_&->). auto.
Qed.

(* the start: nothing marked, the roots pending *)
Lemma inv_start K : (forall r, In r K -> root r) -> Inv K h0 [] K.
Proof.
  intros HK.
  assert (NM : forall i, ~ marked h0 i).
  { intros i (a&d&C&M). destruct (gr_cdr _ _ RDY _ _ _ C) as [_ G]. rewrite get_mark_f, G in M. discriminate. }
  constructor; auto.
  - intros i M. exfalso; eapply NM; eauto.
  - intros p Ip Hp. apply rlike_reach. apply reach_root; auto.
  - intros _ w s _ M. exfalso; eapply NM; eauto.
  - intros _ s Is Hs. split; [apply reach_root; auto|]. right. exists s. auto.
  - intros w a d Rw T C. destruct (gr_array _ _ RDY w a d Rw T C) as (data&elts&M&L1&L2).
    exists data, elts, 0%nat. split; auto. split; auto. split; [lia|]. split; auto. split; [intros; lia|].
    split; intros; congruence.
Qed.

(* the end: exactly the live cells are marked, the objects are as before *)
Lemma inv_end K h : Inv K h [] [] -> lost h = false -> (forall r, root r -> In r K) ->
  (forall i, marked h i <-> live h0 root i).
Proof.
  intros I NL HK i. split; [apply (iv_sound _ _ _ _ _ _ I)|].
  intros (w&Rw&<-). induction Rw as [w Rt Hw|w v Rw IH Pt Hv].
  - destruct (iv_keep _ _ _ _ _ _ I NL w (HK _ Rt) Hw) as [_ [M|(p&[]&_)]]; auto.
  - destruct (iv_black _ _ _ _ _ _ I NL w v Rw IH Pt Hv) as [M|(p&[]&_)]; auto.
Qed.

End Mark.
End Arch.
