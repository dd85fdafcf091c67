(* One round of map. *)
From Verif Require Import Base Value_Model Heap_Model Env_Model Match_Model QQ_Model GC_Model Eval_Model Value_Proofs Value_Proofs2 Heap_Spec Heap_Proofs List_Proofs
  Heap_Proofs2 Env_Proofs Eval_Proofs Sort_Model Seg_Proofs Fund_Spec Fund_Proofs Ctl_Proofs Map_Model Map_Spec.
Local Open Scope Z_scope.

Section Arch.
Context {A : Arch} {HO : Host}.

Lemma NILz : NIL = 0. Proof. arch; reflexivity. Qed.
Lemma is_cons_nil : is_cons 0 = false. Proof. arch; reflexivity. Qed.

Lemma cons_gc_free h i fl g pre c a d : heap_ok h (i :: fl) -> exists h', cons_gc h g pre c a d = Ok (Val (h', enc_cons_ptr i)) /\
  kept [i] h h' /\ heap_ok h' fl /\ cell h' i = Some (a, d) /\ 0 <= i < 2 ^ (W - 8).
Proof.
  intros OK. destruct (cons_step h (i :: fl) a d OK) as (h'&r&E&K&->&OK'&C&R). exists h'. split; auto.
  unfold cons_gc. pose proof (ok_chain _ _ OK) as CH. inversion CH as [|? ? ? ? ? ? EF]; subst.
  rewrite cons_not_nil by auto using enc_cons. cbn [bind]. rewrite E. reflexivity.
Qed.
Lemma set_both_enc h i a d v w : 0 <= i < 2 ^ (W - 8) -> cell h i = Some (a, d) ->
  set_car_and_cdr h (enc_cons_ptr i) v w = Ok (hput h i (v, w), true).
Proof. intros R C. unfold set_car_and_cdr. rewrite enc_rw, (ref_enc h i _ R C) by auto. cbn [bind]. rewrite (put_enc h i (a, d)) by auto. reflexivity. Qed.

(* the heap while (f (quote x)) is evaluated: the cells of the application, the
   results so far, a cell for the next one, and the rest of the list *)
Record mheap (f x : Z) (xs : list Z) (done : list (Z * Z)) (b1 b2 a1 a0 t : Z) (head rest : Z) (h : heap) (fl : list Z) : Prop := {
  mh_ok : heap_ok h fl;
  mh_b1 : cell h b1 = Some (f, enc_cons_ptr b2);
  mh_b2 : cell h b2 = Some (enc_cons_ptr a1, 0);
  mh_a1 : cell h a1 = Some (QUOTE, enc_cons_ptr a0);
  mh_a0 : cell h a0 = Some (x, 0);
  mh_t : exists j, cell h t = Some (j, 0);
  mh_seg : seg h head done (enc_cons_ptr t);
  mh_range : Forall (fun i => 0 <= i < 2 ^ (W - 8)) [b1; b2; a1; a0; t];
  mh_nodup : NoDup (b1 :: b2 :: a1 :: a0 :: t :: map fst done);
  mh_used : forall i, In i (b1 :: b2 :: a1 :: a0 :: t :: map fst done) -> ~ In i fl;
  mh_rest : exists ps w, path h rest xs ps w /\ is_cons w = false /\ used fl ps /\ used (b1 :: b2 :: a1 :: a0 :: t :: map fst done) ps
}.
Lemma mheap_call f x xs done b1 b2 a1 a0 t head rest h fl : mheap f x xs done b1 b2 a1 a0 t head rest h fl -> call_of h (enc_cons_ptr b1) f x.
Proof.
  intros [OK B1 B2 A1 A0 T S R N U P]. repeat match goal with H : Forall _ (_ :: _) |- _ => inversion H as [|? ? ? ?]; subst; clear H end.
  exists (enc_cons_ptr a1), [enc_cons_ptr b1; enc_cons_ptr b2], [enc_cons_ptr a1; enc_cons_ptr a0]. split.
  - apply (path_app h _ [f] [_] (enc_cons_ptr b2) [_] [_]); apply path_cell; auto.
  - apply (path_app h _ [_] [_] (enc_cons_ptr a0) [x] [_]); apply path_cell; auto.
Qed.

(* heaps that agree on the cells concerned *)
Lemma mheap_same f x xs done b1 b2 a1 a0 t head rest h fl h' fl' ps w :
  mheap f x xs done b1 b2 a1 a0 t head rest h fl -> path h rest xs ps w -> is_cons w = false -> used (b1 :: b2 :: a1 :: a0 :: t :: map fst done) ps ->
  heap_ok h' fl' -> ccells h' = ccells h ->
  (forall i, In i (b1 :: b2 :: a1 :: a0 :: t :: map fst done) -> cell h' i = cell h i /\ ~ In i fl') ->
  (forall p, In p ps -> is_const_ptr p = false -> cell h' (f_ix p) = cell h (f_ix p) /\ ~ In (f_ix p) fl') ->
  mheap f x xs done b1 b2 a1 a0 t head rest h' fl'.
Proof.
  intros [OK B1 B2 A1 A0 T S R N U _] P0 W0 U0 OK' CC F1 F2.
  assert (F : forall i, In i (b1 :: b2 :: a1 :: a0 :: t :: map fst done) -> cell h' i = cell h i) by (intros i I; apply F1; auto).
  constructor; auto.
  - rewrite F by (simpl; auto). auto.
  - rewrite F by (simpl; auto). auto.
  - rewrite F by (simpl; auto). auto.
  - rewrite F by (simpl; auto). auto.
  - rewrite F by (simpl; auto 10). auto.
  - eapply seg_frame; [exact S|]. intros i I. apply F. simpl. auto 10.
  - intros i I. apply F1; auto.
  - exists ps, w. split; [eapply path_frame; [exact P0|auto|intros; apply F2; auto]|]. split; auto. split; auto. intros p I K. apply F2; auto.
Qed.

(* what the stack holds *)
Lemma held_path h K v xs ps w : path h v xs ps w -> held h K v -> forall p, In p ps -> held h K p /\ is_cons p = true /\ word p.
Proof.
  induction 1 as [|p x q xs ps w Wp Cp Pl R P IH]; intros H p' I; [destruct I|]. destruct I as [<-|I]; [auto|].
  apply IH; auto. eapply held_cdr; eauto.
Qed.
Lemma held_seg h K v l w : seg h v l w -> held h K v -> held h K w /\ forall i, In i (map fst l) -> held h K (enc_cons_ptr i).
Proof.
  induction 1 as [v|i x q l w R C S IH]; intros H; [split; [auto|intros i []]|].
  destruct IH as (H1&H2). { eapply held_cdr; [exact H|auto using enc_cons|apply ref_enc; eauto]. }
  split; [exact H1|]. intros j [<-|J]; auto.
Qed.

Definition mstack (a0 b1 t head env rest : Z) (K0 : list Z) : list Z :=
  enc_cons_ptr a0 :: enc_cons_ptr b1 :: enc_cons_ptr t :: head :: env :: rest :: K0.

Lemma mheap_evaluated f x xs done b1 b2 a1 a0 t head rest s s' fl env K0 :
  mheap f x xs done b1 b2 a1 a0 t head rest (e_heap s) fl -> e_K s = MAP :: mstack a0 b1 t head env rest K0 -> evaluated s s' ->
  exists i fl', mheap f x xs done b1 b2 a1 a0 t head rest (e_heap s') (i :: fl').
Proof.
  intros M EK (_&_&_&CC&fl'&OK'&NE&F). destruct fl' as [|i fl']; [congruence|]. exists i, fl'.
  pose proof M as [OK B1 B2 A1 A0 (j&T) S R N U (ps&w&P&Wc&Uf&Uo)].
  repeat match goal with H : Forall _ (_ :: _) |- _ => inversion H as [|? ? ? ?]; subst; clear H end.
  assert (HK : forall v, In v (MAP :: mstack a0 b1 t head env rest K0) -> held (e_heap s) (e_K s) v) by (intros v I; constructor; rewrite EK; auto).
  assert (HB : forall k, 0 <= k < 2 ^ (W - 8) -> held (e_heap s) (e_K s) (enc_cons_ptr k) -> cell (e_heap s') k = cell (e_heap s) k /\ ~ In k (i :: fl')).
  { intros k Rk Hk. pose proof (F (enc_cons_ptr k) Hk (enc_cons k Rk) (enc_word k Rk) (enc_not_const k Rk)) as FK. rewrite enc_ix in FK by auto. exact FK. }
  assert (Hb1 : held (e_heap s) (e_K s) (enc_cons_ptr b1)) by (apply HK; simpl; auto).
  assert (Hb2 : held (e_heap s) (e_K s) (enc_cons_ptr b2)) by (eapply held_cdr; [exact Hb1|auto using enc_cons|apply ref_enc; eauto]).
  assert (Ha1 : held (e_heap s) (e_K s) (enc_cons_ptr a1)) by (eapply held_car; [exact Hb2|auto using enc_cons|apply ref_enc; eauto]).
  assert (Ha0 : held (e_heap s) (e_K s) (enc_cons_ptr a0)) by (apply HK; simpl; auto).
  destruct (held_seg _ (e_K s) _ _ _ S) as (Ht&Hd). { apply HK. simpl. auto 10. }
  pose proof (seg_range _ _ _ _ S) as RS. rewrite Forall_forall in RS.
  eapply mheap_same; [exact M|exact P|exact Wc|exact Uo|exact OK'|exact CC| |].
  - intros k [<-|[<-|[<-|[<-|[<-|I]]]]]; apply HB; auto.
  - intros p I Cp. destruct (held_path _ (e_K s) _ _ _ _ P) with (p := p) as (Hp&Kp&Wp); auto. apply HK. simpl. auto 10.
Qed.

(* a round *)
Lemma cont_map_last f x done b1 b2 a1 a0 t head rest h fl g sz exp env0 env v K0 :
  mheap f x [] done b1 b2 a1 a0 t head rest h fl ->
  exists h', cont_map (mkE h g (mstack a0 b1 t head env rest K0) sz exp env0 v false) = Ok (Val (mkE h' g K0 sz exp env head true)) /\
    heap_ok h' fl /\ seg h' head (done ++ [(t, v)]) 0 /\ (forall i, In i (t :: map fst done) -> ~ In i fl) /\ same_but [t] h h'.
Proof.
  intros [OK B1 B2 A1 A0 (j&T) S R N U (ps&w&P&Wc&Uf&Uo)].
  repeat match goal with H : Forall _ (_ :: _) |- _ => inversion H as [|? ? ? ?]; subst; clear H end.
  inversion P; subst. unfold cont_map, mstack. rewrite (set_car_enc _ _ _ _ _ ltac:(eassumption) T). cbn [bind]. rewrite Wc.
  eexists. split; [reflexivity|]. assert (0 <= t) by lia. split; [apply heap_ok_put; auto; apply U; simpl; auto 10|]. split; [|split].
  - eapply seg_app; [apply seg_hput; [exact S|lia|]|econstructor; [assumption|eapply cell_hput_eq; exact T|constructor]].
    repeat match goal with H : NoDup (_ :: _) |- _ => inversion H as [|? ? ? ?]; subst; clear H end. auto.
  - intros i I. apply U. simpl in I |- *. tauto.
  - apply hput_same; auto.
Qed.

Lemma used_incl fl fl' ps : incl fl' fl -> used fl ps -> used fl' ps.
Proof. intros I U p H K J. apply (U p H K). auto. Qed.

Lemma cont_map_more f x y ys done b1 b2 a1 a0 t head rest h i fl g sz exp env0 env v K0 :
  mheap f x (y :: ys) done b1 b2 a1 a0 t head rest h (i :: fl) -> Z.of_nat (length K0) + 7 < sz ->
  exists h' rest', cont_map (mkE h g (mstack a0 b1 t head env rest K0) sz exp env0 v false) =
      Ok (Val (mkE h' g (MAP :: mstack a0 b1 i head env rest' K0) sz (enc_cons_ptr b1) env v false)) /\
    mheap f y ys (done ++ [(t, v)]) b1 b2 a1 a0 i head rest' h' fl.
Proof.
  intros [OK B1 B2 A1 A0 (j&T) S R N U (ps&w&P&Wc&Uf&Uo)] SZ.
  pose proof R as RR. repeat match goal with H : Forall _ (_ :: _) |- _ => inversion H as [|? ? ? ?]; subst; clear H end.
  assert (N5 : ~ In t (map fst done) /\ a0 <> t /\ a1 <> t /\ b2 <> t /\ b1 <> t /\ a1 <> a0 /\ b2 <> a0 /\ b1 <> a0 /\ ~ In a0 (map fst done)).
  { repeat match goal with H : NoDup (_ :: _) |- _ => inversion H as [|? ? ? ?]; subst; clear H end. simpl in *. intuition congruence. }
  destruct N5 as (Nt&Na0t&Na1t&Nb2t&Nb1t&Na1a0&Nb2a0&Nb1a0&Na0d).
  inversion P as [|? ? q ? ps' ? Wr Cr Plr Rr P']; subst.
  unfold cont_map, mstack. rewrite (set_car_enc _ _ _ _ _ ltac:(eassumption) T). cbn [bind]. rewrite Cr.
  set (h1 := hput h t (v, 0)).
  assert (FR : forall k, is_const_ptr rest = false -> In k [t; a0] -> f_ix rest <> k).
  { intros k Cp [<-|[<-|[]]] E; apply (Uo rest (or_introl eq_refl) Cp); rewrite E; simpl; auto 10. }
  assert (R1 : ref_cell h1 rest = Ok (y, q)).
  { destruct (is_const_ptr rest) eqn:Cp; [unfold ref_cell in *; rewrite Cp in *; exact Rr|].
    rewrite ref_cell_rw in * by auto. unfold h1. rewrite cell_hput_neq; [exact Rr|lia|]. intros E. symmetry in E. revert E. apply FR; simpl; auto. }
  rewrite R1. cbn [bind].
  unfold reserve at 1. cbn [length]. destruct (Z.ltb_spec (Z.of_nat (Datatypes.S (Datatypes.S (Datatypes.S (Datatypes.S (Datatypes.S (Datatypes.S (length K0))))))) + Z.of_nat 1) sz); [|lia].
  assert (A01 : cell h1 a0 = Some (x, 0)) by (unfold h1; rewrite cell_hput_neq; auto; lia).
  rewrite (set_car_enc h1 a0 x 0 y) by auto. cbn [bind]. set (h2 := hput h1 a0 (y, 0)).
  assert (OK2 : heap_ok h2 (i :: fl)).
  { unfold h2, h1. apply heap_ok_put; [apply heap_ok_put; [auto| |lia]| |lia]; apply U; simpl; auto 10. }
  destruct (cons_gc_free h2 i fl g [NIL; NIL; NIL] (regs env0 exp v (rev [MAP] ++ enc_cons_ptr a0 :: enc_cons_ptr b1 :: enc_cons_ptr t :: head :: env :: q :: K0)) NIL NIL OK2) as (h3&E3&K3&OK3&C3&Ri).
  rewrite E3. cbn [bind]. destruct K3 as (K3&CC3&_).
  assert (NI : forall k, In k (b1 :: b2 :: a1 :: a0 :: t :: map fst done) -> k <> i) by (intros k I ->; apply (U i I); left; auto).
  assert (C32 : forall k, In k (b1 :: b2 :: a1 :: a0 :: t :: map fst done) -> cell h3 k = cell h2 k) by (intros k I; apply K3; intros [E|[]]; apply (NI k I); auto).
  assert (C2 : forall k, k <> t -> k <> a0 -> cell h2 k = cell h k).
  { intros k K1 K2. unfold h2, h1. rewrite !cell_hput_neq; auto; lia. }
  assert (T3 : cell h3 t = Some (v, 0)).
  { rewrite C32 by (simpl; auto 10). unfold h2. rewrite cell_hput_neq by (auto; lia). unfold h1. eapply cell_hput_eq; eauto. }
  rewrite (set_cdr_enc h3 t v 0 (enc_cons_ptr i)) by auto. cbn [bind].
  exists (hput h3 t (v, enc_cons_ptr i)), q. split; [reflexivity|].
  assert (C4 : forall k, k <> t -> cell (hput h3 t (v, enc_cons_ptr i)) k = cell h3 k) by (intros k K1; apply cell_hput_neq; auto; lia).
  assert (IN : incl (b1 :: b2 :: a1 :: a0 :: i :: map fst (done ++ [(t, v)])) (i :: b1 :: b2 :: a1 :: a0 :: t :: map fst done)).
  { intros k. rewrite map_app. simpl. rewrite in_app_iff. simpl. tauto. }
  constructor.
  - apply heap_ok_put; [auto| |lia]. intros I. apply (U t); simpl; auto 10.
  - rewrite C4, C32, C2; simpl; auto 10.
  - rewrite C4, C32, C2; simpl; auto 10.
  - rewrite C4, C32, C2; simpl; auto 10.
  - rewrite C4, C32 by (simpl; auto 10). unfold h2. eapply cell_hput_eq; eauto.
  - exists NIL. rewrite C4 by (intros E; apply (NI t); simpl; auto 10). rewrite C3, NILz. reflexivity.
  - eapply seg_app; [|econstructor; [assumption|eapply cell_hput_eq; exact T3|constructor]].
    eapply seg_frame; [exact S|]. intros k I. rewrite C4 by (intros ->; auto). rewrite C32 by (simpl; auto 10). apply C2; intros ->; auto.
  - repeat constructor; auto; lia.
  - rewrite map_app. simpl. apply NoDup_cons_iff. 
    assert (PM : Permutation.Permutation (b1 :: b2 :: a1 :: a0 :: i :: map fst done ++ [t]) (i :: b1 :: b2 :: a1 :: a0 :: t :: map fst done)).
    { apply Permutation.perm_trans with (i :: b1 :: b2 :: a1 :: a0 :: map fst done ++ [t]).
      - apply Permutation.Permutation_sym. apply (Permutation.Permutation_middle [b1; b2; a1; a0] (map fst done ++ [t]) i).
      - do 5 apply Permutation.perm_skip. apply Permutation.Permutation_sym, Permutation.Permutation_cons_append. }
    apply NoDup_cons_iff. eapply Permutation.Permutation_NoDup; [apply Permutation.Permutation_sym, PM|]. constructor; auto.
    intros I. apply (NI i I). auto.
  - intros k I J. apply IN in I. destruct I as [<-|I].
    + pose proof (ok_nodup _ _ OK) as ND. inversion ND; auto.
    + apply (U k I). right. auto.
  - exists ps', w. split; [|split; [auto|split]].
    + eapply path_frame; [exact P'|cbn [ccells hput set_cells]; rewrite CC3; reflexivity|].
      intros p I Cp. assert (NO : ~ In (f_ix p) (b1 :: b2 :: a1 :: a0 :: t :: map fst done)) by (apply Uo; [right; auto|auto]).
      rewrite C4 by (intros E; apply NO; rewrite E; simpl; auto 10). rewrite K3.
      * apply C2; intros E; apply NO; rewrite E; simpl; auto 10.
      * intros [E|[]]. apply (Uf p); [right; auto|auto|left; auto].
    + intros p I Cp J. apply (Uf p); [right; auto|auto|right; auto].
    + intros p I Cp J. apply IN in J. destruct J as [E|J]; [apply (Uf p); [right; auto|auto|left; auto]|apply (Uo p); [right; auto|auto|auto]].
Qed.
End Arch.
