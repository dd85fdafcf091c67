(* Collections: what can be reached from the roots stays as it is. *)
From Verif Require Import Base Value_Model Heap_Model Env_Model Match_Model QQ_Model GC_Model Eval_Model Eval_Spec
  Value_Proofs Value_Proofs2 Heap_Spec Heap_Proofs Heap_Proofs2 List_Proofs Env_Proofs QQ_Proofs GC_Spec GC_Proofs5 GC_Term GC_TermProps
  Eval_Rel Eval_Proofs.
Local Open Scope Z_scope.

Section Arch.
Context {A : Arch} {HO : Host}.

Ltac sp := repeat match goal with |- _ /\ _ => split end.

Lemma enc_inj i j : 0 <= i < 2 ^ (W - 8) -> 0 <= j < 2 ^ (W - 8) -> enc_cons_ptr i = enc_cons_ptr j -> i = j.
Proof. intros H H' E. rewrite <- (enc_ix i), <- (enc_ix j) by auto. congruence. Qed.

Lemma enc_type_cons i : 0 <= i < 2 ^ (W - 8) -> type_of (enc_cons_ptr i) = TYPE_CONS.
Proof. intros H. apply Z.eqb_eq, enc_type; auto. Qed.

Lemma enc_heap_ptr i : 0 <= i < 2 ^ (W - 8) -> heap_ptr (enc_cons_ptr i).
Proof.
  intros H. split; [apply cons_is_ptr, enc_cons; auto|].
  destruct (enc_cons_fields i H) as (E1&E2&E3&E4&E5). rewrite is_const_f, E2 by auto. reflexivity.
Qed.

Lemma rd_in {T} (l : list T) i x : rd l i = Ok x -> In x l.
Proof.
  intros H. apply rd_inv in H. destruct H as [_ H]. eapply nth_error_In; eauto.
Qed.

(* ---- what is within reach ---- *)

(* if [x] refers to a cell, then to one within reach of [R] *)
Definition rooted (w : world) (R : list Z) (x : Z) : Prop :=
  forall i, 0 <= i < 2 ^ (W - 8) -> x = enc_cons_ptr i -> ~ In i (wfl w) -> rch w R i.

Lemma rch_free w R i : rch w R i -> ~ In i (wfl w).
Proof. destruct 1; auto. Qed.

Lemma rch_mono w R R' : Forall (rooted w R) R' -> forall i, rch w R' i -> rch w R i.
Proof.
  intros F i. induction 1 as [i Ri I N|i a d j RC IH N C Rj E Nj].
  - apply in_app_or in I. destruct I as [I|I].
    + rewrite Forall_forall in F. apply (F _ I); auto.
    + apply rch_root; auto. apply in_or_app; auto.
  - eapply rch_step; eauto.
Qed.

Lemma rooted_in w R x : In x R -> rooted w R x.
Proof. intros I i Ri -> N. apply rch_root; auto. apply in_or_app; auto. Qed.

Lemma rooted_incl w R R' : incl R' R -> Forall (rooted w R) R'.
Proof. intros I. apply Forall_forall. intros x X. apply rooted_in; auto. Qed.

Lemma rooted_mono w R R' x : Forall (rooted w R) R' -> rooted w R' x -> rooted w R x.
Proof. intros F H i Ri E N. eapply rch_mono; eauto. Qed.

Lemma rooted_sym w R k : rooted w R (enc_sym k).
Proof. intros i Ri E. pose proof (sym_not_cons k) as X. rewrite E, enc_cons in X by auto. discriminate. Qed.

Lemma rooted_no w R x : ~ heap_ptr x -> rooted w R x.
Proof. intros N i Ri ->. elim N. apply enc_heap_ptr; auto. Qed.

(* what a pair holds *)
Lemma rooted_pair w g s R p a d : srel w g s -> pair_at w p a d -> rooted w R p -> rooted w R a /\ rooted w R d.
Proof.
  intros SR (W1&C1&G1&R1&L1) RT. destruct (is_const_ptr p) eqn:E.
  - unfold ref_cell in R1. rewrite E in R1. apply rd_in in R1. destruct (sr_const _ _ _ SR _ _ R1). split; apply rooted_no; auto.
  - destruct (L1 eq_refl) as (i&Ri&->&Li). rewrite ref_cell_rw, enc_ix in R1 by auto.
    destruct (cell (wh w) i) as [[a' d']|] eqn:Ci; [|discriminate]. injection R1 as -> ->.
    pose proof (RT i Ri eq_refl (proj1 Li)) as X.
    split; intros j Rj -> Nj; eapply rch_step; eauto; apply Li.
Qed.

(* ---- worlds that agree on a set of cells ---- *)

Record transport (P : Z -> Prop) (w w' : world) : Prop := {
  tp_ccells : ccells (wh w') = ccells (wh w);
  tp_live : forall i, P i -> live w i -> live w' i /\ cell (wh w') i = cell (wh w) i;
  tp_step : forall i a d j, P i -> live w i -> cell (wh w) i = Some (a, d) -> 0 <= j < 2 ^ (W - 8) ->
    a = enc_cons_ptr j \/ d = enc_cons_ptr j -> ~ In j (wfl w) -> P j;
  tp_locs : forall l j k, P j -> wL w l = Some (j, k) -> wL w' l = Some (j, k)
}.

(* if [x] refers to a cell in use, then to one of the set *)
Definition within (P : Z -> Prop) (w : world) (x : Z) : Prop :=
  forall i, 0 <= i < 2 ^ (W - 8) -> x = enc_cons_ptr i -> ~ In i (wfl w) -> P i.

Section Transport.
Variables (P : Z -> Prop) (w w' : world) (g : list Z) (s : rstate).
Hypothesis SR : srel w g s.
Hypothesis TP : transport P w w'.

Lemma pair_t p a d : pair_at w p a d -> within P w p -> pair_at w' p a d /\ within P w a /\ within P w d.
Proof.
  intros (W1&C1&G1&R1&L1) RT. unfold pair_at. destruct (is_const_ptr p) eqn:E.
  - unfold ref_cell in *. rewrite E in *. rewrite (tp_ccells _ _ _ TP). pose proof (rd_in _ _ _ R1) as R2.
    destruct (sr_const _ _ _ SR _ _ R2) as [N1 N2].
    split; [sp; auto; discriminate|]. split; intros i Ri ->; [elim N1|elim N2]; apply enc_heap_ptr; auto.
  - destruct (L1 eq_refl) as (i&Ri&->&Li). rewrite ref_cell_rw, enc_ix in R1 by auto. rewrite ref_cell_rw, enc_ix by auto.
    pose proof (RT i Ri eq_refl (proj1 Li)) as X. destruct (tp_live _ _ _ TP i X Li) as [L' C']. rewrite C'.
    split; [sp; auto; intros _; exists i; auto|].
    destruct (cell (wh w) i) as [[a' d']|] eqn:Ci; [|discriminate]. injection R1 as -> ->.
    split; intros j Rj -> Nj; eapply (tp_step _ _ _ TP i); eauto.
Qed.

Lemma erel_t e x : erel w e x -> within P w x -> erel w' e x.
Proof.
  induction 1 as [|k l e i j d Ri Li Ci Nl E IH]; intros RT; [constructor|].
  pose proof (RT i Ri eq_refl (proj1 Li)) as X. destruct (tp_live _ _ _ TP i X Li) as [L' C'].
  destruct (sr_loc _ _ _ SR l j k Nl) as (Rj&Fj&_).
  apply er_cons with (j := j) (d := d); auto; [congruence| |].
  - apply (tp_locs _ _ _ TP); auto. eapply (tp_step _ _ _ TP i); eauto.
  - apply IH. intros q Rq -> Nq. eapply (tp_step _ _ _ TP i); eauto.
Qed.

Lemma vrel_t v x : vrel w v x -> within P w x -> vrel w' v x.
Proof.
  induction 1 as [k R N NT|x X1 X2 X3 X4 X5|a d p x y PA Va IHa Vd IHd|ps body e p1 p2 p3 p4 x y z P1 P2 P3 P4 V1 IH1 V2 IH2 E];
    intros RT; [constructor; auto|constructor; auto| |].
  - destruct (pair_t _ _ _ PA RT) as (PA'&Ra&Rd). econstructor; eauto.
  - destruct (pair_t _ _ _ P1 RT) as (P1'&_&R1). destruct (pair_t _ _ _ P2 R1) as (P2'&R2&R2').
    destruct (pair_t _ _ _ P3 R2') as (P3'&R3&R3'). destruct (pair_t _ _ _ P4 R3') as (P4'&R4&_).
    econstructor; eauto using erel_t.
Qed.

Lemma crel_t o x : crel w o x -> within P w x -> crel w' o x.
Proof. destruct o; cbn; eauto using vrel_t. Qed.
End Transport.

(* ---- keeps ---- *)

Lemma keeps_refl R w : keeps R w w.
Proof. constructor; auto; [intros; eapply rch_free; eauto|tauto]. Qed.

Lemma keeps_mono R R' w w' : keeps R w w' -> Forall (rooted w R) R' -> keeps R' w w'.
Proof.
  intros [K1 K2 K3 K4 K5 K6] F. pose proof (rch_mono _ _ _ F) as M. constructor; eauto.
Qed.

Lemma keeps_incl R R' w w' : keeps R w w' -> incl R' R -> keeps R' w w'.
Proof. intros K I. eapply keeps_mono; eauto using rooted_incl. Qed.

Lemma rch_keeps R w w' : keeps R w w' -> forall i, rch w R i -> rch w' R i.
Proof.
  intros K i. induction 1 as [i Ri I N|i a d j RC IH N C Rj E Nj].
  - apply rch_root; auto. apply (kp_free _ _ _ K). apply rch_root; auto.
  - destruct (kp_cells _ _ _ K i RC N) as [E1 E2]. eapply rch_step; eauto; [congruence|].
    apply (kp_free _ _ _ K). eapply rch_step; eauto.
Qed.

Lemma keeps_trans R w1 w2 w3 : keeps R w1 w2 -> keeps R w2 w3 -> keeps R w1 w3.
Proof.
  intros K L. pose proof (rch_keeps _ _ _ K) as M.
  destruct K as [K1 K2 K3 K4 K5 K6], L as [L1 L2 L3 L4 L5 L6]. constructor; try congruence; auto.
  - intros i X N. destruct (K4 i X N) as [E F]. destruct (L4 i (M i X) F) as [E' F']. split; auto. congruence.
  - intros i X. rewrite (K6 i X). auto.
Qed.

(* the cells of [R'] are new, or within reach *)
Lemma keeps_trans' R R' w1 w2 w3 : keeps R w1 w2 -> Forall (rooted w2 R') R -> keeps R' w2 w3 -> keeps R w1 w3.
Proof. intros K F L. eapply keeps_trans; [eauto|]. eapply keeps_mono; eauto. Qed.

Lemma hext_keeps R w w' : hext w w' -> (forall i, ~ In i (wfl w) -> wR w i -> wR w' i) -> keeps R w w'.
Proof.
  intros [C Z F L N P K] PR. constructor; auto.
  - intros i X Y. apply F in Y. apply rch_free in X. auto.
  - intros i X Y. apply rch_free in X. split; auto. intros Q. destruct (N i Q); auto.
  - intros i X. apply rch_free in X. split; [auto|]. intros Q. destruct (P i Q); auto. contradiction.
Qed.

Lemma hext_keeps_same R w w' : hext w w' -> wR w' = wR w -> keeps R w w'.
Proof. intros H E. apply hext_keeps; auto. intros i _. rewrite E. auto. Qed.

Lemma keeps_transport R w w' : keeps R w w' -> transport (rch w R) w w'.
Proof.
  intros [K1 K2 K3 K4 K5 K6]. constructor; auto.
  - intros i X (L1&L2&L3). destruct (K4 i X L2) as [E F]. split; auto. split; [auto|]. split; auto. rewrite <- K6; auto.
  - intros i a d j X (L1&L2&L3) C Rj E N. eapply rch_step; eauto.
Qed.

Section Keeps.
Variables (R : list Z) (w w' : world) (g : list Z) (s : rstate).
Hypothesis SR : srel w g s.
Hypothesis KP : keeps R w w'.

Lemma pair_k p a d : pair_at w p a d -> rooted w R p -> pair_at w' p a d.
Proof. intros H RT. eapply (pair_t (rch w R) w w' g s SR (keeps_transport _ _ _ KP)); auto. Qed.
Lemma erel_k e x : erel w e x -> rooted w R x -> erel w' e x.
Proof. intros H RT. apply (erel_t (rch w R) w w' g s SR (keeps_transport _ _ _ KP)); auto. Qed.
Lemma vrel_k v x : vrel w v x -> rooted w R x -> vrel w' v x.
Proof. intros H RT. apply (vrel_t (rch w R) w w' g s SR (keeps_transport _ _ _ KP)); auto. Qed.
Lemma crel_k o x : crel w o x -> rooted w R x -> crel w' o x.
Proof. intros H RT. apply (crel_t (rch w R) w w' g s SR (keeps_transport _ _ _ KP)); auto. Qed.
Lemma good_k x : good w x -> rooted w R x -> good w' x.
Proof.
  intros (G1&G2&G3&G4) RT. split; [|split; [|split]]; auto. intros H. destruct (G4 H) as (i&Ri&E&N).
  exists i. rewrite (kp_size _ _ _ KP). split; [|split]; auto. apply (kp_free _ _ _ KP). apply RT; auto.
  pose proof (sr_size _ _ _ SR). lia.
Qed.
Lemma kgood_k x : kgood w x -> rooted w R x -> kgood w' x.
Proof.
  intros G RT S. apply good_k; auto. apply G. unfold stack_ref in *. rewrite (kp_size _ _ _ KP) in S. auto.
Qed.
Lemma rooted_k x : good w x -> rooted w R x -> rooted w' R x.
Proof.
  intros G RT i Ri -> N. eapply rch_keeps; eauto. apply RT; auto.
  destruct G as (_&_&_&G). destruct (G (enc_heap_ptr i Ri)) as (j&Rj&E&Nj).
  pose proof (sr_size _ _ _ SR). apply enc_inj in E; [subst; auto|auto|lia].
Qed.
End Keeps.

(* ---- environments are not longer than the heap has cells ---- *)

Lemma erel_inv w e x : erel w e x -> (e = [] /\ x = 0) \/
  exists k l e' i j d, e = (k, l) :: e' /\ x = enc_cons_ptr i /\ 0 <= i < 2 ^ (W - 8) /\ live w i /\
    cell (wh w) i = Some (enc_cons_ptr j, d) /\ wL w l = Some (j, k) /\ erel w e' d.
Proof. destruct 1 as [|k l e i j d Ri Li Ci Nl E]; auto. right. exists k, l, e, i, j, d. auto 10. Qed.

Lemma enc_not_0 i : 0 <= i < 2 ^ (W - 8) -> enc_cons_ptr i <> 0.
Proof. intros R X. pose proof (enc_cons i R) as Y. rewrite X, zero_not_cons in Y. discriminate. Qed.

Lemma erel_length w e e' x : erel w e x -> erel w e' x -> length e = length e'.
Proof.
  intros H. revert e'. induction H as [|k l e i j d Ri Li Ci Nl E IH]; intros e' H'; apply erel_inv in H';
    destruct H' as [[-> X]|(k'&l'&e1&i'&j'&d'&->&X&Ri'&Li'&Ci'&Nl'&E')]; auto.
  - symmetry in X. elim (enc_not_0 i'); auto.
  - elim (enc_not_0 i); auto.
  - apply enc_inj in X; auto. subst i'. cbn. f_equal. apply IH. congruence.
Qed.

Lemma erel_spine w e x : erel w e x -> exists is, length is = length e /\ NoDup is /\
  forall i, In i is -> 0 <= i < hsize (wh w) /\ exists e', erel w e' (enc_cons_ptr i) /\ (length e' <= length e)%nat.
Proof.
  induction 1 as [|k l e i j d Ri Li Ci Nl E (is&L&ND&F)].
  - exists []. repeat split; auto using NoDup_nil; destruct H.
  - exists (i :: is). split; [cbn; auto|]. split.
    + constructor; auto. intros X. destruct (F i X) as (_&e'&E'&L').
      assert (H : erel w ((k, l) :: e) (enc_cons_ptr i)) by (econstructor; eauto).
      pose proof (erel_length _ _ _ _ H E') as Y. cbn in Y. lia.
    + intros q [<-|X].
      * split; [eapply cell_range; eauto|]. exists ((k, l) :: e). split; auto. econstructor; eauto.
      * destruct (F q X) as (Rq&e'&E'&L'). split; auto. exists e'. split; auto. cbn; lia.
Qed.

Lemma nodup_range (is : list Z) n : NoDup is -> (forall i, In i is -> 0 <= i < Z.of_nat n) -> (length is <= n)%nat.
Proof.
  intros ND F. rewrite <- (seq_length n 0), <- (map_length Z.of_nat). apply NoDup_incl_length; auto.
  intros i I. apply F in I. apply in_map_iff. exists (Z.to_nat i). split; [lia|]. apply in_seq. lia.
Qed.

Lemma erel_short w e x : erel w e x -> (length e <= length (cells (wh w)))%nat.
Proof.
  intros H. destruct (erel_spine _ _ _ H) as (is&L&ND&F). rewrite <- L. apply nodup_range; auto.
  intros i I. apply (F i I).
Qed.

Lemma erel_env_len w g s e x : srel w g s -> erel w e x -> env_len (wh w) x (length e).
Proof.
  intros SR. induction 1 as [|k l e i j d Ri Li Ci Nl E IH].
  - apply el_nil. unfold is_ptr. arch; reflexivity.
  - destruct (sr_loc _ _ _ SR l j k Nl) as (Rj&_&KO&o&v&_&Cj&_).
    eapply el_cons with (b := enc_cons_ptr j) (d := d); eauto using enc_heap_ptr, enc_type_cons, sym_not_ptr; rewrite enc_ix; eauto.
Qed.

(* ---- a collection ---- *)

Lemma num_elts_0 h : (forall x, mem h x = None) -> num_elts h = 0%nat.
Proof.
  intros M. unfold num_elts. induction (cells h) as [|c l IH]; auto. cbn. rewrite M. auto.
Qed.

Section Collect.
Variables (w : world) (g : list Z) (s : rstate) (pre : list Z) (c : croots).
Hypothesis SR : srel w g s.
Hypothesis PRE : Forall (good w) pre.
Hypothesis CTX : ctx_ok w c.
Notation h0 := (wh w).
Notation root := (gc_root (wh w) pre g (others ++ [c])).
Notation roots := (pre ++ c_env c :: c_roots c ++ c_stack c).

Lemma ctx_all c' : In c' (others ++ [c]) -> ctx_ok w c'.
Proof.
  intros I. apply in_app_or in I. destruct I as [I|[<-|[]]]; auto.
  pose proof (sr_others _ _ _ SR) as F. rewrite Forall_forall in F. auto.
Qed.

Lemma glob_env x : In x g -> exists e, erel w e x.
Proof.
  intros I. apply In_nth_error in I. destruct I as (n&E).
  assert (L : (n < 32)%nat) by (rewrite <- (sr_glen _ _ _ SR); apply nth_error_Some; congruence).
  destruct (sr_glob _ _ _ SR (Z.of_nat n)) as (r&N&R); [lia|]. rewrite Nat2Z.id in N. assert (r = x) by congruence. subst. eauto.
Qed.

Lemma root_good x : root x -> good w x.
Proof.
  pose proof (sr_size _ _ _ SR) as SZ. intros [I|[I|(c'&I&H)]].
  - rewrite Forall_forall in PRE. auto.
  - destruct (glob_env x I) as (e&E). eapply erel_good; eauto.
  - destruct (ctx_all c' I) as ((e&E)&R&K). destruct H as [->|[H|[H S]]].
    + eapply erel_good; eauto.
    + rewrite Forall_forall in R. auto.
    + rewrite Forall_forall in K. apply (K x H); auto.
Qed.

Lemma good_enc x : good w x -> heap_ptr x -> exists i, 0 <= i < hsize h0 /\ 0 <= i < 2 ^ (W - 8) /\ x = enc_cons_ptr i /\ ~ In i (wfl w).
Proof.
  pose proof (sr_size _ _ _ SR) as SZ. intros (_&_&_&G) H. destruct (G H) as (i&Ri&E&N). exists i. sp; auto; lia.
Qed.

Lemma cons_neq_types : TYPE_CONS <> TYPE_LISPARRAY /\ TYPE_CONS <> TYPE_CHANNEL.
Proof. arch; split; discriminate. Qed.

Lemma reach_good x : reach h0 root x -> good w x /\ heap_ptr x.
Proof.
  induction 1 as [x R H|x v RX [G H] P HV]; [split; auto using root_good|]. split; auto.
  destruct (good_enc x G H) as (i&Ri&Ri'&->&N). destruct cons_neq_types as [N1 N2].
  destruct P as [a d T C|a d T C|a d data size elts k v T C M Iv Nv|a d st dep T C Na M]; rewrite enc_type_cons in T by auto; try congruence;
    rewrite enc_ix in C by auto; apply (sr_good _ _ _ SR _ _ _ N C).
Qed.

Lemma reach_enc x : reach h0 root x -> exists i, 0 <= i < hsize h0 /\ 0 <= i < 2 ^ (W - 8) /\ x = enc_cons_ptr i /\ ~ In i (wfl w).
Proof. intros R. destruct (reach_good x R). apply good_enc; auto. Qed.

Lemma reach_cons x : reach h0 root x -> type_of x = TYPE_CONS.
Proof. intros R. destruct (reach_enc x R) as (i&_&Ri&->&_). apply enc_type_cons; auto. Qed.

Lemma cdr_plain i a d : cell h0 i = Some (a, d) -> word d /\ f_gc d = 0 /\ ~ owner d.
Proof.
  intros C. destruct (in_dec Z.eq_dec i (wfl w)) as [I|N].
  - pose proof (sr_heap _ _ _ SR) as [SZ CH _ _]. revert C I. generalize dependent (freelist h0). intros v CH.
    induction CH as [|i' a' q l C' CH IH]; intros C I; [destruct I|].
    destruct I as [->|I]; [|auto]. assert (E : q = d) by congruence. subst q.
    inversion CH as [X|j aj qj l' Cj CHj X]; subst.
    + destruct (nil_good w) as (G1&G2&G3&_). auto.
    + pose proof (cell_range _ _ _ Cj) as Rj. assert (R : 0 <= j < 2 ^ (W - 8)) by lia.
      split; [apply enc_word; auto|]. split; [apply enc_gc; auto|]. intros X. apply owner_symbol in X.
      rewrite cons_not_symbol in X; auto using enc_cons. discriminate.
  - destruct (sr_good _ _ _ SR i a d N C) as [_ (G1&G2&G3&_)]. auto.
Qed.

Lemma no_blocks i : blocks h0 i = [].
Proof.
  unfold blocks. destruct (cell h0 i) as [[a d]|] eqn:C; auto. destruct (cdr_plain i a d C) as (_&_&NO).
  assert (N : forall k, owner (enc_sym k) -> (d =? enc_sym k) = false).
  { intros k O. apply Z.eqb_neq. intros ->. auto. }
  rewrite !N; auto; unfold owner; auto 10.
Qed.

Lemma ready : gc_ready h0 root.
Proof.
  destruct cons_neq_types as [N1 N2]. destruct (sr_idle _ _ _ SR) as (I1&I2&I3&I4). constructor; auto.
  - intros i a d C. destruct (cdr_plain i a d C) as (?&?&?). auto.
  - apply (sr_size _ _ _ SR).
  - intros x R. destruct (reach_enc x R) as (i&Ri&Ri'&->&_). split; [apply enc_word; auto|]. rewrite enc_ix by auto. lia.
  - intros x v R R' _. rewrite !reach_cons; auto.
  - intros x a d R T. rewrite reach_cons in T by auto. congruence.
  - intros x v a d d' R R' T. rewrite reach_cons in T by auto. congruence.
  - intros x a d R T. rewrite reach_cons in T by auto. congruence.
  - intros i a d C O. destruct (cdr_plain i a d C) as (_&_&NO). contradiction.
  - intros i j a d d' C _ O. destruct (cdr_plain i a d C) as (_&_&NO). contradiction.
  - intros i j x X. rewrite no_blocks in X. destruct X.
Qed.

Lemma envs_ok : Forall (fun e => exists m, env_len h0 e m /\ (m <= length (cells h0))%nat) g /\
  Forall (fun c => exists m, env_len h0 (c_env c) m /\ (m <= length (cells h0))%nat) (others ++ [c]).
Proof.
  split; apply Forall_forall.
  - intros x I. destruct (glob_env x I) as (e&E). exists (length e). split; [eapply erel_env_len; eauto|eapply erel_short; eauto].
  - intros c' I. destruct (ctx_all c' I) as ((e&E)&_). exists (length e). split; [eapply erel_env_len; eauto|eapply erel_short; eauto].
Qed.

Lemma gc_ends : exists h' b, gc (gc_fuel h0) h0 pre g (others ++ [c]) = Ok (h', b).
Proof.
  destruct envs_ok as [E1 E2]. apply gc_bounded with (rk := fun _ => 0%nat) (depth := 0%nat) (n := length (cells h0)); auto using ready.
  - intros x v R T. rewrite reach_cons in T by auto. destruct cons_neq_types. congruence.
  - unfold rounds, gc_fuel. rewrite num_elts_0 by apply (sr_idle _ _ _ SR). apply Nat.eq_le_incl. f_equal. f_equal; lia.
Qed.

Lemma reach_live i : 0 <= i < 2 ^ (W - 8) -> reach h0 root (enc_cons_ptr i) -> GC_Spec.live h0 root i.
Proof. intros R H. exists (enc_cons_ptr i). split; auto. apply enc_ix; auto. Qed.
Lemma live_reach i : GC_Spec.live h0 root i -> reach h0 root (enc_cons_ptr i).
Proof. intros (x&R&E). destruct (reach_enc x R) as (j&_&Rj&->&_). rewrite enc_ix in E by auto. subst. auto. Qed.

Lemma live_step i a d j : GC_Spec.live h0 root i -> cell h0 i = Some (a, d) -> 0 <= j < 2 ^ (W - 8) ->
  a = enc_cons_ptr j \/ d = enc_cons_ptr j -> GC_Spec.live h0 root j.
Proof.
  intros L C Rj E. apply reach_live; auto. pose proof L as (x&R&X). eapply reach_step; [exact R| |apply enc_heap_ptr; auto].
  pose proof (reach_cons x R) as T. rewrite <- X in C. destruct E as [<-|<-]; [eapply pt_car|eapply pt_cdr]; eauto.
Qed.

Lemma rch_live i : rch w roots i -> GC_Spec.live h0 root i \/ hsize h0 <= i.
Proof.
  induction 1 as [i Ri I N|i a d j RC [IH|IH] N C Rj E Nj].
  - destruct (Z_lt_le_dec i (hsize h0)) as [L|]; auto. left. apply reach_live; auto. apply reach_root; [|apply enc_heap_ptr; auto].
    assert (ST : stack_ref h0 (enc_cons_ptr i)).
    { split; [apply enc_is_ptr; auto|]. rewrite enc_type_cons, enc_ix by auto. split; auto. clear. arch; unfold TYPE_CONS, POINTER_TYPE_FIRST, POINTER_TYPE_LAST, sel; cbn; lia. }
    assert (CX : forall c', In c' (others ++ [c]) -> In (enc_cons_ptr i) (c_env c' :: c_roots c' ++ c_stack c') -> root (enc_cons_ptr i)).
    { intros c' I' [X|X]; right; right; exists c'; split; auto. apply in_app_or in X. destruct X; auto. }
    rewrite <- app_assoc in I. apply in_app_or in I. destruct I as [I|I]; [left; auto|].
    apply in_app_or in I. destruct I as [I|I].
    + apply (CX c); auto. apply in_or_app; right; left; auto.
    + unfold oroots in I. apply in_flat_map in I. destruct I as (c'&I1&I2). apply (CX c'); auto. apply in_or_app; auto.
  - left. eapply live_step; eauto.
  - apply cell_range in C. lia.
Qed.

Lemma collect_ok :
  collect (wh w) g pre c = Ok NoMem \/
  exists w', collect (wh w) g pre c = Ok (Val (wh w')) /\ srel w' g s /\ keeps roots w w' /\
    (length (wfl w) <= length (wfl w'))%nat.
Proof.
  unfold collect. destruct gc_ends as (h'&b&E). rewrite E. cbn [bind]. destruct b; auto. right.
  destruct envs_ok as [E1 E2].
  assert (ENV : Forall (env_at h0) g) by (eapply Forall_impl; [|exact E1]; intros e (m&X&_); eauto using env_len_at).
  assert (CTX' : Forall (GC_Proofs5.ctx_ok h0) (others ++ [c])) by (eapply Forall_impl; [|exact E2]; intros e (m&X&_); red; eauto using env_len_at).
  pose proof ready as RDY.
  assert (NL : lost h' = false).
  { eapply (gc_not_lost h0 pre g (others ++ [c])); eauto. intros x R. rewrite reach_cons by auto. apply cons_neq_types. }
  destruct (gc_collected h0 pre g (others ++ [c]) RDY ENV CTX' _ h' E NL) as (ds&[c1 c2 c3 c4 c5 c6 c7 c8 c9 c10]).
  destruct c10 as (F1&F2&F3). pose proof (sr_size _ _ _ SR) as SZ.
  set (L' := fun l => match wL w l with Some (j, k) => if in_dec Z.eq_dec j ds then None else Some (j, k) | None => None end).
  set (w' := mkW h' (rev ds) L' (fun i => wR w i /\ ~ In i ds)).
  assert (LL : forall l j k, L' l = Some (j, k) <-> wL w l = Some (j, k) /\ ~ In j ds).
  { intros l j k. unfold L'. destruct (wL w l) as [[j' k']|]; [|split; [discriminate|intros [X _]; discriminate]].
    destruct (in_dec Z.eq_dec j' ds) as [I|N]; split; try discriminate.
    - intros [X N]. injection X as -> ->. contradiction.
    - intros X. injection X as -> ->. auto.
    - intros [X _]. auto. }
  assert (ND : forall i, 0 <= i < hsize h0 -> ~ In i ds -> ~ ~ GC_Spec.live h0 root i).
  { intros i R N X. apply N, c3. auto. }
  assert (LD : forall i, GC_Spec.live h0 root i -> ~ In i ds).
  { intros i L X. apply c3 in X. tauto. }
  assert (CE : forall i, ~ In i ds -> cell h' i = cell h0 i).
  { intros i N. destruct (cell h0 i) as [[a d]|] eqn:C.
    - pose proof (cell_range _ _ _ C) as R. pose proof (ND i R N) as X.
      assert (D : {cell h' i = Some (a, d)} + {cell h' i <> Some (a, d)}) by (repeat decide equality).
      destruct D as [D|D]; auto. elim X. intros L. apply D. rewrite <- C. auto.
    - destruct (cell h' i) eqn:C'; auto. apply cell_range in C'. rewrite c1 in C'. destruct (cell_some h0 i C') as (q&Q). congruence. }
  assert (ST : forall i a d j, ~ In i ds -> cell h0 i = Some (a, d) -> 0 <= j < 2 ^ (W - 8) ->
    a = enc_cons_ptr j \/ d = enc_cons_ptr j -> ~ In j ds).
  { intros i a d j N C Rj X Y. pose proof (cell_range _ _ _ C) as R. apply (ND i R N). intros L. apply (LD j); auto. eapply live_step; eauto. }
  assert (FD : incl (wfl w) ds).
  { intros i I. apply c3. split; [eapply free_range; eauto|]. intros L. destruct (reach_enc _ (live_reach i L)) as (j&_&Rj&X&N).
    assert (R : 0 <= i < 2 ^ (W - 8)) by (pose proof (free_range _ _ _ _ SR I); lia).
    apply enc_inj in X; auto. subst. contradiction. }
  assert (TP : transport (fun i => ~ In i ds) w w').
  { constructor; auto.
    - intros i N (L1&L2&L3). split; [|apply CE; auto]. split; [|split]; cbn.
      + rewrite <- in_rev. auto.
      + intros (l&k&X). apply LL in X. apply L2. exists l, k. tauto.
      + tauto.
    - intros i a d j N (L1&L2&L3) C Rj X _. eapply ST; eauto.
    - intros l j k N X. apply LL. auto. }
  assert (GD : forall x, good w x -> (forall i, 0 <= i < 2 ^ (W - 8) -> x = enc_cons_ptr i -> ~ In i ds) -> good w' x).
  { intros x G N. pose proof G as (G1&G2&G3&G4). split; [|split; [|split]]; auto. intros H.
    destruct (good_enc x G H) as (i&Ri&Ri'&->&Ni). exists i. cbn. rewrite c1, <- in_rev. split; [|split]; auto. }
  assert (RW : forall x, root x -> within (fun i => ~ In i ds) w x).
  { intros x R i Ri -> _. apply LD, reach_live; auto. apply reach_root; auto using enc_heap_ptr. }
  exists w'. split; auto. split; [|split].
  - pose proof SR as [H1 H2 H3 H4 H5 H6 H7 H8 H9 H10 H11 H12]. constructor; cbn; auto.
    + intros l Ll. unfold L'. rewrite H2; auto.
    + intros l l' j k k' X Y. apply LL in X. apply LL in Y. eapply H3; [apply X|apply Y].
    + intros l j k X. apply LL in X. destruct X as [X N]. destruct (H4 l j k X) as (Rj&Fj&KO&o&x&S1&S2&S3).
      split; auto. split; [rewrite <- in_rev; auto|]. split; auto. exists o, x. split; auto. split; [rewrite CE; auto|].
      eapply crel_t; eauto. intros i Ri -> _. eapply ST; eauto.
    + intros b B. destruct (H6 b B) as (r&R1&R2). exists r. split; auto. eapply erel_t; eauto. apply RW. right; left. eapply nth_error_In; eauto.
    + intros i [_ N]. rewrite <- in_rev. auto.
    + intros i a d N C. rewrite <- in_rev in N. rewrite CE in C by auto.
      assert (Nf : ~ In i (wfl w)) by auto. destruct (H9 i a d Nf C) as [Ga Gd].
      split; apply GD; auto; intros j Rj ->; eapply ST; eauto.
    + rewrite F1. auto.
    + destruct H11 as (I1&I2&I3&I4). split; [auto|]. split; [rewrite F3; auto|]. split; auto. intros x. rewrite c8; auto.
      intros i a d Ii Ci O. destruct (cdr_plain i a d Ci) as (_&_&X). contradiction.
    + apply Forall_forall. intros c' I. assert (I' : In c' (others ++ [c])) by (apply in_or_app; auto).
      destruct (ctx_all c' I') as ((e&Ee)&Rr&Kk). split; [|split].
      * exists e. eapply erel_t; eauto. apply RW. right; right. exists c'. auto.
      * rewrite Forall_forall in *. intros x X. apply GD; auto. intros i Ri ->. apply (RW (enc_cons_ptr i)); auto; [right; right; exists c'; auto|].
        destruct (good_enc _ (Rr _ X) (enc_heap_ptr i Ri)) as (q&_&Rq&Y&N). apply enc_inj in Y; auto. subst; auto.
      * rewrite Forall_forall in *. intros x X S. assert (S' : stack_ref h0 x) by (unfold stack_ref in *; cbn in S; rewrite c1 in S; auto).
        apply GD; [apply Kk; auto|]. intros i Ri ->. apply (RW (enc_cons_ptr i)); auto; [right; right; exists c'; auto|].
        destruct (good_enc _ (Kk _ X S') (enc_heap_ptr i Ri)) as (q&_&Rq&Y&N). apply enc_inj in Y; auto. subst; auto.
  - constructor; cbn; auto.
    + intros i R. rewrite <- in_rev. destruct (rch_live i R) as [L|L]; [apply LD; auto|]. intros X. apply c3 in X. lia.
    + intros i R N. split.
      * apply CE. destruct (rch_live i R) as [L|L]; [apply LD; auto|]. intros X. apply c3 in X. lia.
      * intros (l&k&X). apply LL in X. apply N. exists l, k. tauto.
    + intros i l k R X. apply LL. split; auto. destruct (rch_live i R) as [L|L]; [apply LD; auto|]. intros Y. apply c3 in Y. lia.
    + intros i R. assert (N : ~ In i ds); [|tauto]. destruct (rch_live i R) as [L|L]; [apply LD; auto|]. intros Y. apply c3 in Y. lia.
  - cbn. rewrite rev_length. apply NoDup_incl_length; auto. apply (sr_heap _ _ _ SR).
Qed.
End Collect.


(* ---- allocation with a collection if there are too few cells ---- *)

(* the words that a context holds *)
Definition cw (c : croots) : list Z := c_env c :: c_roots c ++ c_stack c.

Lemma collect_cw w g s pre c : srel w g s -> Forall (good w) pre -> ctx_ok w c ->
  collect (wh w) g pre c = Ok NoMem \/
  exists w', collect (wh w) g pre c = Ok (Val (wh w')) /\ srel w' g s /\ keeps (pre ++ cw c) w w' /\
    (length (wfl w) <= length (wfl w'))%nat.
Proof. apply collect_ok. Qed.

Lemma need_ok w g s pre c n : srel w g s -> Forall (good w) pre -> ctx_ok w c ->
  (need (Z.of_nat n) (wh w) g pre c = Ok NoMem /\ (length (wfl w) < n)%nat) \/
  exists w', need (Z.of_nat n) (wh w) g pre c = Ok (Val (wh w')) /\ srel w' g s /\ keeps (pre ++ cw c) w w' /\
    (length (wfl w) <= length (wfl w'))%nat /\ (n <= length (wfl w'))%nat.
Proof.
  intros SR G C. unfold need. rewrite (num_free_ok _ _ (sr_heap _ _ _ SR)).
  destruct (Z.ltb_spec (Z.of_nat (length (wfl w))) (Z.of_nat n)) as [L|L].
  - destruct (collect_cw w g s pre c SR G C) as [->|(w'&->&SR'&K&L')]; cbn [bind]; [left; split; auto; lia|].
    rewrite (num_free_ok _ _ (sr_heap _ _ _ SR')).
    destruct (Z.ltb_spec (Z.of_nat (length (wfl w'))) (Z.of_nat n)) as [L2|L2]; [left; split; auto; lia|].
    right. exists w'. sp; auto. lia.
  - right. exists w. sp; auto using keeps_refl. lia.
Qed.

Lemma freelist_nil h fl : heap_ok h fl -> is_symbol_nil (freelist h) = match fl with [] => true | _ => false end.
Proof.
  intros OK. pose proof (ok_chain _ _ OK) as CH. destruct CH as [|i a q l C CH]; [reflexivity|].
  apply cons_not_nil, enc_cons. apply cell_range in C. pose proof (ok_size _ _ OK). lia.
Qed.

(* the test for an empty free list *)
Lemma need1_ok w g s pre c : srel w g s -> Forall (good w) pre -> ctx_ok w c ->
  let m := (if is_symbol_nil (freelist (wh w)) then
              let* h1 := collect (wh w) g pre c in
              if is_symbol_nil (freelist h1) then Ok NoMem else Ok (Val h1)
            else Ok (Val (wh w))) in
  (m = Ok NoMem /\ (length (wfl w) < 1)%nat) \/
  exists w', m = Ok (Val (wh w')) /\ srel w' g s /\ keeps (pre ++ cw c) w w' /\
    (length (wfl w) <= length (wfl w'))%nat /\ (1 <= length (wfl w'))%nat.
Proof.
  intros SR G C. cbv zeta. rewrite (freelist_nil _ _ (sr_heap _ _ _ SR)). destruct (wfl w) as [|i fl] eqn:E.
  - destruct (collect_cw w g s pre c SR G C) as [->|(w'&->&SR'&K&L')]; cbn [bind]; [left; split; auto; cbn; lia|].
    rewrite (freelist_nil _ _ (sr_heap _ _ _ SR')). destruct (wfl w') as [|i fl] eqn:E'; [left; split; auto; cbn; lia|].
    right. exists w'. rewrite E'. sp; auto; cbn; lia.
  - right. exists w. rewrite E. sp; auto using keeps_refl; cbn; lia.
Qed.

Lemma rooted_car w g s R p a d : srel w g s -> pair_at w p a d -> rooted w R p -> rooted w R a.
Proof. intros SR P RT. destruct (rooted_pair _ _ _ R _ _ _ SR P RT); auto. Qed.
Lemma rooted_cdr w g s R p a d : srel w g s -> pair_at w p a d -> rooted w R p -> rooted w R d.
Proof. intros SR P RT. destruct (rooted_pair _ _ _ R _ _ _ SR P RT); auto. Qed.
Lemma rooted_0 w R : rooted w R 0.
Proof. rewrite <- nil_sym. apply rooted_sym. Qed.
Lemma rooted_NIL w R : rooted w R NIL.
Proof. apply rooted_sym. Qed.

Lemma ctx_regs w e env exp r K : erel w e env -> good w exp -> good w r -> Forall (kgood w) K -> ctx_ok w (regs env exp r K).
Proof. intros E G1 G2 GK. split; [eauto|]. cbn. split; auto. Qed.

Lemma kgoods_k R w w' g s K : srel w g s -> keeps R w w' -> Forall (kgood w) K -> Forall (rooted w R) K -> Forall (kgood w') K.
Proof.
  intros SR KP F RT. rewrite Forall_forall in *. intros x I. eapply kgood_k; eauto.
Qed.
Lemma kgoods_mono w w' K : hext w w' -> Forall (kgood w) K -> Forall (kgood w') K.
Proof. intros HX. apply Forall_impl. intros x. apply kgood_mono; apply HX. Qed.

Lemma ctx_k w w' g s c : srel w g s -> keeps (cw c) w w' -> ctx_ok w c -> ctx_ok w' c.
Proof.
  intros SR KP ((e&E)&G&K). split; [exists e; apply (erel_k _ _ _ _ _ SR KP); auto; apply rooted_in; left; auto|].
  rewrite Forall_forall in G, K. split; apply Forall_forall.
  - intros x I. apply (good_k _ _ _ _ _ SR KP); auto. apply rooted_in. right. apply in_or_app; auto.
  - intros x I. apply (kgood_k _ _ _ _ _ SR KP); auto. apply rooted_in. right. apply in_or_app; auto.
Qed.

(* the words the evaluator pushes that are not values *)
Lemma kgood_cont w n : In n [1; 2; 3; 4; 5; 6; 7; 10; 11; 13; 26; 27; 38; 39; 42] -> kgood w (CONT n).
Proof.
  intros H. assert (N : ~ (POINTER_TYPE_FIRST <= type_of (CONT n) <= POINTER_TYPE_LAST)).
  { repeat (destruct H as [<-|H]; [clear; destruct A; vm_compute; intros [? ?]; congruence|]). destruct H. }
  intros (_&X&_). contradiction.
Qed.

End Arch.

(* [x] is in a list that is written out *)
Ltac inl :=
  lazymatch goal with
  | |- In ?x (?y :: ?l) => first [left; reflexivity | right; inl]
  | |- In ?x (?l1 ++ ?l2) => apply in_or_app; first [left; inl | right; inl]
  | |- _ => assumption
  end.
(* a word refers to a cell within reach of a list that is written out *)
Ltac rt :=
  solve [unfold cw, regs; cbn [c_env c_roots c_stack app];
    repeat first
      [ assumption | apply rooted_NIL | apply rooted_0 | apply rooted_sym | (apply rooted_in; inl)
      | match goal with
        | SR : srel ?w _ _, P : pair_at ?w ?p ?a ?d |- rooted ?w _ ?a => is_var a; eapply (rooted_car _ _ _ _ _ _ _ SR P)
        | SR : srel ?w _ _, P : pair_at ?w ?p ?a ?d |- rooted ?w _ ?d => is_var d; eapply (rooted_cdr _ _ _ _ _ _ _ SR P)
        end ]].
(* the words of one list are within reach of another; both end in the same *)
Ltac rts :=
  unfold cw, regs; cbn [c_env c_roots c_stack app];
  repeat (apply Forall_cons; [rt|]); first [apply Forall_nil | apply rooted_incl; intros ? ?; cbn; auto 12].

(* what is known of words in reach, after a collection *)
Ltac carry SR KP :=
  match type of KP with keeps ?R ?w ?w' =>
    repeat match goal with
    | H : vrel w ?v ?x |- _ => lazymatch goal with _ : vrel w' v x |- _ => fail | _ => idtac end;
        let H' := fresh H in assert (H' : vrel w' v x) by (apply (vrel_k _ _ _ _ _ SR KP _ _ H); rt)
    | H : erel w ?v ?x |- _ => lazymatch goal with _ : erel w' v x |- _ => fail | _ => idtac end;
        let H' := fresh H in assert (H' : erel w' v x) by (apply (erel_k _ _ _ _ _ SR KP _ _ H); rt)
    | H : pair_at w ?p ?x ?y |- _ => lazymatch goal with _ : pair_at w' p x y |- _ => fail | _ => idtac end;
        let H' := fresh H in assert (H' : pair_at w' p x y) by (apply (pair_k _ _ _ _ _ SR KP _ _ _ H); rt)
    | H : good w ?x |- _ => lazymatch goal with _ : good w' x |- _ => fail | _ => idtac end;
        let H' := fresh H in assert (H' : good w' x) by (apply (good_k _ _ _ _ _ SR KP _ H); rt)
    | H : kgood w ?x |- _ => lazymatch goal with _ : kgood w' x |- _ => fail | _ => idtac end;
        let H' := fresh H in assert (H' : kgood w' x) by (apply (kgood_k _ _ _ _ _ SR KP _ H); rt)
    | H : Forall (kgood w) ?x |- _ => lazymatch goal with _ : Forall (kgood w') x |- _ => fail | _ => idtac end;
        let H' := fresh H in assert (H' : Forall (kgood w') x) by (apply (kgoods_k _ _ _ _ _ _ SR KP H); rts)
    end;
    repeat match goal with
    | H : vrel w ?v ?x, H' : vrel w' ?v ?x |- _ => clear H; rename H' into H
    | H : erel w ?v ?x, H' : erel w' ?v ?x |- _ => clear H; rename H' into H
    | H : pair_at w ?p ?x ?y, H' : pair_at w' ?p ?x ?y |- _ => clear H; rename H' into H
    | H : good w ?x, H' : good w' ?x |- _ => clear H; rename H' into H
    | H : kgood w ?x, H' : kgood w' ?x |- _ => clear H; rename H' into H
    | H : Forall (kgood w) ?x, H' : Forall (kgood w') ?x |- _ => clear H; rename H' into H
    end
  end.
(* the same without a collection *)
Ltac carryx HX :=
  match type of HX with hext ?w ?w' =>
    let G := fresh "G" in pose proof (hext_agree _ _ HX) as G;
    repeat match goal with
    | H : vrel w ?v ?x |- _ => apply (vrel_mono _ _ _ _ G) in H
    | H : erel w ?v ?x |- _ => apply (erel_mono _ _ _ _ G) in H
    | H : pair_at w ?p ?x ?y |- _ => apply (pair_mono _ _ _ _ _ G) in H
    | H : good w ?x |- _ => apply (good_mono _ _ _ (hx_size _ _ HX) (hx_free _ _ HX)) in H
    | H : kgood w ?x |- _ => apply (kgood_mono _ _ _ (hx_size _ _ HX) (hx_free _ _ HX)) in H
    | H : Forall (kgood w) ?x |- _ => apply (kgoods_mono _ _ _ HX) in H
    | H : Forall2 (vrel w) ?x ?y |- _ => apply (vrels_mono _ _ _ _ G) in H
    end; clear G
  end.
