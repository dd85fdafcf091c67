(* The sweep phase. *)
From Coq Require Import FinFun.
From Verif Require Import Base Value_Model Heap_Model Value_Proofs Value_Proofs2 Heap_Spec Heap_Proofs GC_Model GC_Spec GC_Proofs.
Local Open Scope Z_scope.

Section Arch.
Context {A : Arch}.

Lemma enc_sym_type s : (type_of (enc_sym s) =? TYPE_SYMBOL) = true.
Proof. rewrite type_symbol_iff; [rewrite enc_sym_is_symbol; reflexivity|apply enc_sym_word|apply enc_sym_gc]. Qed.

Definition ownerb (d : Z) : bool :=
  (d =? enc_sym SYM_IND_I_TYPE) || (d =? enc_sym SYM_IND_U_TYPE) || (d =? enc_sym SYM_IND_F_TYPE) ||
  (d =? enc_sym SYM_LISPARRAY_TYPE) || (d =? enc_sym SYM_ARRAY_TYPE) ||
  (d =? enc_sym SYM_CHANNEL_TYPE) || (d =? enc_sym SYM_CUSTOM_TYPE).

Lemma ownerb_spec d : ownerb d = true <-> owner d.
Proof. unfold ownerb, owner. rewrite !orb_true_iff, !Z.eqb_eq. tauto. Qed.

Lemma owner_symbol d : owner d -> (type_of d =? TYPE_SYMBOL) = true.
Proof. unfold owner. intros H. decompose [or] H; subst; apply enc_sym_type. Qed.

(* what sweeping one cell leaves alone *)
Definition sframe (h h' : heap) : Prop :=
  ccells h' = ccells h /\ gstack h' = gstack h /\ gsize h' = gsize h /\ gc_marked h' = gc_marked h /\ lost h' = lost h.

Definition blks (h : heap) (a d : Z) : list Z :=
  if (d =? enc_sym SYM_IND_I_TYPE) || (d =? enc_sym SYM_IND_U_TYPE) || (d =? enc_sym SYM_IND_F_TYPE) then [a]
  else if (d =? enc_sym SYM_LISPARRAY_TYPE) || (d =? enc_sym SYM_ARRAY_TYPE) then
    match mem h a with
    | Some (OLisp data _ _ _) => [data; a]
    | Some (OByte data _) => [data; a]
    | _ => []
    end
  else if d =? enc_sym SYM_CHANNEL_TYPE then
    match mem h a with Some (OChan st _) => [st; a] | _ => [] end
  else if d =? enc_sym SYM_CUSTOM_TYPE then [a]
  else [].

Lemma free_payload_ok h a d : (owner d -> owned_obj d (mem h a)) ->
  exists h', free_payload h a d = Ok h' /\ cells h' = cells h /\ freelist h' = freelist h /\ num_alloc h' = num_alloc h /\
    gc_recovered h' = gc_recovered h /\ sframe h h' /\
    freed h' = rev (blks h a d) ++ freed h /\
    (forall x, mem h' x = if ownerb d && (x =? a) then None else mem h x).
Proof.
  intros O. unfold free_payload.
  destruct (ownerb d) eqn:Ob.
  2:{ exists h. unfold ownerb in Ob. repeat rewrite orb_false_iff in Ob. decompose [and] Ob. unfold blks.
      repeat match goal with H : (_ =? _) = false |- _ => rewrite H; clear H end. cbn [orb].
      destruct (type_of d =? TYPE_SYMBOL); repeat split; auto. }
  apply ownerb_spec in Ob as Ow. specialize (O Ow). rewrite (owner_symbol d Ow). unfold blks. destruct O as (O1&O2&O3).
  destruct ((d =? enc_sym SYM_IND_I_TYPE) || (d =? enc_sym SYM_IND_U_TYPE) || (d =? enc_sym SYM_IND_F_TYPE)) eqn:E1.
  { eexists. split; [reflexivity|]. simpl. repeat split; auto. }
  destruct ((d =? enc_sym SYM_LISPARRAY_TYPE) || (d =? enc_sym SYM_ARRAY_TYPE)) eqn:E2.
  { apply orb_true_iff in E2. rewrite !Z.eqb_eq in E2. destruct (O1 E2) as [(data&size&elts&k&->)|(data&bytes&->)];
    (eexists; split; [reflexivity|]; simpl; repeat split; auto). }
  destruct (Z.eqb_spec d (enc_sym SYM_CHANNEL_TYPE)) as [E3|N3].
  { destruct (O2 E3) as (st&dep&->). eexists; split; [reflexivity|]; simpl; repeat split; auto. }
  destruct (Z.eqb_spec d (enc_sym SYM_CUSTOM_TYPE)) as [E4|N4].
  { rewrite (O3 E4). eexists; split; [reflexivity|]; simpl; repeat split; auto. }
  exfalso. apply orb_false_iff in E1 as [E1 E1c]. apply orb_false_iff in E1 as [E1a E1b]. apply orb_false_iff in E2 as [E2a E2b].
  rewrite Z.eqb_neq in *. unfold owner in Ow. tauto.
Qed.

Definition um (h : heap) (i : Z) : bool := match cell h i with Some (_, d) => negb (get_gc_mark d) | None => false end.
Definition dead (h : heap) (n : nat) : list Z := filter (um h) (map Z.of_nat (seq 0 n)).

Lemma dead_S h n : dead h (S n) = dead h n ++ (if um h (Z.of_nat n) then [Z.of_nat n] else []).
Proof. unfold dead. rewrite seq_S, map_app, filter_app. simpl. reflexivity. Qed.

Lemma dead_in h n i : In i (dead h n) <-> 0 <= i < Z.of_nat n /\ um h i = true.
Proof.
  unfold dead. rewrite filter_In, in_map_iff. split.
  - intros [(x&<-&I) U]. apply in_seq in I. split; [lia|auto].
  - intros [R U]. split; auto. exists (Z.to_nat i). rewrite in_seq. lia.
Qed.

Lemma dead_nodup h n : NoDup (dead h n).
Proof. apply NoDup_filter. apply Injective_map_NoDup; [intros x y; lia|apply seq_NoDup]. Qed.

Lemma dead_len h n : (length (dead h n) <= n)%nat.
Proof. induction n; [simpl; lia|]. rewrite dead_S, app_length. destruct (um h (Z.of_nat n)); simpl; lia. Qed.

Section Sweep.
Variable h1 : heap.
Hypothesis SZ : hsize h1 <= 2 ^ (W - 8).
Hypothesis OWN : forall i a d, cell h1 i = Some (a, d) -> get_gc_mark d = false -> owner d -> owned_obj d (mem h1 a).
Hypothesis OWN1 : forall i j a d d', cell h1 i = Some (a, d) -> cell h1 j = Some (a, d') ->
  get_gc_mark d = false -> get_gc_mark d' = false -> owner d -> owner d' -> i = j.

Record SW (h : heap) (n : nat) : Prop := {
  sw_size : hsize h = hsize h1;
  sw_hi : forall i, Z.of_nat n <= i -> cell h i = cell h1 i;
  sw_mark : forall i a d, 0 <= i < Z.of_nat n -> cell h1 i = Some (a, d) -> get_gc_mark d = true -> cell h i = Some (a, clr_gc_mark d);
  sw_dead : forall i, In i (dead h1 n) -> exists q, cell h i = Some (RECOVERED, q);
  sw_chain : chain h (freelist h) (rev (dead h1 n));
  sw_num : num_alloc h = hsize h1 - Z.of_nat (length (dead h1 n));
  sw_rec : gc_recovered h = Z.of_nat (length (dead h1 n));
  sw_freed : freed h = rev (flat_map (blocks h1) (dead h1 n)) ++ freed h1;
  sw_mem : forall x, (forall i a d, In i (dead h1 n) -> cell h1 i = Some (a, d) -> owner d -> a <> x) -> mem h x = mem h1 x;
  sw_gone : forall i a d, In i (dead h1 n) -> cell h1 i = Some (a, d) -> owner d -> mem h a = None;
  sw_frame : sframe h1 h
}.

Lemma hput_free h i c : freelist (hput h i c) = freelist h. Proof. reflexivity. Qed.

Lemma sweep_step h n : SW h n -> Z.of_nat n < hsize h1 ->
  exists h', sweep_cell h (Z.of_nat n) = Ok h' /\ SW h' (S n).
Proof.
  intros [s1 s2 s3 sd s4 s5 s6 s7 s8 s9 s10] Hn. unfold sweep_cell.
  destruct (cell_some h1 (Z.of_nat n)) as ([a d]&C1); [lia|].
  assert (C : cell h (Z.of_nat n) = Some (a, d)) by (rewrite s2; [auto|lia]).
  rewrite rd_cell, C. cbn [bind fst snd].
  assert (NI : ~ In (Z.of_nat n) (dead h1 n)) by (rewrite dead_in; lia).
  assert (Hi : forall j, In j (dead h1 n) -> j <> Z.of_nat n) by (intros j J ->; auto).
  destruct (get_gc_mark d) eqn:G.
  - assert (U : um h1 (Z.of_nat n) = false) by (unfold um; rewrite C1, G; auto).
    rewrite wr_cell, C. cbn [bind]. eexists. split; [reflexivity|].
    change (set_cells h (cells (hput h (Z.of_nat n) (a, clr_gc_mark d)))) with (hput h (Z.of_nat n) (a, clr_gc_mark d)).
    constructor; rewrite ?dead_S, ?U, ?app_nil_r; auto.
    + rewrite hput_size; auto.
    + intros i Hi'. rewrite cell_hput_neq by lia. apply s2; lia.
    + intros i a' d' Ri Ci Gi. destruct (Z.eq_dec i (Z.of_nat n)) as [->|N].
      * rewrite (cell_hput_eq _ _ _ _ C). congruence.
      * rewrite cell_hput_neq by lia. apply s3; auto. lia.
    + intros i Ii. rewrite cell_hput_neq by (try lia; apply not_eq_sym; auto). auto.
    + apply chain_put; [auto| |lia]. rewrite <- in_rev. auto.
  - assert (U : um h1 (Z.of_nat n) = true) by (unfold um; rewrite C1, G; auto).
    assert (MA : owner d -> mem h a = mem h1 a).
    { intros Od. apply s8. intros i a' d' Ii Ci Oi ->. apply dead_in in Ii as [Ri Ui].
      unfold um in Ui. rewrite Ci in Ui. apply negb_true_iff in Ui.
      pose proof (OWN1 _ _ _ _ _ Ci C1 Ui G Oi Od). lia. }
    destruct (free_payload_ok h a d) as (h2&->&f1&f2&f3&f4&f5&f6&f7).
    { intros Od. rewrite MA by auto. eapply OWN; eauto. }
    cbn [bind].
    assert (HC : forall i, cell h2 i = cell h i) by (intros; unfold cell; rewrite f1; auto).
    rewrite wr_cell, HC, C. cbn [bind]. eexists. split; [reflexivity|].
    assert (BL : blks h a d = blocks h1 (Z.of_nat n)).
    { unfold blocks, blks. rewrite C1. destruct (ownerb d) eqn:Ob; [apply ownerb_spec in Ob; rewrite MA by auto; auto|].
      unfold ownerb in Ob. repeat rewrite orb_false_iff in Ob. decompose [and] Ob.
      repeat match goal with H : (_ =? _) = false |- _ => rewrite H; clear H end. reflexivity. }
    set (hh := hput h2 (Z.of_nat n) (RECOVERED, freelist h2)).
    match goal with |- SW ?x _ => assert (HCC : forall i, cell x i = cell hh i) by (intros; reflexivity); set (h' := x) in * end.
    pose proof (dead_len h1 n) as DL. pose proof W8. pose proof (Z.pow_pos_nonneg 2 (W - 8)) as PP.
    assert (0 < 2 ^ (W - 8)) by (apply PP; [lia|arch; lia]).
    constructor; rewrite ?dead_S, ?U.
    + change (hsize h') with (hsize hh). unfold hh. rewrite hput_size. unfold hsize in *. rewrite f1. auto.
    + intros i Hi'. rewrite HCC. unfold hh. rewrite cell_hput_neq, HC by lia. apply s2; lia.
    + intros i a' d' Ri Ci Gi. rewrite HCC. unfold hh. destruct (Z.eq_dec i (Z.of_nat n)) as [->|N]; [congruence|].
      rewrite cell_hput_neq, HC by lia. apply s3; auto. lia.
    + intros i Ii. rewrite HCC. unfold hh. apply in_app_or in Ii as [Ii|[<-|[]]].
      * rewrite cell_hput_neq, HC by (try lia; apply not_eq_sym; auto). auto.
      * erewrite cell_hput_eq by (rewrite HC; eauto). eauto.
    + rewrite rev_app_distr. cbn [rev app]. change (freelist h') with (enc_cons_ptr (Z.of_nat n)).
      eapply chain_cons.
      * rewrite HCC. unfold hh. erewrite cell_hput_eq by (rewrite HC; eauto). reflexivity.
      * rewrite f2. eapply chain_frame; [exact s4|]. intros i Ii. rewrite <- in_rev in Ii.
        rewrite HCC. unfold hh. rewrite cell_hput_neq, HC by (try lia; apply not_eq_sym; auto). auto.
    + change (num_alloc h') with (wrap W (num_alloc h2 - 1)). rewrite f3, s5, app_length. cbn [length].
      rewrite wrap_small by lia. lia.
    + change (gc_recovered h') with (wrap W (gc_recovered h2 + 1)). rewrite f4, s6, app_length. cbn [length].
      rewrite wrap_small by lia. lia.
    + change (freed h') with (freed h2). rewrite f6, s7, flat_map_app, rev_app_distr, BL. cbn [flat_map].
      rewrite app_nil_r, app_assoc. reflexivity.
    + intros x Hx. change (mem h' x) with (mem h2 x). rewrite f7.
      destruct (ownerb d) eqn:Ob; cbn [andb].
      * apply ownerb_spec in Ob. destruct (Z.eqb_spec x a) as [->|].
        -- exfalso. apply (Hx (Z.of_nat n) a d); auto. apply in_or_app. right; left; auto.
        -- apply s8. intros; eapply Hx; eauto. apply in_or_app; auto.
      * apply s8. intros; eapply Hx; eauto. apply in_or_app; auto.
    + intros i a' d' Ii Ci Oi. change (mem h' a') with (mem h2 a'). rewrite f7.
      destruct (ownerb d && (a' =? a)) eqn:Eo; auto. apply in_app_or in Ii as [Ii|[<-|[]]]; [eauto|].
      rewrite C1 in Ci. injection Ci as <- <-. rewrite Z.eqb_refl, andb_true_r in Eo.
      apply ownerb_spec in Oi. congruence.
    + destruct s10 as (q1&q2&q3&q4&q5), f5 as (r1&r2&r3&r4&r5). repeat split; simpl; congruence.
Qed.

Lemma sweep_loop_ok m : forall n h, SW h n -> (Z.of_nat (n + m) <= hsize h1) ->
  exists h', sweep_loop m (Z.of_nat n) h = Ok h' /\ SW h' (n + m).
Proof.
  induction m as [|m IH]; intros n h S L; cbn [sweep_loop].
  - exists h. rewrite Nat.add_0_r. auto.
  - destruct (sweep_step h n S) as (h2&->&S2); [lia|]. cbn [bind].
    replace (Z.of_nat n + 1) with (Z.of_nat (Datatypes.S n)) by lia.
    destruct (IH (Datatypes.S n) h2 S2) as (h3&->&S3); [lia|]. exists h3. split; auto. rewrite Nat.add_succ_r. auto.
Qed.

Lemma sweep_ok : freelist h1 = 0 -> num_alloc h1 = hsize h1 -> gc_recovered h1 = 0 ->
  exists h', sweep h1 = Ok h' /\ SW h' (length (cells h1)).
Proof.
  intros F N R. unfold sweep. apply (sweep_loop_ok (length (cells h1)) 0 h1); [|unfold hsize; lia].
  constructor; auto; try (simpl; auto; fail).
  - intros; lia.
  - intros i [].
  - rewrite F. constructor.
  - simpl. rewrite N. lia.
  - intros i a d [].
  - repeat split.
Qed.

End Sweep.
End Arch.
