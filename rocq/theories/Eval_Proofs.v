(* Worlds: what the operations of the evaluator do to the representation. *)
From Verif Require Import Base Value_Model Heap_Model Env_Model Match_Model QQ_Model GC_Model Eval_Model Eval_Spec
  Value_Proofs Value_Proofs2 Heap_Spec Heap_Proofs Heap_Proofs2 List_Proofs Env_Proofs QQ_Proofs GC_Spec Eval_Rel.
Local Open Scope Z_scope.

Section Arch.
Context {A : Arch} {HO : Host}.

Ltac sp := repeat match goal with |- _ /\ _ => split end.

(* ---- words ---- *)

Lemma sym_is_symbol k : is_symbol (enc_sym k) = true.
Proof. apply enc_sym_is_symbol. Qed.

Lemma sym_dec k : 0 <= k < 2 ^ 28 -> dec_sym (enc_sym k) = k.
Proof.
  intros H. unfold dec_sym. rewrite enc_sym_f, Z.mod_small by (apply tag_range; auto).
  rewrite Z.shiftr_div_pow2 by (arch; lia). apply Z.div_mul. arch; lia.
Qed.

Lemma sym_not_cons k : is_cons (enc_sym k) = false.
Proof. unfold is_cons. rewrite is_symbol_not_ptr; auto using sym_is_symbol. Qed.

Lemma sym_not_ptr k : is_ptr (enc_sym k) = false.
Proof. apply is_symbol_not_ptr, sym_is_symbol. Qed.

Lemma sym_eq k k' : 0 <= k < 2 ^ 28 -> 0 <= k' < 2 ^ 28 -> (enc_sym k =? enc_sym k') = (k =? k').
Proof.
  intros H H'. destruct (Z.eqb_spec k k') as [->|N]; [apply Z.eqb_refl|].
  apply Z.eqb_neq, sym_neq; auto.
Qed.

Lemma sym_nil k : 0 <= k < 2 ^ 28 -> is_symbol_nil (enc_sym k) = (k =? 0).
Proof. intros H. unfold is_symbol_nil. change 0 with SYM_NIL at 2. rewrite <- nil_sym. apply sym_eq; auto. unfold SYM_NIL; lia. Qed.

Lemma sym_type k : (type_of (enc_sym k) =? TYPE_SYMBOL) = true.
Proof.
  rewrite type_symbol_iff; auto using enc_sym_word, enc_sym_gc. rewrite sym_is_symbol. reflexivity.
Qed.

Lemma cons_not_symbol p : is_cons p = true -> is_symbol p = false.
Proof.
  intros H. apply cons_is_ptr in H. destruct (is_symbol p) eqn:E; auto.
  apply is_symbol_not_ptr in E. congruence.
Qed.

Lemma cons_not_nil p : is_cons p = true -> is_symbol_nil p = false.
Proof. intros H. unfold is_symbol_nil. apply Z.eqb_neq. intros ->. rewrite zero_not_cons in H. discriminate. Qed.

Lemma cons_type p : is_cons p = true -> (type_of p =? TYPE_SYMBOL) = false.
Proof.
  intros H. apply Z.eqb_neq. intros E. unfold is_cons in H. apply andb_true_iff in H. destruct H as [P C].
  apply Z.eqb_eq in C. unfold type_of in E. unfold is_ptr in P. apply negb_true_iff in P. rewrite P in E.
  assert (H1 : Z.land (Z.land p PTR_TYPE_MASK) CONS_TYPE_MASK = TYPE_CONS).
  { rewrite <- Z.land_assoc. rewrite <- C. f_equal. arch; reflexivity. }
  rewrite E in H1. revert H1. clear. arch; discriminate.
Qed.

Lemma enc_cons i : 0 <= i < 2 ^ (W - 8) -> is_cons (enc_cons_ptr i) = true.
Proof. intros H. apply rw_is_cons; auto using enc_word, enc_rw. Qed.

Lemma enc_inj i j : 0 <= i < 2 ^ (W - 8) -> 0 <= j < 2 ^ (W - 8) -> enc_cons_ptr i = enc_cons_ptr j -> i = j.
Proof. intros Hi Hj E. apply (f_equal f_ix) in E. rewrite !enc_ix in E by auto. auto. Qed.

Lemma enc_gc i : 0 <= i < 2 ^ (W - 8) -> f_gc (enc_cons_ptr i) = 0.
Proof. intros H. apply (enc_cons_fields i H). Qed.

Lemma key_range k : key_ok k -> 0 <= k < 2 ^ 28.
Proof. intros [H| ->]; lia. Qed.

Lemma variable_iff x : variable x = true <-> 0x40000 <= x.
Proof. unfold variable. apply Z.leb_le. Qed.


(* ---- words that may be kept ---- *)

Lemma owner_symbol x : owner x -> is_symbol x = true.
Proof. unfold owner. intros H. repeat (destruct H as [->|H]; [apply sym_is_symbol|]). rewrite H. apply sym_is_symbol. Qed.

Lemma sym_not_owner id : 0 <= id < 2 ^ 28 -> ~ type_sym id -> ~ owner (enc_sym id).
Proof.
  intros R N. unfold type_sym in N. unfold owner. intros H.
  assert (X : forall c, 0x30 <= c <= 0x39 -> enc_sym id <> enc_sym c) by (intros c Rc; apply sym_neq; lia).
  repeat (destruct H as [H|H]; [revert H; apply X; vm_compute; split; discriminate|]). revert H; apply X; vm_compute; split; discriminate.
Qed.

Lemma sym_good w id : 0 <= id < 2 ^ 28 -> ~ type_sym id -> good w (enc_sym id).
Proof.
  intros R N. split; [apply enc_sym_word|split; [apply enc_sym_gc|split]]; auto using sym_not_owner.
  intros [P _]. rewrite sym_not_ptr in P. discriminate.
Qed.

Lemma nil_good w : good w 0.
Proof. rewrite <- nil_sym. apply sym_good; unfold SYM_NIL, type_sym; lia. Qed.

Lemma NIL_good w : good w NIL.
Proof. rewrite NIL_0. apply nil_good. Qed.

Lemma key_good w k : key_ok k -> good w (enc_sym k).
Proof. intros K. apply sym_good; [destruct K; lia|]. unfold type_sym. destruct K; lia. Qed.

Lemma enc_good w i : hsize (wh w) <= 2 ^ (W - 8) -> 0 <= i < hsize (wh w) -> ~ In i (wfl w) -> good w (enc_cons_ptr i).
Proof.
  intros S R N. assert (R' : 0 <= i < 2 ^ (W - 8)) by lia.
  split; [apply enc_word; auto|split; [apply enc_gc; auto|split]].
  - intros X. apply owner_symbol in X. rewrite cons_not_symbol in X; auto using enc_cons. discriminate.
  - intros _. exists i. auto.
Qed.

Lemma good_mono w w' x : hsize (wh w') = hsize (wh w) -> incl (wfl w') (wfl w) -> good w x -> good w' x.
Proof.
  intros S I (G1&G2&G3&G4). split; [|split; [|split]]; auto. intros P. destruct (G4 P) as (i&R&E&N).
  exists i. rewrite S. split; [|split]; auto.
Qed.

Lemma kgood_mono w w' x : hsize (wh w') = hsize (wh w) -> incl (wfl w') (wfl w) -> kgood w x -> kgood w' x.
Proof. intros S I G R. unfold stack_ref in R. rewrite S in R. eapply good_mono; eauto. Qed.

Lemma good_kgood w x : good w x -> kgood w x.
Proof. intros G _. auto. Qed.

(* ---- pairs and values under extension ---- *)

Definition agree (w w' : world) : Prop :=
  (forall i, live w i -> live w' i /\ cell (wh w') i = cell (wh w) i) /\
  ccells (wh w') = ccells (wh w) /\ forall l j k, wL w l = Some (j, k) -> wL w' l = Some (j, k).

Lemma agree_refl w : agree w w.
Proof. split; [auto|split; auto]. Qed.

Lemma agree_trans w1 w2 w3 : agree w1 w2 -> agree w2 w3 -> agree w1 w3.
Proof.
  intros (H1&C1&L1) (H2&C2&L2). split; [|split; [congruence|auto]].
  intros i I. destruct (H1 i I) as [J E]. destruct (H2 i J) as [K F]. split; auto. congruence.
Qed.

Lemma hext_agree w w' : hext w w' -> agree w w'.
Proof.
  intros [C Z F L1 L2 P K]. split; [|split; auto].
  intros i (H1&H2&H3). split; [|apply K; auto]. split; [|split].
  - intros X. apply F in X. auto.
  - intros X. destruct (L2 i X); auto.
  - intros X. destruct (P i X); auto.
Qed.

Lemma hext_refl w : hext w w.
Proof. constructor; auto using incl_refl. Qed.

Lemma hext_trans w1 w2 w3 : hext w1 w2 -> hext w2 w3 -> hext w1 w3.
Proof.
  intros [C Z F L N P K] [C' Z' F' L' N' P' K']. constructor; try congruence; auto.
  - eapply incl_tran; eauto.
  - intros j J. destruct (N' j J) as [Y|Y]; auto.
  - intros i X. destruct (P' i X) as [Y|Y]; auto.
  - intros i N1 N2. rewrite K', K; auto. intros X. destruct (N i X); auto.
Qed.

Lemma pair_mono w w' p a d : agree w w' -> pair_at w p a d -> pair_at w' p a d.
Proof.
  intros (H&C&_) (W1&C1&G1&R1&L1). split; [|split; [|split; [|split]]]; auto.
  - destruct (is_const_ptr p) eqn:E.
    + unfold ref_cell in *. rewrite E in *. rewrite C. auto.
    + destruct (L1 eq_refl) as (i&Ri&->&Li). destruct (H i Li) as [_ Ec].
      rewrite ref_cell_rw in * by auto. rewrite enc_ix in * by auto. rewrite Ec. auto.
  - intros E. destruct (L1 E) as (i&Ri&->&Li). exists i. sp; try tauto; apply H; auto.
Qed.

Lemma erel_mono w w' e x : agree w w' -> erel w e x -> erel w' e x.
Proof.
  intros G. induction 1 as [|k l e i j d Ri Li Ci Nl E IH]; [constructor|].
  pose proof G as (H&_&EL). destruct (H i Li) as [L' C']. apply er_cons with (j := j) (d := d); auto. congruence.
Qed.

Lemma vrel_mono w w' v x : agree w w' -> vrel w v x -> vrel w' v x.
Proof.
  intros G. induction 1; [constructor; auto|constructor; auto|econstructor; eauto using pair_mono|].
  econstructor; eauto using pair_mono, erel_mono.
Qed.

Lemma crel_mono w w' o x : agree w w' -> crel w o x -> crel w' o x.
Proof. destruct o; cbn; eauto using vrel_mono. Qed.

Lemma vrels_mono w w' vs xs : agree w w' -> Forall2 (vrel w) vs xs -> Forall2 (vrel w') vs xs.
Proof. intros G. induction 1; constructor; eauto using vrel_mono. Qed.

Lemma ctx_mono w w' c : agree w w' -> hsize (wh w') = hsize (wh w) -> incl (wfl w') (wfl w) -> ctx_ok w c -> ctx_ok w' c.
Proof.
  intros G S I ((e&E)&R&K). split; [exists e; eauto using erel_mono|]. split; (eapply Forall_impl; [|eassumption]); intros x; cbn.
  - apply good_mono; auto.
  - apply kgood_mono; auto.
Qed.

Lemma placeholder_sym : PLACEHOLDER = enc_sym 0x2A. Proof. reflexivity. Qed.

Lemma vrel_not_placeholder w v x : vrel w v x -> x <> PLACEHOLDER.
Proof.
  assert (P : is_symbol PLACEHOLDER = true) by apply sym_is_symbol.
  destruct 1 as [k R N NT|x X1 X2 X3 X4 X5|a d p x y PA|ps body e p1 p2 p3 p4 x y z PA]; intros E.
  - apply enc_sym_inj in E; auto using tag_range; apply tag_range; lia.
  - congruence.
  - destruct PA as (_&C&_&_). apply cons_not_symbol in C. congruence.
  - destruct PA as (_&C&_&_). apply cons_not_symbol in C. congruence.
Qed.

(* the words of the shapes of values *)
Lemma vrel_sym_inv w k x : vrel w (VSym k) x -> x = enc_sym k /\ 0 <= k < 2 ^ 28 /\ k <> 0x2A /\ ~ type_sym k.
Proof. inversion 1; auto. Qed.
Lemma vrel_cons_inv w a d p : vrel w (VC a d) p -> exists x y, pair_at w p x y /\ vrel w a x /\ vrel w d y.
Proof. inversion 1; subst; eauto. Qed.

Lemma pair_ref w p a d : pair_at w p a d -> ref_cell (wh w) p = Ok (a, d). Proof. intros H; apply H. Qed.
Lemma pair_cons w p a d : pair_at w p a d -> is_cons p = true. Proof. intros H; apply H. Qed.
Lemma pair_ptr w p a d : pair_at w p a d -> is_ptr p = true. Proof. intros H; apply cons_is_ptr, H. Qed.
Lemma pair_car w p a d : pair_at w p a d -> get_car (wh w) p = Ok (Some a).
Proof. intros H. unfold get_car. rewrite (pair_ptr _ _ _ _ H), (pair_ref _ _ _ _ H). reflexivity. Qed.
Lemma pair_cdr w p a d : pair_at w p a d -> get_cdr (wh w) p = Ok (Some d).
Proof. intros H. unfold get_cdr. rewrite (pair_ptr _ _ _ _ H), (pair_ref _ _ _ _ H). reflexivity. Qed.
Lemma pair_cadr w p a q b d : pair_at w p a q -> pair_at w q b d -> get_cadr (wh w) p = Ok (Some b).
Proof.
  intros H H'. unfold get_cadr. rewrite (pair_ptr _ _ _ _ H), (pair_ref _ _ _ _ H). cbn [bind snd].
  rewrite (pair_ptr _ _ _ _ H'), (pair_ref _ _ _ _ H'). reflexivity.
Qed.
Lemma pair_both w p a d : pair_at w p a d -> get_car_and_cdr (wh w) p = Ok (Some (a, d)).
Proof. intros H. unfold get_car_and_cdr. rewrite (pair_ptr _ _ _ _ H), (pair_ref _ _ _ _ H). reflexivity. Qed.
Lemma pair_extract w p a d : pair_at w p a d -> extract_1 (wh w) p = Ok (a, d).
Proof. intros H. unfold extract_1. rewrite (pair_ptr _ _ _ _ H). apply (pair_ref _ _ _ _ H). Qed.

Lemma vrel_word w v x : vrel w v x -> is_cons x = match v with VC _ _ | VClo _ _ _ => true | _ => false end.
Proof. destruct 1; auto using sym_not_cons; eapply pair_cons; eauto. Qed.

Lemma vrel_nil w v x : vrel w v x -> is_symbol_nil x = nilp v.
Proof.
  destruct 1; cbn [nilp].
  - apply sym_nil; auto.
  - unfold is_symbol_nil. apply Z.eqb_neq. intros ->. destruct nil_fields as (_&_&_&_&E). congruence.
  - apply cons_not_nil. eapply pair_cons; eauto.
  - apply cons_not_nil. eapply pair_cons; eauto.
Qed.

Lemma vrel_nil_0 w : vrel w VNil 0.
Proof. rewrite <- nil_sym. constructor; unfold SYM_NIL, type_sym; lia. Qed.

Lemma nilp_inv v : nilp v = true -> v = VNil.
Proof. destruct v; cbn; try discriminate. intros E. apply Z.eqb_eq in E. subst. reflexivity. Qed.

Lemma vrel_nil_word w v x : vrel w v x -> nilp v = true -> x = 0.
Proof. intros H N. rewrite <- (vrel_nil _ _ _ H) in N. apply Z.eqb_eq; auto. Qed.

Lemma enc_pair w i a d : 0 <= i < 2 ^ (W - 8) -> live w i -> cell (wh w) i = Some (a, d) -> pair_at w (enc_cons_ptr i) a d.
Proof.
  intros R L C. split; [|split; [|split; [|split]]]; auto using enc_word, enc_cons, enc_gc.
  - apply ref_enc; auto.
  - intros _. exists i; auto.
Qed.

(* the words of values and environments may be kept *)
Lemma pair_good w p a d : hsize (wh w) <= 2 ^ (W - 8) -> pair_at w p a d -> good w p.
Proof.
  intros S (W1&C1&G1&R1&L1). destruct (is_const_ptr p) eqn:E.
  - split; [|split; [|split]]; auto.
    + intros X. apply owner_symbol in X. rewrite cons_not_symbol in X; auto. discriminate.
    + intros [_ X]. congruence.
  - destruct (L1 eq_refl) as (i&Ri&->&Li). apply enc_good; auto; [|apply Li].
    rewrite ref_cell_rw, enc_ix in R1 by auto. destruct (cell (wh w) i) eqn:Ci; [|discriminate]. eapply cell_range; eauto.
Qed.

Lemma vrel_good w v x : hsize (wh w) <= 2 ^ (W - 8) -> vrel w v x -> good w x.
Proof.
  intros S. destruct 1; eauto using sym_good, pair_good.
  split; [|split; [|split]]; auto; [|tauto]. intros X. apply owner_symbol in X. congruence.
Qed.

Lemma erel_good w e x : hsize (wh w) <= 2 ^ (W - 8) -> erel w e x -> good w x.
Proof.
  intros S. destruct 1 as [|k l e i j d Ri Li Ci Nl E]; [apply nil_good|]. apply enc_good; auto; [|apply Li]. eapply cell_range; eauto.
Qed.

Lemma crel_good w o x : hsize (wh w) <= 2 ^ (W - 8) -> crel w o x -> good w x.
Proof. destruct o; cbn; intros S H; [eapply vrel_good; eauto|]. subst x. rewrite placeholder_sym. apply sym_good; unfold type_sym; lia. Qed.

Lemma sr_size w g s : srel w g s -> hsize (wh w) <= 2 ^ (W - 8).
Proof. intros SR. apply (ok_size _ _ (sr_heap _ _ _ SR)). Qed.

(* ---- the collector's part of the heap is left alone ---- *)

Definition same_gc (h h' : heap) : Prop := gstack h' = gstack h /\ gsize h' = gsize h /\ lost h' = lost h /\ mem h' = mem h.

Lemma same_gc_refl h : same_gc h h. Proof. repeat split. Qed.
Lemma same_gc_trans a b c : same_gc a b -> same_gc b c -> same_gc a c.
Proof. intros (H1&H2&H3&H4) (G1&G2&G3&G4). repeat split; congruence. Qed.
Lemma same_gc_idle h h' : same_gc h h' -> gc_idle h -> gc_idle h'.
Proof. intros (H1&H2&H3&H4) (G1&G2&G3&G4). unfold gc_idle. rewrite H1, H2, H3, H4. auto. Qed.

Lemma put_cell_gc h p c h' : put_cell h p c = Ok h' -> same_gc h h'.
Proof.
  unfold put_cell. destruct (is_const_ptr p); [discriminate|]. destruct (wr _ _ _); cbn [bind]; try discriminate.
  injection 1 as <-. repeat split.
Qed.
Lemma hput_gc h i c : same_gc h (hput h i c). Proof. repeat split. Qed.
Lemma alloc_cell_gc h ty a d h' x : alloc_cell h ty a d = Ok (h', x) -> same_gc h h'.
Proof.
  unfold alloc_cell. destruct (_ =? 0); [injection 1 as <- _; apply same_gc_refl|].
  destruct (rd _ _); cbn [bind]; try discriminate. destruct (wr _ _ _); cbn [bind]; try discriminate. injection 1 as <- _. repeat split.
Qed.
Lemma cons_gc_same h a d h' x : cons h a d = Ok (h', x) -> same_gc h h'.
Proof. apply alloc_cell_gc. Qed.
Lemma alloc_loop_gc vals : forall c l h h' c' l', alloc_loop vals c l h = Ok (h', c', l') -> same_gc h h'.
Proof.
  induction vals as [|v vals IH]; intros c l h h' c' l'; cbn [alloc_loop]; [injection 1 as <- _ _; apply same_gc_refl|].
  destruct (ref_cell h c) as [x| |]; cbn [bind]; try discriminate. destruct (put_cell h c (v, snd x)) as [h1| |] eqn:E; cbn [bind]; try discriminate.
  intros H. eapply same_gc_trans; [eapply put_cell_gc; eauto|eauto].
Qed.
Lemma alloc_list_init_gc h vals h' x : alloc_list_init h vals = Ok (h', x) -> same_gc h h'.
Proof.
  unfold alloc_list_init. destruct (_ =? 0); [injection 1 as <- _; apply same_gc_refl|].
  destruct (_ <? _); [injection 1 as <- _; apply same_gc_refl|]. intros H.
  destruct (type_of _ =? _); [|injection H as <- _; apply same_gc_refl].
  destruct (alloc_loop vals _ 0 h) as [[[h1 fl] last]| |] eqn:E; cbn [bind] in H; try discriminate.
  destruct (ref_cell _ last) as [c| |]; cbn [bind] in H; try discriminate.
  destruct (put_cell _ last _) as [h3| |] eqn:E3; cbn [bind] in H; try discriminate. injection H as <- _.
  apply alloc_loop_gc in E. apply put_cell_gc in E3. eapply same_gc_trans; [exact E|].
  eapply same_gc_trans; [|eapply same_gc_trans; [exact E3|]]; repeat split.
Qed.
Lemma set_car_gc h p a h' b : set_car h p a = Ok (h', b) -> same_gc h h'.
Proof.
  unfold set_car. intros H.
  repeat (match type of H with context [if ?x then _ else _] => destruct x; try discriminate end);
  try (injection H as <- _; apply same_gc_refl).
  all: destruct (ref_cell h p) as [c| |]; cbn [bind] in H; try discriminate.
  all: destruct (put_cell h p _) as [h1| |] eqn:E; cbn [bind] in H; try discriminate; injection H as <- _; eapply put_cell_gc; eauto.
Qed.
Lemma spine_loop_gc n : forall h t s h', spine_loop n h t s = Ok h' -> same_gc h h'.
Proof.
  induction n as [|n IH]; intros h t s h'; cbn [spine_loop]; (destruct (type_of t =? TYPE_CONS); [|injection 1 as <-; apply same_gc_refl]); [discriminate|].
  destruct (car h s) as [a| |]; cbn [bind]; try discriminate. destruct (set_car h t a) as [[h1 b]| |] eqn:E; cbn [bind fst]; try discriminate.
  destruct (cdr h1 t) as [t'| |]; cbn [bind]; try discriminate. destruct (cdr h1 s) as [s'| |]; cbn [bind]; try discriminate.
  intros H. eapply same_gc_trans; [eapply set_car_gc; eauto|eauto].
Qed.

(* ---- changes of the world ---- *)

(* a change outside the locations *)
Lemma srel_same_idle w w' g s : srel w g s -> heap_ok (wh w') (wfl w') -> agree w w' -> wL w' = wL w ->
  (forall j, lcell w j -> cell (wh w') j = cell (wh w) j /\ ~ In j (wfl w')) ->
  (forall i, wR w' i -> ~ In i (wfl w')) ->
  hsize (wh w') = hsize (wh w) -> incl (wfl w') (wfl w) -> gc_idle (wh w') ->
  (forall i a d, ~ In i (wfl w') -> cell (wh w') i = Some (a, d) ->
     (~ In i (wfl w) /\ cell (wh w) i = Some (a, d)) \/ (good w' a /\ good w' d)) ->
  srel w' g s.
Proof.
  intros [H1 H2 H3 H4 H5 H6 H7 H8 H9 H10 H11 H12] OK G EL K PR SZ IN ID GD. constructor; auto; try congruence.
  - rewrite EL. auto.
  - rewrite EL. auto.
  - intros l j k N. rewrite EL in N. destruct (H4 l j k N) as (R&F&KO&o&x&S1&S2&S3).
    assert (I : lcell w j) by (exists l, k; auto).
    destruct (K j I) as [E1 E2]. sp; auto; try tauto. exists o, x. sp; auto; [congruence|]. eauto using crel_mono.
  - intros b B. destruct (H6 b B) as (r&R1&R2). exists r. split; auto. eauto using erel_mono.
  - intros i a d N C. destruct (GD i a d N C) as [[N' C']|]; auto. destruct (H9 i a d N' C'). split; eapply good_mono; eauto.
  - destruct G as (_&->&_). auto.
  - eapply Forall_impl; [|exact H12]. intros c. apply ctx_mono; auto.
Qed.

Lemma srel_same w w' g s : srel w g s -> heap_ok (wh w') (wfl w') -> agree w w' -> wL w' = wL w ->
  (forall j, lcell w j -> cell (wh w') j = cell (wh w) j /\ ~ In j (wfl w')) ->
  (forall i, wR w' i -> ~ In i (wfl w')) ->
  hsize (wh w') = hsize (wh w) -> incl (wfl w') (wfl w) -> same_gc (wh w) (wh w') ->
  (forall i a d, ~ In i (wfl w') -> cell (wh w') i = Some (a, d) ->
     (~ In i (wfl w) /\ cell (wh w) i = Some (a, d)) \/ (good w' a /\ good w' d)) ->
  srel w' g s.
Proof. intros SR OK G EL K PR SZ IN SG. eapply srel_same_idle; eauto. eapply same_gc_idle; eauto. apply SR. Qed.

Lemma free_range w g s i : srel w g s -> In i (wfl w) -> 0 <= i < hsize (wh w).
Proof.
  intros SR I. pose proof (chain_range _ _ _ (ok_chain _ _ (sr_heap _ _ _ SR))) as R. rewrite Forall_forall in R. apply R; auto.
Qed.

Lemma loc_free w g s j : srel w g s -> lcell w j -> ~ In j (wfl w).
Proof. intros SR (l&k&L). destruct (sr_loc _ _ _ SR l j k L) as (_&F&_). auto. Qed.

(* a new cell, not known to the program *)
Lemma take w g s i fl a d : srel w g s -> wfl w = i :: fl -> good w a -> good w d ->
  exists h', cons (wh w) a d = Ok (h', enc_cons_ptr i) /\ 0 <= i < 2 ^ (W - 8) /\
    let w' := mkW h' fl (wL w) (fun j => j = i \/ wR w j) in
    srel w' g s /\ hext w w' /\ cell h' i = Some (a, d) /\ ~ In i fl /\ ~ lcell w i /\ good w' (enc_cons_ptr i) /\ same_but [i] (wh w) h'.
Proof.
  intros SR E Ga Gd. pose proof (sr_heap _ _ _ SR) as OK. rewrite E in OK.
  destruct (cons_ok (wh w) i fl a d OK) as (h'&Ec&OK'&C&SB&Sz&Cc&_&_&R).
  exists h'. split; auto. split; auto. intros w'.
  pose proof (ok_nodup _ _ OK) as ND. inversion ND as [|? ? NI ND']; subst.
  assert (NL : ~ lcell w i).
  { intros X. apply (loc_free _ _ _ _ SR X). rewrite E. left; auto. }
  assert (HX : hext w w').
  { constructor; cbn; auto.
    - rewrite E. intros j J. right; auto.
    - intros j [->|J]; auto. right. rewrite E. left; auto.
    - intros j J1 J2. apply SB. intros [<-|[]]. apply J1. rewrite E. left; auto. }
  assert (IN : incl fl (wfl w)) by (rewrite E; intros j J; right; auto).
  sp; auto.
  2:{ apply enc_good; cbn; auto; rewrite Sz; [apply (sr_size _ _ _ SR)|]. eapply free_range; eauto. rewrite E. left; auto. }
  eapply srel_same; eauto using hext_agree, cons_gc_same; cbn.
  - intros j J. split; [apply SB; intros [<-|[]]; auto|]. intros X. apply (loc_free _ _ _ _ SR J). auto.
  - intros j [->|J]; auto. intros X. apply (sr_priv _ _ _ SR j J). auto.
  - intros j a' d' NJ CJ. destruct (Z.eq_dec j i) as [->|Nji].
    + right. rewrite C in CJ. injection CJ as <- <-. split; eapply good_mono; eauto.
    + left. split; [rewrite E; intros [X|X]; auto|]. rewrite <- CJ. symmetry. apply SB. intros [<-|[]]. auto.
Qed.

(* cells become known to the program *)
Lemma publish w g s (R : Z -> Prop) : srel w g s -> (forall i, R i -> wR w i) ->
  srel (mkW (wh w) (wfl w) (wL w) R) g s /\ agree w (mkW (wh w) (wfl w) (wL w) R).
Proof.
  intros SR I.
  assert (G : agree w (mkW (wh w) (wfl w) (wL w) R)).
  { split; [|split; auto]. intros i (H1&H2&H3). split; auto. split; [|split]; cbn; auto. }
  split; auto. eapply srel_same; eauto using incl_refl, same_gc_refl; cbn; auto; [apply SR| |intros i X; apply (sr_priv _ _ _ SR), I, X].
  intros j J. split; auto. eapply loc_free; eauto.
Qed.

(* a cell becomes a location *)
Definition addL (L : nat -> option (Z * Z)) (n : nat) (x : Z * Z) : nat -> option (Z * Z) :=
  fun l => if Nat.eqb l n then Some x else L l.

Lemma addL_eq L n x : addL L n x n = Some x. Proof. unfold addL. rewrite Nat.eqb_refl. auto. Qed.
Lemma addL_old L n x l y : L n = None -> L l = Some y -> addL L n x l = Some y.
Proof. intros N E. unfold addL. destruct (Nat.eqb_spec l n) as [->|]; auto. congruence. Qed.
Lemma addL_inv L n x l y : addL L n x l = Some y -> (l = n /\ y = x) \/ (l <> n /\ L l = Some y).
Proof. unfold addL. destruct (Nat.eqb_spec l n) as [->|]; auto. injection 1 as <-. auto. Qed.

Lemma promote w g s b (R : Z -> Prop) k o x : srel w g s -> wR w b -> (forall i, R i -> wR w i) -> ~ R b -> 0 <= b < 2 ^ (W - 8) -> ~ In b (wfl w) ->
  ~ lcell w b -> cell (wh w) b = Some (enc_sym k, x) -> key_ok k -> crel w o x ->
  let w' := mkW (wh w) (wfl w) (addL (wL w) (length (sto s)) (b, k)) R in
  srel w' g (fst (alloc s o)) /\ agree w w'.
Proof.
  intros SR E IR NR Rb NF NL Cb KO CR w'. pose proof SR as [H1 H2 H3 H4 H5 H6 H7 H8 H9 H10 H11 H12].
  pose proof (H2 (length (sto s)) (le_n _)) as NN.
  assert (G : agree w w').
  { split; [|split; auto].
    - intros i (I1&I2&I3). split; auto. split; [|split]; cbn; auto.
      intros (l&k'&L). apply addL_inv in L. destruct L as [[-> L]|[_ L]]; [|apply I2; exists l, k'; auto].
      injection L as -> ->. auto.
    - intros l j k' L. apply addL_old; auto. }
  split; auto. constructor; cbn; auto.
  - intros l Ll. rewrite app_length in Ll. cbn in Ll. unfold addL. destruct (Nat.eqb_spec l (length (sto s))); [lia|]. apply H2. lia.
  - intros l l' j k1 k2 L1 L2. apply addL_inv in L1. apply addL_inv in L2.
    destruct L1 as [[-> L1]|[_ L1]], L2 as [[-> L2]|[_ L2]]; auto.
    + injection L1 as -> ->. exfalso. apply NL. exists l', k2. auto.
    + injection L2 as -> ->. exfalso. apply NL. exists l, k1. auto.
    + eapply H3; eauto.
  - intros l j k' N. apply addL_inv in N. destruct N as [[-> N]|[_ N]].
    + injection N as -> ->. sp; try tauto. exists o, x. sp; auto; [|eauto using crel_mono].
      rewrite nth_error_app2, Nat.sub_diag by lia. reflexivity.
    + destruct (H4 l j k' N) as (Rj&F&K&o'&x'&S1&S2&S3). sp; try tauto.
      exists o', x'. sp; auto; [|eauto using crel_mono]. rewrite nth_error_app1; auto. apply nth_error_Some. congruence.
  - intros c B. destruct (H6 c B) as (r&R1&R2). exists r. split; auto. eauto using erel_mono.
  - intros k' l I X. apply (H7 _ _ I). unfold content in *. cbn in X.
    destruct (nth_error (sto s) l) as [o'|] eqn:N; auto.
    rewrite nth_error_app1 in X by (apply nth_error_Some; congruence). rewrite N in X. auto.
  - eapply Forall_impl; [|exact H12]. intros c. apply ctx_mono; auto using incl_refl.
Qed.

Lemma nth_put {T} (l : list T) n x m : (n < length l)%nat ->
  nth_error (put l n x) m = if Nat.eqb m n then Some x else nth_error l m.
Proof.
  intros H. unfold put. destruct (Nat.eqb_spec m n) as [->|N].
  - rewrite nth_error_app2; rewrite firstn_length_le by lia; auto. rewrite Nat.sub_diag. reflexivity.
  - destruct (Nat.lt_ge_cases m n).
    + rewrite nth_error_app1 by (rewrite firstn_length_le; lia). apply nth_firstn; auto.
    + rewrite nth_error_app2; rewrite firstn_length_le by lia; [|lia].
      destruct (m - n)%nat as [|q] eqn:Q; [lia|]. cbn [nth_error].
      rewrite <- (firstn_skipn (S n) l) at 2. rewrite nth_error_app2; rewrite firstn_length_le; try lia.
      f_equal. lia.
Qed.

Lemma put_length {T} (l : list T) n x : (n < length l)%nat -> length (put l n x) = length l.
Proof.
  intros H. unfold put. rewrite app_length. cbn [length]. rewrite firstn_length_le, skipn_length by lia. lia.
Qed.

(* a location gets a value *)
Lemma store w g s l j k v x : srel w g s -> wL w l = Some (j, k) -> vrel w v x ->
  let w' := mkW (hput (wh w) j (enc_sym k, x)) (wfl w) (wL w) (wR w) in
  srel w' g (assign s l v) /\ hext w w'.
Proof.
  intros SR N V w'. pose proof SR as [H1 H2 H3 H4 H5 H6 H7 H8 H9 H10 H11 H12].
  destruct (H4 l j k N) as (Rj&F&K&o&x0&S1&S2&S3).
  assert (I : lcell w j) by (exists l, k; auto).
  assert (HX : hext w w').
  { constructor; cbn; auto.
    - apply hput_size.
    - intros y Y; auto.
    - intros i N1 N2. apply cell_hput_neq; [lia|]. intros ->. auto. }
  split; auto. pose proof (hext_agree _ _ HX) as G.
  assert (Lt : (l < length (sto s))%nat) by (apply nth_error_Some; congruence).
  constructor; cbn; auto.
  - apply heap_ok_put; auto. lia.
  - rewrite put_length; auto.
  - intros l' j' k' N'. destruct (H4 l' j' k' N') as (Rj'&F'&K'&o'&x'&T1&T2&T3). sp; try tauto.
    rewrite nth_put by auto. destruct (Nat.eqb_spec l' l) as [->|Ne].
    + assert (Ej : j' = j) by congruence. assert (Ek : k' = k) by congruence. subst j' k'.
      exists (Some v), x. sp; auto; [eapply cell_hput_eq; eauto|]. cbn. eauto using vrel_mono, hext_agree.
    + exists o', x'. sp; auto; [|eauto using crel_mono, hext_agree].
      rewrite cell_hput_neq; auto; [lia|]. intros ->. apply Ne. eapply H3; eauto.
  - intros b B. destruct (H6 b B) as (r&R1&R2). exists r. split; auto. eauto using erel_mono, hext_agree.
  - intros k' l' I' X. apply (H7 _ _ I'). unfold content in *. cbn in X. rewrite nth_put in X by auto.
    destruct (Nat.eqb_spec l' l); [discriminate|auto].
  - intros i a d Ni Ci. destruct (Z.eq_dec i j) as [->|Nij].
    + rewrite (cell_hput_eq _ _ _ _ S2) in Ci. injection Ci as <- <-. split; [apply key_good; auto|].
      eapply good_mono; [..|eapply vrel_good; [apply (sr_size _ _ _ SR)|exact V]]; cbn; auto using hput_size, incl_refl.
    + rewrite cell_hput_neq in Ci by (auto; lia). destruct (H9 i a d Ni Ci). split; (eapply (good_mono w); [| |eauto]; cbn; auto using hput_size, incl_refl).
  - eapply Forall_impl; [|exact H12]. intros c. apply ctx_mono; cbn; auto using incl_refl, hput_size.
Qed.

(* a cell that the program does not know changes *)
Lemma scribble w g s i a d c0 : srel w g s -> wR w i -> 0 <= i -> ~ In i (wfl w) -> ~ lcell w i ->
  cell (wh w) i = Some c0 -> good w a -> good w d ->
  let w' := mkW (hput (wh w) i (a, d)) (wfl w) (wL w) (wR w) in srel w' g s /\ agree w w'.
Proof.
  intros SR I Ri NF NL C Ga Gd w'.
  assert (G : agree w w').
  { split; [|split; auto].
    intros j (J1&J2&J3). split; [split; [|split]; auto|]. apply cell_hput_neq; auto. intros ->. auto. }
  split; auto. apply (srel_same w); auto using incl_refl, hput_gc, hput_size; cbn.
  - apply heap_ok_put; auto. apply SR.
  - intros j J. split; [apply cell_hput_neq; auto; intros ->; auto|]. eapply loc_free; eauto.
  - apply SR.
  - apply hput_size.
  - apply hput_gc.
  - intros j a' d' NJ CJ. destruct (Z.eq_dec j i) as [->|Nji].
    + right. rewrite (cell_hput_eq _ _ _ _ C) in CJ. injection CJ as <- <-. split; (eapply (good_mono w); [| |eauto]; cbn; auto using hput_size, incl_refl).
    + left. rewrite cell_hput_neq in CJ by auto. auto.
Qed.

(* ---- a new binding on top of an environment: two new cells ---- *)

Lemma bind_new w g s e env k o x b i fl : srel w g s -> erel w e env -> wfl w = b :: i :: fl -> key_ok k -> crel w o x ->
  exists h1 h2, cons (wh w) (enc_sym k) x = Ok (h1, enc_cons_ptr b) /\
    cons h1 (enc_cons_ptr b) env = Ok (h2, enc_cons_ptr i) /\
    0 <= b < 2 ^ (W - 8) /\ 0 <= i < 2 ^ (W - 8) /\
    let w' := mkW h2 fl (addL (wL w) (length (sto s)) (b, k)) (wR w) in
    srel w' g (fst (alloc s o)) /\ hext w w' /\ erel w' ((k, length (sto s)) :: e) (enc_cons_ptr i) /\ same_but [b; i] (wh w) h2.
Proof.
  intros SR ER E KO CR. pose proof (sr_size _ _ _ SR) as SZ.
  destruct (take w g s b (i :: fl) (enc_sym k) x SR E (key_good _ _ KO) (crel_good _ _ _ SZ CR)) as (h1&C1&Rb&SR1&HX1&Cb&NFb&NLb&Gb&SB1).
  set (w1 := mkW h1 (i :: fl) (wL w) (fun j => j = b \/ wR w j)) in *.
  pose proof (sr_size _ _ _ SR1) as SZ1. pose proof (erel_mono _ _ _ _ (hext_agree _ _ HX1) ER) as ER1.
  destruct (take w1 g s i fl (enc_cons_ptr b) env SR1 eq_refl Gb (erel_good _ _ _ SZ1 ER1)) as (h2&C2&Ri&SR2&HX2&Ci&NFi&NLi&Gi&SB2).
  set (w2 := mkW h2 fl (wL w1) (fun j => j = i \/ wR w1 j)) in *.
  exists h1, h2. split; auto. split; auto. split; auto. split; auto. intros w'.
  assert (Nbi : b <> i) by (intros ->; apply NFb; left; auto).
  assert (Cb2 : cell h2 b = Some (enc_sym k, x)).
  { rewrite <- Cb. apply (hx_cells _ _ HX2); cbn; auto. }
  pose proof (hext_trans _ _ _ HX1 HX2) as HX.
  assert (NRb : ~ wR w b) by (intros X; apply (sr_priv _ _ _ SR b X); rewrite E; left; auto).
  destruct (promote w2 g s b (wR w) k o x SR2) as (SR4&G4); cbn; auto.
  { intros X. apply NFb. right; auto. }
  { eapply crel_mono; [|exact CR]. apply hext_agree; auto. }
  cbn in SR4, G4. fold w' in SR4, G4.
  assert (G : agree w w') by (eapply agree_trans; [apply hext_agree; exact HX|exact G4]).
  pose proof (sr_len _ _ _ SR _ (le_n _)) as NN. sp; auto.
  - destruct HX as [X1 X2 X3 X4 X5 X6 X7]. constructor; auto; cbn.
    + intros l j k' L. apply addL_old; auto.
    + intros j (l&k'&L). apply addL_inv in L. destruct L as [[_ L]|[_ L]]; [|left; exists l, k'; auto].
      injection L as -> ->. right. rewrite E. left; auto.
  - eapply er_cons with (j := b) (d := env); auto.
    + split; [|split]; cbn; auto.
      * intros (l&k'&L). apply addL_inv in L. destruct L as [[_ L]|[_ L]]; [injection L as -> ->; auto|].
        apply NLi. exists l, k'. auto.
      * intros X. apply (sr_priv _ _ _ SR i X). rewrite E. right; left; auto.
    + cbn. apply addL_eq.
    + eapply erel_mono; eauto.
  - intros j J. transitivity (cell h1 j); [apply SB2|apply SB1]; intros [<-|[]]; apply J; cbn; auto.
Qed.


(* new cells and locations that turn out not to be needed *)
Lemma drop w w2 g g2 s s2 : srel w g s -> srel w2 g2 s2 -> hext w w2 ->
  (forall j, lcell w j -> cell (wh w2) j = cell (wh w) j) ->
  let w' := mkW (wh w2) (wfl w2) (wL w) (wR w) in srel w' g s /\ hext w w'.
Proof.
  intros SR SR2 HX LC w'.
  assert (HX' : hext w w').
  { destruct HX as [X1 X2 X3 X4 X5 X6 X7]. constructor; auto. }
  split; auto. eapply srel_same_idle; eauto using hext_agree; try apply HX'; try apply SR2; cbn.
  - intros j J. split; auto. intros X. apply (hx_free _ _ HX) in X. exact (loc_free _ _ _ _ SR J X).
  - intros i I X. apply (hx_free _ _ HX) in X. exact (sr_priv _ _ _ SR i I X).
  - intros i a d N C. right. apply (sr_good _ _ _ SR2 i a d N C).
Qed.

End Arch.
