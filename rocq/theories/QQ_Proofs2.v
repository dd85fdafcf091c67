(* The code's expansion of quasi-quoted forms, on the heap, is the expansion on
   trees. *)
From Verif Require Import Base Value_Model Heap_Model Value_Proofs Value_Proofs2 Heap_Spec Heap_Proofs
  Heap_Proofs2 List_Proofs Env_Proofs Match_Model QQ_Model QQ_Spec QQ_Proofs.
Local Open Scope Z_scope.

Section Arch.
Context {A : Arch}.

Definition disj (l l' : list Z) : Prop := forall x, In x l -> In x l' -> False.

Lemma NoDup_app_disj (l l' : list Z) : NoDup (l ++ l') <-> NoDup l /\ NoDup l' /\ disj l l'.
Proof.
  induction l as [|a l IH]; simpl.
  - split; [intros; repeat split; auto using NoDup_nil; intros ? []|tauto].
  - rewrite !NoDup_cons_iff, IH, in_app_iff. unfold disj. simpl. split.
    + intros (N & Nl & Nl' & D). repeat split; auto. intros x [<-|I] I'; eauto.
    + intros ((N & Nl) & Nl' & D). repeat split; eauto. intros [I|I]; eauto.
Qed.

Ltac sp := repeat match goal with |- _ /\ _ => split end.
Ltac sets := unfold disj, incl in *; intros; repeat (rewrite in_app_iff in *; cbn [In app] in *);
  repeat match goal with H : _ \/ _ |- _ => destruct H end; subst; eauto 6.

Lemma nodup3 (i : Z) l l' : NoDup (i :: l ++ l') -> ~ In i l /\ ~ In i l' /\ disj l l' /\ NoDup l /\ NoDup l'.
Proof.
  rewrite NoDup_cons_iff, NoDup_app_disj, in_app_iff. tauto.
Qed.

Lemma tree_nodup h v t cs : tree_at h v t cs -> NoDup cs.
Proof. destruct 1; auto using NoDup_nil. Qed.

Lemma tree_frame h h' v t cs : tree_at h v t cs -> (forall c, In c cs -> cell h' c = cell h c) -> tree_at h' v t cs.
Proof.
  induction 1 as [|i a d ta td ca cd R C Ta IHa Td IHd N]; intros F; [constructor; auto|].
  econstructor; eauto.
  - rewrite F; simpl; eauto.
  - apply IHa. intros; apply F; simpl; rewrite in_app_iff; auto.
  - apply IHd. intros; apply F; simpl; rewrite in_app_iff; auto.
Qed.

Lemma tree_same l h h' v t cs : tree_at h v t cs -> same_but l h h' -> disj cs l -> tree_at h' v t cs.
Proof. intros T S D. eapply tree_frame; [exact T|]. intros c I. apply S. intros I'. eapply D; eauto. Qed.

Lemma tree_hput h v t cs i p : tree_at h v t cs -> ~ In i cs -> 0 <= i -> tree_at (hput h i p) v t cs.
Proof.
  intros T N R. apply (tree_same [i] h); auto using hput_same. intros x I [<-|[]]. auto.
Qed.

Lemma tree_range h v t cs i : tree_at h v t cs -> In i cs -> 0 <= i < 2 ^ (W - 8) /\ 0 <= i < hsize h.
Proof.
  induction 1 as [|j a d ta td ca cd R C Ta IHa Td IHd N]; intros I; [destruct I|].
  destruct I as [<-|I].
  - split; auto. pose proof (cell_range _ _ _ C). lia.
  - apply in_app_or in I. destruct I; auto.
Qed.

Lemma enc_is_cons i : 0 <= i < 2 ^ (W - 8) -> is_cons (enc_cons_ptr i) = true.
Proof. intros. apply rw_is_cons; auto using enc_word, enc_rw. Qed.

Lemma tree_is_cons h v t cs : tree_at h v t cs -> is_cons v = match t with Nd _ _ => true | At _ => false end.
Proof. destruct 1; auto using enc_is_cons. Qed.

Lemma tree_type h v t cs : tree_at h v t cs -> (type_of v =? TYPE_CONS) = match t with Nd _ _ => true | At _ => false end.
Proof.
  destruct 1 as [v Wv N|]; [|apply enc_type; auto]. destruct (type_of v =? TYPE_CONS) eqn:E; auto.
  rewrite (rw_is_cons v Wv E) in N. discriminate.
Qed.

Lemma cons_sym s : is_cons (enc_sym s) = false.
Proof. unfold is_cons. rewrite is_symbol_not_ptr by apply enc_sym_is_symbol. reflexivity. Qed.

Lemma enc_not_sym i s : 0 <= i < 2 ^ (W - 8) -> (enc_cons_ptr i =? enc_sym s) = false.
Proof.
  intros R. destruct (Z.eqb_spec (enc_cons_ptr i) (enc_sym s)) as [E|]; auto.
  pose proof (enc_is_cons i R) as C. rewrite E, cons_sym in C. discriminate.
Qed.

Lemma NIL0 : NIL = 0. Proof. exact nil_sym. Qed.

Lemma tree_nil h v t cs : tree_at h v t cs -> is_symbol_nil v = is_tnil t.
Proof. destruct 1; auto. unfold is_symbol_nil. rewrite <- nil_sym. apply enc_not_sym; auto. Qed.

Lemma tree_head h v t cs s : tree_at h v t cs -> (v =? enc_sym s) = match t with At c => c =? enc_sym s | _ => false end.
Proof. destruct 1; auto using enc_not_sym. Qed.

Lemma sym_and v s : is_symbol v && (v =? enc_sym s) = (v =? enc_sym s).
Proof. destruct (Z.eqb_spec v (enc_sym s)); [subst; rewrite enc_sym_is_symbol|rewrite andb_false_r]; auto. Qed.

Lemma type_and v s : (type_of v =? TYPE_SYMBOL) && (v =? enc_sym s) = (v =? enc_sym s).
Proof.
  destruct (Z.eqb_spec v (enc_sym s)); [subst|rewrite andb_false_r]; auto.
  rewrite type_symbol_iff, enc_sym_is_symbol by auto using enc_sym_word, enc_sym_gc. reflexivity.
Qed.

Lemma tree_atom_sym h s : tree_at h (enc_sym s) (At (enc_sym s)) [].
Proof. constructor; auto using enc_sym_word, cons_sym. Qed.

Lemma tree_tnil h : tree_at h NIL tnil [].
Proof. unfold tnil. rewrite NIL0. constructor; [apply nil_fields|]. rewrite <- nil_sym. apply cons_sym. Qed.

Lemma get_car_enc h i a d : 0 <= i < 2 ^ (W - 8) -> cell h i = Some (a, d) -> get_car h (enc_cons_ptr i) = Ok (Some a).
Proof. intros R C. unfold get_car. rewrite enc_is_ptr, (ref_enc h i _ R C) by auto. reflexivity. Qed.
Lemma get_cdr_enc h i a d : 0 <= i < 2 ^ (W - 8) -> cell h i = Some (a, d) -> get_cdr h (enc_cons_ptr i) = Ok (Some d).
Proof. intros R C. unfold get_cdr. rewrite enc_is_ptr, (ref_enc h i _ R C) by auto. reflexivity. Qed.
Lemma get_cadr_enc h i j a d e : 0 <= i < 2 ^ (W - 8) -> 0 <= j < 2 ^ (W - 8) ->
  cell h i = Some (a, enc_cons_ptr j) -> cell h j = Some (d, e) -> get_cadr h (enc_cons_ptr i) = Ok (Some d).
Proof.
  intros R R' C C'. unfold get_cadr. rewrite enc_is_ptr, (ref_enc h i _ R C) by auto. cbn [bind snd].
  rewrite enc_is_ptr, (ref_enc h j _ R' C') by auto. reflexivity.
Qed.

Lemma quoted_ok h v t cs : tree_at h v t cs ->
  is_quoted_list h v = Ok (match qlist t with Some _ => true | None => false end).
Proof.
  intros T. unfold is_quoted_list. rewrite (tree_is_cons _ _ _ _ T).
  destruct T as [|i a d ta td ca cd R C Ta Td N]; [reflexivity|].
  rewrite (car_enc _ _ _ _ R C). cbn [bind]. unfold QUOTE. rewrite sym_and, (tree_head _ _ _ _ SYM_QUOTE Ta).
  destruct ta as [q|]; [|reflexivity]. cbn [qlist].
  rewrite (cdr_enc _ _ _ _ R C). cbn [bind]. rewrite (tree_is_cons _ _ _ _ Td).
  destruct Td as [|j a' d' ta' td' ca' cd' R' C' Ta' Td' N'].
  - destruct (_ =? _); reflexivity.
  - rewrite (car_enc _ _ _ _ R' C'). cbn [bind]. rewrite (tree_is_cons _ _ _ _ Ta'). fold QUOTE.
    destruct (q =? QUOTE), ta'; reflexivity.
Qed.

(* the parts of a quoted list *)
Lemma qlist_parts h v t cs x : tree_at h v t cs -> qlist t = Some x ->
  exists i j a d b tb cx cb, v = enc_cons_ptr i /\ 0 <= i < 2 ^ (W - 8) /\ cell h i = Some (a, enc_cons_ptr j) /\
    a = QUOTE /\ 0 <= j < 2 ^ (W - 8) /\ cell h j = Some (d, b) /\ tree_at h d x cx /\ tree_at h b tb cb /\
    t = Nd (At QUOTE) (Nd x tb) /\ cs = i :: j :: cx ++ cb /\ (exists y z, x = Nd y z) /\
    NoDup (i :: j :: cx ++ cb).
Proof.
  intros T Q. destruct T as [|i a d ta td ca cd R C Ta Td N]; [discriminate|].
  destruct ta as [q|]; [|discriminate]. inversion Ta; subst.
  destruct Td as [|j a' d' ta' td' ca' cd' R' C' Ta' Td' N']; [discriminate|].
  destruct ta' as [|y z]; [discriminate|]. cbn [qlist] in Q. destruct (Z.eqb_spec q QUOTE); [|discriminate]. injection Q as <-.
  subst q. exists i, j, QUOTE, a', d', td', ca', cd'. repeat (split; auto). eauto.
Qed.

(* ---- steps that own some cells ---- *)

(* from [h] with free cells [fl] to [h'] with [fl'], taking at most [k] free
   cells and changing only these and the cells [cs]; [cs'] are among them *)
Definition step (k : nat) (h : heap) (fl cs : list Z) (h' : heap) (fl' cs' : list Z) : Prop :=
  exists u, fl = u ++ fl' /\ (length u <= k)%nat /\ heap_ok h' fl' /\ incl cs' (cs ++ u) /\
    same_but (cs ++ u) h h' /\ hsize h' = hsize h.

Lemma step_refl k h fl cs cs' : heap_ok h fl -> incl cs' cs -> step k h fl cs h fl cs'.
Proof. intros OK I. exists []. sp; auto; [simpl; lia|rewrite app_nil_r; auto|apply same_but_refl]. Qed.

Lemma step_disj k h fl cs h' fl' cs' : step k h fl cs h' fl' cs' -> NoDup fl -> disj cs fl -> disj cs' fl'.
Proof.
  intros (u & -> & _ & _ & I & _) N D x Ix If. apply NoDup_app_disj in N. destruct N as (_ & _ & Du).
  apply I in Ix. apply in_app_or in Ix. destruct Ix; [eapply D; eauto; apply in_or_app; auto|eapply Du; eauto].
Qed.

(* the cells [fr] are left alone *)
Lemma step_frame k h fl cs h' fl' cs' v t fr : step k h fl cs h' fl' cs' -> tree_at h v t fr ->
  disj fr cs -> disj fr fl -> tree_at h' v t fr /\ disj fr cs' /\ disj fr fl'.
Proof.
  intros (u & -> & _ & _ & I & S & _) T D1 D2. split; [|split].
  - eapply tree_same; eauto. intros x Ix Iu. apply in_app_or in Iu. destruct Iu; eauto.
    eapply D2; eauto. apply in_or_app; auto.
  - intros x Ix Ic. apply I in Ic. apply in_app_or in Ic. destruct Ic; eauto. eapply D2; eauto. apply in_or_app; auto.
  - intros x Ix Iu. eapply D2; eauto. apply in_or_app; auto.
Qed.

Lemma step_trans k1 k2 h1 fl1 cs1 h2 fl2 cs2 h3 fl3 cs3 cs cs' :
  step k1 h1 fl1 cs1 h2 fl2 cs2 -> step k2 h2 fl2 cs h3 fl3 cs3 -> incl cs (cs2 ++ cs') ->
  step (k1 + k2) h1 fl1 (cs1 ++ cs') h3 fl3 cs3.
Proof.
  intros (u & -> & L & OK & I & S & Z1) (u' & -> & L' & OK' & I' & S' & Z2) Ic.
  assert (In1 : incl (cs1 ++ u) ((cs1 ++ cs') ++ u ++ u')).
  { intros x. rewrite !in_app_iff. tauto. }
  assert (In2 : incl (cs ++ u') ((cs1 ++ cs') ++ u ++ u')).
  { intros x Ix. apply in_app_or in Ix. destruct Ix as [Ix|Ix]; [|rewrite !in_app_iff; auto].
    apply Ic in Ix. apply in_app_or in Ix. destruct Ix as [Ix|Ix]; [apply I in Ix; apply In1; auto|].
    rewrite !in_app_iff; auto. }
  exists (u ++ u'). rewrite <- app_assoc. sp; auto; try congruence.
  - rewrite app_length. lia.
  - intros x Ix. apply In2, I'; auto.
  - eapply same_but_trans; [exact (same_but_incl _ _ _ _ In1 S)|exact (same_but_incl _ _ _ _ In2 S')].
Qed.

Lemma step_weaken k k' h fl cs cs2 h' fl' cs' : step k h fl cs h' fl' cs' -> (k <= k')%nat -> incl cs cs2 ->
  step k' h fl cs2 h' fl' cs'.
Proof.
  intros (u & -> & L & OK & I & S & Z1) K Ic. exists u. sp; auto; [lia| |].
  - intros x Ix. apply I in Ix. rewrite in_app_iff in *. destruct Ix; auto.
  - eapply same_but_incl; eauto. intros x. rewrite !in_app_iff. intros [|]; auto.
Qed.

Lemma step_len k h fl cs h' fl' cs' : step k h fl cs h' fl' cs' -> (length fl <= k + length fl')%nat.
Proof. intros (u & -> & L & _). rewrite app_length. lia. Qed.
Lemma step_ok k h fl cs h' fl' cs' : step k h fl cs h' fl' cs' -> heap_ok h' fl'.
Proof. intros (u & _ & _ & OK & _). auto. Qed.
Lemma step_size k h fl cs h' fl' cs' : step k h fl cs h' fl' cs' -> hsize h' = hsize h.
Proof. intros (u & _ & _ & _ & _ & _ & E). auto. Qed.

Lemma consg_ok h fl a ta ca d td cd : heap_ok h fl -> fl <> [] -> tree_at h a ta ca -> tree_at h d td cd ->
  disj ca cd -> disj ca fl -> disj cd fl ->
  exists h' v fl' c, consg h a d = Ok (Some (h', v)) /\ tree_at h' v (Nd ta td) c /\ step 1 h fl (ca ++ cd) h' fl' c.
Proof.
  intros OK NE Ta Td D Da Dd. destruct fl as [|i fl]; [congruence|].
  destruct (cons_ok h i fl a d OK) as (h' & E & OK' & C & S & Sz & _ & _ & _ & R).
  assert (is_symbol_nil (freelist h) = false) as Fn.
  { pose proof (ok_chain _ _ OK) as Ch. inversion Ch; subst. unfold is_symbol_nil. rewrite <- nil_sym.
    apply enc_not_sym; auto. }
  exists h', (enc_cons_ptr i), fl, (i :: ca ++ cd). unfold consg. rewrite Fn, E. cbn [bind].
  split; [reflexivity|].
  assert (Na : ~ In i ca) by (intros I; eapply Da; eauto; simpl; auto).
  assert (Nd' : ~ In i cd) by (intros I; eapply Dd; eauto; simpl; auto).
  split.
  - econstructor; eauto.
    + eapply tree_same; eauto. intros x Ix [<-|[]]; auto.
    + eapply tree_same; eauto. intros x Ix [<-|[]]; auto.
    + constructor; [rewrite in_app_iff; tauto|]. apply NoDup_app_disj. eauto using tree_nodup.
  - exists [i]. sp; auto.
    + intros x [<-|I]; rewrite !in_app_iff in *; simpl; tauto.
    + eapply same_but_incl; eauto. intros x [<-|[]]. rewrite in_app_iff. simpl; auto.
Qed.

(* ---- lbm_list_append on trees ---- *)

Lemma last_cell_tree fuel : forall h v a d cs w tw cw, tree_at h v (Nd a d) cs -> tree_at h w tw cw -> disj cs cw ->
  (length (elems d) <= fuel)%nat ->
  exists i p x y c, last_cell_loop fuel h v = Ok (enc_cons_ptr i) /\ 0 <= i < 2 ^ (W - 8) /\ In i cs /\
    cell h i = Some (x, y) /\ p = (x, w) /\
    tree_at (hput h i p) v (onto (elems (Nd a d)) tw) c /\ incl c (cs ++ cw) .
Proof.
  induction fuel as [|fuel IH]; intros h v a d cs w tw cw T Tw D F;
    inversion T as [|i x y ta td ca cd R C Ta Td N]; subst; cbn [last_cell_loop];
    rewrite (cdr_enc _ _ _ _ R C); cbn [bind]; rewrite (tree_type _ _ _ _ Td); destruct d as [z|d1 d2];
    try (cbn [elems length] in F; lia).
  1, 2: exists i, (x, w), x, y, (i :: ca ++ cw);
    pose proof (proj1 (nodup3 _ _ _ N)) as Nca;
    assert (Ncw : ~ In i cw) by (intros I; apply (D i); simpl; auto);
    split; [reflexivity|]; split; [auto|]; split; [simpl; auto|]; split; [auto|]; split; [auto|]; split;
    [ cbn [elems onto]; apply ta_cons with (a := x) (d := w);
      [ auto | eapply cell_hput_eq; eauto
      | apply tree_hput; auto; lia | apply tree_hput; auto; lia
      | constructor; [rewrite in_app_iff; tauto|apply NoDup_app_disj; sp; eauto using tree_nodup];
        intros q I1 I2; apply (D q); simpl; rewrite ?in_app_iff; auto]
    | intros q Iq; simpl in *; rewrite ?in_app_iff in *; simpl; rewrite ?in_app_iff; tauto].
  assert (Dw : disj cd cw) by (intros q I1 I2; apply (D q); simpl; rewrite ?in_app_iff; auto).
  destruct (IH h y d1 d2 cd w tw cw Td Tw Dw) as (j & p & x' & y' & c & E & Rj & Ij & Cj & -> & Tj & Ic);
    [cbn [elems length] in F; lia|].
  assert (Nij : i <> j).
  { intros ->. apply nodup3 in N. tauto. }
  assert (Nia : ~ In i (ca ++ cd)) by (inversion N; auto).
  assert (Dad : disj ca cd) by (apply nodup3 in N; tauto).
  exists j, (x', w), x', y', (i :: ca ++ c). rewrite E. split; [reflexivity|]. split; [auto|].
  split; [simpl; rewrite in_app_iff; auto|]. split; auto. split; auto. split.
  - cbn [elems onto]. apply ta_cons with (a := x) (d := y); auto.
    + rewrite cell_hput_neq; auto; lia.
    + apply tree_hput; auto; [|lia]. intros I. eapply Dad; eauto.
    + assert (Nw : ~ In i cw) by (intros I; apply (D i); simpl; auto).
      constructor.
      * rewrite in_app_iff in *. intros [I|I]; [tauto|]. apply Ic in I. rewrite in_app_iff in I. tauto.
      * apply NoDup_app_disj. split; [eauto using tree_nodup|]. split; [eauto using tree_nodup|].
        intros q I1 I2. apply Ic in I2. rewrite in_app_iff in I2. destruct I2; [eapply Dad; eauto|].
        apply (D q); simpl; rewrite ?in_app_iff; auto.
  - intros q [<-|I]; [simpl; auto|]. rewrite in_app_iff in I. simpl. rewrite !in_app_iff.
    destruct I as [I|I]; [auto|]. apply Ic in I. rewrite in_app_iff in I. tauto.
Qed.

Lemma spine_len h v t cs : tree_at h v t cs -> (length (elems t) <= length cs)%nat.
Proof. induction 1; cbn [elems length]; [lia|]. rewrite app_length. lia. Qed.

Lemma spine_bound h v t cs f : tree_at h v t cs -> (Z.to_nat (hsize h) <= f)%nat -> (length (elems t) <= f)%nat.
Proof.
  intros T F. pose proof (spine_len _ _ _ _ T).
  assert (incl cs (map Z.of_nat (seq 0 (Z.to_nat (hsize h))))).
  { intros x I. destruct (tree_range _ _ _ _ _ T I) as [_ R]. apply in_map_iff. exists (Z.to_nat x).
    split; [lia|]. apply in_seq. lia. }
  pose proof (NoDup_incl_length (tree_nodup _ _ _ _ T) H0) as L. rewrite map_length, seq_length in L. lia.
Qed.

Lemma list_append_tree f h v a d cs w b e cw : tree_at h v (Nd a d) cs -> tree_at h w (Nd b e) cw -> disj cs cw ->
  (Z.to_nat (hsize h) <= f)%nat ->
  exists i p c, list_append f h v w = Ok (hput h i p, v) /\ In i cs /\ 0 <= i /\
    tree_at (hput h i p) v (onto (elems (Nd a d)) (Nd b e)) c /\ incl c (cs ++ cw).
Proof.
  intros T Tw D F. pose proof (spine_bound _ _ _ _ _ T F) as L. cbn [elems length] in L.
  destruct (last_cell_tree f h v a d cs w _ cw T Tw D) as (i & p & x & y & c & E & R & I & C & Ep & T' & Ic); [lia|].
  exists i, p, c. unfold list_append.
  assert (is_list_rw v = true) as ->.
  { unfold is_list_rw. inversion T; subst. rewrite enc_rw by auto. reflexivity. }
  assert (is_list w = true) as ->.
  { unfold is_list. rewrite (tree_is_cons _ _ _ _ Tw). reflexivity. }
  cbn [andb]. rewrite E. cbn [bind].
  assert (is_symbol_nil (enc_cons_ptr i) = false) as ->.
  { unfold is_symbol_nil. rewrite <- nil_sym. apply enc_not_sym; auto. }
  rewrite (set_cdr_enc _ _ _ _ _ R C). cbn [bind fst]. subst p. sp; auto. lia.
Qed.

End Arch.
