(* Environments: the representation used by the properties and proofs about the
   loops of env.c. *)
From Verif Require Import Base Value_Model Heap_Model Value_Proofs Value_Proofs2 Heap_Spec Heap_Proofs List_Proofs Env_Model.
From Coq Require Import ZifyBool.
Local Open Scope Z_scope.

Section Spec.
Context {A : Arch}.

(* [env_on h v kvs cs]: the word [v] is an environment in RAM, a list of pairs
   (key . value) in the order [kvs], made of the cells [cs] (list cell, pair
   cell, list cell, ...) *)
Inductive env_on (h : heap) : Z -> list (Z * Z) -> list Z -> Prop :=
| env_nil : env_on h 0 [] []
| env_cons i j k x q kvs cs :
    0 <= i < 2 ^ (W - 8) -> 0 <= j < 2 ^ (W - 8) ->
    cell h i = Some (enc_cons_ptr j, q) -> cell h j = Some (k, x) ->
    env_on h q kvs cs -> env_on h (enc_cons_ptr i) ((k, x) :: kvs) (i :: j :: cs).

(* the same, no two of the cells being the same cell and none of them free *)
Definition env_at (h : heap) (fl : list Z) (v : Z) (kvs : list (Z * Z)) (cs : list Z) : Prop :=
  env_on h v kvs cs /\ NoDup cs /\ (forall c, In c cs -> ~ In c fl).

(* value of a key: its first binding *)
Fixpoint assoc (k : Z) (kvs : list (Z * Z)) : option Z :=
  match kvs with
  | [] => None
  | (k', x) :: r => if k' =? k then Some x else assoc k r
  end.

(* what an operation on the environment [cs] may touch: its cells and free ones *)
Record env_step (h : heap) (fl cs : list Z) (h' : heap) (fl' cs' : list Z) : Prop := {
  st_heap : heap_ok h' fl';
  st_fl : incl fl' fl;
  st_cs : incl cs' (cs ++ fl);
  st_same : same_but (cs ++ fl) h h';
  st_size : hsize h' = hsize h;
  st_ccells : ccells h' = ccells h
}.

End Spec.

Section Proofs.
Context {A : Arch}.

Lemma enc_is_ptr i : 0 <= i < 2 ^ (W - 8) -> is_ptr (enc_cons_ptr i) = true.
Proof. intros. apply cons_is_ptr, rw_is_cons; auto using enc_word, enc_rw. Qed.

Lemma enc_type i : 0 <= i < 2 ^ (W - 8) -> (type_of (enc_cons_ptr i) =? TYPE_CONS) = true.
Proof. intros H. pose proof (enc_rw i H) as E. exact E. Qed.

Lemma type_zero : (type_of 0 =? TYPE_CONS) = false.
Proof. exact zero_not_rw. Qed.

Lemma ref_enc h i c : 0 <= i < 2 ^ (W - 8) -> cell h i = Some c -> ref_cell h (enc_cons_ptr i) = Ok c.
Proof. intros R C. rewrite ref_cell_rw, enc_ix, C by auto using enc_not_const. reflexivity. Qed.

Lemma put_enc h i c c' : 0 <= i < 2 ^ (W - 8) -> cell h i = Some c ->
  put_cell h (enc_cons_ptr i) c' = Ok (hput h i c').
Proof. intros R C. rewrite put_cell_rw, enc_ix, C by auto using enc_not_const. reflexivity. Qed.

Lemma car_enc h i a d : 0 <= i < 2 ^ (W - 8) -> cell h i = Some (a, d) -> car h (enc_cons_ptr i) = Ok a.
Proof. intros. eapply car_ptr; eauto using enc_is_ptr, ref_enc. Qed.

Lemma cdr_enc h i a d : 0 <= i < 2 ^ (W - 8) -> cell h i = Some (a, d) -> cdr h (enc_cons_ptr i) = Ok d.
Proof. intros. eapply cdr_ptr; eauto using enc_is_ptr, ref_enc. Qed.

Lemma caar_enc h i j d k x : 0 <= i < 2 ^ (W - 8) -> 0 <= j < 2 ^ (W - 8) ->
  cell h i = Some (enc_cons_ptr j, d) -> cell h j = Some (k, x) -> caar h (enc_cons_ptr i) = Ok k.
Proof.
  intros Ri Rj Ci Cj. unfold caar. rewrite enc_is_ptr, (ref_enc h i _ Ri Ci) by auto. cbn [bind fst].
  rewrite enc_is_ptr, (ref_enc h j _ Rj Cj) by auto. reflexivity.
Qed.

Lemma set_cdr_enc h i a d v : 0 <= i < 2 ^ (W - 8) -> cell h i = Some (a, d) ->
  set_cdr h (enc_cons_ptr i) v = Ok (hput h i (a, v), true).
Proof.
  intros R C. unfold set_cdr. rewrite enc_rw, (ref_enc h i _ R C) by auto. cbn [bind fst].
  rewrite (put_enc h i _ _ R C). reflexivity.
Qed.

Lemma set_car_enc h i a d v : 0 <= i < 2 ^ (W - 8) -> cell h i = Some (a, d) ->
  set_car h (enc_cons_ptr i) v = Ok (hput h i (v, d), true).
Proof.
  intros R C. unfold set_car. rewrite enc_type, (ref_enc h i _ R C) by auto. cbn [bind snd].
  rewrite (put_enc h i _ _ R C). reflexivity.
Qed.

Lemma env_on_frame h h' v kvs cs : env_on h v kvs cs -> (forall c, In c cs -> cell h' c = cell h c) ->
  env_on h' v kvs cs.
Proof.
  induction 1 as [|i j k x q kvs cs Ri Rj Ci Cj E IH]; intros F; [constructor|].
  apply env_cons with (q := q); auto.
  - rewrite F; simpl; auto.
  - rewrite F; simpl; auto.
  - apply IH. intros; apply F; simpl; auto.
Qed.

Lemma env_on_hput h v kvs cs i c : env_on h v kvs cs -> ~ In i cs -> 0 <= i -> env_on (hput h i c) v kvs cs.
Proof.
  intros E N R. eapply env_on_frame; eauto. intros j J. apply cell_hput_neq; auto. intros ->; auto.
Qed.

Lemma env_on_det h v kvs cs : env_on h v kvs cs -> forall kvs' cs', env_on h v kvs' cs' -> kvs' = kvs /\ cs' = cs.
Proof.
  induction 1 as [|i j k x q kvs cs Ri Rj Ci Cj E IH]; intros kvs' cs' E'.
  - inversion E' as [|i j k x q kvs cs Ri Rj Ci Cj E E0]; auto.
    exfalso. rewrite E0 in Ri. apply (enc_nonzero i Ri). auto.
  - inversion E' as [E0|i' j' k' x' q' kvs2 cs2 Ri' Rj' Ci' Cj' E2 E0].
    + exfalso. apply (enc_nonzero i Ri). auto.
    + assert (i' = i) by (rewrite <- (enc_ix i'), <- (enc_ix i) by auto; congruence). subst i'.
      rewrite Ci in Ci'. injection Ci' as Ej <-.
      assert (j' = j) by (rewrite <- (enc_ix j'), <- (enc_ix j) by auto; congruence). subst j'.
      rewrite Cj in Cj'. injection Cj' as <- <-.
      destruct (IH _ _ E2) as [-> ->]. auto.
Qed.

Lemma env_on_range h v kvs cs c : env_on h v kvs cs -> In c cs -> 0 <= c < 2 ^ (W - 8).
Proof. induction 1; simpl; [tauto|intros [<-|[<-|I]]; auto]. Qed.

Lemma env_on_len h v kvs cs : env_on h v kvs cs -> (length cs = 2 * length kvs)%nat.
Proof. induction 1; simpl; lia. Qed.

(* first binding of the key replaced *)
Fixpoint aset (key val : Z) (kvs : list (Z * Z)) : list (Z * Z) :=
  match kvs with
  | [] => []
  | (k, x) :: r => if k =? key then (k, val) :: r else (k, x) :: aset key val r
  end.

Lemma assoc_aset key val kvs k : assoc key kvs <> None ->
  assoc k (aset key val kvs) = if k =? key then Some val else assoc k kvs.
Proof.
  induction kvs as [|[k' x] r IH]; simpl; intros H; [congruence|].
  destruct (Z.eqb_spec k' key) as [->|N]; simpl.
  - destruct (Z.eqb_spec key k), (Z.eqb_spec k key); auto; congruence.
  - rewrite IH by auto. destruct (Z.eqb_spec k' k), (Z.eqb_spec k key); auto; congruence.
Qed.

Lemma aset_keys key val kvs : map fst (aset key val kvs) = map fst kvs.
Proof.
  induction kvs as [|[k x] r IH]; simpl; auto. destruct (Z.eqb_spec k key); simpl; congruence.
Qed.

Lemma assoc_in k kvs : assoc k kvs = None <-> ~ In k (map fst kvs).
Proof.
  induction kvs as [|[k' x] r IH]; simpl; [tauto|].
  destruct (Z.eqb_spec k' k) as [->|N].
  - split; [discriminate|]. intros H; exfalso; apply H; auto.
  - rewrite IH. split; [intros H [E|E]; auto|tauto].
Qed.

Lemma lookup_ok h v kvs cs sym : env_on h v kvs cs -> forall fuel, (length kvs <= fuel)%nat ->
  env_lookup fuel h sym v = Ok (assoc sym (filter (fun kv => negb (snd kv =? PLACEHOLDER)) kvs)).
Proof.
  induction 1 as [|i j k x q kvs cs Ri Rj Ci Cj E IH]; intros fuel F.
  - destruct fuel; reflexivity.
  - simpl in F. destruct fuel as [|n]; [lia|]. cbn [env_lookup].
    rewrite enc_is_ptr, (ref_enc h i _ Ri Ci) by auto. cbn [bind fst snd].
    rewrite (ref_enc h j _ Rj Cj). cbn [bind fst snd filter].
    destruct (Z.eqb_spec x PLACEHOLDER); cbn [negb andb].
    + rewrite andb_false_r. apply IH. lia.
    + rewrite andb_true_r. cbn [assoc]. destruct (Z.eqb_spec k sym); auto. apply IH. lia.
Qed.

Lemma glookup_loop_ok h v kvs cs sym : env_on h v kvs cs -> forall fuel, (length kvs <= fuel)%nat ->
  glookup_loop fuel h sym v = Ok (assoc sym kvs).
Proof.
  induction 1 as [|i j k x q kvs cs Ri Rj Ci Cj E IH]; intros fuel F.
  - destruct fuel; reflexivity.
  - simpl in F. destruct fuel as [|n]; [lia|]. cbn [glookup_loop].
    rewrite enc_is_ptr, (ref_enc h i _ Ri Ci) by auto. cbn [bind fst snd].
    rewrite (ref_enc h j _ Rj Cj). cbn [bind fst snd assoc].
    destruct (Z.eqb_spec k sym); auto. apply IH. lia.
Qed.

Lemma set_loop_ok h v kvs cs key val : env_on h v kvs cs -> NoDup cs -> forall fuel, (length kvs <= fuel)%nat ->
  match assoc key kvs with
  | None => set_loop fuel h v key val = Ok None
  | Some _ => exists j c, In j cs /\ cell h j <> None /\ set_loop fuel h v key val = Ok (Some (hput h j c)) /\
      env_on (hput h j c) v (aset key val kvs) cs
  end.
Proof.
  induction 1 as [|i j k x q kvs cs Ri Rj Ci Cj E IH]; intros N fuel F.
  - simpl. destruct fuel; cbn [set_loop]; rewrite type_zero; reflexivity.
  - simpl in F. destruct fuel as [|n]; [lia|]. cbn [set_loop assoc aset].
    rewrite enc_type, (car_enc h i _ _ Ri Ci) by auto. cbn [bind]. rewrite (car_enc h j _ _ Rj Cj). cbn [bind].
    inversion N as [|? ? N1 N']; subst. inversion N' as [|? ? N2 N3]; subst.
    destruct (Z.eqb_spec k key) as [->|NE].
    + exists j, (key, val). rewrite (set_cdr_enc h j _ _ _ Rj Cj). cbn [bind fst].
      split; [simpl; auto|]. split; [congruence|]. split; [reflexivity|].
      econstructor; eauto.
      * rewrite cell_hput_neq; eauto; [lia|]. intros ->; apply N1; left; auto.
      * eapply cell_hput_eq; eauto.
      * apply env_on_hput; auto; lia.
    + rewrite (cdr_enc h i _ _ Ri Ci). cbn [bind]. specialize (IH N3 n ltac:(lia)).
      destruct (assoc key kvs); auto. destruct IH as (m&c&I&D&L&E2). exists m, c.
      split; [simpl; auto|]. split; auto. split; auto.
      pose proof (env_on_range _ _ _ _ _ E I).
      econstructor; eauto; rewrite cell_hput_neq; eauto; try lia; intros ->; [apply N1; right|apply N2]; auto.
Qed.

Lemma setf_loop_ok h v kvs cs key b val : env_on h v kvs cs -> NoDup cs ->
  0 <= b < 2 ^ (W - 8) -> cell h b = Some (key, val) -> ~ In b cs ->
  forall fuel, (length kvs <= fuel)%nat ->
  match assoc key kvs with
  | None => setf_loop fuel h v key (enc_cons_ptr b) = Ok None
  | Some _ => exists i c cs', In i cs /\ cell h i <> None /\
      setf_loop fuel h v key (enc_cons_ptr b) = Ok (Some (hput h i c)) /\
      env_on (hput h i c) v (aset key val kvs) cs' /\ NoDup cs' /\ incl cs' (b :: cs)
  end.
Proof.
  intros E N Rb Cb. induction E as [|i j k x q kvs cs Ri Rj Ci Cj E IH]; intros NB fuel F.
  - simpl. destruct fuel; cbn [setf_loop]; rewrite type_zero; reflexivity.
  - simpl in F. destruct fuel as [|n]; [lia|]. cbn [setf_loop assoc aset].
    rewrite enc_type, (caar_enc h i j _ _ _ Ri Rj Ci Cj) by auto. cbn [bind].
    inversion N as [|? ? N1 N']; subst. inversion N' as [|? ? N2 N3]; subst.
    assert (~ In b cs) by (intros I; apply NB; simpl; auto).
    assert (b <> i /\ b <> j) as [Bi Bj] by (split; intros ->; apply NB; simpl; auto).
    assert (i <> j) by (intros ->; apply N1; left; auto).
    assert (~ In i cs) by (intros I; apply N1; right; auto).
    destruct (Z.eqb_spec k key) as [->|NE].
    + exists i, (enc_cons_ptr b, q), (i :: b :: cs). rewrite (set_car_enc h i _ _ _ Ri Ci). cbn [bind fst].
      split; [simpl; auto|]. split; [congruence|]. split; [reflexivity|].
      split; [|split].
      * econstructor; eauto.
        -- eapply cell_hput_eq; eauto.
        -- rewrite cell_hput_neq; eauto. lia.
        -- apply env_on_hput; auto; lia.
      * constructor; [simpl; intros [->|I]; auto|]. constructor; auto.
      * intros c; simpl; tauto.
    + rewrite (cdr_enc h i _ _ Ri Ci). cbn [bind]. specialize (IH N3 ltac:(auto) n ltac:(lia)).
      destruct (assoc key kvs); auto. destruct IH as (m&c&cs'&I&D&L&E2&ND&IC). exists m, c, (i :: j :: cs').
      pose proof (env_on_range _ _ _ _ _ E I).
      split; [simpl; auto|]. split; auto. split; auto. split; [|split].
      * econstructor; eauto; rewrite cell_hput_neq; eauto; try lia; intros ->; [apply N1; right|apply N2]; auto.
      * constructor; [|constructor; auto].
        -- intros [->|J]; auto. apply IC in J. destruct J as [->|J]; auto.
        -- intros J. apply IC in J. destruct J as [->|J]; auto.
      * intros y [->|[->|Y]]; simpl; auto. apply IC in Y. destruct Y; auto.
Qed.

(* first binding of the key removed *)
Fixpoint adrop (key : Z) (kvs : list (Z * Z)) : list (Z * Z) :=
  match kvs with
  | [] => []
  | (k, x) :: r => if k =? key then r else (k, x) :: adrop key r
  end.

Lemma adrop_split key kvs x : assoc key kvs = Some x ->
  exists l1 l2, kvs = l1 ++ (key, x) :: l2 /\ adrop key kvs = l1 ++ l2 /\ ~ In key (map fst l1).
Proof.
  induction kvs as [|[k y] r IH]; simpl; intros H; [discriminate|].
  destruct (Z.eqb_spec k key) as [->|N].
  - injection H as ->. exists [], r. simpl. auto.
  - destruct (IH H) as (l1&l2&->&->&NI). exists ((k, y) :: l1), l2. simpl. split; auto. split; auto.
    intros [E|I]; auto.
Qed.

Lemma drop_loop_ok h q kvs cs key : env_on h q kvs cs ->
  forall pi pw, NoDup (pi :: cs) -> NoDup cs -> 0 <= pi < 2 ^ (W - 8) -> cell h pi = Some (pw, q) ->
  forall fuel, (length kvs <= fuel)%nat ->
  match assoc key kvs with
  | None => drop_loop fuel h (enc_cons_ptr pi) q key = Ok None
  | Some _ => exists i c cs' q', In i (pi :: cs) /\ cell h i <> None /\
      drop_loop fuel h (enc_cons_ptr pi) q key = Ok (Some (hput h i c)) /\
      cell (hput h i c) pi = Some (pw, q') /\
      env_on (hput h i c) q' (adrop key kvs) cs' /\ NoDup cs' /\ incl cs' cs
  end.
Proof.
  induction 1 as [|i j k x q kvs cs Ri Rj Ci Cj E IH]; intros pi pw N _ Rp Cp fuel F.
  - simpl. destruct fuel; cbn [drop_loop]; rewrite type_zero; reflexivity.
  - simpl in F. destruct fuel as [|n]; [lia|]. cbn [drop_loop assoc adrop].
    rewrite enc_type, (caar_enc h i j _ _ _ Ri Rj Ci Cj) by auto. cbn [bind].
    rewrite (cdr_enc h i _ _ Ri Ci). cbn [bind].
    inversion N as [|? ? N1 N3]; subst.
    inversion N3 as [|? ? N4 N5]; subst. inversion N5 as [|? ? N6 N7]; subst.
    assert (~ In pi cs) by (intros I; apply N1; simpl; auto).
    assert (~ In i cs) by (intros I; apply N4; simpl; auto).
    destruct (Z.eqb_spec k key) as [->|NE].
    + exists pi, (pw, q), cs, q. rewrite (set_cdr_enc h pi _ _ _ Rp Cp). cbn [bind fst].
      split; [simpl; auto|]. split; [congruence|]. split; [reflexivity|].
      split; [eapply cell_hput_eq; eauto|]. split; [apply env_on_hput; auto; lia|]. split; auto.
      intros y; simpl; auto.
    + assert (NE2 : NoDup (i :: cs)) by (constructor; auto).
      specialize (IH i (enc_cons_ptr j) NE2 N7 Ri Ci n ltac:(lia)).
      destruct (assoc key kvs); auto. destruct IH as (m&c&cs'&q'&I&D&L&C2&E2&ND&IC).
      assert (Rm : 0 <= m) by (destruct I as [<-|I]; [lia|eapply env_on_range in I; eauto; lia]).
      assert (m <> pi) by (intros ->; destruct I as [<-|I]; [apply N1; simpl; auto|auto]).
      assert (m <> j) by (intros ->; destruct I as [<-|I]; [apply N4; simpl; auto|auto]).
      exists m, c, (i :: j :: cs'), (enc_cons_ptr i).
      split; [simpl; destruct I; auto|]. split; auto. split; auto.
      split; [rewrite cell_hput_neq; auto|]. split; [|split].
      * econstructor; eauto. rewrite cell_hput_neq; auto.
      * constructor; [|constructor; auto].
        intros [->|J]; [apply N4; simpl; auto|]. apply N4; right; auto.
      * intros y [->|[->|Y]]; simpl; auto.
Qed.

End Proofs.
