(* The continuations that expand a quasi-quoted form compute, on the heap, the
   expansion on trees. *)
From Verif Require Import Base Value_Model Heap_Model Value_Proofs Value_Proofs2 Heap_Spec Heap_Proofs
  Heap_Proofs2 List_Proofs Env_Proofs Match_Model QQ_Model QQ_Spec QQ_Proofs QQ_Proofs2.
Local Open Scope Z_scope.

Section Arch.
Context {A : Arch}.

Ltac sp := repeat match goal with |- _ /\ _ => split end.

Lemma disj_nil l : disj [] l. Proof. intros x []. Qed.
Lemma disj_nil_r l : disj l []. Proof. intros x _ []. Qed.
Lemma disj_app_l a b l : disj a l -> disj b l -> disj (a ++ b) l.
Proof. intros Da Db x I. apply in_app_or in I. destruct I; eauto. Qed.
Lemma disj_sym a b : disj a b -> disj b a. Proof. intros D x I J. eauto. Qed.
Lemma disj_incl a a' b : disj a b -> incl a' a -> disj a' b. Proof. intros D I x J K. apply (D x); auto. Qed.
Lemma disj_app a b l : disj (a ++ b) l -> disj a l /\ disj b l.
Proof. intros D. split; intros x I J; apply (D x); auto; apply in_or_app; auto. Qed.

Lemma wrap_ok h fl s v t c : heap_ok h fl -> tree_at h v t c -> disj c fl -> (2 <= length fl)%nat ->
  exists h1 v1 h2 v2 fl' c', consg h v NIL = Ok (Some (h1, v1)) /\ consg h1 (enc_sym s) v1 = Ok (Some (h2, v2)) /\
    tree_at h2 v2 (of_list [At (enc_sym s); t]) c' /\ step 2 h fl c h2 fl' c'.
Proof.
  intros OK T D L.
  destruct (consg_ok h fl v t c NIL tnil []) as (h1 & v1 & fl1 & c1 & E1 & T1 & S1);
    auto using tree_tnil, disj_nil, disj_nil_r; [destruct fl; simpl in L; [lia|congruence]|].
  pose proof (step_len _ _ _ _ _ _ _ S1) as L1. rewrite app_nil_r in S1.
  pose proof (step_disj _ _ _ _ _ _ _ S1 (ok_nodup _ _ OK) D) as D1.
  destruct (consg_ok h1 fl1 (enc_sym s) (At (enc_sym s)) [] v1 (Nd t tnil) c1 (step_ok _ _ _ _ _ _ _ S1)) as (h2 & v2 & fl2 & c2 & E2 & T2 & S2);
    eauto using tree_atom_sym, disj_nil; [destruct fl1; simpl in *; [lia|congruence]|].
  exists h1, v1, h2, v2, fl2, c2. sp; auto.
  pose proof (step_trans 1 1 _ _ _ _ _ _ _ _ _ _ [] S1 S2) as S. rewrite !app_nil_r in S. apply S. apply incl_refl.
Qed.

Lemma enc_not_symbol i : 0 <= i < 2 ^ (W - 8) -> is_symbol (enc_cons_ptr i) = false.
Proof.
  intros R. destruct (is_symbol (enc_cons_ptr i)) eqn:E; auto. apply is_symbol_not_ptr in E.
  rewrite enc_is_ptr in E by auto. discriminate.
Qed.

Lemma quote_it_ok h fl v t c : heap_ok h fl -> tree_at h v t c -> disj c fl -> (2 <= length fl)%nat ->
  exists h' v' fl' c', quote_it h v = Ok (Some (h', v')) /\ tree_at h' v' (quote_t t) c' /\ step 2 h fl c h' fl' c'.
Proof.
  intros OK T D L. unfold quote_it.
  destruct (wrap_ok h fl SYM_QUOTE v t c OK T D L) as (h1 & v1 & h2 & v2 & fl' & c' & E1 & E2 & T2 & S2).
  assert (G : quote_t t = quote t -> exists h' v' fl' c', (let? '(h1, val) := consg h v NIL in consg h1 QUOTE val) = Ok (Some (h', v')) /\
     tree_at h' v' (quote_t t) c' /\ step 2 h fl c h' fl' c').
  { intros E. rewrite E1. cbn [bind]. exists h2, v2, fl', c'. rewrite E. sp; auto. }
  destruct T as [v Wv Nv|i a d ta td ca cd R C Ta Td N].
  - cbn [quote_t] in *. destruct (is_symbol v && is_special v); auto.
    exists h, v, fl, []. sp; auto; [constructor; auto|]. apply step_refl; auto. apply incl_refl.
  - rewrite enc_not_symbol by auto. apply G. reflexivity.
Qed.

Lemma is_append_ok h v t c : tree_at h v t c ->
  is_append h v = Ok (Some (match t with Nd (At x) _ => x =? APPEND | _ => false end)).
Proof.
  intros T. unfold is_append. rewrite (tree_is_cons _ _ _ _ T).
  destruct T as [|i a d ta td ca cd R C Ta Td N]; [reflexivity|].
  rewrite (get_car_enc _ _ _ _ R C). cbn [bind]. unfold APPEND. rewrite sym_and, (tree_head _ _ _ _ SYM_APPEND Ta).
  destruct ta; reflexivity.
Qed.

Lemma nd_not_nil h v t c : tree_at h v t c -> is_tnil t = false -> is_symbol_nil v = false.
Proof. intros T E. rewrite (tree_nil _ _ _ _ T). auto. Qed.

(* (append f b) made of new cells *)
Lemma append_two h fl vf f cf vb b cb : heap_ok h fl -> tree_at h vf f cf -> tree_at h vb b cb ->
  disj cf cb -> disj cf fl -> disj cb fl -> (3 <= length fl)%nat ->
  exists h' v fl' c, (let? '(h1, t0) := consg h vb NIL in
        let? '(h2, t1) := consg h1 vf t0 in
        consg h2 APPEND t1) = Ok (Some (h', v)) /\ tree_at h' v (append_form [f; b]) c /\
    step 3 h fl (cf ++ cb) h' fl' c.
Proof.
  intros OK Tf Tb D Df Db L.
  destruct (consg_ok h fl vb b cb NIL tnil []) as (h1 & v1 & fl1 & c1 & E1 & T1 & S1);
    auto using tree_tnil, disj_nil, disj_nil_r; [destruct fl; simpl in L; [lia|congruence]|].
  pose proof (step_len _ _ _ _ _ _ _ S1) as L1. rewrite app_nil_r in S1.
  pose proof (step_disj _ _ _ _ _ _ _ S1 (ok_nodup _ _ OK) Db) as D1.
  pose proof (step_ok _ _ _ _ _ _ _ S1) as OK1.
  destruct (step_frame _ _ _ _ _ _ _ _ _ _ S1 Tf D Df) as (Tf1 & Df1 & Df2).
  destruct (consg_ok h1 fl1 vf f cf v1 (Nd b tnil) c1 OK1) as (h2 & v2 & fl2 & c2 & E2 & T2 & S2); eauto;
    [destruct fl1; simpl in *; [lia|congruence]|].
  pose proof (step_len _ _ _ _ _ _ _ S2) as L2.
  assert (D2 : disj (cf ++ c1) fl1) by (apply disj_app_l; auto).
  pose proof (step_disj _ _ _ _ _ _ _ S2 (ok_nodup _ _ OK1) D2) as D3.
  pose proof (step_ok _ _ _ _ _ _ _ S2) as OK2.
  destruct (consg_ok h2 fl2 APPEND (At APPEND) [] v2 (of_list [f; b]) c2 OK2) as (h3 & v3 & fl3 & c3 & E3 & T3 & S3);
    auto using disj_nil; [destruct fl2; simpl in *; [lia|congruence]|apply tree_atom_sym|].
  exists h3, v3, fl3, c3. rewrite E1. cbn [bind]. rewrite E2. cbn [bind]. split; auto. split; [exact T3|].
  assert (S12 : step 2 h fl (cb ++ cf) h2 fl2 c2).
  { apply (step_trans 1 1 _ _ _ _ _ _ _ _ _ _ cf S1 S2). intros x. rewrite !in_app_iff. tauto. }
  pose proof (step_trans 2 1 _ _ _ _ _ _ _ _ _ _ [] S12 S3) as S. rewrite app_nil_r in S.
  eapply step_weaken; [apply S; apply incl_refl|lia|].
  intros x. rewrite !in_app_iff. simpl. tauto.
Qed.

(* what append does when back is a call of append *)
Definition app_branch (f : nat) (h : heap) (vf vb : Z) (qf : bool) : res (option (heap * Z)) :=
  let? ql := get_cadr h vb in
  let! q1 := is_quoted_list h ql in
  let! q2 := (if q1 then Ok qf else Ok false) in
  if q2 then
    let? f1 := get_cadr h vf in
    let? b := get_cadr h ql in
    let! r := list_append f h f1 b in
    let? c := get_cdr (fst r) ql in
    let! s := set_car (fst r) c (snd r) in
    Ok (Some (fst s, vb))
  else
    let? rest := get_cdr h vb in
    let? '(h1, new) := consg h vf rest in
    consg h1 APPEND new.

(* (append f . d) made of two new cells *)
Lemma append_more h fl vf f cf i a vd d cd : heap_ok h fl -> tree_at h vf f cf -> 0 <= i < 2 ^ (W - 8) ->
  cell h i = Some (a, vd) -> tree_at h vd d cd ->
  disj cf cd -> disj cf fl -> disj cd fl -> (3 <= length fl)%nat ->
  exists h' v fl' c, (let? rest := get_cdr h (enc_cons_ptr i) in
    let? '(h1, new) := consg h vf rest in
    consg h1 APPEND new) = Ok (Some (h', v)) /\ tree_at h' v (Nd (At APPEND) (Nd f d)) c /\
    step 3 h fl (cf ++ cd) h' fl' c.
Proof.
  intros OK Tf R C Td D Df Dd L. rewrite (get_cdr_enc _ _ _ _ R C). cbn [bind].
  destruct (consg_ok h fl vf f cf vd d cd) as (h1 & v1 & fl1 & c1 & E1 & T1 & S1); auto;
    [destruct fl; simpl in L; [lia|congruence]|].
  pose proof (step_len _ _ _ _ _ _ _ S1) as L1.
  assert (D2 : disj (cf ++ cd) fl) by (apply disj_app_l; auto).
  pose proof (step_disj _ _ _ _ _ _ _ S1 (ok_nodup _ _ OK) D2) as D1.
  destruct (consg_ok h1 fl1 APPEND (At APPEND) [] v1 (Nd f d) c1 (step_ok _ _ _ _ _ _ _ S1)) as (h2 & v2 & fl2 & c2 & E2 & T2 & S2);
    auto using disj_nil; [destruct fl1; simpl in *; [lia|congruence]|apply tree_atom_sym|].
  exists h2, v2, fl2, c2. rewrite E1. cbn [bind]. split; auto. split; [exact T2|].
  pose proof (step_trans 1 1 _ _ _ _ _ _ _ _ _ _ [] S1 S2) as S. rewrite app_nil_r in S.
  eapply step_weaken; [apply S; apply incl_refl|lia|].
  intros x. rewrite !in_app_iff. simpl. tauto.
Qed.

Lemma app_branch_ok f h fl vf tf cf vb d cb t : heap_ok h fl -> tree_at h vf tf cf ->
  tree_at h vb (Nd (At APPEND) d) cb ->
  disj cf cb -> disj cf fl -> disj cb fl -> (3 <= length fl)%nat -> (Z.to_nat (hsize h) <= f)%nat ->
  match d with
  | Nd q rest =>
    match qlist tf, qlist q, q with
    | Some x, Some y, Nd q0 (Nd _ r0) => Some (Nd (At APPEND) (Nd (Nd q0 (Nd (onto (elems x) y) r0)) rest))
    | _, _, _ => Some (Nd (At APPEND) (Nd tf d))
    end
  | At v => if v =? 0 then Some (Nd (At APPEND) (Nd tf d)) else None
  end = Some t ->
  exists h' v fl' c, app_branch f h vf vb (match qlist tf with Some _ => true | None => false end) = Ok (Some (h', v)) /\
    tree_at h' v t c /\ step 3 h fl (cf ++ cb) h' fl' c.
Proof.
  intros OK Tf Tb D Df Db L F E. unfold app_branch.
  inversion Tb as [|i a1 d1 ? ? ca cd R C Ta Td N]; subst. inversion Ta; subst. cbn [app] in *.
  assert (Dd : disj cf cd) by (intros q I J; apply (D q); simpl; auto).
  assert (Dd' : disj cd fl) by (intros q I J; apply (Db q); simpl; auto).
  destruct (append_more h fl vf tf cf i _ d1 d cd OK Tf R C Td Dd Df Dd' L) as (h1 & v1 & fl1 & c1 & E1 & T1 & S1).
  assert (G : t = Nd (At APPEND) (Nd tf d) -> exists h' v fl' c,
    (let? rest := get_cdr h (enc_cons_ptr i) in
     let? '(h1, new) := consg h vf rest in
     consg h1 APPEND new) = Ok (Some (h', v)) /\ tree_at h' v t c /\ step 3 h fl (cf ++ i :: cd) h' fl' c).
  { intros ->. exists h1, v1, fl1, c1. sp; auto. eapply step_weaken; [exact S1|lia|].
    intros q. rewrite !in_app_iff. simpl. tauto. }
  unfold get_cadr at 1. rewrite enc_is_ptr, (ref_enc h i _ R C) by auto. cbn [bind snd].
  destruct Td as [v Wv Nv|j q d2 tq td cq cd R2 C2 Tq Td2 N2].
  - destruct (Z.eqb_spec v 0) as [-> |]; [|discriminate]. injection E as <-.
    assert (is_ptr 0 = false) as -> by apply nil_fields. cbn [is_symbol_nil Z.eqb].
    rewrite (quoted_ok h 0 (At 0) []) by (constructor; auto). cbn [bind qlist]. apply G. reflexivity.
  - rewrite enc_is_ptr, (ref_enc h j _ R2 C2) by auto. cbn [bind fst].
    rewrite (quoted_ok _ _ _ _ Tq).
    destruct (qlist tf) as [x|] eqn:Qf;
      [|injection E as <-; destruct (qlist tq); cbn [bind]; apply G; reflexivity].
    destruct (qlist tq) as [y|] eqn:Qq;
      [|injection E as <-; cbn [bind]; apply G; reflexivity].
    cbn [bind].
    destruct (qlist_parts _ _ _ _ _ Tf Qf) as (fi & fj & fa & fd & fb & ftb & cx & fcb & -> & Rfi & Cfi & -> & Rfj & Cfj & Tx & _ & _ & -> & (xa & xd & ->) & N1).
    destruct (qlist_parts _ _ _ _ _ Tq Qq) as (qi & qj & qa & qd & qb & qtb & cy & qcb & -> & Rqi & Cqi & -> & Rqj & Cqj & Ty & Tqb & -> & -> & (ya & yd & ->) & N3).
    rewrite (get_cadr_enc _ _ _ _ _ _ Rfi Rfj Cfi Cfj), (get_cadr_enc _ _ _ _ _ _ Rqi Rqj Cqi Cqj). cbn [bind].
    assert (Dxy : disj cx cy).
    { intros z I J. apply (D z); simpl; rewrite !in_app_iff; simpl; rewrite ?in_app_iff; auto 9. }
    destruct (list_append_tree f h fd xa xd cx qd ya yd cy Tx Ty Dxy F) as (k & p & c & El & Ik & Rk & Tl & Ic).
    rewrite El. cbn [bind fst snd].
    assert (Kc : forall z, In z (i :: j :: (qi :: qj :: cy ++ qcb) ++ cd) -> k <> z).
    { intros z I <-. apply (D k); [simpl; rewrite in_app_iff; auto|]. exact I. }
    assert (Ck : forall z, In z (i :: j :: (qi :: qj :: cy ++ qcb) ++ cd) -> cell (hput h k p) z = cell h z).
    { intros z I. rewrite cell_hput_neq; auto. }
    rewrite (get_cdr_enc (hput h k p) qi QUOTE (enc_cons_ptr qj)) by (auto; rewrite Ck; simpl; auto). cbn [bind].
    rewrite (set_car_enc (hput h k p) qj qd qb fd) by (auto; rewrite Ck; simpl; auto). cbn [bind fst].
    set (h' := hput (hput h k p) qj (fd, qb)).
    injection E as <-.
    cbn [app] in *. apply NoDup_cons_iff in N. destruct N as [Ni N]. apply NoDup_cons_iff in N. destruct N as [Nj N].
    apply NoDup_cons_iff in N. destruct N as [Nqi N]. apply NoDup_cons_iff in N. destruct N as [Nqj N].
    apply NoDup_app_disj in N. destruct N as (N & Ncd & Dcd). apply NoDup_app_disj in N. destruct N as (Ncy & Nqcb & Dyq).
    assert (Dx : forall z, In z cx -> ~ In z (i :: j :: qi :: qj :: (cy ++ qcb) ++ cd)).
    { intros z I J. apply (D z); auto. simpl. rewrite in_app_iff. auto. }
    assert (Hc : forall z, In z c -> In z cx \/ In z cy) by (intros z I; apply in_app_or, Ic; auto).
    simpl in Ni, Nj, Nqi, Dx. rewrite !in_app_iff in Ni, Nj, Nqi, Nqj.
    assert (Dxx : forall z, In z cx -> i <> z /\ j <> z /\ qi <> z /\ qj <> z /\ ~ In z cy /\ ~ In z qcb /\ ~ In z cd).
    { intros z I. specialize (Dx z I). rewrite !in_app_iff in Dx. tauto. }
    assert (Rqj' : 0 <= qj) by lia.
    assert (T1' : forall v t cs, tree_at h v t cs -> ~ In k cs -> ~ In qj cs -> tree_at h' v t cs).
    { intros v t cs T I1 I2. apply tree_hput; auto. apply tree_hput; auto. }
    assert (Nk : ~ In k qcb /\ ~ In k cd /\ k <> qj /\ k <> qi /\ k <> i /\ k <> j).
    { destruct (Dxx k Ik) as (?&?&?&?&?&?&?). repeat split; auto. }
    destruct Nk as (Nk1 & Nk2 & Nk3 & Nk4 & Nk5 & Nk6).
    assert (Tc : tree_at h' fd (onto (elems (Nd xa xd)) (Nd ya yd)) c).
    { apply tree_hput; auto. intros I. destruct (Hc _ I) as [I'|I']; [apply Dxx in I'|]; tauto. }
    assert (Cq : cell h' qj = Some (fd, qb)).
    { eapply cell_hput_eq. rewrite cell_hput_neq; eauto. }
    assert (Co : forall z, z <> k -> z <> qj -> cell h' z = cell h z).
    { intros z Z1 Z2. unfold h'. rewrite !cell_hput_neq; auto. }
    assert (Hc' : forall z, In z c -> In z cy \/ (i <> z /\ j <> z /\ qi <> z /\ qj <> z /\ ~ In z cy /\ ~ In z qcb /\ ~ In z cd)).
    { intros z I. destruct (Hc z I); auto. }
    assert (Ncc : ~ In i c /\ ~ In j c /\ ~ In qi c /\ ~ In qj c).
    { repeat split; intros I; destruct (Hc' _ I); tauto. }
    assert (Ne : i <> qj /\ j <> qj /\ qi <> qj) by (repeat split; intros ->; tauto).
    assert (N4 : NoDup (qj :: c ++ qcb)).
    { constructor; [rewrite in_app_iff; tauto|]. apply NoDup_app_disj. split; [eauto using tree_nodup|]. split; auto.
      intros z I J. destruct (Hc' _ I); [eauto|tauto]. }
    assert (N5 : NoDup (qi :: qj :: c ++ qcb)).
    { constructor; auto. simpl. rewrite in_app_iff. tauto. }
    assert (N6 : NoDup (j :: (qi :: qj :: c ++ qcb) ++ cd)).
    { constructor; [simpl; rewrite !in_app_iff; tauto|]. apply NoDup_app_disj. split; auto. split; auto.
      intros z I J. simpl in I. rewrite in_app_iff in I. destruct I as [<-|[<-|[I|I]]]; [tauto|tauto| |].
      - destruct (Hc' _ I); [|tauto]. apply (Dcd z); auto. apply in_or_app; auto.
      - apply (Dcd z); auto. apply in_or_app; auto. }
    exists h', (enc_cons_ptr i), fl, (i :: j :: qi :: qj :: (c ++ qcb) ++ cd). split; [reflexivity|]. split.
    + assert (Tq2 : tree_at h' (enc_cons_ptr qj) (Nd (onto (elems (Nd xa xd)) (Nd ya yd)) qtb) (qj :: c ++ qcb)).
      { apply ta_cons with (a := fd) (d := qb); [auto|auto|auto| |auto]. apply T1'; auto; tauto. }
      assert (Tq1 : tree_at h' (enc_cons_ptr qi) (Nd (At QUOTE) (Nd (onto (elems (Nd xa xd)) (Nd ya yd)) qtb)) (qi :: [] ++ qj :: c ++ qcb)).
      { apply ta_cons with (a := QUOTE) (d := enc_cons_ptr qj); [auto| |apply tree_atom_sym|auto|auto].
        rewrite Co; [auto|auto|tauto]. }
      assert (Tj : tree_at h' (enc_cons_ptr j) (Nd (Nd (At QUOTE) (Nd (onto (elems (Nd xa xd)) (Nd ya yd)) qtb)) td)
        (j :: (qi :: qj :: c ++ qcb) ++ cd)).
      { apply ta_cons with (a := enc_cons_ptr qi) (d := d2); [auto| |exact Tq1| |auto].
        - rewrite Co; [auto|auto|tauto].
        - apply T1'; auto; tauto. }
      apply (ta_cons h' i APPEND (enc_cons_ptr j) (At APPEND) _ [] (j :: (qi :: qj :: c ++ qcb) ++ cd));
        [auto| |apply tree_atom_sym|exact Tj|].
      * rewrite Co; [auto|auto|tauto].
      * constructor; auto. simpl. rewrite !in_app_iff. tauto.
    + exists []. rewrite !app_nil_r. split; [reflexivity|]. split; [simpl; lia|]. split; [|split; [|split]].
      * apply heap_ok_put; [apply heap_ok_put; auto| |]; auto.
        -- intros I. apply (Df k); auto. simpl. rewrite in_app_iff; auto.
        -- intros I. apply (Db qj); auto. simpl. auto.
      * intros z. simpl. rewrite !in_app_iff. simpl. rewrite !in_app_iff. intros I.
        assert (Q : In z c -> In z cx \/ In z cy) by auto. tauto.
      * intros z I. apply Co; intros ->; apply I; simpl; rewrite !in_app_iff; simpl; rewrite !in_app_iff; tauto.
      * unfold h'. rewrite !hput_size. reflexivity.
Qed.

Lemma qappend_ok f h fl vf tf cf vb tb cb t : heap_ok h fl -> tree_at h vf tf cf -> tree_at h vb tb cb ->
  disj cf cb -> disj cf fl -> disj cb fl -> (3 <= length fl)%nat -> (Z.to_nat (hsize h) <= f)%nat ->
  append_t tf tb = Some t ->
  exists h' v fl' c, qappend f h vf vb = Ok (Some (h', v)) /\ tree_at h' v t c /\ step 3 h fl (cf ++ cb) h' fl' c.
Proof.
  intros OK Tf Tb D Df Db L F E. unfold append_t in E. unfold qappend.
  rewrite (tree_nil _ _ _ _ Tf), (tree_nil _ _ _ _ Tb).
  destruct (is_tnil tf).
  { injection E as <-. exists h, vb, fl, cb. sp; auto. apply step_refl; auto. apply incl_appr, incl_refl. }
  destruct (is_tnil tb) eqn:Nb.
  { injection E as <-. exists h, vf, fl, cf. sp; auto. apply step_refl; auto. apply incl_appl, incl_refl. }
  rewrite (quoted_ok _ _ _ _ Tf), (quoted_ok _ _ _ _ Tb). cbn [bind].
  rewrite (is_append_ok _ _ _ _ Tb).
  assert (G : match tb with
    | Nd (At c) d =>
      if c =? APPEND then
        match d with
        | Nd q rest =>
          match qlist tf, qlist q, q with
          | Some x, Some y, Nd q0 (Nd _ r0) =>
            Some (Nd (At c) (Nd (Nd q0 (Nd (onto (elems x) y) r0)) rest))
          | _, _, _ => Some (Nd (At APPEND) (Nd tf d))
          end
        | At v => if v =? 0 then Some (Nd (At APPEND) (Nd tf d)) else None
        end
      else Some (append_form [tf; tb])
    | _ => Some (append_form [tf; tb])
    end = Some t ->
    exists h' v fl' c, (if match tb with Nd (At x) _ => x =? APPEND | _ => false end
      then app_branch f h vf vb (match qlist tf with Some _ => true | None => false end)
      else
        let? '(h1, t0) := consg h vb NIL in
        let? '(h2, t1) := consg h1 vf t0 in
        consg h2 APPEND t1) = Ok (Some (h', v)) /\ tree_at h' v t c /\ step 3 h fl (cf ++ cb) h' fl' c).
  { clear E. intros E. destruct tb as [|[c|] d]; try (injection E as <-; apply append_two; auto; fail).
    destruct (Z.eqb_spec c APPEND); [|injection E as <-; apply append_two; auto]. subst c.
    apply (app_branch_ok f h fl vf tf cf vb d cb t); auto. }
  unfold app_branch in G.
  destruct (qlist tf) as [x|] eqn:Qf, (qlist tb) as [y|] eqn:Qb; cbn [bind]; try exact (G E).
  (* both quoted *)
  injection E as <-.
  destruct (qlist_parts _ _ _ _ _ Tf Qf) as (i & j & a & d & b & tb' & cx & cb' & -> & Ri & Ci & -> & Rj & Cj & Tx & _ & _ & -> & (xa & xd & ->) & N1).
  destruct (qlist_parts _ _ _ _ _ Tb Qb) as (i2 & j2 & a2 & d2 & b2 & tb2 & cy & cb2 & -> & Ri2 & Ci2 & -> & Rj2 & Cj2 & Ty & _ & _ & -> & (ya & yd & ->) & N2).
  rewrite (get_cadr_enc _ _ _ _ _ _ Ri Rj Ci Cj), (get_cadr_enc _ _ _ _ _ _ Ri2 Rj2 Ci2 Cj2). cbn [bind].
  assert (Dxy : disj cx cy).
  { intros q I J. apply (D q); simpl; rewrite !in_app_iff; auto. }
  destruct (list_append_tree f h d xa xd cx d2 ya yd cy Tx Ty Dxy F) as (k & p & c & El & Ik & Rk & Tl & Ic).
  rewrite El. cbn [bind fst snd].
  assert (Nk : ~ In k fl). { intros I. apply (Df k); auto. simpl. rewrite in_app_iff; auto. }
  pose proof (heap_ok_put h fl k p OK Nk Rk) as OK'.
  assert (Dc : disj c fl).
  { intros q I J. apply Ic in I. rewrite in_app_iff in I. destruct I; [apply (Df q)|apply (Db q)]; auto; simpl; rewrite in_app_iff; auto. }
  destruct (quote_it_ok (hput h k p) fl d _ c OK' Tl Dc) as (h' & v' & fl' & c' & Eq & Tq & Sq); [lia|].
  exists h', v', fl', c'. split; [exact Eq|]. split.
  { cbn [elems onto quote_t] in *. exact Tq. }
  assert (S0 : step 0 h fl (cx ++ cy) (hput h k p) fl c).
  { exists []. rewrite app_nil_r. sp; auto; [|apply hput_size].
    eapply same_but_incl; [|apply hput_same; auto]. intros q [<-|[]]. apply in_or_app; auto. }
  pose proof (step_trans 0 2 _ _ _ _ _ _ _ _ _ _ [] S0 Sq) as S. rewrite !app_nil_r in S.
  eapply step_weaken; [apply S; apply incl_refl|lia|].
  intros q. simpl. rewrite !in_app_iff. simpl. rewrite !in_app_iff. tauto.
Qed.

(* ---- running the continuations ---- *)

Definition reaches (f : nat) h K r h' K' r' : Prop := exists n, forall m, qq_run (n + m) f h K r = qq_run m f h' K' r'.

Lemma reaches_step f h fr K r h' K' r' : qq_step f h fr K r = Ok (Some (h', K', r')) -> reaches f h (fr :: K) r h' K' r'.
Proof. intros E. exists 1%nat. intros m. cbn [Nat.add qq_run]. rewrite E. reflexivity. Qed.

Lemma reaches_trans f h K r h1 K1 r1 h2 K2 r2 : reaches f h K r h1 K1 r1 -> reaches f h1 K1 r1 h2 K2 r2 ->
  reaches f h K r h2 K2 r2.
Proof. intros [n N] [k M]. exists (n + k)%nat. intros m. rewrite <- Nat.add_assoc, N, M. reflexivity. Qed.

Lemma get_car_tree h d td cd e : tree_at h d td cd -> car_t td = Some e ->
  exists x ce, get_car h d = Ok (Some x) /\ tree_at h x e ce /\ incl ce cd.
Proof.
  intros T E. destruct T as [v Wv Nv|i a b ta tb ca cb R C Ta Tb N]; cbn [car_t] in E.
  - destruct (Z.eqb_spec v 0) as [-> |]; [|discriminate]. injection E as <-. exists 0, []. split; [|split; [constructor; auto|apply incl_refl]].
    unfold get_car. assert (is_ptr 0 = false) as -> by apply nil_fields. reflexivity.
  - injection E as <-. exists a, ca. rewrite (get_car_enc _ _ _ _ R C). sp; auto.
    intros x I. simpl. rewrite in_app_iff. auto.
Qed.

Lemma append_t_nil t : append_t tnil t = Some t. Proof. reflexivity. Qed.

Definition exp_ok (t : tree) : Prop :=
  forall h fl v c r tr cr e t' f K, heap_ok h fl -> tree_at h v t c -> tree_at h r tr cr ->
    disj c cr -> disj c fl -> disj cr fl -> (6 * size t <= length fl)%nat -> (Z.to_nat (hsize h) <= f)%nat ->
    expand_t t = Some e -> append_t tr e = Some t' ->
    exists h' r' fl' c', reaches f h (FExpand v :: K) r h' K r' /\ tree_at h' r' t' c' /\
      step (6 * size t) h fl (c ++ cr) h' fl' c'.
Definition expl_ok (t : tree) : Prop :=
  forall h fl v c e f K, heap_ok h fl -> tree_at h v t c ->
    disj c fl -> (6 * size t <= length fl)%nat -> (Z.to_nat (hsize h) <= f)%nat ->
    expand_list_t t = Some e ->
    exists h' r' fl' c', reaches f h (FExpandList v :: K) NIL h' K r' /\ tree_at h' r' e c' /\
      step (6 * size t) h fl c h' fl' c'.

(* the three continuations that a pair pushes *)
Lemma pair_ok a d : expl_ok a -> exp_ok d -> forall h fl va ca vd cd r tr cr x t12 t' f K,
  heap_ok h fl -> tree_at h va a ca -> tree_at h vd d cd -> tree_at h r tr cr ->
  disj ca cd -> disj ca cr -> disj cd cr -> disj ca fl -> disj cd fl -> disj cr fl ->
  (6 * size a + 6 * size d + 3 <= length fl)%nat -> (Z.to_nat (hsize h) <= f)%nat ->
  expand_list_t a = Some x -> obind (expand_t d) (append_t x) = Some t12 -> append_t tr t12 = Some t' ->
  exists h' r' fl' c', reaches f h (FExpandList va :: FExpand vd :: FAppend r :: K) NIL h' K r' /\ tree_at h' r' t' c' /\
    step (6 * size a + 6 * size d + 3) h fl ((ca ++ cd) ++ cr) h' fl' c'.
Proof.
  intros IHa IHd h fl va ca vd cd r tr cr x t12 t' f K OK Ta Td Tr D1 D2 D3 F1 F2 F3 L F Ea Ed Et.
  destruct (IHa h fl va ca x f (FExpand vd :: FAppend r :: K)) as (h1 & r1 & fl1 & c1 & R1 & T1 & S1); auto; [lia|].
  pose proof (step_len _ _ _ _ _ _ _ S1) as L1. pose proof (step_ok _ _ _ _ _ _ _ S1) as OK1.
  pose proof (step_disj _ _ _ _ _ _ _ S1 (ok_nodup _ _ OK) F1) as G1.
  destruct (step_frame _ _ _ _ _ _ _ _ _ _ S1 Td (disj_sym _ _ D1) F2) as (Td1 & Gd & Gdf).
  destruct (step_frame _ _ _ _ _ _ _ _ _ _ S1 Tr (disj_sym _ _ D2) F3) as (Tr1 & Gr & Grf).
  destruct (expand_t d) as [y|] eqn:Ey; [|discriminate]. cbn [obind] in Ed.
  destruct (IHd h1 fl1 vd cd r1 x c1 y t12 f (FAppend r :: K)) as (h2 & r2 & fl2 & c2 & R2 & T2 & S2); auto;
    [lia|rewrite (step_size _ _ _ _ _ _ _ S1); auto|].
  pose proof (step_len _ _ _ _ _ _ _ S2) as L2. pose proof (step_ok _ _ _ _ _ _ _ S2) as OK2.
  assert (G2 : disj (cd ++ c1) fl1) by (apply disj_app_l; auto).
  pose proof (step_disj _ _ _ _ _ _ _ S2 (ok_nodup _ _ OK1) G2) as G3.
  assert (G4 : disj cr (cd ++ c1)) by (apply disj_sym, disj_app_l; auto using disj_sym).
  destruct (step_frame _ _ _ _ _ _ _ _ _ _ S2 Tr1 G4 Grf) as (Tr2 & Gr2 & Grf2).
  destruct (qappend_ok f h2 fl2 r tr cr r2 t12 c2 t') as (h3 & r3 & fl3 & c3 & E3 & T3 & S3); auto;
    [lia|rewrite (step_size _ _ _ _ _ _ _ S2), (step_size _ _ _ _ _ _ _ S1); auto|].
  exists h3, r3, fl3, c3. split; [|split; auto].
  - eapply reaches_trans; [exact R1|]. eapply reaches_trans; [exact R2|]. apply reaches_step.
    cbn [qq_step]. rewrite E3. reflexivity.
  - assert (S12 : step (6 * size a + 6 * size d) h fl (ca ++ cd) h2 fl2 c2).
    { apply (step_trans _ _ _ _ _ _ _ _ _ _ _ _ cd S1 S2). intros q. rewrite !in_app_iff. tauto. }
    apply (step_trans _ _ _ _ _ _ _ _ _ _ _ _ cr S12 S3). intros q. rewrite !in_app_iff. tauto.
Qed.

Lemma expand_run t : exp_ok t /\ expl_ok t.
Proof.
  induction t as [q|a [_ IHa] d [IHd _]].
  - split.
    + intros h fl v c r tr cr e t' f K OK T Tr D F1 F2 L F E Et. cbn [expand_t size] in *. injection E as <-.
      destruct (quote_it_ok h fl v (At q) c OK T F1) as (h1 & v1 & fl1 & c1 & E1 & T1 & S1); [lia|].
      pose proof (step_len _ _ _ _ _ _ _ S1) as L1. pose proof (step_ok _ _ _ _ _ _ _ S1) as OK1.
      pose proof (step_disj _ _ _ _ _ _ _ S1 (ok_nodup _ _ OK) F1) as G1.
      destruct (step_frame _ _ _ _ _ _ _ _ _ _ S1 Tr (disj_sym _ _ D) F2) as (Tr1 & Gr & Grf).
      destruct (qappend_ok f h1 fl1 r tr cr v1 (quote_t (At q)) c1 t') as (h2 & r2 & fl2 & c2 & E2 & T2 & S2); auto;
        [lia|rewrite (step_size _ _ _ _ _ _ _ S1); auto|].
      exists h2, r2, fl2, c2. split; [|split; auto].
      * apply reaches_step. cbn [qq_step]. rewrite (tree_type _ _ _ _ T), E1. cbn [bind]. rewrite E2. reflexivity.
      * eapply step_weaken; [apply (step_trans _ _ _ _ _ _ _ _ _ _ _ _ cr S1 S2)|lia|]; intros z; rewrite !in_app_iff; tauto.
    + intros h fl v c e f K OK T F1 L F E. cbn [expand_list_t size] in *. injection E as <-.
      destruct (consg_ok h fl v (At q) c NIL tnil []) as (h1 & v1 & fl1 & c1 & E1 & T1 & S1);
        auto using tree_tnil, disj_nil, disj_nil_r; [destruct fl; simpl in L; [lia|congruence]|].
      pose proof (step_len _ _ _ _ _ _ _ S1) as L1. rewrite app_nil_r in S1. pose proof (step_ok _ _ _ _ _ _ _ S1) as OK1.
      pose proof (step_disj _ _ _ _ _ _ _ S1 (ok_nodup _ _ OK) F1) as G1.
      destruct (wrap_ok h1 fl1 SYM_QUOTE v1 _ c1 OK1 T1 G1) as (h2 & v2 & h3 & v3 & fl3 & c3 & E2 & E3 & T3 & S3); [lia|].
      exists h3, v3, fl3, c3. split; [|split; auto].
      * apply reaches_step. cbn [qq_step]. rewrite (tree_type _ _ _ _ T), E1. cbn [bind]. rewrite E2. cbn [bind].
        fold QUOTE in E3. rewrite E3. cbn [bind]. unfold qappend. rewrite NIL0. reflexivity.
      * pose proof (step_trans _ _ _ _ _ _ _ _ _ _ _ _ [] S1 S3) as S. rewrite !app_nil_r in S.
        eapply step_weaken; [apply S; apply incl_refl|lia|apply incl_refl].
  - assert (Sz : (6 * size (Nd a d) = 6 + 6 * size a + 6 * size d)%nat) by (cbn [size]; lia).
    split.
    + intros h fl v c r tr cr e t' f K OK T Tr D F1 F2 L F E Et.
      inversion T as [|i va vd ? ? ca cd R C Ta Td N]; subst.
      destruct (nodup3 _ _ _ N) as (Nia & Nid & Dad & _).
      assert (Da : disj ca cr) by (eapply disj_incl; [exact D|]; intros z I; simpl; rewrite in_app_iff; auto).
      assert (Dd : disj cd cr) by (eapply disj_incl; [exact D|]; intros z I; simpl; rewrite in_app_iff; auto).
      assert (Fa : disj ca fl) by (eapply disj_incl; [exact F1|]; intros z I; simpl; rewrite in_app_iff; auto).
      assert (Fd : disj cd fl) by (eapply disj_incl; [exact F1|]; intros z I; simpl; rewrite in_app_iff; auto).
      assert (Step : qq_step f h (FExpand (enc_cons_ptr i)) K r =
        match a with
        | At x => if x =? COMMA then (let? e := get_car h vd in let? '(h1, r1) := qappend f h r e in Ok (Some (h1, K, r1)))
                  else if x =? COMMAAT then Ok None
                  else Ok (Some (h, FExpandList va :: FExpand vd :: FAppend r :: K, NIL))
        | _ => Ok (Some (h, FExpandList va :: FExpand vd :: FAppend r :: K, NIL))
        end).
      { cbn [qq_step]. rewrite enc_type, (get_car_enc _ _ _ _ R C), (get_cdr_enc _ _ _ _ R C) by auto. cbn [bind].
        unfold COMMA, COMMAAT. rewrite !type_and, !(tree_head _ _ _ _ _ Ta). destruct a; reflexivity. }
      assert (G : obind (expand_list_t a) (fun x => obind (expand_t d) (append_t x)) = Some e ->
        qq_step f h (FExpand (enc_cons_ptr i)) K r = Ok (Some (h, FExpandList va :: FExpand vd :: FAppend r :: K, NIL)) ->
        exists h' r' fl' c', reaches f h (FExpand (enc_cons_ptr i) :: K) r h' K r' /\ tree_at h' r' t' c' /\
          step (6 * size (Nd a d)) h fl ((i :: ca ++ cd) ++ cr) h' fl' c').
      { clear E. intros E St. destruct (expand_list_t a) as [x|] eqn:Ex; [|discriminate]. cbn [obind] in E.
        destruct (pair_ok a d IHa IHd h fl va ca vd cd r tr cr x e t' f K) as (h' & r' & fl' & c' & R' & T' & S'); auto; [lia|].
        exists h', r', fl', c'. split; [|split; auto].
        - eapply reaches_trans; [apply reaches_step; exact St|exact R'].
        - eapply step_weaken; [exact S'|lia|]. intros z. simpl. rewrite !in_app_iff. tauto. }
      cbn [expand_t] in E. destruct a as [x|]; [|apply G; auto].
      destruct (x =? COMMA) eqn:Ec; [|destruct (x =? COMMAAT); [discriminate|apply G; auto]].
      destruct (get_car_tree _ _ _ _ _ Td E) as (ev & ce & Eg & Te & Ie).
      assert (De : disj cr ce) by (apply disj_sym; eapply disj_incl; eauto).
      assert (Fe : disj ce fl) by (eapply disj_incl; eauto).
      destruct (qappend_ok f h fl r tr cr ev e ce t') as (h1 & r1 & fl1 & c1 & E1 & T1 & S1); auto; [lia|].
      exists h1, r1, fl1, c1. split; [|split; auto].
      * apply reaches_step. rewrite Step, Eg. cbn [bind]. rewrite E1. reflexivity.
      * eapply step_weaken; [exact S1|lia|]. intros z. simpl. rewrite !in_app_iff. intros [I|I]; [auto|]. apply Ie in I. auto.
    + intros h fl v c e f K OK T F1 L F E.
      inversion T as [|i va vd ? ? ca cd R C Ta Td N]; subst.
      destruct (nodup3 _ _ _ N) as (Nia & Nid & Dad & _).
      assert (Fa : disj ca fl) by (eapply disj_incl; [exact F1|]; intros z I; simpl; rewrite in_app_iff; auto).
      assert (Fd : disj cd fl) by (eapply disj_incl; [exact F1|]; intros z I; simpl; rewrite in_app_iff; auto).
      assert (Step : qq_step f h (FExpandList (enc_cons_ptr i)) K NIL =
        match a with
        | At x => if x =? COMMA then (let? e := get_car h vd in
              let? '(h1, tl) := consg h e NIL in
              let? '(h2, tmp) := consg h1 LIST tl in
              let? '(h3, r1) := qappend f h2 NIL tmp in
              Ok (Some (h3, K, r1)))
                  else if x =? COMMAAT then (let? e := get_car h vd in Ok (Some (h, K, e)))
                  else Ok (Some (h, FExpandList va :: FExpand vd :: FAppend NIL :: FList :: K, NIL))
        | _ => Ok (Some (h, FExpandList va :: FExpand vd :: FAppend NIL :: FList :: K, NIL))
        end).
      { cbn [qq_step]. rewrite enc_type, (get_car_enc _ _ _ _ R C), (get_cdr_enc _ _ _ _ R C) by auto. cbn [bind].
        unfold COMMA, COMMAAT. rewrite !type_and, !(tree_head _ _ _ _ _ Ta). destruct a; reflexivity. }
      assert (G : obind (obind (expand_list_t a) (fun x => obind (expand_t d) (append_t x)))
                  (fun x => Some (list_form x)) = Some e ->
        qq_step f h (FExpandList (enc_cons_ptr i)) K NIL = Ok (Some (h, FExpandList va :: FExpand vd :: FAppend NIL :: FList :: K, NIL)) ->
        exists h' r' fl' c', reaches f h (FExpandList (enc_cons_ptr i) :: K) NIL h' K r' /\ tree_at h' r' e c' /\
          step (6 * size (Nd a d)) h fl (i :: ca ++ cd) h' fl' c').
      { clear E. intros E St. destruct (expand_list_t a) as [x|] eqn:Ex; [|discriminate]. cbn [obind] in E.
        destruct (obind (expand_t d) (append_t x)) as [y|] eqn:Ey; [|discriminate]. cbn [obind] in E. injection E as <-.
        destruct (pair_ok a d IHa IHd h fl va ca vd cd NIL tnil [] x y y f (FList :: K)) as (h' & r' & fl' & c' & R' & T' & S');
          auto using tree_tnil, disj_nil, disj_nil_r; [lia|].
        pose proof (step_len _ _ _ _ _ _ _ S') as L1. pose proof (step_ok _ _ _ _ _ _ _ S') as OK1.
        assert (G1 : disj ((ca ++ cd) ++ []) fl) by (rewrite app_nil_r; apply disj_app_l; auto).
        pose proof (step_disj _ _ _ _ _ _ _ S' (ok_nodup _ _ OK) G1) as G2.
        destruct (wrap_ok h' fl' SYM_LIST r' _ c' OK1 T' G2) as (h2 & v2 & h3 & v3 & fl3 & c3 & E2 & E3 & T3 & S3); [lia|].
        exists h3, v3, fl3, c3. split; [|split; auto].
        - eapply reaches_trans; [apply reaches_step; exact St|]. eapply reaches_trans; [exact R'|]. apply reaches_step.
          cbn [qq_step]. rewrite E2. cbn [bind]. fold LIST in E3. rewrite E3. reflexivity.
        - pose proof (step_trans _ _ _ _ _ _ _ _ _ _ _ _ [] S' S3) as S. rewrite !app_nil_r in S.
          eapply step_weaken; [apply S; apply incl_refl|lia|]. intros z I. simpl. auto. }
      cbn [expand_list_t] in E. destruct a as [x|]; [|apply G; auto].
      destruct (x =? COMMA) eqn:Ec; [|destruct (x =? COMMAAT) eqn:Ea; [|apply G; auto]].
      * destruct (car_t d) as [e1|] eqn:Ed; [|discriminate]. cbn [obind] in E. injection E as <-.
        destruct (get_car_tree _ _ _ _ _ Td Ed) as (ev & ce & Eg & Te & Ie).
        assert (Fe : disj ce fl) by (eapply disj_incl; eauto).
        destruct (wrap_ok h fl SYM_LIST ev _ ce OK Te Fe) as (h2 & v2 & h3 & v3 & fl3 & c3 & E2 & E3 & T3 & S3); [lia|].
        exists h3, v3, fl3, c3. split; [|split; auto].
        -- apply reaches_step. rewrite Step, Eg. cbn [bind]. rewrite E2. cbn [bind]. fold LIST in E3. rewrite E3. cbn [bind].
           unfold qappend. rewrite NIL0. reflexivity.
        -- eapply step_weaken; [exact S3|lia|]. intros z I. apply Ie in I. simpl. rewrite in_app_iff. auto.
      * destruct (get_car_tree _ _ _ _ _ Td E) as (ev & ce & Eg & Te & Ie).
        exists h, ev, fl, ce. split; [|split; auto].
        -- apply reaches_step. rewrite Step, Eg. reflexivity.
        -- apply step_refl; auto. intros z I. apply Ie in I. simpl. rewrite in_app_iff. auto.
Qed.

End Arch.
