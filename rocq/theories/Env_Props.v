(* Properties of environments: C15 (update and lookup), C16 (the global
   environment is one map). *)
From Verif Require Import Base Value_Model Heap_Model Value_Proofs Value_Proofs2 Heap_Spec Heap_Proofs List_Proofs
  Heap_Proofs2 Env_Model Env_Proofs.
From Coq Require Import ZifyBool.
Local Open Scope Z_scope.

Section Spec.
Context {A : Arch}.

(* the bindings a lookup of a local variable sees *)
Definition visible (kvs : list (Z * Z)) := filter (fun kv => negb (snd kv =? PLACEHOLDER)) kvs.

(* the list cells and the pair cells of an environment *)
Fixpoint spine (cs : list Z) : list Z := match cs with i :: _ :: r => i :: spine r | _ => [] end.
Fixpoint pairs (cs : list Z) : list Z := match cs with _ :: j :: r => j :: pairs r | _ => [] end.

Inductive gop := Define (k v : Z) | Setvar (k v : Z) | Undefine (k : Z).

Definition gstep (fuel : nat) (g : gstate) (o : gop) : res (gstate * bool) :=
  match o with
  | Define k v => gdefine fuel g k v
  | Setvar k v => gsetvar fuel g k v
  | Undefine k => gundefine fuel g k
  end.

Fixpoint grun (fuel : nat) (g : gstate) (os : list gop) : res (gstate * list bool) :=
  match os with
  | [] => Ok (g, [])
  | o :: r =>
    let! gb := gstep fuel g o in
    let! gr := grun fuel (fst gb) r in
    Ok (fst gr, snd gb :: snd gr)
  end.

(* what one map from symbols to values does; the booleans are the answers *)
Definition put (m : Z -> option Z) k v := fun j => if j =? k then v else m j.
Inductive sem : (Z -> option Z) -> list gop -> list bool -> (Z -> option Z) -> Prop :=
| sem_nil m : sem m [] [] m
| sem_define m k v os bs m' : sem (put m k (Some v)) os bs m' -> sem m (Define k v :: os) (true :: bs) m'
| sem_define_full m k v os bs m' : m k = None -> sem m os bs m' -> sem m (Define k v :: os) (false :: bs) m'
| sem_setvar m k v os bs m' : m k <> None -> sem (put m k (Some v)) os bs m' -> sem m (Setvar k v :: os) (true :: bs) m'
| sem_undefine m k os b bs m' : (k <> 0 -> (b = true <-> m k <> None)) ->
    sem (put m k None) os bs m' -> sem m (Undefine k :: os) (b :: bs) m'.

(* the global environment [g] with free cells [fl] holds the bindings [kvss b]
   in the cells [css b] of bucket [b] *)
Record genv (g : gstate) (fl : list Z) (kvss : Z -> list (Z * Z)) (css : Z -> list Z) : Prop := {
  ge_heap : heap_ok (gheap g) fl;
  ge_roots : length (groots g) = 32%nat;
  ge_env : forall b, 0 <= b < 32 -> exists v, rd (groots g) b = Ok v /\ env_at (gheap g) fl v (kvss b) (css b);
  ge_sep : forall b b' c, 0 <= b < 32 -> 0 <= b' < 32 -> b <> b' -> In c (css b) -> ~ In c (css b');
  ge_key : forall b k, 0 <= b < 32 -> In k (map fst (kvss b)) -> bucket k = b;
  ge_uniq : forall b, 0 <= b < 32 -> NoDup (map fst (kvss b))
}.

End Spec.

Section Proofs.
Context {A : Arch}.

Lemma assoc_visible_aset key val kvs k : val <> PLACEHOLDER -> assoc key kvs <> None ->
  assoc k (visible (aset key val kvs)) = if k =? key then Some val else assoc k (visible kvs).
Proof.
  intros NP. unfold visible. induction kvs as [|[k' x] r IH]; simpl; intros H; [congruence|].
  destruct (Z.eqb_spec k' key) as [->|N].
  - simpl. destruct (Z.eqb_spec val PLACEHOLDER); [congruence|]. simpl.
    destruct (Z.eqb_spec x PLACEHOLDER); simpl;
    destruct (Z.eqb_spec key k), (Z.eqb_spec k key); auto; congruence.
  - simpl. destruct (Z.eqb_spec x PLACEHOLDER); simpl; auto.
    rewrite IH by auto. destruct (Z.eqb_spec k' k), (Z.eqb_spec k key); auto; congruence.
Qed.

Lemma incl_app_l {T} (a b : list T) : incl a (a ++ b). Proof. intros x I; apply in_or_app; auto. Qed.

Lemma step_put h fl v kvs cs j c : heap_ok h fl -> env_at h fl v kvs cs -> In j cs -> env_step h fl cs (hput h j c) fl cs.
Proof.
  intros OK (E&N&F) I. pose proof (env_on_range _ _ _ _ _ E I). constructor; auto.
  - apply heap_ok_put; auto; lia.
  - apply incl_refl.
  - apply incl_app_l.
  - eapply same_but_incl; [|apply hput_same; lia]. intros x [<-|[]]. apply in_or_app; auto.
  - apply hput_size.
Qed.

Lemma cons_cell_range h i fl : heap_ok h (i :: fl) -> 0 <= i < 2 ^ (W - 8).
Proof. intros OK. destruct (cons_ok h i fl 0 0 OK) as (h'&_&_&_&_&_&_&_&_&R). auto. Qed.

(* two fresh cells: the binding (b) and the list cell (i) *)
Lemma extend_ok h b i fl v kvs cs key val : heap_ok h (b :: i :: fl) -> env_at h (b :: i :: fl) v kvs cs ->
  exists h1 h2, cons h key val = Ok (h1, enc_cons_ptr b) /\ cons h1 (enc_cons_ptr b) v = Ok (h2, enc_cons_ptr i) /\
    env_at h2 fl (enc_cons_ptr i) ((key, val) :: kvs) (i :: b :: cs) /\ env_step h (b :: i :: fl) cs h2 fl (i :: b :: cs).
Proof.
  intros OK (E&N&F).
  destruct (cons_ok h b (i :: fl) key val OK) as (h1&E1&OK1&C1&S1&Z1&CC1&_&_&Rb).
  destruct (cons_ok h1 i fl (enc_cons_ptr b) v OK1) as (h2&E2&OK2&C2&S2&Z2&CC2&_&_&Ri).
  pose proof (ok_nodup _ _ OK) as ND. inversion ND as [|? ? NDb ND']; subst. inversion ND' as [|? ? NDi ND'']; subst.
  assert (b <> i) by (intros ->; apply NDb; left; auto).
  exists h1, h2. split; auto. split; auto. split; [split; [|split]|constructor]; auto.
  - apply env_cons with (q := v); auto.
    + rewrite S2; auto. intros [->|[]]; auto.
    + eapply env_on_frame; eauto. intros c I. rewrite S2, S1; auto; intros [->|[]]; eapply F; eauto; simpl; auto.
  - constructor; [|constructor; auto].
    + intros [->|I]; auto. eapply F; eauto; simpl; auto.
    + intros I. eapply F; eauto; simpl; auto.
  - intros c [<-|[<-|I]]; auto. { intros I; apply NDb; right; auto. } intros J. eapply F; eauto; simpl; auto.
  - intros c I; simpl; auto.
  - intros c [<-|[<-|I]]; apply in_or_app; simpl; auto.
  - intros c I. rewrite S2, S1; auto; intros [->|[]]; apply I, in_or_app; simpl; auto.
  - congruence.
  - congruence.
Qed.

Lemma one_cell h b v kvs cs key val : heap_ok h [b] -> env_at h [b] v kvs cs ->
  exists h1, cons h key val = Ok (h1, enc_cons_ptr b) /\ (forall x y, cons h1 x y = Ok (h1, MERROR)) /\
    env_at h1 [] v kvs cs /\ env_step h [b] cs h1 [] cs.
Proof.
  intros OK (E&N&F).
  destruct (cons_ok h b [] key val OK) as (h1&E1&OK1&C1&S1&Z1&CC1&_&_&Rb).
  exists h1. split; auto. split; [intros; apply cons_fail; auto|].
  split; [split; [|split]|constructor]; auto.
  - eapply env_on_frame; eauto.
  - intros c [].
  - apply incl_app_l.
  - eapply same_but_incl; eauto. intros c I. apply in_or_app; auto.
Qed.

Lemma env_at_nonptr h fl v kvs cs key : env_at h fl v kvs cs -> assoc key kvs <> None -> exists i, 0 <= i < 2 ^ (W - 8) /\ v = enc_cons_ptr i.
Proof. intros (E&_) H. inversion E; subst; [simpl in H; congruence|eauto]. Qed.

(* C15.  Setting a key.  The answer is the environment; merror only when the key
   is new and fewer than two cells are free.  No cell outside the environment
   changes. *)
Theorem env_set_correct h fl v kvs cs key val fuel :
  heap_ok h fl -> env_at h fl v kvs cs -> (length kvs <= fuel)%nat ->
  exists h' v' fl' cs', env_set fuel h v key val = Ok (h', v') /\ env_step h fl cs h' fl' cs' /\
    (assoc key kvs <> None /\ v' = v /\ fl' = fl /\ cs' = cs /\ (exists kvs', env_at h' fl' v' kvs' cs' /\
        map fst kvs' = map fst kvs /\
        (forall k, assoc k kvs' = if k =? key then Some val else assoc k kvs) /\
        (val <> PLACEHOLDER -> forall k, assoc k (visible kvs') = if k =? key then Some val else assoc k (visible kvs))) \/
     assoc key kvs = None /\ (2 <= length fl)%nat /\ fl' = skipn 2 fl /\ is_ptr v' = true /\
        env_at h' fl' v' ((key, val) :: kvs) cs' \/
     assoc key kvs = None /\ (length fl < 2)%nat /\ v' = MERROR /\ cs' = cs /\ env_at h' fl' v kvs cs).
Proof.
  intros OK Ev L. pose proof Ev as (E&N&F). unfold env_set.
  pose proof (set_loop_ok h v kvs cs key val E N fuel L) as SL.
  destruct (assoc key kvs) as [x|] eqn:AK.
  - destruct SL as (j&c&I&D&R&E'). rewrite R. cbn [bind].
    exists (hput h j c), v, fl, cs. split; auto. split; [eapply step_put; eauto|].
    left. split; [discriminate|]. split; auto. split; auto. split; auto. exists (aset key val kvs).
    split; [split; auto|]. split; [apply aset_keys|]. split.
    + intros k. apply assoc_aset. congruence.
    + intros NP k. apply assoc_visible_aset; congruence.
  - rewrite SL. cbn [bind]. destruct fl as [|b [|i fl]].
    + rewrite cons_fail by auto. cbn [bind]. rewrite MERROR_type.
      exists h, MERROR, [], cs. split; auto. split.
      * constructor; auto using incl_refl, incl_app_l, same_but_refl.
      * right; right. simpl. auto with arith.
    + destruct (one_cell h b v kvs cs key val OK Ev) as (h1&E1&E2&Ev1&St). rewrite E1. cbn [bind].
      rewrite enc_type_not_sym by (eapply cons_cell_range; eauto). rewrite E2.
      exists h1, MERROR, [], cs. split; auto. split; auto. right; right. simpl. auto with arith.
    + destruct (extend_ok h b i fl v kvs cs key val OK Ev) as (h1&h2&E1&E2&Ev2&St). rewrite E1. cbn [bind].
      rewrite enc_type_not_sym by (eapply cons_cell_range; eauto). rewrite E2.
      exists h2, (enc_cons_ptr i), fl, (i :: b :: cs). split; auto. split; auto. right; left.
      assert (Ri : 0 <= i < 2 ^ (W - 8)) by (destruct Ev2 as (E3&_); eapply env_on_range; eauto; simpl; auto).
      split; auto. split; [simpl; lia|]. split; auto. split; auto. apply enc_is_ptr; auto.
Qed.

(* C15.  Looking up finds the first binding of the key, bindings whose value is
   the placeholder symbol being skipped. *)
Theorem env_lookup_correct h v kvs cs k fuel : env_on h v kvs cs -> (length kvs <= fuel)%nat ->
  env_lookup fuel h k v = Ok (assoc k (visible kvs)).
Proof. intros. eapply lookup_ok; eauto. Qed.

(* C15, both: after a set that had memory, the key gives the value and every
   other key what it gave before. *)
Theorem env_set_lookup h fl v kvs cs key val fuel h' v' :
  heap_ok h fl -> env_at h fl v kvs cs -> (length kvs < fuel)%nat -> val <> PLACEHOLDER ->
  env_set fuel h v key val = Ok (h', v') -> v' <> MERROR ->
  (forall k, env_lookup fuel h' k v' = if k =? key then Ok (Some val) else env_lookup fuel h k v) /\
  (NoDup (map fst kvs) -> exists kvs' cs', env_on h' v' kvs' cs' /\ NoDup (map fst kvs')).
Proof.
  intros OK Ev L NP R NM.
  destruct (env_set_correct h fl v kvs cs key val fuel OK Ev) as (h2&v2&fl'&cs'&R2&St&C); [lia|].
  rewrite R in R2. injection R2 as <- <-. destruct Ev as (E&_).
  destruct C as [(AK&->&->&->&kvs'&(E'&_)&MK&AS&AV)|[(AK&_&_&_&(E'&_))|(_&_&->&_)]]; [| |congruence].
  - split.
    + intros k. rewrite (env_lookup_correct _ _ _ _ k fuel E').
      * rewrite AV by auto. destruct (k =? key); auto. symmetry. eapply env_lookup_correct; eauto. lia.
      * assert (length (map fst kvs') = length (map fst kvs)) as H by congruence. rewrite !map_length in H. lia.
    + intros ND. exists kvs', cs. rewrite MK. auto.
  - split.
    + intros k. rewrite (env_lookup_correct _ _ _ _ k fuel E') by (simpl; lia).
      unfold visible. cbn [filter snd]. destruct (Z.eqb_spec val PLACEHOLDER); [congruence|]. cbn [negb assoc].
      rewrite Z.eqb_sym. destruct (k =? key); auto. symmetry. eapply env_lookup_correct; eauto. lia.
    + intros ND. exists ((key, val) :: kvs), cs'. split; auto. simpl. constructor; auto. apply assoc_in; auto.
Qed.

(* Setting a key to the placeholder symbol, a value any program can compute,
   makes a local variable unbound. *)
Theorem env_set_lookup_refuted : exists (h : heap) fl v kvs cs key val fuel h' v',
  heap_ok (A := A32) h fl /\ env_at (A := A32) h fl v kvs cs /\ (length kvs < fuel)%nat /\
  env_set (A := A32) fuel h v key val = Ok (h', v') /\ v' <> MERROR (A := A32) /\
  env_lookup (A := A32) fuel h' key v' = Ok None.
Proof.
  destruct (heap_init_ok (A := A32) 4 10) as (h&E&OK&_); [vm_compute; split; discriminate|].
  vm_compute in E. injection E as <-.
  eexists _, _, 0, [], [], (enc_sym (A := A32) 0x10000), (PLACEHOLDER (A := A32)), 1%nat, _, _.
  split; [exact OK|]. split; [split; [constructor|split; [constructor|intros ? []]]|].
  split; [simpl; lia|]. split; [vm_compute; reflexivity|]. split; [vm_compute; discriminate|]. vm_compute. reflexivity.
Qed.

(* C15.  Modifying a binding never allocates and changes nothing when the key is
   not bound. *)
Theorem env_modify_correct h fl v kvs cs key val fuel :
  heap_ok h fl -> env_at h fl v kvs cs -> (length kvs <= fuel)%nat ->
  exists h' v', env_modify fuel h v key val = Ok (h', v') /\ env_step h fl cs h' fl cs /\
    (assoc key kvs <> None /\ v' = v /\ (exists kvs', env_at h' fl v kvs' cs /\ map fst kvs' = map fst kvs /\
        forall k, assoc k kvs' = if k =? key then Some val else assoc k kvs) \/
     assoc key kvs = None /\ v' = NOT_FOUND /\ h' = h).
Proof.
  intros OK Ev L. pose proof Ev as (E&N&F). unfold env_modify.
  pose proof (set_loop_ok h v kvs cs key val E N fuel L) as SL.
  destruct (assoc key kvs) as [x|] eqn:AK.
  - destruct SL as (j&c&I&D&R&E'). rewrite R. cbn [bind].
    exists (hput h j c), v. split; auto. split; [eapply step_put; eauto|].
    left. split; [discriminate|]. split; auto. exists (aset key val kvs).
    split; [split; auto|]. split; [apply aset_keys|]. intros k. apply assoc_aset. congruence.
  - rewrite SL. cbn [bind]. exists h, NOT_FOUND. split; auto. split; [|auto].
    constructor; auto using incl_refl, incl_app_l, same_but_refl.
Qed.

(* C15.  The "functional" update gives the key a fresh pair: the old pair keeps
   its value. *)
Theorem env_set_functional_correct h fl v kvs cs key val fuel :
  heap_ok h fl -> env_at h fl v kvs cs -> (length kvs <= fuel)%nat ->
  exists h' v' fl' cs', env_set_functional fuel h v key val = Ok (h', v') /\ env_step h fl cs h' fl' cs' /\
    (v' <> MERROR /\ (exists kvs', env_at h' fl' v' kvs' cs' /\
        map fst kvs' = (if assoc key kvs then map fst kvs else key :: map fst kvs) /\
        (forall k, assoc k kvs' = if k =? key then Some val else assoc k kvs)) \/
     (length fl < 2)%nat /\ v' = MERROR /\ env_at h' fl' v kvs cs).
Proof.
  intros OK Ev L. pose proof Ev as (E&N&F). unfold env_set_functional.
  destruct fl as [|b fl].
  - rewrite cons_fail by auto. cbn [bind]. rewrite MERROR_type.
    exists h, MERROR, [], cs. split; auto. split.
    + constructor; auto using incl_refl, incl_app_l, same_but_refl.
    + right. split; [simpl; lia|]. auto.
  - destruct (cons_ok h b fl key val OK) as (h1&E1&OK1&C1&S1&Z1&CC1&_&_&Rb). rewrite E1. cbn [bind].
    rewrite enc_type_not_sym by auto.
    assert (NB : ~ In b cs) by (intros I; eapply F; eauto; simpl; auto).
    assert (E' : env_on h1 v kvs cs).
    { eapply env_on_frame; eauto. intros c I. apply S1. intros [->|[]]; auto. }
    pose proof (ok_nodup _ _ OK) as ND. inversion ND as [|? ? NDb ND']; subst.
    pose proof (setf_loop_ok h1 v kvs cs key b val E' N Rb C1 NB fuel L) as SL.
    destruct (assoc key kvs) as [x|] eqn:AK.
    + destruct SL as (i&c&cs'&I&D&R&E2&N2&IC). rewrite R. cbn [bind].
      pose proof (env_on_range _ _ _ _ _ E I) as Ri.
      exists (hput h1 i c), v, fl, cs'. split; auto. split.
      * constructor.
        -- apply heap_ok_put; auto; [|lia]. intros J. eapply F; eauto. simpl; auto.
        -- intros y Y; simpl; auto.
        -- intros y Y. apply IC in Y. apply in_or_app. simpl. destruct Y; auto.
        -- intros y Y. rewrite cell_hput_neq; [apply S1|lia|].
           ++ intros [->|[]]. apply Y, in_or_app. simpl; auto.
           ++ intros ->. apply Y, in_or_app; auto.
        -- rewrite hput_size; auto.
        -- simpl; auto.
      * left. destruct (env_at_nonptr h (b :: fl) v kvs cs key) as (i0&Ri0&->); auto; [congruence|].
        split.
        { intros EM. pose proof (enc_is_ptr _ Ri0) as P. rewrite EM, MERROR_not_ptr in P. discriminate. }
        exists (aset key val kvs). split; [split; [auto|split; auto]|].
        -- intros y Y J. apply IC in Y. destruct Y as [->|Y]; [auto|]. eapply F; eauto. simpl; auto.
        -- split; [apply aset_keys|]. intros k. apply assoc_aset. congruence.
    + rewrite SL. cbn [bind]. destruct fl as [|i fl].
      * destruct (one_cell h b v kvs cs key val OK Ev) as (h1'&E1'&E2&Ev1&St). rewrite E1 in E1'. injection E1' as <-.
        rewrite E2. exists h1, MERROR, [], cs. split; [reflexivity|]. split; [auto|]. right. split; [simpl; lia|auto].
      * destruct (extend_ok h b i fl v kvs cs key val OK Ev) as (h1'&h2&E1'&E2&Ev2&St). rewrite E1 in E1'. injection E1' as <-.
        rewrite E2. exists h2, (enc_cons_ptr i), fl, (i :: b :: cs). split; auto. split; auto. left.
        assert (Ri : 0 <= i < 2 ^ (W - 8)) by (destruct Ev2 as (E3&_); eapply env_on_range; eauto; simpl; auto).
        split.
        { intros EM. pose proof (enc_is_ptr _ Ri) as P. rewrite EM, MERROR_not_ptr in P. discriminate. }
        exists ((key, val) :: kvs). split; auto. split; [reflexivity|].
        intros k. simpl. rewrite Z.eqb_sym. reflexivity.
Qed.

Lemma NOT_FOUND_not_ptr : is_ptr NOT_FOUND = false.
Proof. apply is_symbol_not_ptr, enc_sym_is_symbol. Qed.
Lemma NOT_FOUND_nonzero : NOT_FOUND <> 0.
Proof. unfold NOT_FOUND. destruct A; discriminate. Qed.
Lemma MERROR_nonzero : MERROR <> 0.
Proof. unfold MERROR. destruct A; discriminate. Qed.
Lemma enc_not_NF i : 0 <= i < 2 ^ (W - 8) -> enc_cons_ptr i <> NOT_FOUND.
Proof. intros R E. pose proof (enc_is_ptr _ R) as P. rewrite E, NOT_FOUND_not_ptr in P. discriminate. Qed.
Lemma enc_not_ME i : 0 <= i < 2 ^ (W - 8) -> enc_cons_ptr i <> MERROR.
Proof. intros R E. pose proof (enc_is_ptr _ R) as P. rewrite E, MERROR_not_ptr in P. discriminate. Qed.

(* C15.  Dropping removes the first binding of the key and nothing else. *)
Theorem env_drop_correct h fl v kvs cs key fuel :
  heap_ok h fl -> env_at h fl v kvs cs -> (length kvs <= fuel)%nat ->
  exists h' v' cs', env_drop fuel h v key = Ok (h', v') /\ env_step h fl cs h' fl cs' /\ incl cs' cs /\
    ((exists l1 x l2, kvs = l1 ++ (key, x) :: l2 /\ ~ In key (map fst l1) /\ v' <> NOT_FOUND /\ env_at h' fl v' (l1 ++ l2) cs') \/
     ~ In key (map fst kvs) /\ h' = h /\ cs' = cs /\
       v' = (if match kvs with [] => key =? 0 | _ => false end then 0 else NOT_FOUND)).
Proof.
  intros OK Ev L. pose proof Ev as (E&N&F). unfold env_drop.
  inversion E as [|i j k x q kvs' cs1 Ri Rj Ci Cj E1]; subst.
  - rewrite car_nil, cdr_nil. cbn [bind]. rewrite car_nil. cbn [bind].
    exists h, (if key =? 0 then 0 else NOT_FOUND), []. split; [|split; [|split; [apply incl_refl|right; auto]]].
    + rewrite Z.eqb_sym. destruct (Z.eqb_spec key 0); auto. destruct fuel; cbn [drop_loop]; rewrite type_zero; reflexivity.
    + constructor; auto using incl_refl, incl_app_l, same_but_refl.
  - rewrite (car_enc h i _ _ Ri Ci), (cdr_enc h i _ _ Ri Ci). cbn [bind]. rewrite (car_enc h j _ _ Rj Cj). cbn [bind].
    inversion N as [|? ? N1 N']; subst. inversion N' as [|? ? N2 N3]; subst.
    assert (Ev1 : env_at h fl q kvs' cs1) by (split; [auto|split; [auto|intros c I; apply F; simpl; auto]]).
    destruct (Z.eqb_spec k key) as [->|NE].
    + exists h, q, cs1. split; auto. split; [|split; [intros y; simpl; auto|left]].
      * constructor; auto using incl_refl, same_but_refl. intros y Y; simpl; right; right; apply in_or_app; auto.
      * exists [], x, kvs'. simpl. split; auto. split; auto. split; auto.
        inversion E1; subst; [apply not_eq_sym, NOT_FOUND_nonzero|apply enc_not_NF; auto].
    + assert (ND : NoDup (i :: cs1)) by (constructor; auto; intros I; apply N1; simpl; auto).
      simpl in L. pose proof (drop_loop_ok h q kvs' cs1 key E1 i _ ND N3 Ri Ci fuel ltac:(lia)) as DL.
      destruct (assoc key kvs') as [y|] eqn:AK.
      * destruct DL as (m&c&cs'&q'&I&D&R&C2&E2&ND2&IC). rewrite R. cbn [bind].
        assert (Rm : 0 <= m) by (destruct I as [<-|I]; [lia|eapply env_on_range in I; eauto; lia]).
        assert (Im : In m (i :: j :: cs1)) by (simpl; destruct I; auto).
        assert (m <> j).
        { intros ->. destruct I as [<-|I]; [apply N1; simpl; auto|auto]. }
        exists (hput h m c), (enc_cons_ptr i), (i :: j :: cs'). split; auto.
        assert (IC2 : incl (i :: j :: cs') (i :: j :: cs1)) by (intros z [<-|[<-|Z]]; simpl; auto).
        split; [|split; auto].
        -- pose proof (step_put h fl _ _ _ m c OK Ev Im) as [H1 H2 H3 H4 H5 H6]. constructor; auto.
           eapply incl_tran; eauto.
        -- left. destruct (adrop_split key kvs' y AK) as (l1&l2&->&EA&NI). rewrite EA in E2.
           exists ((k, x) :: l1), y, l2. split; auto. split; [simpl; intros [EE|II]; auto|].
           split; [apply enc_not_NF; auto|]. split; [|split].
           ++ apply env_cons with (q := q'); auto. rewrite cell_hput_neq; auto.
           ++ constructor; [|constructor; auto].
              intros [->|J]; [apply N1; simpl; auto|]. apply N1; right; auto.
           ++ intros z Z. apply F, IC2; auto.
      * rewrite DL. cbn [bind]. exists h, NOT_FOUND, (i :: j :: cs1). split; auto. split.
        -- constructor; auto using incl_refl, incl_app_l, same_but_refl.
        -- split; [apply incl_refl|right]. split; auto. simpl. intros [EE|I]; auto. apply assoc_in in AK. auto.
Qed.

Lemma env_on_list h v kvs cs : env_on h v kvs cs ->
  list_on h v (map enc_cons_ptr (pairs cs)) (map enc_cons_ptr (spine cs)).
Proof.
  induction 1 as [|i j k x q kvs cs Ri Rj Ci Cj E IH]; [constructor|].
  cbn [pairs spine map]. apply list_on_cons_cell with (d := q); auto.
Qed.

Lemma spine_in cs c : In c (spine cs) -> In c cs.
Proof.
  enough (forall n cs, (length cs <= n)%nat -> In c (spine cs) -> In c cs) by eauto.
  clear cs. induction n; intros [|i [|j r]] L; simpl in *; try tauto; try lia. intros [->|I]; auto. right; right. apply IHn; auto. lia.
Qed.

Lemma env_on_spine_len h v kvs cs : env_on h v kvs cs -> length (spine cs) = length kvs /\ length (pairs cs) = length kvs.
Proof. induction 1; simpl; lia. Qed.

Lemma spine_loop_ok kvs : forall h v cs t olds ts fuel,
  env_on h v kvs cs -> list_on h t olds (map enc_cons_ptr ts) -> length ts = length kvs -> NoDup ts ->
  (forall c, In c ts -> ~ In c cs /\ 0 <= c < 2 ^ (W - 8)) -> (length kvs <= fuel)%nat ->
  exists h' cs', spine_loop fuel h t v = Ok h' /\ env_on h' v kvs cs /\ env_on h' t kvs cs' /\
    spine cs' = ts /\ pairs cs' = pairs cs /\ same_but ts h h' /\ hsize h' = hsize h /\ ccells h' = ccells h /\
    freelist h' = freelist h /\ num_alloc h' = num_alloc h.
Proof.
  induction kvs as [|[k x] kvs IH]; intros h v cs t olds ts fuel E L LT ND D F.
  - destruct ts; [|discriminate]. inversion L; subst. inversion E; subst.
    exists h, []. destruct fuel; cbn [spine_loop]; rewrite type_zero; (split; [reflexivity|]);
      repeat (split; [solve [auto using env_nil, same_but_refl]|]); auto.
  - destruct ts as [|n ts]; [discriminate|]. simpl in LT, F. destruct fuel as [|fuel]; [lia|].
    inversion E as [|i j k' x' q kvs' cs1 Ri Rj Ci Cj E1]; subst. cbn [map] in L.
    inversion L as [|p old tq olds' ps Wp Pp Rp L1]; subst.
    inversion ND as [|? ? NI ND1]; subst.
    destruct (D n (or_introl eq_refl)) as (Dn&Rn).
    rewrite ref_cell_rw, enc_ix in Rp by auto using enc_not_const.
    destruct (cell h n) as [c|] eqn:Cn; [|discriminate]. injection Rp as ->.
    cbn [spine_loop]. rewrite enc_type, (car_enc h i _ _ Ri Ci) by auto. cbn [bind].
    rewrite (set_car_enc h n _ _ _ Rn Cn). cbn [bind fst].
    set (h1 := hput h n (enc_cons_ptr j, tq)).
    assert (C1 : cell h1 n = Some (enc_cons_ptr j, tq)) by (eapply cell_hput_eq; eauto).
    assert (E1' : env_on h1 q kvs cs1) by (apply env_on_hput; auto; [intros I; apply Dn; simpl; auto|lia]).
    assert (H1 : cell h1 i = Some (enc_cons_ptr j, q)).
    { unfold h1. rewrite cell_hput_neq; auto; [lia|]. intros ->. apply Dn; simpl; auto. }
    rewrite (cdr_enc h1 n _ _ Rn C1). cbn [bind]. rewrite (cdr_enc h1 i _ _ Ri H1). cbn [bind].
    destruct (IH h1 q cs1 tq olds' ts fuel) as (h'&cs'&R&EE&ET&SP&PP&SB&SZ&CC&FL&NA); auto; try lia.
    { assert (X : list_on h1 tq olds' (map enc_cons_ptr ts)); [|exact X].
      eapply list_on_frame; [exact L1|reflexivity|]. intros p P CP. unfold h1. apply in_map_iff in P. destruct P as (m&<-&M).
      destruct (D m (or_intror M)) as (_&Rm). rewrite enc_ix by auto. apply cell_hput_neq; [lia|]. intros ->; auto. }
    { intros c C. destruct (D c (or_intror C)) as (X&Y). split; auto. intros I; apply X; simpl; auto. }
    rewrite R. assert (Ki : ~ In i ts) by (intros I; apply (proj1 (D i (or_intror I))); simpl; auto).
    assert (Kj : ~ In j ts) by (intros I; apply (proj1 (D j (or_intror I))); simpl; auto).
    assert (nj : n <> j) by (intros ->; apply Dn; simpl; auto).
    assert (Hj : cell h' j = Some (k, x)).
    { rewrite SB by auto. unfold h1. rewrite cell_hput_neq; auto. lia. }
    exists h', (n :: j :: cs'). split; auto. split; [|split; [|split; [|split; [|split]]]].
    + apply env_cons with (q := q); auto. rewrite SB; auto.
    + apply env_cons with (q := tq); auto. rewrite SB; auto.
    + simpl. congruence.
    + simpl. congruence.
    + intros c C. rewrite SB by (intros I; apply C; simpl; auto). unfold h1. apply cell_hput_neq; [lia|]. intros ->; apply C; simpl; auto.
    + split; [rewrite SZ; apply hput_size|]. split; [rewrite CC; reflexivity|]. split; [rewrite FL; reflexivity|rewrite NA; reflexivity].
Qed.

Lemma repeat_nonempty {T} (x : T) n : (0 < n)%nat -> repeat x n <> [].
Proof. destruct n; simpl; [lia|discriminate]. Qed.

(* C15.  Copying the spine gives an environment with the same bindings in fresh
   list cells, sharing the pairs; the original is untouched; merror exactly when
   there are too few free cells. *)
Theorem env_copy_spine_correct h fl v kvs cs fuel :
  heap_ok h fl -> env_at h fl v kvs cs -> (length kvs <= fuel)%nat ->
  exists h' v', env_copy_spine fuel h v = Ok (h', v') /\
    ((length kvs <= length fl)%nat /\ heap_ok h' (skipn (length kvs) fl) /\ env_on h' v kvs cs /\
      (exists cs', env_on h' v' kvs cs' /\ spine cs' = firstn (length kvs) fl /\ pairs cs' = pairs cs) /\
      same_but (firstn (length kvs) fl) h h' \/
     (length fl < length kvs)%nat /\ v' = MERROR /\ h' = h).
Proof.
  intros OK (E&N&F) L. unfold env_copy_spine.
  pose proof (env_on_list _ _ _ _ E) as LO. destruct (env_on_spine_len _ _ _ _ E) as (LS&LP).
  pose proof (list_on_short _ _ _ _ LO) as SH. rewrite map_length, LP in SH.
  rewrite (list_length_ok h v _ _ fuel LO) by (rewrite map_length; lia). cbn [bind]. rewrite map_length, LP.
  unfold alloc_list. rewrite Nat2Z.id. destruct kvs as [|kv kvs0] eqn:EK.
  - inversion E; subst. cbn [length repeat]. unfold alloc_list_init. cbn [length]. change (Z.of_nat 0 =? 0) with true. cbn [bind].
    destruct (Z.eqb_spec NIL MERROR) as [EE|_]; [exfalso; apply MERROR_nonzero; rewrite <- EE; apply NIL_0|].
    exists h, 0. rewrite NIL_0. split; [destruct fuel; cbn [spine_loop]; rewrite type_zero; reflexivity|].
    left. cbn [length firstn skipn]. split; [lia|]. split; auto. split; [constructor|].
    split; [|apply same_but_refl]. exists []. repeat split; constructor.
  - rewrite <- EK in *. assert (P : (0 < length kvs)%nat) by (rewrite EK; simpl; lia). clear EK kv kvs0.
    destruct (Nat.le_gt_cases (length kvs) (length fl)) as [LE|GT].
    + destruct (alloc_list_init_ok h fl (repeat NIL (length kvs)) OK) as (h1&v1&E1&OK1&L1&V1&SB1&SZ1&CC1&_).
      { apply repeat_nonempty; auto. } { rewrite repeat_length; auto. }
      rewrite repeat_length in *. rewrite E1. cbn [bind].
      assert (R : Forall (fun i => 0 <= i < 2 ^ (W - 8)) fl).
      { eapply Forall_impl; [|exact (chain_range _ _ _ (ok_chain _ _ OK))]. intros a Ha. pose proof (ok_size _ _ OK). simpl in Ha. lia. }
      rewrite Forall_forall in R.
      assert (exists i, 0 <= i < 2 ^ (W - 8) /\ v1 = enc_cons_ptr i) as (i&Ri&Ei).
      { destruct fl as [|i fl']; [simpl in LE; lia|]. exists i. split; [apply R; simpl; auto|]. rewrite V1. reflexivity. }
      destruct (Z.eqb_spec v1 MERROR) as [EE|_]; [exfalso; eapply enc_not_ME; [exact Ri|congruence]|].
      assert (E' : env_on h1 v kvs cs).
      { eapply env_on_frame; eauto. intros c C. apply SB1. intros I. apply In_firstn in I. eapply F; eauto. }
      assert (LF : length (firstn (length kvs) fl) = length kvs) by (rewrite firstn_length; lia).
      destruct (spine_loop_ok kvs h1 v cs v1 _ _ fuel E' L1 LF) as (h2&cs'&R2&EE&ET&SP&PP&SB&SZ&CC&FL&NA); auto.
      { apply NoDup_firstn, (ok_nodup _ _ OK). }
      { intros c C. apply In_firstn in C. split; auto. intros I. eapply F; eauto. }
      rewrite R2. cbn [bind]. exists h2, v1. split; auto. left. split; auto. split; [|split; [auto|split; [eauto|]]].
      * destruct OK1 as [O1 O2 O3 O4]. constructor; auto.
        -- rewrite SZ; auto.
        -- rewrite FL. eapply chain_frame; eauto. intros c C. apply SB. intros I.
           eapply (NoDup_split fl (length kvs) c); eauto. apply (ok_nodup _ _ OK).
        -- rewrite NA, SZ; auto.
      * eapply same_but_trans; eauto.
    + rewrite (alloc_list_init_fail h fl (repeat NIL (length kvs)) OK) by (rewrite repeat_length; auto). cbn [bind].
      rewrite Z.eqb_refl. exists h, MERROR. split; auto.
Qed.

(* ---- the global environment ---- *)

Lemma bucket_range k : 0 <= bucket k < 32.
Proof.
  unfold bucket. change 0x1F with (Z.ones 5). rewrite Z.land_ones by lia.
  change (2 ^ 5) with 32. apply Z.mod_pos_bound. lia.
Qed.

Definition fset {T} (f : Z -> T) b x := fun c => if c =? b then x else f c.
Lemma fset_eq {T} (f : Z -> T) b x : fset f b x b = x. Proof. unfold fset. rewrite Z.eqb_refl. auto. Qed.
Lemma fset_neq {T} (f : Z -> T) b x c : c <> b -> fset f b x c = f c.
Proof. unfold fset. intros. destruct (Z.eqb_spec c b); congruence. Qed.

(* one bucket replaced *)
Lemma genv_step g fl kvss css b h' fl' v' kvs' cs' :
  genv g fl kvss css -> 0 <= b < 32 -> env_step (gheap g) fl (css b) h' fl' cs' ->
  env_at h' fl' v' kvs' cs' -> (forall k, In k (map fst kvs') -> bucket k = b) -> NoDup (map fst kvs') ->
  exists rs, wr (groots g) b v' = Ok rs /\ genv (mkG h' rs) fl' (fset kvss b kvs') (fset css b cs').
Proof.
  intros [GH GR GE GS GK GU] B St Ev K U.
  assert (exists rs, wr (groots g) b v' = Ok rs) as (rs&R) by (eexists; apply wr_ok; rewrite GR; lia). exists rs. split; auto.
  constructor; simpl.
  - apply St.
  - pose proof (wr_inv _ _ _ _ R) as (_&->). rewrite length_upd. auto.
  - intros c C. pose proof (wr_inv _ _ _ _ R) as (BL&->). destruct (Z.eq_dec c b) as [->|NE].
    + exists v'. rewrite !fset_eq. split; auto.
      unfold rd. destruct (Z.ltb_spec b 0); [lia|]. rewrite nth_error_upd_eq by lia. auto.
    + rewrite !fset_neq by auto. destruct (GE c C) as (v&Rv&(E&N&F)). exists v. split.
      * unfold rd in *. destruct (Z.ltb_spec c 0); [lia|]. rewrite nth_error_upd_neq by lia. auto.
      * split; [|split; auto].
        -- eapply env_on_frame; eauto. intros z Z. apply St. intros I. apply in_app_or in I. destruct I as [I|I].
           ++ eapply (GS b c z); eauto.
           ++ eapply F; eauto.
        -- intros z Z I. eapply F; eauto. apply St; auto.
  - assert (X : forall c z, 0 <= c < 32 -> c <> b -> In z cs' -> ~ In z (css c)).
    { intros c z C NE I J. apply St in I. apply in_app_or in I. destruct I as [I|I].
      - eapply (GS b c z); eauto.
      - destruct (GE c C) as (v&Rv&(E&N&F)). eapply F; eauto. }
    intros c c' z C C' NE I. destruct (Z.eq_dec c b) as [->|Nb].
    + rewrite fset_eq in I. rewrite fset_neq by auto. eauto.
    + rewrite fset_neq in I by auto. destruct (Z.eq_dec c' b) as [->|Nb'].
      * rewrite fset_eq. intros J. exact (X c z C Nb J I).
      * rewrite fset_neq by auto. eauto.
  - intros c k C I. destruct (Z.eq_dec c b) as [->|Nb]; [rewrite fset_eq in I|rewrite fset_neq in I by auto]; eauto.
  - intros c C. destruct (Z.eq_dec c b) as [->|Nb]; [rewrite fset_eq|rewrite fset_neq by auto]; eauto.
Qed.

Lemma genv_same_roots g fl kvss css b h' fl' : genv g fl kvss css -> 0 <= b < 32 ->
  env_step (gheap g) fl (css b) h' fl' (css b) -> (exists v, rd (groots g) b = Ok v /\ env_at h' fl' v (kvss b) (css b)) ->
  genv (mkG h' (groots g)) fl' kvss css.
Proof.
  intros [GH GR GE GS GK GU] B St (v0&R0&Ev0). constructor; auto.
  - apply St.
  - intros c C. destruct (Z.eq_dec c b) as [->|NE]; [eauto|].
    destruct (GE c C) as (v&Rv&(E&N&F)). exists v. split; auto. split; [|split; auto].
    + eapply env_on_frame; eauto. intros z Z. apply St. intros I. apply in_app_or in I. destruct I as [I|I].
      * eapply (GS b c z); eauto.
      * eapply F; eauto.
    + intros z Z I. eapply F; eauto. apply St; auto.
Qed.

(* the map a global environment holds *)
Definition gmap (kvss : Z -> list (Z * Z)) : Z -> option Z := fun k => assoc k (kvss (bucket k)).

Lemma gmap_fset kvss b kvs' k : gmap (fset kvss b kvs') k = if bucket k =? b then assoc k kvs' else gmap kvss k.
Proof. unfold gmap, fset. destruct (bucket k =? b); auto. Qed.

Lemma assoc_app_drop l1 x l2 key k : ~ In key (map fst l1) -> NoDup (map fst (l1 ++ (key, x) :: l2)) ->
  assoc k (l1 ++ l2) = if k =? key then None else assoc k (l1 ++ (key, x) :: l2).
Proof.
  induction l1 as [|[k' y] l1 IH]; simpl; intros NI ND.
  - inversion ND; subst. rewrite (Z.eqb_sym key k). destruct (Z.eqb_spec k key) as [->|]; auto.
    apply assoc_in; auto.
  - inversion ND; subst. rewrite IH; auto. destruct (Z.eqb_spec k' k), (Z.eqb_spec k key); auto.
    subst. exfalso. apply NI; auto.
Qed.

Lemma gstep_ok g fl kvss css o fuel : genv g fl kvss css -> (forall b, 0 <= b < 32 -> (length (kvss b) <= fuel)%nat) ->
  (exists k v, o = Setvar k v /\ gmap kvss k = None) \/
  exists g' r fl' kvss' css', gstep fuel g o = Ok (g', r) /\ genv g' fl' kvss' css' /\
    (forall b, 0 <= b < 32 -> (length (kvss' b) <= S (length (kvss b)))%nat) /\
    match o with
    | Define k v => (if r then forall j, gmap kvss' j = put (gmap kvss) k (Some v) j
                    else gmap kvss k = None /\ (length fl < 2)%nat /\ forall j, gmap kvss' j = gmap kvss j)
    | Setvar k v => r = true /\ gmap kvss k <> None /\ forall j, gmap kvss' j = put (gmap kvss) k (Some v) j
    | Undefine k => (k <> 0 -> (r = true <-> gmap kvss k <> None)) /\ forall j, gmap kvss' j = put (gmap kvss) k None j
    end.
Proof.
  intros G L. pose proof G as [GH GR GE GS GK GU]. destruct o as [k x|k x|k]; cbn [gstep].
  - right. pose proof (bucket_range k) as B. destruct (GE _ B) as (v&Rv&Ev).
    unfold gdefine. rewrite Rv. cbn [bind].
    destruct (env_set_correct _ _ _ _ _ k x fuel GH Ev (L _ B)) as (h'&v'&fl'&cs'&R&St&C). rewrite R. cbn [bind].
    destruct C as [(AK&->&->&->&kvs'&Ev'&MK&AS&_)|[(AK&LF&->&IP&Ev')|(AK&LF&->&->&Ev')]].
    + destruct (env_at_nonptr _ _ _ _ _ k Ev AK) as (i&Ri&->).
      destruct (Z.eqb_spec (enc_cons_ptr i) MERROR) as [EE|_]; [exfalso; eapply enc_not_ME; eauto|].
      destruct (genv_step g fl kvss css (bucket k) h' fl (enc_cons_ptr i) kvs' (css (bucket k))) as (rs&Rw&G'); auto.
      { intros j J. rewrite MK in J. eauto. } { rewrite MK. auto. }
      rewrite Rw. cbn [bind]. exists (mkG h' rs), true, fl, (fset kvss (bucket k) kvs'), (fset css (bucket k) (css (bucket k))).
      split; auto. split; auto. split.
      * intros b Hb. destruct (Z.eq_dec b (bucket k)) as [->|]; [rewrite fset_eq|rewrite fset_neq by auto; lia].
        assert (length (map fst kvs') = length (map fst (kvss (bucket k)))) as H by congruence. rewrite !map_length in H. lia.
      * intros j. rewrite gmap_fset. unfold put. destruct (Z.eqb_spec (bucket j) (bucket k)) as [E|N].
        -- rewrite AS. unfold gmap. rewrite E. auto.
        -- destruct (Z.eqb_spec j k) as [->|]; auto. congruence.
    + destruct (Z.eqb_spec v' MERROR) as [->|_]; [rewrite MERROR_not_ptr in IP; discriminate|].
      destruct (genv_step g fl kvss css (bucket k) h' (skipn 2 fl) v' ((k, x) :: kvss (bucket k)) cs') as (rs&Rw&G'); auto.
      { simpl. intros j [<-|J]; eauto. } { simpl. constructor; auto. apply assoc_in; auto. }
      rewrite Rw. cbn [bind]. eexists _, true, _, _, _. split; [reflexivity|]. split; [exact G'|]. split.
      * intros b Hb. destruct (Z.eq_dec b (bucket k)) as [->|]; [rewrite fset_eq|rewrite fset_neq by auto; lia]. simpl; lia.
      * intros j. rewrite gmap_fset. unfold put. destruct (Z.eqb_spec (bucket j) (bucket k)) as [E|N].
        -- simpl. rewrite Z.eqb_sym. unfold gmap. rewrite E. auto.
        -- destruct (Z.eqb_spec j k) as [->|]; auto. congruence.
    + rewrite Z.eqb_refl. exists (mkG h' (groots g)), false, fl', kvss, css. split; auto. split; [|split; [auto|]].
      * eapply genv_same_roots; eauto.
      * split; [auto|]. split; auto.
  - destruct (gmap kvss k) as [y|] eqn:MK0; [|left; eauto]. right.
    pose proof (bucket_range k) as B. destruct (GE _ B) as (v&Rv&Ev).
    unfold gsetvar. rewrite Rv. cbn [bind].
    destruct (env_modify_correct _ _ _ _ _ k x fuel GH Ev (L _ B)) as (h'&v'&R&St&C). rewrite R. cbn [bind].
    destruct C as [(AK&->&kvs'&Ev'&MK&AS)|(AK&_)]; [|unfold gmap in MK0; congruence].
    destruct (env_at_nonptr _ _ _ _ _ k Ev AK) as (i&Ri&->).
    destruct (genv_step g fl kvss css (bucket k) h' fl (enc_cons_ptr i) kvs' (css (bucket k))) as (rs&Rw&G'); auto.
    { intros j J. rewrite MK in J. eauto. } { rewrite MK. auto. }
    rewrite Rw. cbn [bind]. eexists _, _, _, _, _. split; [reflexivity|]. split; [exact G'|]. split.
    + intros b Hb. destruct (Z.eq_dec b (bucket k)) as [->|]; [rewrite fset_eq|rewrite fset_neq by auto; lia].
      assert (length (map fst kvs') = length (map fst (kvss (bucket k)))) as H by congruence. rewrite !map_length in H. lia.
    + split; [|split; [congruence|]].
      * destruct (Z.eqb_spec (enc_cons_ptr i) NOT_FOUND) as [EE|_]; [exfalso; eapply enc_not_NF; eauto|reflexivity].
      * intros j. rewrite gmap_fset. unfold put. destruct (Z.eqb_spec (bucket j) (bucket k)) as [E|N].
        -- rewrite AS. unfold gmap. rewrite E. auto.
        -- destruct (Z.eqb_spec j k) as [->|]; auto. congruence.
  - right. pose proof (bucket_range k) as B. destruct (GE _ B) as (v&Rv&Ev).
    unfold gundefine. rewrite Rv. cbn [bind].
    destruct (env_drop_correct _ _ _ _ _ k fuel GH Ev (L _ B)) as (h'&v'&cs'&R&St&IC&C). rewrite R. cbn [bind].
    destruct C as [(l1&y&l2&EK&NI&NF&Ev')|(NI&->&->&->)].
    + destruct (Z.eqb_spec v' NOT_FOUND) as [EE|_]; [congruence|].
      pose proof (GU _ B) as U. rewrite EK in U.
      destruct (genv_step g fl kvss css (bucket k) h' fl v' (l1 ++ l2) cs') as (rs&Rw&G'); auto.
      { intros j J. apply (GK _ _ B). rewrite EK. rewrite map_app in *. simpl. apply in_or_app. apply in_app_or in J. simpl. tauto. }
      { rewrite map_app in *. simpl in U. eapply NoDup_remove_1; eauto. }
      rewrite Rw. cbn [bind]. eexists _, _, _, _, _. split; [reflexivity|]. split; [exact G'|]. split; [|split].
      * intros b Hb. destruct (Z.eq_dec b (bucket k)) as [->|]; [rewrite fset_eq|rewrite fset_neq by auto; lia].
        rewrite EK, !app_length. simpl. lia.
      * intros _. unfold gmap. rewrite EK. split; auto. intros _ EN. apply assoc_in in EN. apply EN.
        rewrite map_app. apply in_or_app. simpl; auto.
      * intros j. rewrite gmap_fset. unfold put. destruct (Z.eqb_spec (bucket j) (bucket k)) as [E|N].
        -- rewrite (assoc_app_drop l1 y l2 k j) by auto. unfold gmap. rewrite E, EK. auto.
        -- destruct (Z.eqb_spec j k) as [->|]; auto. congruence.
    + assert (X : forall j, gmap kvss j = put (gmap kvss) k None j).
      { intros j. unfold put. destruct (Z.eqb_spec j k) as [->|]; auto. unfold gmap. apply assoc_in; auto. }
      destruct (match kvss (bucket k) with [] => k =? 0 | _ => false end) eqn:K0.
      * destruct (kvss (bucket k)) as [|p l] eqn:EK; [|discriminate]. apply Z.eqb_eq in K0.
        destruct (Z.eqb_spec 0 NOT_FOUND) as [EE|_]; [exfalso; apply NOT_FOUND_nonzero; auto|].
        destruct (genv_step g fl kvss css (bucket k) (gheap g) fl 0 [] (css (bucket k))) as (rs&Rw&G'); auto.
        { destruct Ev as (E&N&F). split; [|split; auto]. inversion E. constructor. }
        { simpl; tauto. } { constructor. }
        rewrite Rw. cbn [bind]. eexists _, _, _, _, _. split; [reflexivity|]. split; [exact G'|]. split; [|split].
        -- intros b Hb. destruct (Z.eq_dec b (bucket k)) as [->|]; [rewrite fset_eq|rewrite fset_neq by auto; lia]. simpl; lia.
        -- intros; congruence.
        -- intros j. rewrite gmap_fset, <- X. unfold gmap. destruct (Z.eqb_spec (bucket j) (bucket k)) as [E|N]; auto.
           rewrite E, EK. auto.
      * rewrite Z.eqb_refl. exists g, false, fl, kvss, css. split; [destruct g; auto|]. split; auto. split; [auto|]. split; auto.
        intros _. split; [discriminate|]. intros H. exfalso. apply H. unfold gmap. apply assoc_in; auto.
Qed.

Lemma genv_init h fl : heap_ok h fl -> genv (init_env h) fl (fun _ => []) (fun _ => []).
Proof.
  intros OK. constructor; simpl; auto; try tauto.
  - intros b B. exists 0. split.
    + rewrite NIL_0. assert (In b (map Z.of_nat (seq 0 32))) as I.
      { apply in_map_iff. exists (Z.to_nat b). split; [lia|]. apply in_seq. lia. }
      simpl in I. repeat (destruct I as [<-|I]; [reflexivity|]). destruct I.
    + split; [constructor|]. split; [constructor|]. intros ? [].
  - intros; constructor.
Qed.

Lemma glookup_ok g fl kvss css k fuel : genv g fl kvss css -> (forall b, 0 <= b < 32 -> (length (kvss b) <= fuel)%nat) ->
  glookup fuel g k = Ok (gmap kvss k).
Proof.
  intros G L. pose proof (bucket_range k) as B. destruct (ge_env _ _ _ _ G _ B) as (v&Rv&(E&_)).
  unfold glookup. rewrite Rv. cbn [bind]. eapply glookup_loop_ok; eauto.
Qed.

Lemma sem_ext m os bs m' : sem m os bs m' -> forall n, (forall j, n j = m j) -> exists n', sem n os bs n' /\ forall j, n' j = m' j.
Proof.
  induction 1; intros n E.
  - exists n. split; [constructor|auto].
  - destruct (IHsem (put n k (Some v))) as (n'&P&Q). { intros j. unfold put. destruct (j =? k); auto. }
    exists n'. split; [constructor; auto|auto].
  - destruct (IHsem n E) as (n'&P&Q). exists n'. split; [apply sem_define_full; [rewrite E|]; auto|auto].
  - destruct (IHsem (put n k (Some v))) as (n'&P&Q). { intros j. unfold put. destruct (j =? k); auto. }
    exists n'. split; [constructor; auto; rewrite E; auto|auto].
  - destruct (IHsem (put n k None)) as (n'&P&Q). { intros j. unfold put. destruct (j =? k); auto. }
    exists n'. split; [constructor; auto; rewrite E; auto|auto].
Qed.

Lemma grun_ok os : forall g fl kvss css fuel, genv g fl kvss css ->
  (forall b, 0 <= b < 32 -> (length (kvss b) + length os <= fuel)%nat) ->
  (exists g' bs m', grun fuel g os = Ok (g', bs) /\ sem (gmap kvss) os bs m' /\ forall k, glookup fuel g' k = Ok (m' k)) \/
  (exists os1 k v os2 g1 bs m1, os = os1 ++ Setvar k v :: os2 /\ grun fuel g os1 = Ok (g1, bs) /\
     sem (gmap kvss) os1 bs m1 /\ m1 k = None).
Proof.
  induction os as [|o os IH]; intros g fl kvss css fuel G L; cbn [grun].
  - left. exists g, [], (gmap kvss). split; auto. split; [constructor|]. intros k. eapply glookup_ok; eauto.
    intros b B. specialize (L b B). simpl in L. lia.
  - assert (L0 : forall b, 0 <= b < 32 -> (length (kvss b) <= fuel)%nat) by (intros b B; specialize (L b B); lia).
    destruct (gstep_ok g fl kvss css o fuel G L0) as [(k&v&->&MN)|(g1&r&fl1&kvss1&css1&R&G1&L1&Spec)].
    + right. exists [], k, v, os, g, [], (gmap kvss). simpl. split; auto. split; auto. split; [constructor|auto].
    + assert (L2 : forall b, 0 <= b < 32 -> (length (kvss1 b) + length os <= fuel)%nat).
      { intros b B. specialize (L b B). specialize (L1 b B). simpl in L. lia. }
      assert (Sem1 : forall os1 bs m', sem (gmap kvss1) os1 bs m' -> exists m2, sem (gmap kvss) (o :: os1) (r :: bs) m2 /\ forall j, m2 j = m' j).
      { intros os1 bs m' HS. clear IH L L0 L1 L2. destruct o as [k v|k v|k].
        - destruct r.
          + destruct (sem_ext _ _ _ _ HS (put (gmap kvss) k (Some v))) as (n'&P&Q); [auto|]. exists n'. split; [constructor; auto|auto].
          + destruct Spec as (MN&_&E). destruct (sem_ext _ _ _ _ HS (gmap kvss)) as (n'&P&Q); [auto|].
            exists n'. split; [apply sem_define_full; auto|auto].
        - destruct Spec as (->&MN&E). destruct (sem_ext _ _ _ _ HS (put (gmap kvss) k (Some v))) as (n'&P&Q); [auto|].
          exists n'. split; [constructor; auto|auto].
        - destruct Spec as (MN&E). destruct (sem_ext _ _ _ _ HS (put (gmap kvss) k None)) as (n'&P&Q); [auto|].
          exists n'. split; [constructor; auto|auto]. }
      rewrite R. cbn [bind fst snd].
      destruct (IH g1 fl1 kvss1 css1 fuel G1 L2) as [(g'&bs&m'&R'&HS&Lk)|(os1&k&v&os2&g2&bs&m1&->&R'&HS&MN)].
      * left. destruct (Sem1 _ _ _ HS) as (m2&P&Q). rewrite R'. cbn [bind fst snd].
        exists g', (r :: bs), m2. split; auto. split; auto. intros k. rewrite Q. auto.
      * right. destruct (Sem1 _ _ _ HS) as (m2&P&Q).
        exists (o :: os1), k, v, os2, g2, (r :: bs), m2. simpl. rewrite R. cbn [bind fst snd]. rewrite R'. cbn [bind fst snd].
        split; auto. split; auto. split; auto. rewrite Q. auto.
Qed.

(* C16.  Any history of definitions, updates and removals from an empty global
   environment answers and ends as one map from symbols to values would; a
   definition is refused only for a new key.  The one way out is a setq of a
   variable that is not bound. *)
Theorem global_env_is_a_map h fl os fuel : heap_ok h fl -> (length os <= fuel)%nat ->
  (exists g bs m, grun fuel (init_env h) os = Ok (g, bs) /\ sem (fun _ => None) os bs m /\
     forall k, glookup fuel g k = Ok (m k)) \/
  (exists os1 k v os2 g bs m, os = os1 ++ Setvar k v :: os2 /\ grun fuel (init_env h) os1 = Ok (g, bs) /\
     sem (fun _ => None) os1 bs m /\ m k = None).
Proof.
  intros OK L. destruct (grun_ok os (init_env h) fl (fun _ => []) (fun _ => []) fuel (genv_init h fl OK)) as [H|H]; auto.
Qed.

(* a definition with two free cells succeeds *)
Theorem global_define_succeeds g fl kvss css k v fuel : genv g fl kvss css ->
  (forall b, 0 <= b < 32 -> (length (kvss b) < fuel)%nat) -> (2 <= length fl)%nat ->
  exists g', gdefine fuel g k v = Ok (g', true) /\ glookup fuel g' k = Ok (Some v) /\
    forall j, j <> k -> glookup fuel g' j = glookup fuel g j.
Proof.
  intros G L F. destruct (gstep_ok g fl kvss css (Define k v) fuel G) as [(k'&v'&E&_)|(g'&r&fl'&kvss'&css'&R&G'&L'&S)].
  { intros b B. specialize (L b B). lia. } { discriminate. }
  destruct r; [|destruct S as (_&?&_); lia]. exists g'. split; auto.
  assert (L2 : forall b, 0 <= b < 32 -> (length (kvss' b) <= fuel)%nat) by (intros b B; specialize (L b B); specialize (L' b B); lia).
  assert (L3 : forall b, 0 <= b < 32 -> (length (kvss b) <= fuel)%nat) by (intros b B; specialize (L b B); lia).
  split.
  - rewrite (glookup_ok g' fl' kvss' css' k fuel G' L2), S. unfold put. rewrite Z.eqb_refl. auto.
  - intros j NE. rewrite (glookup_ok g' fl' kvss' css' j fuel G' L2), (glookup_ok g fl kvss css j fuel G L3), S.
    unfold put. destruct (Z.eqb_spec j k); congruence.
Qed.

(* The defect: a setq of an unbound variable unbinds every variable of its
   bucket, in every state. *)
Theorem setvar_unbound_loses_bucket g fl kvss css k v fuel : genv g fl kvss css ->
  (forall b, 0 <= b < 32 -> (length (kvss b) <= fuel)%nat) -> glookup fuel g k = Ok None ->
  exists g', gsetvar fuel g k v = Ok (g', false) /\ forall j, bucket j = bucket k -> glookup fuel g' j = Ok None.
Proof.
  intros G L LK. pose proof G as [GH GR GE GS GK GU]. rewrite (glookup_ok g fl kvss css k fuel G L) in LK.
  pose proof (bucket_range k) as B. destruct (GE _ B) as (w&Rv&Ev). unfold gsetvar. rewrite Rv. cbn [bind].
  destruct (env_modify_correct _ _ _ _ _ k v fuel GH Ev (L _ B)) as (h'&v'&R&St&C). rewrite R. cbn [bind].
  destruct C as [(AK&_)|(AK&->&->)]; [unfold gmap in LK; congruence|].
  assert (exists rs, wr (groots g) (bucket k) NOT_FOUND = Ok rs) as (rs&Rw) by (eexists; apply wr_ok; rewrite GR; lia). rewrite Rw. cbn [bind].
  rewrite Z.eqb_refl. eexists. split; [reflexivity|]. intros j E. unfold glookup. cbn [groots gheap]. rewrite E.
  pose proof (wr_inv _ _ _ _ Rw) as (BL&->). unfold rd. destruct (Z.ltb_spec (bucket k) 0); [lia|].
  rewrite nth_error_upd_eq by lia. cbn [bind]. destruct fuel; cbn [glookup_loop]; rewrite NOT_FOUND_not_ptr; reflexivity.
Qed.

(* the same for lbm_define of the C interface when the heap is full *)
Theorem cdefine_full_loses_bucket g fl kvss css k v fuel : genv g fl kvss css ->
  (forall b, 0 <= b < 32 -> (length (kvss b) <= fuel)%nat) -> glookup fuel g k = Ok None -> (length fl < 2)%nat ->
  exists g', cdefine fuel g k v = Ok g' /\ forall j, bucket j = bucket k -> glookup fuel g' j = Ok None.
Proof.
  intros G L LK F. pose proof G as [GH GR GE GS GK GU]. rewrite (glookup_ok g fl kvss css k fuel G L) in LK.
  pose proof (bucket_range k) as B. destruct (GE _ B) as (w&Rv&Ev). unfold cdefine. rewrite Rv. cbn [bind].
  destruct (env_set_correct _ _ _ _ _ k v fuel GH Ev (L _ B)) as (h'&v'&fl'&cs'&R&St&C). rewrite R. cbn [bind fst snd].
  destruct C as [(AK&_)|[(_&LF&_)|(AK&LF&->&_)]]; [unfold gmap in LK; congruence|lia|].
  assert (exists rs, wr (groots g) (bucket k) MERROR = Ok rs) as (rs&Rw) by (eexists; apply wr_ok; rewrite GR; lia). rewrite Rw. cbn [bind].
  eexists. split; [reflexivity|]. intros j E. unfold glookup. cbn [groots gheap]. rewrite E.
  pose proof (wr_inv _ _ _ _ Rw) as (BL&->). unfold rd. destruct (Z.ltb_spec (bucket k) 0); [lia|].
  rewrite nth_error_upd_eq by lia. cbn [bind]. destruct fuel; cbn [glookup_loop]; rewrite MERROR_not_ptr; reflexivity.
Qed.

End Proofs.

(* C16 is false of the code: x and y are two program symbols (numbers 0x10000
   and 0x10020) of the same bucket; x is defined, y is not.  After the failed
   (setq y 5), x is unbound. *)
Theorem global_env_refuted : exists (h : heap) fl x y v g,
  heap_ok (A := A32) h fl /\ x <> y /\ is_symbol (A := A32) x = true /\ is_symbol (A := A32) y = true /\
  grun (A := A32) 2 (init_env (A := A32) h) [Define x v; Setvar y v] = Ok (g, [true; false]) /\
  glookup (A := A32) 2 g x = Ok None.
Proof.
  destruct (heap_init_ok (A := A32) 4 10) as (h&E&OK&_); [vm_compute; split; discriminate|].
  vm_compute in E. injection E as <-.
  eexists _, _, (enc_sym (A := A32) 0x10000), (enc_sym (A := A32) 0x10020), (enc_i (A := A32) 5), _.
  split; [exact OK|]. split; [vm_compute; discriminate|]. split; [vm_compute; reflexivity|]. split; [vm_compute; reflexivity|].
  split; [vm_compute; reflexivity|]. vm_compute. reflexivity.
Qed.

(* a case meeting the hypotheses: two symbols of one bucket and one of another *)
Example ex_global : exists h fl g bs,
  heap_ok (A := A32) h fl /\
  grun (A := A32) 6 (init_env (A := A32) h)
    [Define (enc_sym (A := A32) 0x10000) 3; Define (enc_sym (A := A32) 0x10020) 4; Define (enc_sym (A := A32) 0x10001) 5;
     Setvar (enc_sym (A := A32) 0x10000) 6; Undefine (enc_sym (A := A32) 0x10020); Undefine (enc_sym (A := A32) 0x10021)] = Ok (g, bs) /\
  bs = [true; true; true; true; true; false] /\
  glookup (A := A32) 6 g (enc_sym (A := A32) 0x10000) = Ok (Some 6) /\ glookup (A := A32) 6 g (enc_sym (A := A32) 0x10020) = Ok None /\
  glookup (A := A32) 6 g (enc_sym (A := A32) 0x10001) = Ok (Some 5).
Proof.
  destruct (heap_init_ok (A := A32) 8 10) as (h&E&OK&_); [vm_compute; split; discriminate|].
  vm_compute in E. injection E as <-. eexists _, _, _, _. split; [exact OK|]. split; [vm_compute; reflexivity|].
  split; [reflexivity|]. repeat split; vm_compute; reflexivity.
Qed.

Print Assumptions env_set_correct.
Print Assumptions env_lookup_correct.
Print Assumptions env_set_lookup.
Print Assumptions env_set_lookup_refuted.
Print Assumptions env_modify_correct.
Print Assumptions env_set_functional_correct.
Print Assumptions env_drop_correct.
Print Assumptions env_copy_spine_correct.
Print Assumptions global_env_is_a_map.
Print Assumptions global_define_succeeds.
Print Assumptions setvar_unbound_loses_bucket.
Print Assumptions cdefine_full_loses_bucket.
Print Assumptions global_env_refuted.
