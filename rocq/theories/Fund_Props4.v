(* C83: association lists: acons, assoc, cossa and setassoc. *)
From Verif Require Import Base Value_Model Heap_Model Value_Proofs Value_Proofs2 Value_Props Heap_Spec Heap_Proofs Heap_Proofs2 List_Proofs List_Props GC_Model.
From Verif Require Import Env_Model Env_Proofs Eq_Model Eq_Spec Eq_Props Set_Props Eval_Proofs Flat_Model Flat_Spec Flat_Proofs Flat_Proofs2 Read_Model Read_Proofs2.
From Verif Require Import Match_Props ArrExt_Model ArrExt_Spec ArrExt_Proofs Fund_Model Fund_Spec Fund_Proofs Fund_Props.
From Verif Require Env_Props.
Local Open Scope Z_scope.

Section Arch.
Context {A : Arch} {L : Libc} {C : Conv}.

(* The result for the value found: nil for none.  The code cannot tell the symbol
   no_match stored as a value from nothing found. *)
Definition found (r : option Z) : Z :=
  match r with Some x => if x =? enc_sym SYM_NO_MATCH then 0 else x | None => 0 end.
Lemma no_match_symbol : is_symbol (enc_sym SYM_NO_MATCH) = true. Proof. clear. arch; reflexivity. Qed.

Lemma lookup_found look h v cs ps key r : list_on h v cs ps ->
  look key v = Ok (match r with Some x => x | None => enc_sym SYM_NO_MATCH end) -> (cs = [] -> r = None) -> lookup_fun look [v; key] = Ok (found r).
Proof.
  intros LO E N. unfold lookup_fun. inversion LO; subst.
  - rewrite zero_not_cons. rewrite NIL_0, Z.eqb_refl. replace (is_symbol 0) with true by (clear; arch; reflexivity). rewrite (N eq_refl). auto.
  - rewrite H0, E. cbn [bind]. f_equal. unfold found. rewrite NIL_0. destruct r as [y|].
    + destruct (Z.eqb_spec y (enc_sym SYM_NO_MATCH)) as [->|]; [rewrite no_match_symbol; auto|rewrite andb_false_r; auto].
    + rewrite no_match_symbol, Z.eqb_refl. auto.
Qed.

(* C83: assoc is the value of the first entry with an equal key *)
Theorem assoc_correct fl h v cs ps kvs key t ef fuel : list_on h v cs ps -> alist_on fl h cs kvs -> den fl h key t ->
  shallow ef (map fst kvs) -> (length kvs <= fuel)%nat ->
  exists r, first_at t kvs r /\ Fund_Model.assoc ef fuel h [v; key] = Ok (found r).
Proof.
  intros LO AL D S F. destruct (assoc_lookup_correct fl h v cs ps kvs key t ef fuel LO AL D S F) as (r&Fi&E).
  exists r. split; auto. unfold Fund_Model.assoc. eapply lookup_found; eauto. intros ->. inversion AL; subst. inversion Fi; auto.
Qed.

(* entries with the key behind: the car is the value *)
Inductive clist_on (fl : list Z) (h : heap) : list Z -> list (tree * Z) -> Prop :=
| cl_nil : clist_on fl h [] []
| cl_cons c k x t cs kvs : is_cons c = true -> ref_cell h c = Ok (x, k) -> den fl h k t ->
    clist_on fl h cs kvs -> clist_on fl h (c :: cs) ((t, x) :: kvs).
Lemma cossa_lookup_ok fl h v cs ps kvs key t ef fuel : list_on h v cs ps -> clist_on fl h cs kvs -> den fl h key t ->
  shallow ef (map fst kvs) -> (length kvs <= fuel)%nat ->
  exists r, first_at t kvs r /\ cossa_lookup ef fuel h key v = Ok (match r with Some x => x | None => enc_sym SYM_NO_MATCH end).
Proof.
  intros LO. revert kvs fuel. induction LO as [|p c q cs ps Wp Cn R LO IH]; intros kvs fuel AL D Sh LF.
  - inversion AL; subst. exists None. split; [constructor|]. destruct fuel; cbn [cossa_lookup]; rewrite zero_not_cons; reflexivity.
  - inversion AL as [|? k x u ? kvs' Cc Rc Dk AL']; subst. inversion Sh; subst. simpl in LF. destruct fuel as [|n]; [lia|].
    cbn [cossa_lookup]. rewrite Cn, R. cbn [bind fst snd]. rewrite Cc, Rc. cbn [bind fst snd].
    destruct (has_dec fl h k key u t ef Dk D) as [(E&Y)|(E&N)]; auto; rewrite E; cbn [bind].
    + exists (Some x). split; [constructor; auto|reflexivity].
    + destruct (IH kvs' n) as (r&F&E2); auto; [lia|]. exists r. split; [apply fa_miss; auto|auto].
Qed.
(* C83: cossa is the car of the first entry with an equal cdr *)
Theorem cossa_correct fl h v cs ps kvs key t ef fuel : list_on h v cs ps -> clist_on fl h cs kvs -> den fl h key t ->
  shallow ef (map fst kvs) -> (length kvs <= fuel)%nat ->
  exists r, first_at t kvs r /\ cossa ef fuel h [v; key] = Ok (found r).
Proof.
  intros LO AL D S F. destruct (cossa_lookup_ok fl h v cs ps kvs key t ef fuel LO AL D S F) as (r&Fi&E).
  exists r. split; auto. unfold cossa. eapply lookup_found; eauto. intros ->. inversion AL; subst. inversion Fi; auto.
Qed.

(* ---- acons ---- *)
(* C83: acons puts the entry in front, in two new cells *)
Theorem acons_correct h fl k x l : heap_ok h fl -> exists h' r, acons h [k; x; l] = Ok (h', r) /\ kept fl h h' /\
  match fl with
  | i :: j :: fl' => heap_ok h' fl' /\ r = enc_cons_ptr j /\ path h' r [enc_cons_ptr i] [r] l /\ path h' (enc_cons_ptr i) [k] [enc_cons_ptr i] x
  | _ => r = MERROR /\ heap_ok h' []
  end.
Proof.
  intros OK. unfold acons. destruct (cons_step h fl k x OK) as (h1&r1&E1&H1). rewrite E1. cbn [bind].
  assert (SM : is_symbol MERROR = true) by (clear; arch; reflexivity).
  destruct fl as [|i fl].
  - destruct H1 as (->&->). destruct (cons_step h [] MERROR l OK) as (h2&r2&E2&->&->). rewrite E2. cbn [bind]. rewrite SM. cbn [orb].
    do 2 eexists. split; [reflexivity|]. split; [apply kept_refl|auto].
  - destruct H1 as (K1&->&OK1&C1&Ri). destruct (cons_step h1 fl (enc_cons_ptr i) l OK1) as (h2&r2&E2&H2). rewrite E2. cbn [bind].
    assert (Si : forall z, 0 <= z < 2 ^ (W - 8) -> is_symbol (enc_cons_ptr z) = false).
    { intros z Rz. destruct (is_symbol (enc_cons_ptr z)) eqn:S; auto. apply is_symbol_not_ptr in S. rewrite enc_is_ptr in S by auto. discriminate. }
    rewrite Si by auto. cbn [orb]. destruct fl as [|j fl].
    + destruct H2 as (->&->). rewrite SM. do 2 eexists. split; [reflexivity|]. split; [exact K1|auto].
    + destruct H2 as (K2&->&OK2&C2&Rj). rewrite Si by auto. do 2 eexists. split; [reflexivity|]. split.
      * eapply kept_trans; [eapply kept_incl; [|exact K1]|eapply kept_incl; [|exact K2]]; intros z; simpl; tauto.
      * split; auto. split; auto. split; [apply path_cell; auto|]. apply path_cell; auto. destruct K2 as (K2&_). rewrite K2; auto.
        intros [->|[]]. pose proof (ok_nodup _ _ OK) as ND. inversion ND as [|? ? NI _]; subst. apply NI. left. auto.
Qed.

Lemma kept_grows fl h h' : kept fl h h' -> grows fl h h'.
Proof. intros (a&b&c). split; [exact a|split; [exact b|]]. intros. rewrite c. auto. Qed.
(* C83: ... so that the list has the new entry before the old ones *)
Theorem acons_entries h fl k x l i j fl' cs ps kvs t : heap_ok h fl -> fl = i :: j :: fl' -> den fl h k t ->
  list_on h l cs ps -> used fl ps -> used fl cs -> alist_on fl h cs kvs ->
  exists h' r cs' ps', acons h [k; x; l] = Ok (h', r) /\ list_on h' r cs' ps' /\ alist_on fl' h' cs' ((t, x) :: kvs).
Proof.
  intros OK E D LO U1 U2 AL. destruct (acons_correct h fl k x l OK) as (h'&r&E1&K&H). rewrite E in H. destruct H as (OK'&->&P1&P2).
  exists h', (enc_cons_ptr j), (enc_cons_ptr i :: cs), (enc_cons_ptr j :: ps). split; auto.
  assert (IN : incl fl' fl) by (subst fl; apply incl_tl, incl_tl, incl_refl). pose proof (kept_grows _ _ _ K) as G.
  inversion P1; subst. match goal with H : path _ _ [] _ _ |- _ => inversion H; subst end. inversion P2; subst. match goal with H : path _ _ [] _ _ |- _ => inversion H; subst end.
  split.
  - econstructor; eauto. eapply list_on_frame; eauto; [apply K|]. intros p I Kp. apply K. exact (U1 p I Kp).
  - econstructor; eauto; [eapply den_grows; eauto|].
    clear - AL U2 K G IN. induction AL as [|c k x t cs kvs Cc Rc Dk AL IH]; [constructor|].
    econstructor; [auto| |eapply den_grows; eauto|apply IH; intros p I; apply U2; right; auto].
    rewrite <- Rc. eapply ref_grows; eauto. intros Kc. apply U2; [left; auto|auto].
Qed.

(* ---- setassoc ---- *)
(* keys whose word is the value: symbols and small integers *)
Definition plain_key (k : Z) : Prop := (exists n, k = enc_sym n /\ 0 <= n < 2 ^ 28) \/ (exists n, k = enc_i n /\ -2 ^ 27 <= n < 2 ^ 27).
Definition leaf_of (k : Z) (t : tree) : Prop :=
  (exists n, k = enc_sym n /\ 0 <= n < 2 ^ 28 /\ t = Leaf KSym n) \/ (exists n, k = enc_i n /\ -2 ^ 27 <= n < 2 ^ 27 /\ t = Leaf KI n).
Lemma plain_leaf k : plain_key k -> exists t, leaf_of k t /\ (forall fl h, den fl h k t) /\ depth t = 1%nat.
Proof.
  assert (P27 : 2 ^ 27 <= 2 ^ (payload A - 1)) by (pose proof payload_big; apply Z.pow_le_mono_r; lia).
  intros [(n&->&R)|(n&->&R)].
  - exists (Leaf KSym n). split; [left; exists n; auto|]. split; [intros; apply den_sym; auto|auto].
  - exists (Leaf KI n). split; [right; exists n; auto|]. split; [intros; apply den_int; lia|auto].
Qed.
Lemma leaf_same a b t u : leaf_of a t -> leaf_of b u -> (same t u <-> a = b).
Proof.
  intros [(n&->&R&->)|(n&->&R&->)] [(m&->&R'&->)|(m&->&R'&->)]; (split; [intros S; inversion S as [k x y N| | |]; subst; simpl in N; subst; auto|intros E]).
  - assert (n = m) as ->; [|constructor; cbn; auto]. pose proof (den_sym [] (mkHeap [] [] 0 0 [] 0 0 0 0 (fun _ => None) [] false) n R) as D1.
    pose proof (den_sym [] (mkHeap [] [] 0 0 [] 0 0 0 0 (fun _ => None) [] false) m R') as D2. rewrite E in D1. inversion D1; inversion D2; subst. cbn [reads] in *. congruence.
  - exfalso. pose proof (enc_kinds m) as (T&_). rewrite <- E in T. pose proof (den_sym [] (mkHeap [] [] 0 0 [] 0 0 0 0 (fun _ => None) [] false) n R) as D1.
    inversion D1 as [v k x _ Sy T' Rd| | |]; subst. specialize (Sy eq_refl). pose proof (is_symbol_not_ptr _ Sy). revert T' T. unfold type_of_functional, type_of.
    unfold is_ptr in H. apply negb_false_iff in H. rewrite H. cbn [kind_tag]. intros -> X. revert X. clear. arch; discriminate.
  - exfalso. pose proof (enc_kinds n) as (T&_). rewrite E in T. pose proof (den_sym [] (mkHeap [] [] 0 0 [] 0 0 0 0 (fun _ => None) [] false) m R') as D1.
    inversion D1 as [v k x _ Sy T' Rd| | |]; subst. specialize (Sy eq_refl). pose proof (is_symbol_not_ptr _ Sy). revert T' T. unfold type_of_functional, type_of.
    unfold is_ptr in H. apply negb_false_iff in H. rewrite H. cbn [kind_tag]. intros -> X. revert X. clear. arch; discriminate.
  - assert (P27 : 2 ^ 27 <= 2 ^ (payload A - 1)) by (pose proof payload_big; apply Z.pow_le_mono_r; lia).
    apply (f_equal dec_i) in E. rewrite !enc_i_roundtrip in E by lia. subst. constructor. cbn. auto.
Qed.

Lemma env_lookup_plain h v kvs cs key ef fuel : env_on h v kvs cs -> Forall (fun kv => plain_key (fst kv)) kvs -> plain_key key -> (1 <= ef)%nat ->
  (length kvs <= fuel)%nat -> Fund_Model.assoc ef fuel h [v; key] = Ok (found (Env_Proofs.assoc key kvs)).
Proof.
  intros EO PK K Ef F. destruct (plain_leaf key K) as (t&Lt&Dt&_).
  assert (LL : forall fuel, (length kvs <= fuel)%nat -> assoc_lookup ef fuel h key v = Ok (match Env_Proofs.assoc key kvs with Some x => x | None => enc_sym SYM_NO_MATCH end)).
  { clear F fuel. induction EO as [|i j k x q kvs cs Ri Rj Ci Cj EO IH]; intros fuel F.
    - destruct fuel; cbn [assoc_lookup]; rewrite zero_not_cons; reflexivity.
    - inversion PK as [|? ? Pk PK']; subst. cbn [fst] in Pk. cbn [length] in F. destruct fuel as [|fuel]; [lia|]. cbn [assoc_lookup Env_Proofs.assoc].
      rewrite (rw_is_cons _ (enc_word i Ri) (enc_rw i Ri)), (ref_enc h i _ Ri Ci). cbn [bind fst snd].
      rewrite (rw_is_cons _ (enc_word j Rj) (enc_rw j Rj)), (ref_enc h j _ Rj Cj). cbn [bind fst snd].
      destruct (plain_leaf k Pk) as (u&Lu&Du&Dp).
      destruct (has_dec [] h k key u t ef (Du _ _) (Dt _ _)) as [(E&Y)|(E&N)]; [lia| |]; rewrite E; cbn [bind]; rewrite (leaf_same _ _ _ _ Lu Lt) in *.
      + rewrite (proj2 (Z.eqb_eq _ _) Y). auto.
      + rewrite (proj2 (Z.eqb_neq _ _) N). apply IH; auto. lia. }
  unfold Fund_Model.assoc, lookup_fun. rewrite LL by auto. inversion EO; subst.
  - rewrite zero_not_cons. rewrite NIL_0, Z.eqb_refl. replace (is_symbol 0) with true by (clear; arch; reflexivity). auto.
  - rewrite (rw_is_cons _ (enc_word i H) (enc_rw i H)). cbn [bind]. f_equal. unfold found. rewrite NIL_0.
    destruct (Env_Proofs.assoc key ((k, x) :: kvs0)) as [y|].
    + destruct (Z.eqb_spec y (enc_sym SYM_NO_MATCH)) as [->|]; [rewrite no_match_symbol; auto|rewrite andb_false_r; auto].
    + rewrite no_match_symbol, Z.eqb_refl. auto.
Qed.

(* C83: after setassoc the key has the value and the other keys theirs; for keys
   that are symbols or small integers.  With no memory for a new entry: the memory
   error. *)
Theorem set_assoc_correct h fl l kvs cs key x fuel : heap_ok h fl -> env_at h fl l kvs cs -> (length kvs <= fuel)%nat ->
  plain_key key -> Forall (fun kv => plain_key (fst kv)) kvs ->
  exists h' r, set_assoc fuel h [l; key; x] = Ok (h', r) /\
    ((length fl < 2)%nat /\ r = MERROR \/
     forall k ef fuel', plain_key k -> (1 <= ef)%nat -> (S (length kvs) <= fuel')%nat ->
       Fund_Model.assoc ef fuel' h' [r; k] = if k =? key then Ok (found (Some x)) else Fund_Model.assoc ef fuel' h [l; k]).
Proof.
  intros OK EA F Kk Ks. cbn [set_assoc]. destruct (Env_Props.env_set_functional_correct h fl l kvs cs key x fuel OK EA F) as (h'&v'&fl'&cs'&E&_&H).
  exists h', v'. split; auto. destruct H as [(_&kvs'&EA'&Keys&AS)|(LT&->&_)]; [|left; auto]. right. intros k ef fuel' Pk Ef F'.
  assert (Len : length (map fst kvs') = length (if Env_Proofs.assoc key kvs then map fst kvs else key :: map fst kvs)) by (f_equal; auto). rewrite map_length in Len.
  rewrite (env_lookup_plain h' v' kvs' cs'); auto.
  - rewrite AS. destruct (k =? key); auto. symmetry. eapply env_lookup_plain; eauto; [apply EA|lia].
  - apply EA'.
  - rewrite <- Forall_map with (P := plain_key), Keys. assert (Forall plain_key (map fst kvs)) by (rewrite Forall_map; auto). destruct (Env_Proofs.assoc key kvs); auto.
  - destruct (Env_Proofs.assoc key kvs); cbn [length] in Len; rewrite ?map_length in Len; lia.
Qed.
(* C83: the same with the entry as a pair *)
Theorem set_assoc_pair h fl l kvs cs key x p fuel : heap_ok h fl -> env_at h fl l kvs cs -> (length kvs <= fuel)%nat ->
  plain_key key -> Forall (fun kv => plain_key (fst kv)) kvs -> word p -> is_cons p = true -> ref_cell h p = Ok (key, x) ->
  exists h' r, set_assoc fuel h [l; p] = Ok (h', r) /\
    ((length fl < 2)%nat /\ r = MERROR \/
     forall k ef fuel', plain_key k -> (1 <= ef)%nat -> (S (length kvs) <= fuel')%nat ->
       Fund_Model.assoc ef fuel' h' [r; k] = if k =? key then Ok (found (Some x)) else Fund_Model.assoc ef fuel' h [l; k]).
Proof.
  intros OK EA F Kk Ks Wp Cp R. cbn [set_assoc]. rewrite Cp, (car_ptr h p key x), (cdr_ptr h p key x) by auto using cons_is_ptr. cbn [bind].
  destruct (Env_Props.env_set_correct h fl l kvs cs key x fuel OK EA F) as (h'&v'&fl'&cs'&E&_&H).
  exists h', v'. split; auto. destruct H as [(AN&->&_&_&kvs'&EA'&Keys&AS&_)|[(AN&LE&_&_&EA')|(_&LT&->&_)]]; [right|right|left; auto]; intros k ef fuel' Pk Ef F'.
  - assert (Len : length (map fst kvs') = length (map fst kvs)) by (f_equal; auto). rewrite !map_length in Len.
    rewrite (env_lookup_plain h' l kvs' cs'); auto; [|apply EA'| |lia].
    + rewrite AS. destruct (k =? key); auto. symmetry. eapply env_lookup_plain; eauto; [apply EA|lia].
    + rewrite <- Forall_map with (P := plain_key), Keys. rewrite Forall_map; auto.
  - rewrite (env_lookup_plain h' v' _ cs' _ _ _ (proj1 EA')); auto. cbn [Env_Proofs.assoc]. destruct (Z.eqb_spec key k) as [->|N].
    + rewrite Z.eqb_refl. auto.
    + destruct (Z.eqb_spec k key); [congruence|]. symmetry. eapply env_lookup_plain; eauto; [apply EA|lia].
Qed.

End Arch.
