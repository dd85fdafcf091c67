(* Proofs about Fund_Model: paths, building lists, append. *)
From Verif Require Import Base Value_Model Heap_Model Value_Proofs Value_Proofs2 Heap_Spec Heap_Proofs Heap_Proofs2 List_Proofs.
From Verif Require Import Flat_Model Read_Model ArrExt_Model Fund_Model Fund_Spec.
Local Open Scope Z_scope.

Section Arch.
Context {A : Arch} {L : Libc} {C : Conv}.

Lemma kept_refl fl h : kept fl h h.
Proof. repeat split; auto. Qed.
Lemma kept_trans fl h1 h2 h3 : kept fl h1 h2 -> kept fl h2 h3 -> kept fl h1 h3.
Proof. intros (a&b&c) (d&e&f). repeat split; try congruence. intros i I. rewrite d, a; auto. Qed.
Lemma kept_incl fl fl' h h' : incl fl fl' -> kept fl h h' -> kept fl' h h'.
Proof. intros I (a&b&c). repeat split; auto. Qed.

Lemma path_app h v xs ps w ys qs e : path h v xs ps w -> path h w ys qs e -> path h v (xs ++ ys) (ps ++ qs) e.
Proof. induction 1; intros; auto. simpl. econstructor; eauto. Qed.
Lemma path_frame h h' v xs ps w : path h v xs ps w -> ccells h' = ccells h ->
  (forall p, In p ps -> is_const_ptr p = false -> cell h' (f_ix p) = cell h (f_ix p)) -> path h' v xs ps w.
Proof.
  induction 1 as [|p x q xs ps w Wp K Pl R P IH]; intros E F; [constructor|].
  apply path_step with (q := q); auto.
  - destruct (is_const_ptr p) eqn:Cp.
    + unfold ref_cell in *. rewrite Cp, E in *. auto.
    + rewrite ref_cell_rw in * by auto. rewrite F by (auto; left; auto). auto.
  - apply IH; auto. intros p' I. apply F. right. auto.
Qed.
Lemma path_kept fl h h' v xs ps w : path h v xs ps w -> used fl ps -> kept fl h h' -> path h' v xs ps w.
Proof. intros P U (a&b&c). eapply path_frame; eauto. Qed.
Lemma path_list h v xs ps : path h v xs ps 0 -> list_on h v xs ps.
Proof. remember 0 as z. induction 1; subst; [constructor|econstructor; eauto]. Qed.
Lemma list_path h v xs ps : list_on h v xs ps -> Forall plain ps -> path h v xs ps 0.
Proof. induction 1; intros F; [constructor|]. inversion F; subst. econstructor; eauto. Qed.
Lemma path_len h v xs ps w : path h v xs ps w -> length ps = length xs.
Proof. induction 1; simpl; auto. Qed.
Lemma path_plain h v xs ps w : path h v xs ps w -> Forall plain ps.
Proof. induction 1; auto. Qed.
Lemma path_nil h v ps w : path h v [] ps w -> v = w /\ ps = [].
Proof. inversion 1; auto. Qed.

Lemma items_kept fl fl' h h' v xs : items fl h v xs -> kept fl h h' -> incl fl' fl -> items fl' h' v xs.
Proof.
  intros (ps&w&P&U&N&T&Z) K I. exists ps, w. split; [eapply path_kept; eauto|]. split; [|auto].
  intros p Ip Kp J. apply (U p Ip Kp). auto.
Qed.
Lemma proper_kept fl fl' h h' v xs : proper fl h v xs -> kept fl h h' -> incl fl' fl -> proper fl' h' v xs.
Proof.
  intros (ps&P&U) K I. exists ps. split; [eapply path_kept; eauto|].
  intros p Ip Kp J. apply (U p Ip Kp). auto.
Qed.
Lemma proper_items fl h v xs : proper fl h v xs -> items fl h v xs.
Proof.
  intros (ps&P&U). exists ps, 0. split; auto. split; auto. split; [apply zero_not_cons|]. split.
  - pose proof functional_zero as F. apply Z.eqb_neq. auto.
  - intros ->. apply path_nil in P. tauto.
Qed.

Lemma plain_functional p : word p -> is_cons p = true -> plain p -> type_of_functional p = TYPE_CONS.
Proof.
  intros Wp K Pl. destruct (functional_cons p Wp K) as [E|N]; [apply Z.eqb_eq; auto|].
  exfalso. destruct Pl as [E|E]; rewrite E in N; apply N; reflexivity.
Qed.
Lemma enc_plain i : 0 <= i < 2 ^ (W - 8) -> plain (enc_cons_ptr i).
Proof. intros R. destruct (enc_cons_fields i R) as (_&T&_). left. auto. Qed.

Lemma items_is_list fl h v xs : items fl h v xs -> is_list v = true.
Proof.
  intros (ps&w&P&U&N&T&Z). unfold is_list. inversion P; subst; [|rewrite H0; auto].
  rewrite (Z eq_refl). apply orb_true_r.
Qed.

(* ---- one cell ---- *)
Lemma cons_step h fl a d : heap_ok h fl -> exists h' r, cons h a d = Ok (h', r) /\
  match fl with
  | [] => h' = h /\ r = MERROR
  | i :: fl' => kept [i] h h' /\ r = enc_cons_ptr i /\ heap_ok h' fl' /\ cell h' i = Some (a, d) /\ 0 <= i < 2 ^ (W - 8)
  end.
Proof.
  intros OK. destruct fl as [|i fl].
  - exists h, MERROR. split; auto using cons_fail.
  - destruct (cons_ok h i fl a d OK) as (h'&E&OK'&Ce&S&_&Cc&M&_&R).
    exists h', (enc_cons_ptr i). split; auto. split; auto. repeat split; auto.
Qed.
Lemma path_cell h i a d : 0 <= i < 2 ^ (W - 8) -> cell h i = Some (a, d) -> path h (enc_cons_ptr i) [a] [enc_cons_ptr i] d.
Proof.
  intros R K. econstructor; [auto using enc_word|apply rw_is_cons; auto using enc_word, enc_rw|auto using enc_plain| |constructor].
  rewrite ref_cell_rw, enc_ix, K by auto using enc_not_const. reflexivity.
Qed.
Lemma used_enc1 fl i : 0 <= i < 2 ^ (W - 8) -> ~ In i fl -> used fl [enc_cons_ptr i].
Proof. intros R N p [<-|[]] K. rewrite enc_ix by auto. auto. Qed.

Lemma built_step h i fl a d h1 xs h' r : heap_ok h (i :: fl) -> kept [i] h h1 -> heap_ok h1 fl -> cell h1 i = Some (a, d) ->
  0 <= i < 2 ^ (W - 8) -> built fl h1 xs (enc_cons_ptr i) h' r -> built (i :: fl) h (xs ++ [a]) d h' r.
Proof.
  intros OK K OK1 Ce R (K2&B). split.
  - eapply kept_trans; [eapply kept_incl; [|exact K]|eapply kept_incl; [|exact K2]]; intros x; simpl; tauto.
  - rewrite app_length. cbn [length]. rewrite Nat.add_1_r. cbn [length Nat.leb skipn firstn map rev].
    destruct (length xs <=? length fl)%nat; auto. destruct B as (O2&P). split; auto.
    eapply path_app; eauto. pose proof (ok_nodup _ _ OK) as N. inversion N as [|? ? NI _]; subst.
    eapply path_kept; [eapply path_cell; eauto|eapply used_enc1; eauto|auto].
Qed.

Lemma list_loop_ok rargs : forall h fl d, heap_ok h fl -> exists h' r, list_loop h rargs d = Ok (h', r) /\ built fl h (rev rargs) d h' r.
Proof.
  induction rargs as [|a t IH]; intros h fl d OK.
  - exists h, d. split; auto. split; [apply kept_refl|]. simpl. split; auto. constructor.
  - cbn [list_loop rev]. destruct (cons_step h fl a d OK) as (h1&r1&E&H). rewrite E. cbn [bind].
    destruct fl as [|i fl].
    + destruct H as (->&->). rewrite MERROR_type. exists h, MERROR. split; auto. split; [apply kept_refl|].
      rewrite app_length. cbn [length]. rewrite Nat.add_1_r. cbn. auto.
    + destruct H as (K&->&OK1&Ce&R). rewrite enc_type_not_sym by auto.
      destruct (IH h1 fl (enc_cons_ptr i) OK1) as (h'&r&E'&B). exists h', r. split; auto. eapply built_step; eauto.
Qed.

(* ---- append ---- *)
Lemma count_ok h v xs ps w : path h v xs ps w -> type_of_functional w <> TYPE_CONS -> forall fuel n, (length xs <= fuel)%nat ->
  0 <= n -> n + Z.of_nat (length xs) < 2 ^ 31 -> count_loop fuel h v n = Ok (n + Z.of_nat (length xs)).
Proof.
  induction 1 as [w|p x q xs ps w Wp K Pl R P IH]; intros T fuel n F N B.
  - destruct fuel; cbn [count_loop]; (destruct (Z.eqb_spec (type_of_functional w) TYPE_CONS); [tauto|]); f_equal; simpl; lia.
  - destruct fuel as [|fuel]; [simpl in F; lia|]. cbn [count_loop length] in *.
    rewrite (plain_functional p) by auto. rewrite Z.eqb_refl. unfold int32.
    destruct (Z.leb_spec (- 2 ^ 31) (n + 1)); [|lia]. destruct (Z.ltb_spec (n + 1) (2 ^ 31)); [|lia]. cbn [andb bind].
    rewrite (cdr_ptr h p x q) by auto using cons_is_ptr. cbn [bind]. rewrite IH by (auto; lia). f_equal. lia.
Qed.
Lemma index_path h v xs ps w : path h v xs ps w -> forall fuel n, (length xs <= fuel)%nat -> (n < length xs)%nat ->
  index_loop fuel h v (Z.of_nat n) = Ok (nth n xs NIL).
Proof.
  induction 1 as [w|p x q xs ps w Wp K Pl R P IH]; intros fuel n F N; [simpl in N; lia|].
  destruct fuel as [|fuel]; [simpl in F; lia|]. cbn [index_loop length] in *. rewrite K. cbn [andb].
  destruct n as [|n].
  - simpl. rewrite (car_ptr h p x q) by auto using cons_is_ptr. auto.
  - destruct (Z.ltb_spec 0 (Z.of_nat (S n))); [|lia]. rewrite (cdr_ptr h p x q) by auto using cons_is_ptr. cbn [bind nth].
    replace (Z.of_nat (S n) - 1) with (Z.of_nat n) by lia. apply IH; lia.
Qed.
Lemma firstn_S_snoc (xs : list Z) k d : (k < length xs)%nat -> firstn (S k) xs = firstn k xs ++ [nth k xs d].
Proof.
  revert k. induction xs as [|x xs IH]; intros k H; [simpl in H; lia|]. destruct k; auto.
  simpl in *. f_equal. apply IH. lia.
Qed.
Lemma append_one_ok xs v ps w fuel k : forall h fl d, heap_ok h fl -> path h v xs ps w -> used fl ps -> (length xs <= fuel)%nat -> (k <= length xs)%nat ->
  exists h' r, append_one k fuel h v d = Ok (h', r) /\ built fl h (firstn k xs) d h' r.
Proof.
  induction k as [|k IH]; intros h fl d OK P U F B.
  - exists h, d. split; auto. split; [apply kept_refl|]. simpl. split; auto. constructor.
  - cbn [append_one]. unfold index_list. destruct (Z.ltb_spec (Z.of_nat k) 0); [lia|].
    rewrite (index_path _ _ _ _ _ P) by lia. cbn [bind].
    destruct (cons_step h fl (nth k xs NIL) d OK) as (h1&r1&E&HC). rewrite E. cbn [bind].
    rewrite (firstn_S_snoc xs k NIL) by lia. destruct fl as [|i fl].
    + destruct HC as (->&->). destruct (IH h [] MERROR OK P U F ltac:(lia)) as (h'&r&E'&K'&B'). exists h', r. split; auto.
      split; auto. rewrite app_length. cbn [length]. rewrite Nat.add_1_r. cbn [Nat.leb].
      destruct (length (firstn k xs)) eqn:El.
      * simpl in B'. apply length_zero_iff_nil in El. rewrite El in B'. destruct B' as (O&Q). apply path_nil in Q as (->&_). auto.
      * exact B'.
    + destruct HC as (K&->&OK1&Ce&R). pose proof (ok_nodup _ _ OK) as N. inversion N as [|? ? NI _]; subst.
      destruct (IH h1 fl (enc_cons_ptr i) OK1) as (h'&r&E'&B'); try lia.
      { eapply path_kept; [exact P| |exact K]. intros p Ip Kp [Ei|[]]. apply (U p Ip Kp). left. auto. }
      { eapply used_tail; eauto. }
      exists h', r. split; auto. eapply built_step; eauto.
Qed.

(* building in two steps *)
Lemma skipn_skipn_add (n m : nat) (l : list Z) : skipn n (skipn m l) = skipn (m + n) l.
Proof. revert l. induction m; intros l; simpl; auto. destruct l; auto. apply skipn_nil. Qed.
Lemma firstn_add (n m : nat) (l : list Z) : firstn (n + m) l = firstn n l ++ firstn m (skipn n l).
Proof. revert l. induction n; intros l; simpl; auto. destruct l; [rewrite firstn_nil; auto|]. simpl. f_equal. auto. Qed.
Lemma incl_skipn (n : nat) (l : list Z) : incl (skipn n l) l.
Proof. intros x I. rewrite <- (firstn_skipn n l). apply in_or_app. auto. Qed.
Lemma enc_used_firstn h fl n : heap_ok h fl -> used (skipn n fl) (rev (map enc_cons_ptr (firstn n fl))).
Proof.
  intros OK p I K J. apply in_rev in I. apply in_map_iff in I as (i&<-&I).
  pose proof (chain_range _ _ _ (ok_chain _ _ OK)) as FR. rewrite Forall_forall in FR. pose proof (ok_size _ _ OK) as SZ.
  specialize (FR i (In_firstn _ _ _ I)). rewrite enc_ix in J by lia.
  exact (NoDup_split fl n i (ok_nodup _ _ OK) I J).
Qed.

Lemma built_built h fl xs d h1 r1 ys h2 r2 : heap_ok h fl -> built fl h xs d h1 r1 -> (length xs <= length fl)%nat ->
  built (skipn (length xs) fl) h1 ys r1 h2 r2 -> built fl h (ys ++ xs) d h2 r2.
Proof.
  intros OK (K1&B1) LE (K2&B2). rewrite (proj2 (Nat.leb_le _ _) LE) in B1. destruct B1 as (O1&P1).
  split. { eapply kept_trans; [exact K1|]. eapply kept_incl; [apply incl_skipn|exact K2]. }
  rewrite app_length, skipn_length in *. destruct (Nat.leb_spec (length ys) (length fl - length xs)); destruct (Nat.leb_spec (length ys + length xs) (length fl)); try lia; auto.
  destruct B2 as (O2&P2). rewrite skipn_skipn_add in O2. rewrite Nat.add_comm. split; auto.
  rewrite firstn_add, map_app, rev_app_distr. eapply path_app; eauto.
  eapply path_kept; [exact P1| |exact K2]. eapply enc_used_firstn; eauto.
Qed.

Lemma Forall2_imp {X Y} (P Q : X -> Y -> Prop) l m : (forall a b, P a b -> Q a b) -> Forall2 P l m -> Forall2 Q l m.
Proof. intros H. induction 1; constructor; auto. Qed.
Lemma append_loop_ok fuel rargs : forall xss h fl d, heap_ok h fl -> Forall2 (items fl h) rargs xss ->
  Forall (fun xs => (length xs <= fuel)%nat /\ Z.of_nat (length xs) < 2 ^ 31) xss ->
  exists h' r, append_loop fuel h rargs d = Ok (h', r) /\ built fl h (concat (rev xss)) d h' r.
Proof.
  induction rargs as [|v t IH]; intros xss h fl d OK F B; inversion F as [|? xs ? xss' I F']; subst.
  - exists h, d. split; auto. split; [apply kept_refl|]. simpl. split; auto. constructor.
  - cbn [append_loop]. rewrite (items_is_list _ _ _ _ I). inversion B as [|? ? (B1&B2) B']; subst.
    pose proof I as I'. destruct I' as (ps&w&P&U&N&T&Z). rewrite (count_ok _ _ _ _ _ P) by (auto; lia). cbn [bind].
    replace (Z.to_nat (0 + Z.of_nat (length xs))) with (length xs) by lia.
    destruct (append_one_ok xs v ps w fuel (length xs) h fl d OK P U B1 (le_n _)) as (h1&r1&E&Bu). rewrite E. cbn [bind].
    rewrite firstn_all in Bu. cbn [rev]. rewrite concat_app. cbn [concat]. rewrite app_nil_r.
    destruct (Nat.le_gt_cases (length xs) (length fl)) as [LE|GT].
    + destruct (IH xss' h1 (skipn (length xs) fl) r1) as (h2&r2&E2&B2'); auto.
      { destruct Bu as (_&Bu). rewrite (proj2 (Nat.leb_le _ _) LE) in Bu. tauto. }
      { eapply Forall2_imp; [|exact F']. intros. eapply items_kept; eauto; [apply Bu|apply incl_skipn]. }
      exists h2, r2. split; auto. eapply built_built; eauto.
    + destruct Bu as (K1&Bu). rewrite (proj2 (Nat.leb_gt _ _) GT) in Bu. destruct Bu as (->&O1).
      destruct (IH xss' h1 [] MERROR O1) as (h2&r2&E2&K2&B2'); auto.
      { eapply Forall2_imp; [|exact F']. intros. eapply items_kept; eauto. intros ? []. }
      exists h2, r2. split; auto. split. { eapply kept_trans; [exact K1|]. eapply kept_incl; [|exact K2]. intros ? []. }
      rewrite app_length. destruct (Nat.leb_spec (length (concat (rev xss')) + length xs) (length fl)); [lia|].
      destruct (concat (rev xss')) eqn:Ec; [|auto]. simpl in B2'. destruct B2' as (O2&Q). apply path_nil in Q as (->&_). auto.
Qed.

(* an argument that is no list *)
Lemma append_loop_err fuel rargs : forall h fl d, heap_ok h fl ->
  Forall (fun v => is_list v = false \/ exists xs, items fl h v xs /\ (length xs <= fuel)%nat /\ Z.of_nat (length xs) < 2 ^ 31) rargs ->
  Exists (fun v => is_list v = false) rargs ->
  exists h', append_loop fuel h rargs d = Ok (h', TERROR) /\ kept fl h h'.
Proof.
  induction rargs as [|v t IH]; intros h fl d OK F X; [inversion X|].
  cbn [append_loop]. inversion F as [|? ? Fv Ft]; subst.
  destruct Fv as [N|(xs&I&B1&B2)].
  - rewrite N. exists h. split; auto. apply kept_refl.
  - rewrite (items_is_list _ _ _ _ I). inversion X as [? ? N|? ? X']; subst. { rewrite (items_is_list _ _ _ _ I) in N. discriminate. }
    pose proof I as I'. destruct I' as (ps&w&P&U&N&T&Z). rewrite (count_ok _ _ _ _ _ P) by (auto; lia). cbn [bind].
    replace (Z.to_nat (0 + Z.of_nat (length xs))) with (length xs) by lia.
    destruct (append_one_ok xs v ps w fuel (length xs) h fl d OK P U B1 (le_n _)) as (h1&r1&E&K1&Bu). rewrite E. cbn [bind].
    assert (exists fl1, heap_ok h1 fl1 /\ incl fl1 fl) as (fl1&O1&I1).
    { destruct (length (firstn (length xs) xs) <=? length fl)%nat; destruct Bu as (H1&H2).
      - eexists. split; [exact H1|apply incl_skipn].
      - exists []. split; auto. intros ? []. }
    destruct (IH h1 fl1 r1 O1) as (h2&E2&K2); auto.
    { eapply Forall_impl; [|exact Ft]. intros u [?|(ys&J&?&?)]; auto. right. exists ys. split; auto. eapply items_kept; eauto. }
    exists h2. split; auto. eapply kept_trans; [exact K1|]. eapply kept_incl; [|exact K2]. auto.
Qed.
End Arch.
