(* Environments, patterns and closures in the representation. *)
From Verif Require Import Base Value_Model Heap_Model Env_Model Match_Model QQ_Model GC_Model Eval_Model Eval_Spec
  Value_Proofs Value_Proofs2 Heap_Spec Heap_Proofs Heap_Proofs2 List_Proofs Env_Proofs Env_Props QQ_Proofs GC_Spec Eval_Rel Eval_Proofs Eval_GC.
Local Open Scope Z_scope.

Section Arch.
Context {A : Arch} {HO : Host}.

Ltac sp := repeat match goal with |- _ /\ _ => split end.

(* ---- locations ---- *)

Lemma loc_of w g s e x k l : srel w g s -> erel w e x -> In (k, l) e ->
  exists j o y, wL w l = Some (j, k) /\ 0 <= j < 2 ^ (W - 8) /\ ~ In j (wfl w) /\ key_ok k /\
    nth_error (sto s) l = Some o /\ cell (wh w) j = Some (enc_sym k, y) /\ crel w o y.
Proof.
  intros SR. induction 1 as [|k' l' e i j d Ri Li Ci Nl E IH]; [intros []|].
  intros [X|X]; auto. injection X as -> ->. destruct (sr_loc _ _ _ SR _ _ _ Nl) as (Rj&F&K&o&y&H1&H2&H3).
  exists j, o, y. sp; auto; tauto.
Qed.

Lemma erel_head w k l e x : erel w ((k, l) :: e) x -> exists i j d, x = enc_cons_ptr i /\ 0 <= i < 2 ^ (W - 8) /\ live w i /\
  cell (wh w) i = Some (enc_cons_ptr j, d) /\ wL w l = Some (j, k) /\ erel w e d.
Proof. inversion 1; subst. exists i, j, d. auto 10. Qed.

Lemma erel_nil_inv w x : erel w [] x -> x = 0.
Proof. inversion 1; auto. Qed.

Lemma find_in x e l : find x e = Some l -> In (x, l) e.
Proof.
  induction e as [|[k l'] e IH]; cbn; [discriminate|]. destruct (Z.eqb_spec k x) as [->|N].
  - injection 1 as ->. auto.
  - auto.
Qed.

(* ---- lookup ---- *)

Lemma lookup_local w g s e env k f : srel w g s -> erel w e env -> 0 <= k < 2 ^ 28 -> (length e <= f)%nat ->
  exists o, env_lookup f (wh w) (enc_sym k) env = Ok o /\
    match local s k e with Some v => exists x, o = Some x /\ vrel w v x | None => o = None end.
Proof.
  intros SR ER Rk. revert f. induction ER as [|k' l e i j d Ri Li Ci Nl E IH]; intros f F.
  - exists None. destruct f; cbn [env_lookup]; destruct nil_fields as (_&_&_&P&_); rewrite P; cbn; auto.
  - destruct f as [|f]; [cbn in F; lia|]. cbn [length] in F.
    destruct (sr_loc _ _ _ SR _ _ _ Nl) as (Rj&NF&K&o&y&H1&H2&H3).
    cbn [env_lookup]. rewrite enc_is_ptr, (ref_enc _ _ _ Ri Ci) by auto. cbn [bind fst snd].
    rewrite (ref_enc _ _ _ Rj H2). cbn [bind fst snd]. rewrite sym_eq by auto using key_range.
    cbn [local]. unfold content. rewrite H1. destruct (k' =? k); cbn [andb]; [|apply IH; lia].
    destruct o as [v|]; cbn [crel] in H3.
    + destruct (Z.eqb_spec y PLACEHOLDER) as [EP|_]; [exfalso; eapply vrel_not_placeholder; eauto|].
      cbn [negb]. eauto.
    + rewrite H3, Z.eqb_refl. cbn [negb]. apply IH; lia.
Qed.

Lemma sym_bucket k : 0 <= k < 2 ^ 28 -> bucket (enc_sym k) = Z.land k 0x1F.
Proof. intros H. unfold bucket. rewrite sym_dec; auto. Qed.

Lemma land31 k : 0 <= Z.land k 0x1F < 32.
Proof. change 0x1F with (Z.ones 5). rewrite Z.land_ones by lia. apply Z.mod_pos_bound. lia. Qed.

Lemma find_bucket k e : find k (filter (fun kl => Z.land (fst kl) 0x1F =? Z.land k 0x1F) e) = find k e.
Proof.
  induction e as [|[k' l] e IH]; auto. cbn [filter find fst].
  destruct (Z.eqb_spec k' k) as [->|N].
  - rewrite Z.eqb_refl. cbn [find]. rewrite Z.eqb_refl. auto.
  - destruct (_ =? _); auto. cbn [find]. apply Z.eqb_neq in N. rewrite N. auto.
Qed.

Lemma filter_len {T} (p : T -> bool) l : (length (filter p l) <= length l)%nat.
Proof. induction l; cbn; auto. destruct (p a); cbn; lia. Qed.

Lemma lookup_first w g s e env k f : srel w g s -> erel w e env -> 0 <= k < 2 ^ 28 -> (length e <= f)%nat ->
  (forall k l, In (k, l) e -> content s l <> None) ->
  exists o, glookup_loop f (wh w) (enc_sym k) env = Ok o /\
    match find k e with
    | Some l => exists v x, content s l = Some v /\ o = Some x /\ vrel w v x
    | None => o = None
    end.
Proof.
  intros SR ER Rk. revert f. induction ER as [|k' l e i j d Ri Li Ci Nl E IH]; intros f F D.
  - exists None. destruct f; cbn [glookup_loop]; destruct nil_fields as (_&_&_&P&_); rewrite P; cbn; auto.
  - destruct f as [|f]; [cbn in F; lia|]. cbn [length] in F.
    destruct (sr_loc _ _ _ SR _ _ _ Nl) as (Rj&NF&K&o&y&H1&H2&H3).
    cbn [glookup_loop]. rewrite enc_is_ptr, (ref_enc _ _ _ Ri Ci) by auto. cbn [bind fst snd].
    rewrite (ref_enc _ _ _ Rj H2). cbn [bind fst snd]. rewrite sym_eq by auto using key_range.
    cbn [find]. destruct (k' =? k).
    + assert (D1 := D k' l (or_introl eq_refl)). unfold content in *. rewrite H1 in *.
      destruct o as [v|]; [|congruence]. exists (Some y). split; auto. exists v, y. auto.
    + apply IH; [lia|]. intros k0 l0 I. apply (D k0 l0). right; auto.
Qed.

Lemma lookup_global w g s k f : srel w g s -> 0 <= k < 2 ^ 28 -> (length (glo s) <= f)%nat ->
  exists o, glookup f (mkG (wh w) g) (enc_sym k) = Ok o /\
    match global s k with Some v => exists x, o = Some x /\ vrel w v x | None => o = None end.
Proof.
  intros SR Rk F. unfold glookup. cbn [groots gheap]. rewrite sym_bucket by auto.
  destruct (sr_glob _ _ _ SR _ (land31 k)) as (r&N&E). unfold rd.
  destruct (Z.ltb_spec (Z.land k 0x1F) 0) as [X|_]; [pose proof (land31 k); lia|]. rewrite N. cbn [bind].
  edestruct (lookup_first w g s _ r k f SR E Rk) as (o&Eo&Ho).
  { etransitivity; [apply filter_len|auto]. }
  { intros k0 l I. apply filter_In in I. apply (sr_gdef _ _ _ SR k0 l), I. }
  exists o. split; auto. rewrite find_bucket in Ho. unfold global.
  destruct (find k (glo s)) as [l|]; auto. destruct Ho as (v&x&C&->&V). rewrite C. eauto.
Qed.

(* ---- assignment ---- *)

Lemma set_loop_first w g s e env k x f : srel w g s -> erel w e env -> 0 <= k < 2 ^ 28 -> (length e <= f)%nat ->
  match find k e with
  | Some l => exists j, wL w l = Some (j, k) /\ set_loop f (wh w) env (enc_sym k) x = Ok (Some (hput (wh w) j (enc_sym k, x)))
  | None => set_loop f (wh w) env (enc_sym k) x = Ok None
  end.
Proof.
  intros SR ER Rk. revert f. induction ER as [|k' l e i j d Ri Li Ci Nl E IH]; intros f F.
  - destruct f; cbn [set_loop find]; rewrite type_zero; auto.
  - destruct f as [|f]; [cbn in F; lia|]. cbn [length] in F.
    destruct (sr_loc _ _ _ SR _ _ _ Nl) as (Rj&NF&K&o&y&H1&H2&H3).
    cbn [set_loop]. rewrite enc_type, (car_enc _ _ _ _ Ri Ci) by auto. cbn [bind].
    rewrite (car_enc _ _ _ _ Rj H2). cbn [bind]. rewrite sym_eq by auto using key_range.
    cbn [find]. destruct (Z.eqb_spec k' k) as [->|N].
    + rewrite (set_cdr_enc _ _ _ _ _ Rj H2). cbn [bind fst]. eauto.
    + rewrite (cdr_enc _ _ _ _ Ri Ci). cbn [bind]. apply IH; lia.
Qed.

Lemma NF_sym : NOT_FOUND = enc_sym SYM_NOT_FOUND. Proof. reflexivity. Qed.

Lemma modify_local w g s e env k v x f : srel w g s -> erel w e env -> 0 <= k < 2 ^ 28 -> (length e <= f)%nat -> vrel w v x ->
  match find k e with
  | Some l => exists h', env_modify f (wh w) env (enc_sym k) x = Ok (h', env) /\
      let w' := mkW h' (wfl w) (wL w) (wR w) in srel w' g (assign s l v) /\ hext w w'
  | None => env_modify f (wh w) env (enc_sym k) x = Ok (wh w, NOT_FOUND)
  end.
Proof.
  intros SR ER Rk F V. pose proof (set_loop_first w g s e env k x f SR ER Rk F) as H. unfold env_modify.
  destruct (find k e) as [l|].
  - destruct H as (j&N&->). cbn [bind]. eexists. split; [reflexivity|]. apply store; auto.
  - rewrite H. reflexivity.
Qed.

Lemma upd_same {T} (l : list T) n x : nth_error l n = Some x -> firstn n l ++ x :: skipn (S n) l = l.
Proof.
  intros H. rewrite <- (firstn_skipn n l) at 3. f_equal. symmetry. apply skipn_nth_cons; auto.
Qed.

Lemma erel_is_ptr w e x : erel w e x -> is_symbol x && (x =? NOT_FOUND) = false.
Proof.
  destruct 1.
  - apply andb_false_iff. right. apply Z.eqb_neq. intros E. symmetry in E. revert E. apply NOT_FOUND_nonzero.
  - rewrite cons_not_symbol; auto using enc_cons.
Qed.

Lemma upd_split {T} (l : list T) n x : (n < length l)%nat -> upd l n x = firstn n l ++ x :: skipn (S n) l.
Proof.
  revert n. induction l as [|y l IH]; intros n H; [cbn in H; lia|]. destruct n; [reflexivity|].
  cbn [upd firstn app]. f_equal. rewrite IH by (cbn in H; lia). reflexivity.
Qed.

Lemma wr_nth l n (x y : Z) : nth_error l (Z.to_nat n) = Some y -> 0 <= n -> wr l n x = Ok (firstn (Z.to_nat n) l ++ x :: skipn (S (Z.to_nat n)) l).
Proof. intros N P. unfold wr. destruct (Z.ltb_spec n 0); [lia|].
  destruct (Nat.ltb_spec (Z.to_nat n) (length l)) as [L|L]; [|apply nth_error_None in L; congruence].
  rewrite upd_split by auto. reflexivity.
Qed.

(* 2315-2334 *)
Lemma setvar_ok w g s e env k v x f s' : srel w g s -> erel w e env -> 0 <= k < 2 ^ 28 -> vrel w v x ->
  (length e + length (glo s) <= f)%nat -> setvar s e k v = Some s' ->
  exists h', perform_setvar f (wh w) g (enc_sym k) x env = Ok (Some (h', g)) /\
    let w' := mkW h' (wfl w) (wL w) (wR w) in srel w' g s' /\ hext w w'.
Proof.
  intros SR ER Rk V F. unfold setvar, perform_setvar. destruct (variable k) eqn:Vk; [|discriminate].
  destruct (out_of_memory v); [discriminate|]. cbn [andb negb].
  apply variable_iff in Vk. rewrite sym_dec by auto. unfold RUNTIME_START.
  destruct (Z.geb_spec k 0x40000) as [_|]; [|lia].
  pose proof (modify_local w g s e env k v x f SR ER Rk ltac:(lia) V) as H. destruct (find k e) as [l|].
  - injection 1 as <-. destruct H as (h'&->&SR'&HX). cbn [bind].
    rewrite (erel_is_ptr w e env ER). eauto.
  - rewrite H. cbn [bind]. clear H. rewrite NF_sym, sym_is_symbol, Z.eqb_refl. cbn [andb].
    unfold gsetvar. cbn [groots gheap]. rewrite sym_bucket by auto.
    destruct (sr_glob _ _ _ SR _ (land31 k)) as (r&N&E). pose proof (land31 k) as B. unfold rd.
    destruct (Z.ltb_spec (Z.land k 0x1F) 0) as [X|_]; [lia|]. rewrite N. cbn [bind].
    pose proof (modify_local w g s _ r k v x f SR E Rk) as H.
    rewrite find_bucket in H. specialize (H ltac:(pose proof (filter_len (fun kl : Z * nat => Z.land (fst kl) 31 =? Z.land k 31) (glo s)); lia) V).
    destruct (find k (glo s)) as [l|]; [|discriminate]. injection 1 as <-. destruct H as (h'&->&SR'&HX). cbn [bind].
    rewrite (wr_nth _ _ _ _ N) by lia. cbn [bind].
    pose proof (erel_is_ptr _ _ _ E) as P. rewrite upd_same by auto.
    assert (Er : (r =? NOT_FOUND) = false).
    { destruct (Z.eqb_spec r NOT_FOUND) as [->|]; auto. rewrite NF_sym, sym_is_symbol in P. cbn in P. congruence. }
    rewrite Er. cbn [negb gheap groots]. eauto.
Qed.

(* ---- definition ---- *)

Lemma MERROR_sym : is_symbol MERROR = true. Proof. apply sym_is_symbol. Qed.

Lemma enc_not_MERROR i : 0 <= i < 2 ^ (W - 8) -> (enc_cons_ptr i =? MERROR) = false.
Proof.
  intros R. apply Z.eqb_neq. intros E. pose proof (cons_not_symbol _ (enc_cons i R)) as X.
  rewrite E, MERROR_sym in X. discriminate.
Qed.

Lemma erel_not_MERROR w e x : erel w e x -> (x =? MERROR) = false.
Proof.
  destruct 1; auto using enc_not_MERROR. apply Z.eqb_neq. intros E. symmetry in E. revert E. apply MERROR_nonzero.
Qed.

Lemma find_none_filter k e b : b <> Z.land k 0x1F ->
  filter (fun kl => Z.land (fst kl) 0x1F =? b) ((k, 0%nat) :: e) = filter (fun kl => Z.land (fst kl) 0x1F =? b) e.
Proof. intros N. cbn [filter fst]. destruct (Z.eqb_spec (Z.land k 0x1F) b); [congruence|auto]. Qed.

Lemma define_ok w g s k v x f : srel w g s -> 0x40000 <= k < 2 ^ 28 -> vrel w v x ->
  (length (glo s) <= f)%nat ->
  (exists w' g', gdefine f (mkG (wh w) g) (enc_sym k) x = Ok (mkG (wh w') g', true) /\
    srel w' g' (define s k v) /\ hext w w' /\ wR w' = wR w /\ (length (wfl w) <= length (wfl w') + 2)%nat) \/
  ((length (wfl w) < 2)%nat /\ exists w' g', gdefine f (mkG (wh w) g) (enc_sym k) x = Ok (mkG (wh w') g', false) /\
    srel w' g s /\ hext w w' /\ wR w' = wR w).
Proof.
  intros SR Rk V F. unfold gdefine. cbn [groots gheap]. rewrite sym_bucket by lia.
  destruct (sr_glob _ _ _ SR _ (land31 k)) as (r&N&E). pose proof (land31 k) as B. unfold rd.
  destruct (Z.ltb_spec (Z.land k 0x1F) 0) as [X|_]; [lia|]. rewrite N. cbn [bind]. unfold env_set.
  pose proof (set_loop_first w g s _ r k x f SR E ltac:(lia)) as H.
  rewrite find_bucket in H. specialize (H ltac:(pose proof (filter_len (fun kl : Z * nat => Z.land (fst kl) 31 =? Z.land k 31) (glo s)); lia)).
  unfold define. destruct (find k (glo s)) as [l|] eqn:Fk.
  - destruct H as (j&Nl&->). cbn [bind]. rewrite (erel_not_MERROR _ _ _ E).
    rewrite (wr_nth _ _ _ _ N) by lia. cbn [bind]. rewrite upd_same by auto.
    destruct (store w g s l j k v x SR Nl V) as [SR' HX].
    left. eexists (mkW _ _ _ _), g. split; [reflexivity|]. sp; eauto. cbn. lia.
  - rewrite H. cbn [bind]. destruct (wfl w) as [|b [|i fl]] eqn:EF.
    { right. split; [cbn; lia|]. pose proof (sr_heap _ _ _ SR) as OK. rewrite EF in OK. rewrite cons_fail by auto. cbn [bind].
      change (type_of MERROR =? TYPE_SYMBOL) with (type_of (enc_sym 0x23) =? TYPE_SYMBOL). rewrite sym_type. cbn [bind]. rewrite Z.eqb_refl. exists w, g. sp; auto using hext_refl. }
    { right. split; [cbn; lia|].
      destruct (take w g s b [] (enc_sym k) x SR EF) as (h1&C1&Rb&SR1&HX1&Cb&_&_&_&SB).
      { apply key_good. left; lia. } { eapply vrel_good; eauto. eapply sr_size; eauto. }
      rewrite C1. cbn [bind]. rewrite cons_type by auto using enc_cons. pose proof (sr_heap _ _ _ SR1) as OK. cbn in OK.
      rewrite cons_fail by auto. cbn [bind]. rewrite Z.eqb_refl.
      destruct (drop _ _ _ _ _ _ SR SR1 HX1) as (SR2&HX2).
      { intros j J. apply SB. intros [<-|[]]. eapply (loc_free _ _ _ _ SR); eauto. rewrite EF; left; auto. }
      eexists (mkW h1 [] (wL w) (wR w)), g. cbn. sp; auto. }
    left.
    destruct (bind_new w g s _ r k (Some v) x b i fl SR E EF) as (h1&h2&C1&C2&Rb&Ri&SR'&HX&ER'&SB); cbn; auto; [left; lia|].
    cbn [alloc fst] in SR'. rewrite C1. cbn [bind].
    rewrite cons_type by auto using enc_cons. rewrite C2. cbn [bind]. rewrite enc_not_MERROR by auto.
    rewrite (wr_nth _ _ _ _ N) by lia. cbn [bind].
    set (w' := mkW h2 fl (addL (wL w) (length (sto s)) (b, k)) (wR w)) in *.
    eexists w', _. split; [reflexivity|]. sp; auto; [|cbn; lia].
    destruct SR' as [H1 H2 H3 H4 H5 H6 H7 H8 H9 H10 H11 H12]. constructor; auto.
    + rewrite app_length. cbn [length]. rewrite firstn_length_le, skipn_length by lia. lia.
    + intros c Bc. cbn [glo] in *. destruct (Z.eq_dec c (Z.land k 0x1F)) as [->|Nc].
      * exists (enc_cons_ptr i). split.
        -- rewrite nth_error_app2; rewrite firstn_length_le by lia; [|lia]. rewrite Nat.sub_diag. reflexivity.
        -- cbn [filter fst]. rewrite Z.eqb_refl. exact ER'.
      * destruct (H6 c Bc) as (r'&N'&E'). exists r'. split.
        -- change (firstn (Z.to_nat (Z.land k 31)) g ++ enc_cons_ptr i :: skipn (S (Z.to_nat (Z.land k 31))) g)
             with (Eval_Spec.put g (Z.to_nat (Z.land k 31)) (enc_cons_ptr i)).
           rewrite nth_put by lia. destruct (Nat.eqb_spec (Z.to_nat c) (Z.to_nat (Z.land k 31))); [lia|auto].
        -- cbn [filter fst]. destruct (Z.eqb_spec (Z.land k 31) c); [congruence|auto].
    + cbn [glo]. intros k' l' [X|I]; [|eapply H7; eauto]. injection X as <- <-.
      unfold content. cbn [sto]. rewrite nth_error_app2, Nat.sub_diag by auto. discriminate.
Qed.

(* ---- patterns ---- *)

Lemma dontcare_sym : DONTCARE = enc_sym 9. Proof. reflexivity. Qed.
Lemma NIL_sym : NIL = enc_sym 0. Proof. reflexivity. Qed.

Lemma alloc_eq s o : alloc s o = (fst (alloc s o), length (sto s)). Proof. reflexivity. Qed.

(* create_binding, and what is left when it runs out of cells *)
Lemma pat_alloc_ok p : forall s e s' e', pat_alloc s e p = Some (s', e') -> exists N, forall f w g env x,
  srel w g s -> erel w e env -> vrel w p x -> (N <= f)%nat ->
  (exists w' env', create_binding f (wh w) x env = Ok (wh w', Some env') /\
    srel w' g s' /\ hext w w' /\ wR w' = wR w /\ erel w' e' env' /\ (length (wfl w) <= length (wfl w') + N)%nat /\
    forall j, lcell w j -> cell (wh w') j = cell (wh w) j) \/
  ((length (wfl w) < N)%nat /\ exists w', create_binding f (wh w) x env = Ok (wh w', None) /\
    srel w' g s /\ hext w w' /\ wR w' = wR w /\ forall j, lcell w j -> cell (wh w') j = cell (wh w) j).
Proof.
  induction p as [k|z|a IHa d IHd|ps ? body ? ce]; intros s e s' e' E; cbn [pat_alloc] in E; try discriminate.
  - exists 2%nat. intros f w g env x SR ER V F. apply vrel_sym_inv in V. destruct V as (->&Rk&_).
    unfold binds_nothing in E.
    assert (EX : create_binding f (wh w) (enc_sym k) env = if (k =? 0) || (k =? 9) then Ok (wh w, Some env) else
      let! (h1, binding) := cons (wh w) (enc_sym k) PLACEHOLDER in
      let! (h2, new_env) := cons h1 binding env in
      if is_symbol binding || is_symbol new_env then Ok (h2, None) else Ok (h2, Some new_env)).
    { rewrite <- (sym_eq k 0), <- (sym_eq k 9), <- dontcare_sym, <- NIL_sym by lia.
      destruct f; cbn [create_binding]; rewrite sym_type; reflexivity. }
    rewrite EX. clear EX. destruct ((k =? 0) || (k =? 9)).
    + injection E as <- <-. left. exists w, env. sp; auto using hext_refl. lia.
    + destruct (variable k) eqn:Vk; [|discriminate]. apply variable_iff in Vk.
      rewrite alloc_eq in E. injection E as <- <-. pose proof (sr_size _ _ _ SR) as SZ.
      assert (KO : key_ok k) by (left; lia).
      destruct (wfl w) as [|b [|i fl]] eqn:EF.
      * right. split; [cbn; lia|]. pose proof (sr_heap _ _ _ SR) as OK. rewrite EF in OK. rewrite !cons_fail by auto. cbn [bind].
        rewrite cons_fail by auto. cbn [bind]. rewrite MERROR_sym. cbn [orb]. exists w. sp; auto using hext_refl.
      * right. split; [cbn; lia|].
        destruct (take w g s b [] (enc_sym k) PLACEHOLDER SR EF (key_good _ _ KO)) as (h1&C1&Rb&SR1&HX1&Cb&_&_&_&SB).
        { apply (crel_good w None); auto. reflexivity. }
        rewrite C1. cbn [bind]. pose proof (sr_heap _ _ _ SR1) as OK. cbn in OK.
        rewrite cons_fail by auto. cbn [bind]. rewrite MERROR_sym, orb_true_r.
        assert (LC : forall j, lcell w j -> cell h1 j = cell (wh w) j).
        { intros j J. apply SB. intros [<-|[]]. eapply (loc_free _ _ _ _ SR); eauto. rewrite EF; left; auto. }
        destruct (drop _ _ _ _ _ _ SR SR1 HX1 LC) as (SR2&HX2).
        eexists (mkW h1 [] (wL w) (wR w)). cbn. sp; auto.
      * destruct (bind_new w g s e env k None PLACEHOLDER b i fl SR ER EF) as (h1&h2&C1&C2&Rb&Ri&SR'&HX&ER'&SB); cbn; auto.
        left. rewrite C1. cbn [bind]. rewrite C2. cbn [bind]. rewrite !cons_not_symbol by auto using enc_cons. cbn [orb].
        eexists (mkW h2 fl _ _), _. split; [reflexivity|]. sp; eauto; [cbn; lia|].
        intros j J. apply SB. intros X. apply (loc_free _ _ _ _ SR J). rewrite EF. destruct X as [<-|[<-|[]]]; cbn; auto.
  - destruct (pat_alloc s e a) as [[s1 e1]|] eqn:E1; [|discriminate].
    destruct (IHa _ _ _ _ E1) as (N1&H1). destruct (IHd _ _ _ _ E) as (N2&H2).
    exists (S (N1 + N2)). intros f w g env x SR ER V F. destruct f as [|f]; [lia|].
    apply vrel_cons_inv in V. destruct V as (xa&xd&P&Va&Vd).
    cbn [create_binding]. rewrite cons_type, (pair_cons _ _ _ _ P) by (eapply pair_cons; eauto).
    rewrite (pair_ref _ _ _ _ P). cbn [bind].
    destruct (H1 f w g env xa SR ER Va ltac:(lia)) as [(w1&env1&->&SR1&HX1&R1&ER1&L1&LC1)|(L1&w1&->&SR1&HX1&R1&LC1)]; cbn [bind].
    2:{ right. split; [lia|]. exists w1. auto. }
    carryx HX1. rewrite (pair_ref _ _ _ _ P). cbn [bind].
    destruct (H2 f w1 g env1 xd SR1 ER1 Vd ltac:(lia)) as [(w2&env2&->&SR2&HX2&R2&ER2&L2&LC2)|(L2&w2&->&SR2&HX2&R2&LC2)].
    + left. exists w2, env2. sp; auto; try congruence; [eapply hext_trans; eauto|lia|].
      intros j J. rewrite LC2, LC1; auto. destruct J as (l&k&J). exists l, k. apply (hx_locs _ _ HX1). auto.
    + right. split; [lia|]. pose proof (hext_trans _ _ _ HX1 HX2) as HX.
      assert (LC : forall j, lcell w j -> cell (wh w2) j = cell (wh w) j).
      { intros j J. rewrite LC2, LC1; auto. destruct J as (l&k&J). exists l, k. apply (hx_locs _ _ HX1). auto. }
      destruct (drop _ _ _ _ _ _ SR SR2 HX LC) as (SR3&HX3).
      eexists (mkW (wh w2) (wfl w2) (wL w) (wR w)). sp; auto.
Qed.

(* create_binding_location *)
Lemma location_ok p s e s' e' : pat_alloc s e p = Some (s', e') -> exists N, forall f w g c env x,
  srel w g s -> erel w e env -> vrel w p x -> ctx_ok w c -> rooted w (env :: cw c) x -> (N <= f)%nat ->
  (exists w' env', create_location f (wh w) g c x env = Ok (Val (wh w', env')) /\
    srel w' g s' /\ keeps (env :: cw c) w w' /\ erel w' e' env' /\ (length (wfl w) <= length (wfl w') + N)%nat) \/
  (create_location f (wh w) g c x env = Ok NoMem /\ (length (wfl w) < N)%nat).
Proof.
  intros E. destruct (pat_alloc_ok _ _ _ _ _ E) as (N&H). exists N. intros f w g c env x SR ER V C RX F.
  unfold create_location. destruct (H f w g env x SR ER V F) as [(w1&env1&->&SR1&HX1&R1&ER1&L1&_)|(L1&w1&->&SR1&HX1&R1&_)]; cbn [bind].
  - left. exists w1, env1. sp; auto. apply hext_keeps_same; auto.
  - pose proof (sr_size _ _ _ SR1) as SZ1. pose proof (hext_keeps_same (env :: cw c) _ _ HX1 R1) as K1.
    assert (RX1 : rooted w1 (env :: cw c) x) by (apply (rooted_k _ _ _ _ _ SR K1); auto; eapply vrel_good; eauto; eapply sr_size; eauto).
    carryx HX1.
    assert (C1 : ctx_ok w1 c) by (apply (ctx_mono _ _ _ (hext_agree _ _ HX1) (hx_size _ _ HX1) (hx_free _ _ HX1) C)).
    destruct (collect_cw w1 g s [env] c SR1) as [->|(w2&->&SR2&K2&L2)]; auto; cbn [bind].
    { constructor; auto. eapply erel_good; eauto. }
    cbn [app] in K2.
    assert (V2 : vrel w2 p x) by (apply (vrel_k _ _ _ _ _ SR1 K2); auto).
    assert (ER2 : erel w2 e env) by (apply (erel_k _ _ _ _ _ SR1 K2); auto; apply rooted_in; left; auto).
    destruct (H f w2 g env x SR2 ER2 V2 F) as [(w3&env3&->&SR3&HX3&R3&ER3&L3&_)|(L3&w3&->&SR3&HX3&R3&_)]; cbn [bind]; auto.
    left. exists w3, env3. sp; auto; [|lia]. eapply keeps_trans; [exact K1|]. eapply keeps_trans; [exact K2|]. apply hext_keeps_same; auto.
Qed.

Lemma find_key w g s e env k l : srel w g s -> erel w e env -> find k e = Some l -> key_ok k.
Proof. intros SR ER H. apply find_in in H. destruct (loc_of w g s e env k l SR ER H) as (j&o&y&_&_&_&K&_). auto. Qed.

Lemma pat_fill_ok p : forall s e v s', pat_fill s e p v = Some s' -> exists N, forall f w g env x y,
  srel w g s -> erel w e env -> vrel w p x -> vrel w v y -> (N <= f)%nat ->
  exists h', fill_binding f (wh w) x y env = Ok (Some h') /\
    let w' := mkW h' (wfl w) (wL w) (wR w) in srel w' g s' /\ hext w w'.
Proof.
  induction p as [k|z|a IHa d IHd|ps ? body ? ce]; intros s e v s' E; cbn [pat_fill] in E; try discriminate.
  - exists (length e). intros f w g env x y SR ER V Vv F. apply vrel_sym_inv in V. destruct V as (->&Rk&_).
    assert (EX : fill_binding f (wh w) (enc_sym k) y env = if k =? 9 then Ok (Some (wh w)) else
      let! (h1, _) := env_modify f (wh w) env (enc_sym k) y in Ok (Some h1)).
    { rewrite <- (sym_eq k 9), <- dontcare_sym by lia. destruct f; cbn [fill_binding]; rewrite sym_type; reflexivity. }
    rewrite EX. clear EX. unfold binds_nothing in E.
    pose proof (modify_local w g s e env k v y f SR ER Rk F Vv) as M.
    assert (Ew : mkW (wh w) (wfl w) (wL w) (wR w) = w) by (destruct w; auto).
    destruct (Z.eqb_spec k 9) as [K9|K9].
    + rewrite orb_true_r in E. injection E as <-. exists (wh w). rewrite Ew. sp; auto using hext_refl.
    + rewrite orb_false_r in E. destruct (Z.eqb_spec k 0) as [->|K0].
      * injection E as <-. destruct (find 0 e) eqn:Fk.
        { exfalso. apply (find_key w g s e env 0 _ SR ER) in Fk. destruct Fk; lia. }
        rewrite M. cbn [bind]. exists (wh w). rewrite Ew. sp; auto using hext_refl.
      * destruct (variable k); [|discriminate]. destruct (find k e); [|discriminate]. injection E as <-.
        destruct M as (h'&->&SR'&HX). cbn [bind]. eauto.
  - destruct v as [|?|vx vy|]; try discriminate. destruct (pat_fill s e a vx) as [s1|] eqn:E1; [|discriminate].
    destruct (IHa _ _ _ _ E1) as (N1&H1). destruct (IHd _ _ _ _ E) as (N2&H2).
    exists (S (N1 + N2)). intros f w g env x y SR ER V Vv F. destruct f as [|f]; [lia|].
    apply vrel_cons_inv in V. destruct V as (xa&xd&P&Va&Vd).
    apply vrel_cons_inv in Vv. destruct Vv as (ya&yd&Q&Ya&Yd).
    cbn [fill_binding]. rewrite cons_type, (pair_cons _ _ _ _ P), (pair_cons _ _ _ _ Q) by (eapply pair_cons; eauto). cbn [andb].
    rewrite (pair_car _ _ _ _ P). cbn [bind]. rewrite (pair_car _ _ _ _ Q). cbn [bind].
    destruct (H1 f w g env xa ya SR ER Va Ya ltac:(lia)) as (h1&->&SR1&HX1). cbn [bind].
    pose proof (hext_agree _ _ HX1) as G1. set (w1 := mkW h1 (wfl w) (wL w) (wR w)) in *.
    change h1 with (wh w1).
    rewrite (pair_cdr _ _ _ _ (pair_mono _ _ _ _ _ G1 P)). cbn [bind].
    rewrite (pair_cdr _ _ _ _ (pair_mono _ _ _ _ _ G1 Q)). cbn [bind].
    destruct (H2 f w1 g env xd yd SR1 (erel_mono _ _ _ _ G1 ER) (vrel_mono _ _ _ _ G1 Vd) (vrel_mono _ _ _ _ G1 Yd) ltac:(lia)) as (h2&->&SR2&HX2).
    exists h2. sp; auto. eapply hext_trans; eauto.
Qed.

(* ---- new lists ---- *)

Lemma alloc_many w g s h' F fl : srel w g s -> wfl w = F ++ fl -> heap_ok h' fl -> same_but F (wh w) h' ->
  hsize h' = hsize (wh w) -> ccells h' = ccells (wh w) -> same_gc (wh w) h' ->
  (forall i a d, In i F -> cell h' i = Some (a, d) ->
     (good w a \/ In a (map enc_cons_ptr F)) /\ (good w d \/ In d (map enc_cons_ptr F))) ->
  let w' := mkW h' fl (wL w) (wR w) in
  srel w' g s /\ hext w w' /\ forall i, In i F -> live w' i /\ 0 <= i < 2 ^ (W - 8).
Proof.
  intros SR EF OK SB SZ CC SG GD w'.
  assert (NL : forall j, lcell w j -> ~ In j (F ++ fl)).
  { intros j J. rewrite <- EF. eapply loc_free; eauto. }
  assert (HX : hext w w').
  { constructor; cbn; auto.
    - rewrite EF. intros j J. apply in_or_app; auto.
    - intros j J1 J2. apply SB. intros X. apply J1. rewrite EF. apply in_or_app; auto. }
  assert (ND : NoDup (F ++ fl)) by (rewrite <- EF; apply (ok_nodup _ _ (sr_heap _ _ _ SR))).
  assert (NF : forall i, In i F -> ~ In i fl).
  { intros i I. clear -ND I. revert I. induction F as [|j F IH]; [intros []|]. cbn in ND. inversion ND as [|? ? N1 N2]; subst.
    intros [->|J]; [|apply IH; auto]. intros X. apply N1, in_or_app; auto. }
  assert (RF : forall i, In i F -> 0 <= i < hsize (wh w)).
  { intros i I. eapply free_range; eauto. rewrite EF. apply in_or_app; auto. }
  assert (GX : forall x, good w x \/ In x (map enc_cons_ptr F) -> good w' x).
  { intros x [X|X]; [apply (good_mono _ _ _ (hx_size _ _ HX) (hx_free _ _ HX)); auto|].
    apply in_map_iff in X. destruct X as (i&<-&I). apply enc_good; cbn; auto; rewrite SZ; auto. eapply sr_size; eauto. }
  sp; auto.
  - eapply srel_same; eauto using hext_agree; try apply HX; cbn.
    + intros j J. specialize (NL j J). rewrite in_app_iff in NL. split; [apply SB|]; tauto.
    + intros i I X. apply (sr_priv _ _ _ SR i I). rewrite EF. apply in_or_app; auto.
    + intros i a d N C. destruct (in_dec Z.eq_dec i F) as [I|I].
      * right. destruct (GD i a d I C). auto.
      * left. split; [rewrite EF; intros X; apply in_app_or in X; tauto|]. rewrite <- C. symmetry. apply SB; auto.
  - intros i I. split; [split; [|split]; cbn|]; auto.
    + intros X. apply (NL i X), in_or_app; auto.
    + intros X. apply (sr_priv _ _ _ SR i X). rewrite EF. apply in_or_app; auto.
    + pose proof (RF i I). pose proof (sr_size _ _ _ SR). lia.
Qed.

Lemma list_on_cells h v vals F : list_on h v vals (map enc_cons_ptr F) -> (forall i, In i F -> 0 <= i < 2 ^ (W - 8)) ->
  forall i a d, In i F -> cell h i = Some (a, d) -> In a vals /\ (d = 0 \/ In d (map enc_cons_ptr F)).
Proof.
  revert v vals. induction F as [|j F IH]; intros v vals LO R i a d I C; [destruct I|].
  cbn [map] in LO. inversion LO as [|p x q xs ps Wp Cp Rp LO']; subst. destruct I as [->|I].
  - assert (Ri : 0 <= i < 2 ^ (W - 8)) by (apply R; left; auto).
    rewrite ref_cell_rw, enc_ix in Rp by (auto; apply enc_heap_ptr; auto). rewrite C in Rp. injection Rp as -> ->.
    split; [left; auto|]. cbn [map]. inversion LO'; subst; auto. right. right. left. congruence.
  - destruct (IH q xs LO' (fun i I => R i (or_intror I)) i a d I C) as [H1 H2]. cbn. intuition.
Qed.

Lemma list_on_head w v x xs p ps i : list_on (wh w) v (x :: xs) (p :: ps) -> p = enc_cons_ptr i -> 0 <= i < 2 ^ (W - 8) -> live w i ->
  exists q, v = enc_cons_ptr i /\ pair_at w v x q /\ list_on (wh w) q xs ps.
Proof.
  inversion 1 as [|p' x' q xs' ps' Wp Cp Rp LO]; subst. intros -> Ri Li. exists q. sp; auto.
  split; [|split; [|split; [|split]]]; auto; [apply enc_gc; auto|]. intros _. exists i; auto.
Qed.

Lemma list_new w g s vals : srel w g s -> Forall (good w) vals -> vals <> [] -> (length vals <= length (wfl w))%nat ->
  exists w' v, alloc_list_init (wh w) vals = Ok (wh w', v) /\ srel w' g s /\ hext w w' /\ wR w' = wR w /\
    length (wfl w) = (length (wfl w') + length vals)%nat /\ is_cons v = true /\
    exists F, list_on (wh w') v vals (map enc_cons_ptr F) /\ forall i, In i F -> live w' i /\ 0 <= i < 2 ^ (W - 8).
Proof.
  intros SR GV NE LE. pose proof (sr_heap _ _ _ SR) as OK.
  destruct (alloc_list_init_ok (wh w) (wfl w) vals OK NE LE) as (h'&v&E&OK'&LO&EV&SB&SZ&CC&_&_).
  destruct (alloc_many w g s h' (firstn (length vals) (wfl w)) (skipn (length vals) (wfl w)) SR) as (SR'&HX&LV); auto.
  { symmetry. apply firstn_skipn. }
  { eapply alloc_list_init_gc; eauto. }
  { intros i a d I C. apply (list_on_cells _ _ _ _ LO) in C; auto.
    - destruct C as [H1 H2]. rewrite Forall_forall in GV. split; auto. destruct H2 as [->|]; auto using nil_good.
    - intros j J. apply In_firstn in J. pose proof (free_range _ _ _ _ SR J). pose proof (sr_size _ _ _ SR). lia. }
  eexists (mkW h' _ (wL w) (wR w)), v. split; [exact E|]. sp; eauto.
  - cbn. rewrite skipn_length. lia.
  - inversion LO; subst; auto.
Qed.

Lemma FATAL_sym : is_symbol FATAL_ERROR = true. Proof. apply sym_is_symbol. Qed.

(* allocate_closure *)
Lemma closure_ok w g s c0 ps body e x y env : srel w g s -> vrel w ps x -> vrel w body y -> erel w e env -> ctx_ok w c0 ->
  rooted w (cw c0) x -> rooted w (cw c0) y -> rooted w (cw c0) env ->
  (exists w' c, allocate_closure (wh w) g c0 x y env = Ok (Val (wh w', c)) /\ srel w' g s /\ keeps (cw c0) w w' /\
    (length (wfl w) <= length (wfl w') + 4)%nat /\ vrel w' (VClo ps body e) c) \/
  (allocate_closure (wh w) g c0 x y env = Ok NoMem /\ (length (wfl w) < 4)%nat).
Proof.
  intros SR V1 V2 ER C0 R1 R2 R3. unfold allocate_closure. change 4 with (Z.of_nat 4).
  destruct (need_ok w g s [] c0 4 SR (Forall_nil _) C0) as [[-> L0]|(w0&->&SR0&K0&L0&LE)]; cbn [bind]; auto.
  left. cbn [app] in K0. carry SR K0. pose proof (sr_size _ _ _ SR0) as SZ. clear R1 R2 R3.
  destruct (list_new w0 g s [S_CLOSURE; x; y; env] SR0) as (w'&c&->&SR'&HX&R&L&C&F&LO&LV); [|discriminate|cbn; lia|].
  { repeat apply Forall_cons; eauto using vrel_good, erel_good. apply sym_good; unfold type_sym; lia. }
  cbn [bind snd]. replace (c =? FATAL_ERROR) with false.
  2:{ symmetry. apply Z.eqb_neq. intros ->. apply cons_not_symbol in C. rewrite FATAL_sym in C. discriminate. }
  exists w', c. sp; auto; [eapply keeps_trans; [exact K0|apply hext_keeps_same; auto]|cbn in L; lia|]. pose proof (hext_agree _ _ HX) as G.
  assert (LF : length F = 4%nat).
  { apply list_on_len in LO. rewrite map_length in LO. exact LO. }
  destruct F as [|i1 [|i2 [|i3 [|i4 [|]]]]]; try discriminate. cbn [map] in LO.
  destruct (LV i1 ltac:(cbn; auto)) as [L1 R1]. destruct (LV i2 ltac:(cbn; auto)) as [L2 R2].
  destruct (LV i3 ltac:(cbn; auto)) as [L3 R3]. destruct (LV i4 ltac:(cbn; auto)) as [L4 R4].
  destruct (list_on_head _ _ _ _ _ _ i1 LO eq_refl R1 L1) as (q1&->&P1&LO1).
  destruct (list_on_head _ _ _ _ _ _ i2 LO1 eq_refl R2 L2) as (q2&->&P2&LO2).
  destruct (list_on_head _ _ _ _ _ _ i3 LO2 eq_refl R3 L3) as (q3&->&P3&LO3).
  destruct (list_on_head _ _ _ _ _ _ i4 LO3 eq_refl R4 L4) as (q4&->&P4&LO4).
  inversion LO4; subst. carryx HX. econstructor; eauto.
Qed.

(* ---- the copy of an environment's spine ---- *)

Lemma erel_env_on w g s e x : srel w g s -> erel w e x -> exists kvs cs, env_on (wh w) x kvs cs /\ length kvs = length e /\
  (forall c, In c cs -> ~ In c (wfl w)) /\ Forall2 (fun kl j => wL w (snd kl) = Some (j, fst kl)) e (pairs cs).
Proof.
  intros SR. induction 1 as [|k l e i j d Ri Li Ci Nl E IH].
  - exists [], []. sp; auto; constructor.
  - destruct IH as (kvs&cs&EO&L&D&F). destruct (sr_loc _ _ _ SR _ _ _ Nl) as (Rj&NF&K&o&y&H1&H2&H3).
    exists ((enc_sym k, y) :: kvs), (i :: j :: cs). sp.
    + econstructor; eauto.
    + cbn. lia.
    + intros c [<-|[<-|C]]; auto. apply Li.
    + cbn [pairs]. constructor; auto.
Qed.

Lemma env_on_erel w x kvs cs : env_on (wh w) x kvs cs -> forall e, (forall i, In i (spine cs) -> live w i) ->
  Forall2 (fun kl j => wL w (snd kl) = Some (j, fst kl)) e (pairs cs) -> erel w e x.
Proof.
  induction 1 as [|i j k y q kvs cs Ri Rj Ci Cj E IH]; intros e LV F; cbn [pairs] in F; inversion F; subst.
  - constructor.
  - destruct x as [k' l']. cbn in *. econstructor; eauto.
Qed.

Lemma env_on_cells h x kvs cs : env_on h x kvs cs -> forall i a d, In i (spine cs) -> cell h i = Some (a, d) ->
  (exists j, In j (pairs cs) /\ a = enc_cons_ptr j) /\ (d = 0 \/ In d (map enc_cons_ptr (spine cs))).
Proof.
  induction 1 as [|i j k y q kvs cs Ri Rj Ci Cj E IH]; intros i' a d I C; [destruct I|]. cbn [spine pairs] in *.
  destruct I as [<-|I].
  - rewrite Ci in C. injection C as <- <-. split; [exists j; split; auto; left; auto|].
    inversion E; subst; auto. right. cbn. auto.
  - destruct (IH i' a d I C) as [(j'&J&->) D]. split; [exists j'; split; auto; right; auto|]. cbn. tauto.
Qed.

Lemma loc_good w g s j : srel w g s -> lcell w j -> good w (enc_cons_ptr j).
Proof.
  intros SR (l&k&L). destruct (sr_loc _ _ _ SR l j k L) as (R&N&_&o&x&_&C&_).
  apply enc_good; auto; [eapply sr_size; eauto|]. apply cell_range in C. auto.
Qed.

Lemma copy_spine_fail w g s e x f : srel w g s -> erel w e x -> (length e <= f)%nat -> (length (wfl w) < length e)%nat ->
  env_copy_spine f (wh w) x = Ok (wh w, MERROR).
Proof.
  intros SR ER F FL. destruct (erel_env_on w g s e x SR ER) as (kvs&cs&EO&LK&D&F2).
  unfold env_copy_spine.
  pose proof (env_on_list _ _ _ _ EO) as LO. destruct (env_on_spine_len _ _ _ _ EO) as (LS&LP).
  rewrite (list_length_ok _ _ _ _ f LO) by (rewrite map_length; lia). cbn [bind]. rewrite map_length, LP, LK.
  unfold alloc_list. rewrite Nat2Z.id.
  rewrite (alloc_list_init_fail _ (wfl w)) by (rewrite ?repeat_length; auto; apply (sr_heap _ _ _ SR)).
  cbn [bind]. rewrite Z.eqb_refl. reflexivity.
Qed.

Lemma copy_spine_new w g s e x f : srel w g s -> erel w e x -> (length e <= f)%nat -> (length e <= length (wfl w))%nat ->
  exists w' x', env_copy_spine f (wh w) x = Ok (wh w', x') /\ srel w' g s /\ hext w w' /\ wR w' = wR w /\
    erel w' e x' /\ length (wfl w) = (length (wfl w') + length e)%nat.
Proof.
  intros SR ER F FL. destruct (erel_env_on w g s e x SR ER) as (kvs&cs&EO&LK&D&F2).
  unfold env_copy_spine.
  pose proof (env_on_list _ _ _ _ EO) as LO. destruct (env_on_spine_len _ _ _ _ EO) as (LS&LP).
  rewrite (list_length_ok _ _ _ _ f LO) by (rewrite map_length; lia). cbn [bind]. rewrite map_length, LP, LK.
  unfold alloc_list. rewrite Nat2Z.id.
  destruct e as [|kl e0] eqn:EE.
  - cbn [length repeat]. unfold alloc_list_init. cbn [length]. change (Z.of_nat 0 =? 0) with true. cbn [bind].
    apply erel_nil_inv in ER. subst x.
    destruct (Z.eqb_spec NIL MERROR) as [X|_]; [exfalso; apply MERROR_nonzero; rewrite <- X; apply NIL_0|].
    exists w, NIL. rewrite NIL_0. split; [destruct f; cbn [spine_loop]; rewrite type_zero; reflexivity|].
    sp; auto using hext_refl, er_nil.
  - rewrite <- EE in *. assert (P : (0 < length e)%nat) by (subst e; cbn; lia). clear EE kl e0.
    pose proof (sr_heap _ _ _ SR) as OK.
    destruct (alloc_list_init_ok (wh w) (wfl w) (repeat NIL (length e)) OK) as (h1&v1&E1&OK1&L1&V1&SB1&SZ1&CC1&_).
    { apply repeat_nonempty; auto. } { rewrite repeat_length; auto. }
    rewrite repeat_length in *. rewrite E1. cbn [bind].
    assert (R : forall i, In i (wfl w) -> 0 <= i < 2 ^ (W - 8)).
    { pose proof (chain_range _ _ _ (ok_chain _ _ OK)) as R. rewrite Forall_forall in R. intros i I.
      pose proof (ok_size _ _ OK). specialize (R i I). lia. }
    assert (exists i, 0 <= i < 2 ^ (W - 8) /\ v1 = enc_cons_ptr i) as (i&Ri&Ei).
    { destruct (wfl w) as [|i fl']; [cbn in FL; lia|]. exists i. split; [apply R; cbn; auto|]. rewrite V1. reflexivity. }
    destruct (Z.eqb_spec v1 MERROR) as [X|_]; [exfalso; eapply enc_not_ME; [exact Ri|congruence]|].
    assert (E' : env_on h1 x kvs cs).
    { eapply env_on_frame; eauto. intros c C. apply SB1. intros I. apply In_firstn in I. eapply D; eauto. }
    assert (LF : length (firstn (length e) (wfl w)) = length kvs) by (rewrite firstn_length; lia).
    destruct (spine_loop_ok kvs h1 x cs v1 _ _ f E' L1 LF) as (h2&cs'&R2&EE&ET&SP&PP&SB&SZ&CC&FLq&NA); auto; try lia.
    { apply NoDup_firstn, (ok_nodup _ _ OK). }
    { intros c C. apply In_firstn in C. split; auto. intros I. eapply D; eauto. }
    rewrite R2. cbn [bind].
    destruct (alloc_many w g s h2 (firstn (length e) (wfl w)) (skipn (length e) (wfl w)) SR) as (SR'&HX&LV); auto; try congruence.
    { symmetry. apply firstn_skipn. }
    { destruct OK1 as [O1 O2 O3 O4]. constructor; auto.
      - rewrite SZ; auto.
      - rewrite FLq. eapply chain_frame; eauto. intros c C. apply SB. intros I.
        eapply (NoDup_split (wfl w) (length e) c); eauto. apply (ok_nodup _ _ OK).
      - rewrite NA, SZ; auto. }
    { eapply same_but_trans; eauto. }
    { eapply same_gc_trans; [eapply alloc_list_init_gc; eauto|eapply spine_loop_gc; eauto]. }
    { intros c a d I C. rewrite <- SP in I |- *. destruct (env_on_cells _ _ _ _ ET c a d I C) as [(j&J&->) D2]. split.
      - left. rewrite PP in J. clear -F2 J SR. induction F2 as [|kl j' l l' E F2 IH]; [destruct J|]. destruct J as [->|J]; auto.
        eapply loc_good; eauto. exists (snd kl), (fst kl). auto.
      - destruct D2 as [->|]; auto using nil_good. }
    eexists (mkW h2 _ (wL w) (wR w)), v1. split; [reflexivity|]. sp; eauto.
    + eapply env_on_erel; eauto; cbn [wL wh].
      * rewrite SP. intros j J. apply LV; auto.
      * rewrite PP. auto.
    + cbn. rewrite skipn_length. lia.
Qed.

End Arch.
