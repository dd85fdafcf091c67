(* C47: quasi-quotation. *)
From Verif Require Import Base Value_Model Heap_Model Value_Proofs Value_Proofs2 Heap_Spec Heap_Proofs
  Heap_Proofs2 List_Proofs Env_Proofs Match_Model QQ_Model QQ_Spec QQ_Proofs QQ_Proofs2 QQ_Proofs3.
Local Open Scope Z_scope.

Section Arch.
Context {A : Arch}.

Lemma append_t_some f b : proper_form f -> proper_form b -> exists t, append_t f b = Some t /\ proper_form t.
Proof.
  intros Pf Pb. unfold append_t.
  destruct (is_tnil f); [eauto|]. destruct (is_tnil b); [eauto|].
  assert (D : exists t, Some (append_form [f; b]) = Some t /\ proper_form t).
  { eexists; split; [reflexivity|]. apply pr_append. constructor; [apply Pf|constructor; [apply Pb|constructor]]. }
  assert (G : exists t, match b with
    | Nd (At c) d =>
      if c =? APPEND then
        match d with
        | Nd q rest =>
          match qlist f, qlist q, q with
          | Some x, Some y, Nd q0 (Nd _ r0) =>
            Some (Nd (At c) (Nd (Nd q0 (Nd (onto (elems x) y) r0)) rest))
          | _, _, _ => Some (Nd (At APPEND) (Nd f d))
          end
        | At v => if v =? 0 then Some (Nd (At APPEND) (Nd f d)) else None
        end
      else Some (append_form [f; b])
    | _ => Some (append_form [f; b])
    end = Some t /\ proper_form t).
  { destruct b as [|[c|] d]; auto. destruct (Z.eqb_spec c APPEND); auto. subst c.
    destruct (proj2 Pb eq_refl) as (es & -> & Fe).
    assert (N : exists t, Some (Nd (At APPEND) (Nd f (of_list es))) = Some t /\ proper_form t).
    { eexists; split; [reflexivity|]. apply (pr_append (f :: es)). constructor; [apply Pf|auto]. }
    destruct es as [|q rest]; [exact N|]. cbn [of_list onto].
    destruct (qlist f) as [x|]; [|exact N]. destruct (qlist q) as [y|] eqn:Qq; [|exact N].
    inversion Fe as [|? ? Pq Fr]; subst. destruct (qlist_inv _ _ Qq Pq) as (-> & a & e & ->).
    eexists; split; [reflexivity|]. apply (pr_append (quote (onto (elems x) (Nd a e)) :: rest)).
    constructor; [apply pr_quote|auto]. }
  destruct (qlist f); [|exact G]. destruct (qlist b); [|exact G]. eexists; split; [reflexivity|]. apply pr_quote.
Qed.

Scheme template_ind2 := Induction for template Sort Prop with template_elem_ind2 := Induction for template_elem Sort Prop.
Combined Scheme template_both from template_ind2, template_elem_ind2.

Lemma expand_some : (forall t, template t -> exists e, expand_t t = Some e /\ proper_form e) /\
  (forall t, template_elem t -> exists e, expand_list_t t = Some e /\ proper_form e).
Proof.
  apply template_both.
  - intros e P. exists e. cbn [expand_t unquote of_list onto]. rewrite Z.eqb_refl. auto.
  - intros a. exists (quote_t (At a)). split; [reflexivity|]. apply pr_quote_t.
  - intros a d U _ (x & Ex & Px) _ (y & Ey & Py). rewrite (proj1 (expand_untagged a d U)), Ex, Ey. cbn [obind].
    apply append_t_some; auto.
  - intros e. exists (list_form e). cbn [expand_list_t unquote of_list onto]. rewrite Z.eqb_refl.
    split; [reflexivity|]. apply pr_list.
  - intros e P. exists e. cbn [expand_list_t splice of_list onto].
    destruct (Z.eqb_spec COMMAAT COMMA) as [E'|]; [exfalso; exact (comma_at (eq_sym E'))|].
    rewrite Z.eqb_refl. auto.
  - intros t U Q (e & E & P). destruct t as [a|a d].
    + exists (quote (of_list [At a])). split; [reflexivity|]. apply pr_quote.
    + rewrite (proj2 (expand_untagged a d U)), E. cbn [obind]. eexists. split; [reflexivity|]. apply pr_list.
Qed.

Lemma start_run f h v : reaches f h [FStart] v h [FExpand v] NIL.
Proof. apply reaches_step. reflexivity. Qed.

(* C47: the reader turns a quasi-quoted form, given six free cells for each of
   its cells and leaves, into an expression; whatever the evaluator, the value
   of that expression is the form with the unquoted expressions replaced by
   their values and the spliced ones by the elements of theirs.  The cells
   outside the form that are in use are left as they are. *)
Theorem qq_correct h fl v t c f : heap_ok h fl -> tree_at h v t c -> (forall i, In i c -> ~ In i fl) ->
  template t -> (6 * size t <= length fl)%nat -> (Z.to_nat (hsize h) <= f)%nat ->
  exists n h' r e c', (forall m, qq_expand (n + m) f h v = Ok (Some (h', r))) /\ tree_at h' r e c' /\
    (forall St (ev : St -> tree -> St -> tree -> Prop), evaluator ev ->
       forall s s' x, qq ev s t s' x -> ev s e s' x) /\
    (forall i, ~ In i c -> ~ In i fl -> cell h' i = cell h i).
Proof.
  intros OK T D Te L F. destruct (proj1 expand_some t Te) as (e & Ee & _).
  destruct (proj1 (expand_run t) h fl v c NIL tnil [] e e f []) as (h' & r & fl' & c' & [n R] & T' & S');
    auto using tree_tnil, disj_nil, disj_nil_r.
  exists (S n), h', r, e, c'. split; [|split; [auto|split]].
  - intros m. unfold qq_expand. cbn [Nat.add qq_run]. cbn [qq_step bind]. rewrite R. destruct m; reflexivity.
  - intros St ev EV s s' x Q. destruct (proj1 (expand_ev ev EV) s t s' x Q) as (e' & E' & _ & V). congruence.
  - destruct S' as (u & -> & _ & _ & _ & Sm & _). intros i I1 I2. apply Sm. rewrite !in_app_iff. intros [[I|[]]|I]; auto.
    apply I2, in_or_app; auto.
Qed.

(* forms without specification are not templates: a spliced expression that is
   not an element of a list is an error *)
Theorem qq_splice_error h v e c f m : tree_at h v (splice e) c -> qq_expand (2 + m) f h v = Ok None.
Proof.
  intros T. unfold qq_expand. cbn [Nat.add qq_run]. cbn [qq_step bind]. cbn [qq_run].
  inversion T as [|i va vd ? ? ca cd R C Ta Td N]; subst. cbn [qq_step].
  rewrite enc_type, (get_car_enc _ _ _ _ R C), (get_cdr_enc _ _ _ _ R C) by auto. cbn [bind].
  unfold COMMA, COMMAAT. rewrite !type_and, !(tree_head _ _ _ _ _ Ta).
  destruct (Z.eqb_spec COMMAAT (enc_sym SYM_COMMA)) as [E'|]; [exfalso; exact (comma_at (eq_sym E'))|].
  fold COMMAAT. rewrite Z.eqb_refl. reflexivity.
Qed.

(* ---- a case ---- *)

(* an evaluator with a counter: the expression tick gives the counter's value
   and increments it *)
Definition TICK : Z := enc_sym 0x40001.
Definition SYM_A : Z := enc_sym 0x40002.
Inductive ev1 : Z -> tree -> Z -> tree -> Prop :=
| e_quote s x : ev1 s (quote x) s x
| e_self s a : is_symbol a = true -> is_special a = true -> ev1 s (At a) s (At a)
| e_tick s : ev1 s (At TICK) (s + 1) (At (enc_i s))
| e_list s e s' w : ev1 s e s' w -> ev1 s (list_form e) s' (of_list [w])
| e_append s es s' vs v : evs ev1 s es s' vs -> append_value vs = Some v -> ev1 s (append_form es) s' v.

Lemma tick_not_special : is_special TICK = false.
Proof.
  unfold is_special, TICK. apply andb_false_intro2. apply Z.ltb_ge.
  arch; vm_compute; congruence.
Qed.

Lemma ev1_evaluator : evaluator ev1.
Proof.
  pose proof append_quote as N1. pose proof list_quote as N2. pose proof list_append_ne as N3.
  split.
  - intros s x s' v. split; [|intros [-> ->]; constructor]. intros E.
    inversion E; subst; auto; try (exfalso; congruence).
  - intros s a s' v Sy Sp. split; [|intros [-> ->]; constructor; auto]. intros E.
    inversion E; subst; auto. rewrite tick_not_special in Sp. discriminate.
  - intros s e s' v. split; [|intros (w & E & ->); constructor; auto]. intros E.
    inversion E; subst; eauto; try (exfalso; congruence).
  - intros s es s' v. split; [|intros (vs & E & V); econstructor; eauto]. intros E.
    inversion E as [| | |? e ? w E1 E2|? es' ? vs ? E1 E2 E3]; subst; try (exfalso; congruence).
    unfold append_form in *. match goal with H : of_list _ = of_list _ |- _ => apply of_list_inj in H; subst end. eauto.
Qed.

(* `(a ,tick (b ,@(append (list tick) '(c))) . ,tick) *)
Definition tmpl : tree :=
  onto [At SYM_A; unquote (At TICK);
        of_list [At (enc_i 7); splice (append_form [list_form (At TICK); quote (of_list [At SYM_A])])]]
    (unquote (At TICK)).
(* its value when the counter is 0 *)
Definition tmpl_value : tree :=
  onto [At SYM_A; At (enc_i 0); of_list [At (enc_i 7); At (enc_i 1); At SYM_A]] (At (enc_i 2)).

Definition words_ok (t : tree) : Prop :=
  (fix go t := match t with At v => word v /\ is_cons v = false | Nd a d => go a /\ go d end) t.

(* every tree can be built in a heap with enough free cells *)
Lemma build t : words_ok t -> forall h fl, heap_ok h fl -> (size t <= length fl)%nat ->
  exists h' v fl' c, tree_at h' v t c /\ step (size t) h fl [] h' fl' c.
Proof.
  induction t as [q|a IHa d IHd]; intros Wt h fl OK L.
  - destruct Wt as [Wq Cq]. exists h, q, fl, []. split; [constructor; auto|]. apply step_refl; auto. apply incl_refl.
  - destruct Wt as [Wa Wd]. cbn [size] in *.
    destruct (IHa Wa h fl OK) as (h1 & va & fl1 & ca & Ta & Sa); [lia|].
    pose proof (step_len _ _ _ _ _ _ _ Sa) as La. pose proof (step_ok _ _ _ _ _ _ _ Sa) as OKa.
    pose proof (step_disj _ _ _ _ _ _ _ Sa (ok_nodup _ _ OK) (disj_nil _)) as Da.
    destruct (IHd Wd h1 fl1 OKa) as (h2 & vd & fl2 & cd & Td & Sd); [lia|].
    pose proof (step_len _ _ _ _ _ _ _ Sd) as Ld. pose proof (step_ok _ _ _ _ _ _ _ Sd) as OKd.
    pose proof (step_disj _ _ _ _ _ _ _ Sd (ok_nodup _ _ OKa) (disj_nil _)) as Dd.
    destruct (step_frame _ _ _ _ _ _ _ _ _ _ Sd Ta (disj_nil_r _) Da) as (Ta2 & Dad & Da2).
    destruct (consg_ok h2 fl2 va a ca vd d cd OKd) as (h3 & v & fl3 & c & _ & Tc & Sc); auto;
      [destruct fl2; simpl in *; [lia|congruence]|].
    exists h3, v, fl3, c. split; auto.
    assert (S2 : step (size a + size d) h fl ([] ++ []) h2 fl2 (ca ++ cd)).
    { destruct Sa as (u & -> & L1 & _ & I1 & M1 & Z1). destruct Sd as (u' & -> & L2 & O2 & I2 & M2 & Z2).
      exists (u ++ u'). cbn [app] in *. repeat match goal with |- _ /\ _ => split end; auto; try congruence.
      - rewrite <- app_assoc. reflexivity.
      - rewrite app_length. lia.
      - intros x I. apply in_app_or in I. apply in_or_app. destruct I; auto.
      - eapply same_but_trans; [eapply same_but_incl; [|exact M1]|eapply same_but_incl; [|exact M2]].
        + apply incl_appl, incl_refl.
        + apply incl_appr, incl_refl. }
    pose proof (step_trans _ _ _ _ _ _ _ _ _ _ _ _ [] S2 Sc) as S3. rewrite app_nil_r in S3.
    eapply step_weaken; [apply S3; apply incl_refl|lia|]. intros x [].
Qed.

Lemma tmpl_template : template tmpl.
Proof.
  pose proof append_quote as N1. pose proof list_quote as N2. pose proof list_append_ne as N3.
  unfold tmpl. cbn [onto].
  assert (NA : forall s, 0x74 < s < 2 ^ 28 -> ~ is_tag (At (enc_sym s))).
  { intros s Hs [E|E]; injection E as E; revert E; apply sym_neq; unfold SYM_COMMA, SYM_COMMAAT; lia. }
  assert (NI : ~ is_tag (At (enc_i 7))).
  { intros [E|E]; injection E as E; revert E; clear; arch; discriminate. }
  apply te_pair; [apply NA; lia|apply tl_other; [exact I|constructor]|].
  apply te_pair; [intros [E|E]; discriminate|constructor|].
  apply te_pair; [intros [E|E]; discriminate| |].
  - apply tl_other; [exact NI|]. unfold of_list. cbn [onto].
    apply te_pair; [exact NI|apply tl_other; [exact I|constructor]|].
    apply te_pair; [intros [E|E]; discriminate| |constructor].
    apply tl_splice. apply pr_append. constructor; [apply pr_list|constructor; [apply pr_quote|constructor]].
  - constructor. split; exact I.
Qed.

Lemma tmpl_qq : qq ev1 0 tmpl 3 tmpl_value.
Proof.
  assert (NA : ~ is_tag (At SYM_A)).
  { intros [E|E]; injection E as E; revert E; apply sym_neq; unfold SYM_COMMA, SYM_COMMAAT; lia. }
  assert (NI : ~ is_tag (At (enc_i 7))).
  { intros [E|E]; injection E as E; revert E; clear; arch; discriminate. }
  unfold tmpl, tmpl_value. cbn [onto].
  apply (qq_pair ev1 0 _ _ 0 [_] 3 _); [exact NA|apply qe_other; [exact I|constructor]|].
  apply (qq_pair ev1 0 _ _ 1 [_] 3 _); [intros [E|E]; discriminate|apply qe_unquote; apply (e_tick 0)|].
  apply (qq_pair ev1 1 _ _ 2 [_] 3 _); [intros [E|E]; discriminate| |].
  - apply qe_other; [exact NI|]. unfold of_list. cbn [onto].
    apply (qq_pair ev1 1 _ _ 1 [_] 2 _); [exact NI|apply qe_other; [exact I|constructor]|].
    apply (qq_pair ev1 1 _ _ 2 [_; _] 2 tnil); [intros [E|E]; discriminate| |constructor].
    apply qe_splice.
    + apply pr_append. constructor; [apply pr_list|constructor; [apply pr_quote|constructor]].
    + apply e_append with (vs := [of_list [At (enc_i 1)]; of_list [At SYM_A]]); [|reflexivity].
      apply evs_cons with (s1 := 2); [apply e_list; apply (e_tick 1)|].
      apply evs_cons with (s1 := 2); [apply e_quote|constructor].
  - apply qq_unquote; [split; exact I|]. apply (e_tick 2).
Qed.

Example qq_case : exists h fl v c, heap_ok h fl /\ tree_at h v tmpl c /\ (forall i, In i c -> ~ In i fl) /\
  template tmpl /\ (6 * size tmpl <= length fl)%nat /\ evaluator ev1 /\ qq ev1 0 tmpl 3 tmpl_value.
Proof.
  assert (Ws : forall s, word (enc_sym s) /\ is_cons (enc_sym s) = false) by auto using enc_sym_word, cons_sym.
  assert (Wi : word (enc_i 7) /\ is_cons (enc_i 7) = false).
  { clear. unfold word. arch; (split; [split; [discriminate|reflexivity]|reflexivity]). }
  assert (Wt : words_ok tmpl).
  { unfold words_ok, tmpl, unquote, splice, append_form, list_form, quote, of_list. cbn [onto].
    unfold tnil. pose proof (Ws SYM_NIL) as W0. rewrite nil_sym in W0. repeat split; try apply Ws; try apply Wi; try apply W0. }
  destruct (heap_init_ok 300 10) as (h0 & _ & OK0 & _).
  { split; [lia|]. apply Z.le_trans with (2 ^ 20); [vm_compute; discriminate|]. apply Z.pow_le_mono_r; [lia|]. clear; arch; lia. }
  assert (L0 : length (zseq 300) = 300%nat) by reflexivity.
  destruct (build tmpl Wt h0 (zseq 300) OK0) as (h & v & fl & c & T & S).
  { rewrite L0. vm_compute. lia. }
  pose proof (step_disj _ _ _ _ _ _ _ S (ok_nodup _ _ OK0) (disj_nil _)) as D.
  pose proof (step_len _ _ _ _ _ _ _ S) as L. rewrite L0 in L.
  exists h, fl, v, c. split; [exact (step_ok _ _ _ _ _ _ _ S)|]. split; [auto|]. split; [intros i I J; exact (D i I J)|].
  split; [apply tmpl_template|]. split; [|split; [apply ev1_evaluator|apply tmpl_qq]].
  assert (size tmpl <= 42)%nat by (vm_compute; lia). lia.
Qed.
End Arch.

Print Assumptions qq_correct.
Print Assumptions qq_splice_error.
