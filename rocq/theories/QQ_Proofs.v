(* The expansion of quasi-quoted forms on trees, and that it evaluates to what
   the specification says. *)
From Verif Require Import Base Value_Model Heap_Model Value_Proofs Value_Proofs2 Heap_Spec Heap_Proofs
  Match_Model QQ_Model QQ_Spec.
Local Open Scope Z_scope.

Section Arch.
Context {A : Arch}.

(* 4781-4787 quote_it *)
Definition quote_t (t : tree) : tree :=
  match t with At a => if is_symbol a && is_special a then At a else quote t | _ => quote t end.

(* the list of a quoted list *)
Definition qlist (t : tree) : option tree :=
  match t with
  | Nd (At q) (Nd (Nd a d) _) => if q =? QUOTE then Some (Nd a d) else None
  | _ => None
  end.

Definition is_tnil (t : tree) : bool := match t with At v => v =? 0 | _ => false end.

(* 4795-4829 append *)
Definition append_t (f b : tree) : option tree :=
  if is_tnil f then Some b
  else if is_tnil b then Some f
  else match qlist f, qlist b with
  | Some x, Some y => Some (quote (onto (elems x) y))
  | _, _ =>
    match b with
    | Nd (At c) d =>
      if c =? APPEND then
        match d with
        | Nd q rest =>
          match qlist f, qlist q, q with
          | Some x, Some y, Nd q0 (Nd _ r0) =>
            Some (Nd (At c) (Nd (Nd q0 (Nd (onto (elems x) y) r0)) rest))
          | _, _, _ => Some (Nd (At APPEND) (Nd f d))
          end
        | At v => if v =? 0 then Some (Nd (At APPEND) (Nd f d)) else None
        end
      else Some (append_form [f; b])
    | _ => Some (append_form [f; b])
    end
  end.

Definition car_t (t : tree) : option tree := match t with Nd a _ => Some a | At v => if v =? 0 then Some t else None end.

Definition obind {X Y} (o : option X) (k : X -> option Y) : option Y :=
  match o with Some x => k x | None => None end.

(* what the continuations QQ_EXPAND and QQ_EXPAND_LIST compute when r is nil *)
Fixpoint expand_t (t : tree) : option tree :=
  match t with
  | At _ => Some (quote_t t)
  | Nd a d =>
    let pair := obind (expand_list_t a) (fun x => obind (expand_t d) (append_t x)) in
    match a with
    | At c => if c =? COMMA then car_t d else if c =? COMMAAT then None else pair
    | _ => pair
    end
  end
with expand_list_t (t : tree) : option tree :=
  match t with
  | At _ => Some (quote (of_list [t]))
  | Nd a d =>
    let pair := obind (obind (expand_list_t a) (fun x => obind (expand_t d) (append_t x)))
                  (fun x => Some (list_form x)) in
    match a with
    | At c => if c =? COMMA then obind (car_t d) (fun e => Some (list_form e))
              else if c =? COMMAAT then car_t d else pair
    | _ => pair
    end
  end.

(* ---- trees ---- *)

Lemma onto_app xs ys t : onto (xs ++ ys) t = onto xs (onto ys t).
Proof. induction xs; simpl; congruence. Qed.

Lemma elems_onto xs t : elems (onto xs t) = xs ++ elems t.
Proof. induction xs; simpl; congruence. Qed.

Lemma elems_of_list xs : elems (of_list xs) = xs.
Proof. unfold of_list. rewrite elems_onto. apply app_nil_r. Qed.

Lemma listp_of_list xs : listp (of_list xs) = true.
Proof. destruct xs; reflexivity. Qed.

Lemma of_list_nil xs : of_list xs = At 0 -> xs = [].
Proof. destruct xs; [auto|discriminate]. Qed.

Lemma of_list_inj xs ys : of_list xs = of_list ys -> xs = ys.
Proof. intros E. rewrite <- (elems_of_list xs), E. apply elems_of_list. Qed.

Lemma append_value_front xs vs v : append_value vs = Some v ->
  append_value (of_list xs :: vs) = Some (onto xs v).
Proof.
  intros E. destruct vs as [|w r].
  - injection E as <-. cbn [append_value]. rewrite listp_of_list. reflexivity.
  - unfold append_value at 1. cbn [append_to]. rewrite listp_of_list, elems_of_list.
    destruct r as [|w' r]; [cbn [append_value append_to] in *|].
    + destruct (listp w); [|discriminate]. injection E as ->. reflexivity.
    + unfold append_value in E. rewrite E. reflexivity.
Qed.

Lemma append_value_more xs a e vs v : append_value (Nd a e :: vs) = Some v ->
  append_value (onto xs (Nd a e) :: vs) = Some (onto xs v).
Proof.
  assert (L : listp (onto xs (Nd a e)) = true) by (destruct xs; reflexivity).
  intros E. destruct vs as [|w r].
  - cbn [append_value] in *. rewrite L. cbn [listp] in E. injection E as <-. reflexivity.
  - unfold append_value in *. cbn [append_to listp] in *. rewrite L.
    destruct (append_to w r); [|discriminate]. injection E as <-.
    rewrite elems_onto, onto_app. reflexivity.
Qed.

Lemma tag_range : forall s, 0 <= s < 2 ^ 28 -> 0 <= s < 2 ^ (W - VAL_SHIFT).
Proof. intros s [H0 H1]. split; auto. eapply Z.lt_le_trans; [eauto|]. apply Z.pow_le_mono_r; arch; lia. Qed.

Lemma sym_neq s t : 0 <= s < 2 ^ 28 -> 0 <= t < 2 ^ 28 -> s <> t -> enc_sym s <> enc_sym t.
Proof. intros Hs Ht N E. apply N, enc_sym_inj; auto using tag_range. Qed.

Ltac symne := apply sym_neq; [split; vm_compute; congruence..|vm_compute; congruence].
Lemma append_quote : APPEND <> QUOTE. Proof. symne. Qed.
Lemma list_quote : LIST <> QUOTE. Proof. symne. Qed.
Lemma list_append_ne : LIST <> APPEND. Proof. symne. Qed.
Lemma comma_at : COMMA <> COMMAAT. Proof. symne. Qed.
Lemma quote_ne0 : QUOTE <> 0. Proof. rewrite <- nil_sym. symne. Qed.

Section Ev.
Context {St : Type} (ev : St -> tree -> St -> tree -> Prop).
Hypothesis EV : evaluator ev.

Lemma nil_special : is_symbol 0 = true /\ is_special 0 = true.
Proof. split; arch; reflexivity. Qed.

Lemma ev_tnil s s' v : ev s (At 0) s' v <-> s' = s /\ v = At 0.
Proof. destruct nil_special. apply ev_self; auto. Qed.

Lemma pr_list e : proper_form (list_form e).
Proof. split; intros E; exfalso; [exact (list_quote E)|exact (list_append_ne E)]. Qed.
Lemma pr_quote x : proper_form (quote x).
Proof. split; intros E; [exists x; reflexivity|exfalso; exact (append_quote (eq_sym E))]. Qed.
Lemma pr_append es : Forall proper_quote es -> proper_form (append_form es).
Proof. split; intros E; [exfalso; exact (append_quote E)|eauto]. Qed.
Lemma pr_quote_t t : proper_form (quote_t t).
Proof. destruct t; cbn [quote_t]; [|apply pr_quote]. destruct (_ && _); [split; simpl; auto|apply pr_quote]. Qed.

Lemma qlist_inv t x : qlist t = Some x -> proper_quote t -> t = quote x /\ exists a d, x = Nd a d.
Proof.
  destruct t as [|[q|] [|[|a d] r]]; simpl; try discriminate.
  destruct (Z.eqb_spec q QUOTE); [|discriminate]. intros E P. injection E as <-. subst q.
  destruct (P eq_refl) as [y E]. injection E as <- ->. split; [reflexivity|eauto].
Qed.

Lemma is_tnil_iff t : is_tnil t = true <-> t = At 0.
Proof. destruct t; simpl; [rewrite Z.eqb_eq; intuition congruence|intuition congruence]. Qed.

Lemma ev_two s f s1 u b s2 v : ev s f s1 u -> ev s1 b s2 v -> listp u = true ->
  ev s (append_form [f; b]) s2 (onto (elems u) v).
Proof.
  intros Ef Eb L. apply ev_append; auto. exists [u; v]. split.
  - econstructor; eauto. econstructor; eauto. constructor.
  - cbn [append_value append_to]. rewrite L. reflexivity.
Qed.

Lemma append_t_ev f b s xs s1 v s2 : proper_form f -> proper_form b ->
  ev s f s1 (of_list xs) -> ev s1 b s2 v ->
  exists t, append_t f b = Some t /\ proper_form t /\ ev s t s2 (onto xs v).
Proof.
  intros Pf Pb Ef Eb. unfold append_t.
  destruct (is_tnil f) eqn:Nf.
  { apply is_tnil_iff in Nf. subst f. apply ev_tnil in Ef. destruct Ef as [-> E]. apply of_list_nil in E. subst xs. eauto. }
  destruct (is_tnil b) eqn:Nb.
  { apply is_tnil_iff in Nb. subst b. apply ev_tnil in Eb. destruct Eb as [-> ->]. exists f. auto. }
  assert (D : exists t, Some (append_form [f; b]) = Some t /\ proper_form t /\ ev s t s2 (onto xs v)).
  { eexists. split; [reflexivity|]. split; [apply pr_append; constructor; [apply Pf|constructor; [apply Pb|constructor]]|].
    rewrite <- (elems_of_list xs). eapply ev_two; eauto using listp_of_list. }
  assert (Ap : forall es, b = append_form es ->
    exists t, Some (append_form (f :: es)) = Some t /\ proper_form t /\ ev s t s2 (onto xs v)).
  { intros es ->. eexists. split; [reflexivity|].
    destruct (proj2 Pb eq_refl) as (es' & E' & Fe). apply of_list_inj in E'. subst es'.
    split; [apply pr_append; constructor; [apply Pf|auto]|].
    apply ev_append in Eb; auto. destruct Eb as (vs & Es & V). apply ev_append; auto.
    exists (of_list xs :: vs). split; [econstructor; eauto|]. apply append_value_front; auto. }
  assert (G : exists t, match b with
    | Nd (At c) d =>
      if c =? APPEND then
        match d with
        | Nd q rest =>
          match qlist f, qlist q, q with
          | Some x, Some y, Nd q0 (Nd _ r0) =>
            Some (Nd (At c) (Nd (Nd q0 (Nd (onto (elems x) y) r0)) rest))
          | _, _, _ => Some (Nd (At APPEND) (Nd f d))
          end
        | At v => if v =? 0 then Some (Nd (At APPEND) (Nd f d)) else None
        end
      else Some (append_form [f; b])
    | _ => Some (append_form [f; b])
    end = Some t /\ proper_form t /\ ev s t s2 (onto xs v)).
  { destruct b as [|[c|] d]; auto. destruct (Z.eqb_spec c APPEND); auto. subst c.
    destruct (proj2 Pb eq_refl) as (es & -> & Fe). destruct es as [|q rest].
    { cbn [of_list onto tnil Z.eqb]. destruct (Ap [] eq_refl) as (t & T). exists t. exact T. }
    cbn [of_list onto].
    destruct (qlist f) as [x|] eqn:Qf; [|destruct (Ap (q :: rest) eq_refl) as (t & T); exists t; exact T].
    destruct (qlist q) as [y|] eqn:Qq; [|destruct (Ap (q :: rest) eq_refl) as (t & T); exists t; exact T].
    inversion Fe as [|? ? Pq Fr]; subst.
    destruct (qlist_inv _ _ Qq Pq) as (-> & a & e & ->).
    destruct (qlist_inv _ _ Qf (proj1 Pf)) as (-> & xa & xd & ->).
    apply ev_quote in Ef; auto. destruct Ef as [-> Ex].
    exists (append_form (quote (onto xs (Nd a e)) :: rest)). split.
    { rewrite <- Ex, elems_of_list. reflexivity. }
    split; [apply pr_append; constructor; [apply pr_quote|auto]|].
    apply ev_append in Eb; auto. destruct Eb as (vs & Es & V). inversion Es as [|? ? s1' w ? ? vs' Eq Er]; subst.
    apply ev_quote in Eq; auto. destruct Eq as [-> ->].
    apply ev_append; auto. exists (onto xs (Nd a e) :: vs'). split; [|apply append_value_more; auto].
    econstructor; eauto. apply ev_quote; auto. }
  destruct (qlist f) as [x|] eqn:Qf; [|exact G].
  destruct (qlist b) as [y|] eqn:Qb; [|exact G].
  destruct (qlist_inv _ _ Qf (proj1 Pf)) as (-> & xa & xd & ->).
  destruct (qlist_inv _ _ Qb (proj1 Pb)) as (-> & ya & yd & ->).
  apply ev_quote in Ef; auto. apply ev_quote in Eb; auto. destruct Ef as [-> Ex], Eb as [-> ->].
  eexists. split; [reflexivity|]. split; [apply pr_quote|]. apply ev_quote; auto. split; auto.
  rewrite <- Ex, elems_of_list. reflexivity.
Qed.

Scheme qq_ind2 := Induction for qq Sort Prop with qq_elem_ind2 := Induction for qq_elem Sort Prop.
Combined Scheme qq_both from qq_ind2, qq_elem_ind2.

Lemma pair_t a d s s1 xs s2 v :
  (exists x, expand_list_t a = Some x /\ proper_form x /\ ev s x s1 (of_list xs)) ->
  (exists t, expand_t d = Some t /\ proper_form t /\ ev s1 t s2 v) ->
  exists t, obind (expand_list_t a) (fun x => obind (expand_t d) (append_t x)) = Some t /\
    proper_form t /\ ev s t s2 (onto xs v).
Proof.
  intros (x & -> & Px & Ex) (y & -> & Py & Ey). cbn [obind]. eapply append_t_ev; eauto.
Qed.

Lemma expand_untagged a d : ~ is_tag a ->
  expand_t (Nd a d) = obind (expand_list_t a) (fun x => obind (expand_t d) (append_t x)) /\
  expand_list_t (Nd a d) = obind (expand_t (Nd a d)) (fun x => Some (list_form x)).
Proof.
  intros N. destruct a as [c|]; cbn [expand_t expand_list_t]; auto.
  destruct (Z.eqb_spec c COMMA); [exfalso; apply N; left; congruence|].
  destruct (Z.eqb_spec c COMMAAT); [exfalso; apply N; right; congruence|]. auto.
Qed.

Lemma expand_ev :
  (forall s t s' v, qq ev s t s' v -> exists e, expand_t t = Some e /\ proper_form e /\ ev s e s' v) /\
  (forall s t s' xs, qq_elem ev s t s' xs ->
     exists e, expand_list_t t = Some e /\ proper_form e /\ ev s e s' (of_list xs)).
Proof.
  apply qq_both.
  - intros s e s' v P E. exists e. cbn [expand_t unquote of_list onto]. rewrite Z.eqb_refl. auto.
  - intros s a. exists (quote_t (At a)). split; [reflexivity|]. split; [apply pr_quote_t|].
    cbn [quote_t]. destruct (is_symbol a) eqn:Sy, (is_special a) eqn:Sp; cbn [andb];
      try (apply ev_quote; auto; fail). apply ev_self; auto.
  - intros s a d s1 xs s2 v U _ IHa _ IHd. rewrite (proj1 (expand_untagged a d U)). eapply pair_t; eauto.
  - intros s e s' v E. exists (list_form e). cbn [expand_list_t unquote of_list onto]. rewrite Z.eqb_refl.
    split; [reflexivity|]. split; [apply pr_list|]. apply ev_list; auto. exists v; auto.
  - intros s e s' xs P E. exists e. cbn [expand_list_t splice of_list onto].
    destruct (Z.eqb_spec COMMAAT COMMA) as [E'|]; [exfalso; exact (comma_at (eq_sym E'))|].
    rewrite Z.eqb_refl. auto.
  - intros s t s' v U Q (e & E & P & V). destruct t as [a|a d].
    + exists (quote (of_list [At a])). split; [reflexivity|]. split; [apply pr_quote|].
      inversion Q; subst. apply ev_quote; auto.
    + rewrite (proj2 (expand_untagged a d U)), E. cbn [obind]. eexists. split; [reflexivity|].
      split; [apply pr_list|]. apply ev_list; auto. exists v; auto.
Qed.

End Ev.
End Arch.
