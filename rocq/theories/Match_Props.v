(* C24, C25: pattern matching and selective receive. *)
From Verif Require Import Base Value_Model Heap_Model Value_Proofs Value_Proofs2 Heap_Spec Heap_Proofs List_Proofs
  Heap_Proofs2 Env_Model Env_Proofs Env_Props Eq_Model Eq_Spec Eq_Props Set_Props Seg_Proofs Heap_Props Match_Model.
From Verif Require Import Sched_Model Sched_Spec Sched_Proofs.
Local Open Scope Z_scope.

Section Spec.

(* a pattern of the form (? v ..), v not nil *)
Definition binder (p : tree) : option tree :=
  match p with
  | Pair (Leaf KSym n) (Pair v _) =>
    if n =? SYM_MATCH_ANY then match v with Leaf KSym m => if m =? 0 then None else Some v | _ => Some v end else None
  | _ => None
  end.

Definition both_pairs (p e : tree) : Prop := match p, e with Pair _ _, Pair _ _ => True | _, _ => False end.

(* [inst p e bs]: the value [e] is an instance of the pattern [p], with the
   variables bound as [bs] says, from left to right *)
Inductive inst : tree -> tree -> list (tree * tree) -> Prop :=
| inst_var p v e : binder p = Some v -> inst p e [(v, e)]
| inst_wild e : inst (Leaf KSym SYM_DONTCARE) e []
| inst_pair p1 p2 e1 e2 b1 b2 : binder (Pair p1 p2) = None -> inst p1 e1 b1 -> inst p2 e2 b2 -> inst (Pair p1 p2) (Pair e1 e2) (b1 ++ b2)
| inst_same p e : binder p = None -> ~ both_pairs p e -> same p e -> inst p e [].

(* number of variables *)
Fixpoint nbind (p : tree) : nat :=
  match binder p with
  | Some _ => 1
  | None => match p with Pair a d => nbind a + nbind d | _ => 0 end
  end.

(* the variables *)
Fixpoint vars (p : tree) : list tree :=
  match binder p with
  | Some v => [v]
  | None => match p with Pair a d => vars a ++ vars d | _ => [] end
  end.

(* [i] is the position of the first element with the property *)
Definition first {T} (P : T -> Prop) (l : list T) (i : nat) : Prop :=
  (exists x, nth_error l i = Some x /\ P x) /\ forall k y, (k < i)%nat -> nth_error l k = Some y -> ~ P y.

(* the value matches the case (pattern, body), or one of the cases *)
Definition fits (t : tree) (c : tree * Z) : Prop := exists bs, inst (fst c) t bs.
Definition handled (cases : list (tree * Z)) (t : tree) : Prop := Exists (fits t) cases.

Definition total (cases : list (tree * Z)) : nat := fold_right (fun c n => nbind (fst c) + n)%nat 0%nat cases.

Context {A : Arch}.

(* the pair (key, value) denotes a pair of trees *)
Definition bound (fl : list Z) (h : heap) (kx : Z * Z) (tt : tree * tree) : Prop :=
  den fl h (fst kx) (fst tt) /\ den fl h (snd kx) (snd tt).

(* the key is one of the variables of the pattern *)
Definition keyed (fl : list Z) (h : heap) (p : tree) (kx : Z * Z) : Prop := exists v, In v (vars p) /\ den fl h (fst kx) v.

(* the word [m] is the list (pattern body) *)
Definition case_at (fl : list Z) (h : heap) (m : Z) (c : tree * Z) : Prop :=
  exists p qs, list_on h m [p; snd c] qs /\ used fl qs /\ den fl h p (fst c).

(* the word [v] is the list of the cases *)
Definition cases_at (fl : list Z) (h : heap) (v : Z) (cases : list (tree * Z)) : Prop :=
  exists ms ps, list_on h v ms ps /\ used fl ps /\ Forall2 (case_at fl h) ms cases.

End Spec.

Section Proofs.
Context {A : Arch}.


Lemma den_shape fl h v t s : den fl h v t -> type_of_functional v = shape_tag s -> shape_of t = s.
Proof. intros D E. apply shape_tag_inj. rewrite <- shape_tag_of, <- (den_tag _ _ _ _ D). auto. Qed.

Lemma symbol_den fl h v t : den fl h v t -> is_symbol v = true -> exists n, t = Leaf KSym n /\ v = n * 2 ^ VAL_SHIFT.
Proof.
  intros D S. assert (T : type_of_functional v = shape_tag (ShLeaf KSym)).
  { pose proof (is_symbol_not_ptr _ S) as P. unfold is_ptr in P. apply negb_false_iff in P. unfold type_of_functional. rewrite P.
    unfold is_symbol in S. apply Z.eqb_eq in S. simpl. replace VAL_TYPE_MASK with (Z.land LOW_RESERVED_BITS VAL_TYPE_MASK) by (arch; reflexivity).
    rewrite Z.land_assoc, S. arch; reflexivity. }
  pose proof (den_shape _ _ _ _ _ D T) as E. destruct t as [k n| | |]; try discriminate. injection E as ->.
  exists n. split; auto. inversion D as [v' k n' H _ T' R| | |]; subst. simpl in R. subst n.
  unfold is_symbol in S. rewrite low_bits_f in S. apply Z.eqb_eq in S. unfold dec_sym.
  rewrite Z.shiftr_div_pow2 by (arch; lia). assert (0 < 2 ^ VAL_SHIFT) by (arch; reflexivity).
  pose proof (Z.div_mod v (2 ^ VAL_SHIFT)). lia.
Qed.

Lemma den_symbol fl h v n : den fl h v (Leaf KSym n) -> is_symbol v = true /\ v = n * 2 ^ VAL_SHIFT.
Proof.
  intros D. assert (S : is_symbol v = true) by (inversion D; auto). split; auto.
  destruct (symbol_den _ _ _ _ D S) as (m&[= <-]&E). auto.
Qed.

Lemma cons_den fl h v t : den fl h v t -> (is_cons v = true <-> exists a d, t = Pair a d).
Proof.
  intros D. split.
  - unfold is_cons. rewrite andb_true_iff. intros (P&M). unfold is_ptr in P. apply negb_true_iff in P.
    assert (E : Z.land (type_of_functional v) CONS_TYPE_MASK = TYPE_CONS).
    { unfold type_of_functional. rewrite P, <- Z.land_assoc.
      replace (Z.land (Z.land (wnot PTR_TO_CONSTANT_BIT) PTR_TYPE_MASK) CONS_TYPE_MASK) with CONS_TYPE_MASK by (arch; reflexivity).
      apply Z.eqb_eq; auto. }
    rewrite (den_tag _ _ _ _ D), shape_tag_of in E.
    destruct t as [[] n|a d| |]; eauto; exfalso; revert E; clear; destruct A; vm_compute; discriminate.
  - intros (a&d&->). inversion D as [|v' a' d' ta td P H T R| |]; subst. unfold is_cons. rewrite P. simpl.
    unfold is_ptr in P. apply negb_true_iff in P. unfold type_of_functional in T. rewrite P in T.
    assert (E : Z.land v CONS_TYPE_MASK = Z.land TYPE_CONS CONS_TYPE_MASK).
    { rewrite <- T, <- Z.land_assoc. f_equal. arch; reflexivity. }
    rewrite E. arch; reflexivity.
Qed.

Lemma den_cons fl h v a d : den fl h v (Pair a d) -> exists x y, is_cons v = true /\ ref_cell h v = Ok (x, y) /\ den fl h x a /\ den fl h y d.
Proof. intros D. assert (C : is_cons v = true) by (eapply cons_den; eauto). inversion D; subst. eauto 7. Qed.

Lemma not_cons_den fl h v t : den fl h v t -> is_cons v = false -> forall a d, t <> Pair a d.
Proof. intros D C a d ->. assert (is_cons v = true) by (eapply cons_den; eauto). congruence. Qed.

Lemma sym_inj n m : n * 2 ^ VAL_SHIFT = m * 2 ^ VAL_SHIFT -> n = m.
Proof. intros E. assert (0 < 2 ^ VAL_SHIFT) by (arch; reflexivity). nia. Qed.

Lemma enc_sym_small n : 0 <= n < 256 -> enc_sym n = n * 2 ^ VAL_SHIFT.
Proof. intros R. rewrite enc_sym_f, Z.mod_small; auto. arch; lia. Qed.

Lemma sym_word fl h v t n : 0 <= n < 256 -> den fl h v t -> (v =? enc_sym n) = true <-> t = Leaf KSym n.
Proof.
  intros R D. rewrite Z.eqb_eq. split.
  - intros ->. destruct (symbol_den _ _ _ _ D (enc_sym_is_symbol n)) as (m&->&E). rewrite enc_sym_small in E by auto.
    apply sym_inj in E. congruence.
  - intros ->. apply den_symbol in D as (_&->). rewrite enc_sym_small; auto.
Qed.

Lemma zero_word fl h v t : den fl h v t -> (v =? 0) = true <-> t = Leaf KSym 0.
Proof.
  intros D. pose proof (sym_word _ _ _ _ SYM_NIL ltac:(unfold SYM_NIL; lia) D) as E. rewrite nil_sym in E. exact E.
Qed.

(* get_match_binder_variable *)
Lemma binder_ok fl h p t : den fl h p t -> exists v, binder_var h p = Ok v /\
  match binder t with Some tv => v <> 0 /\ den fl h v tv | None => v = 0 end.
Proof.
  intros D. unfold binder_var. rewrite NIL_0. destruct (is_cons p) eqn:C.
  - apply (cons_den _ _ _ _ D) in C as (a&d&->). destruct (den_cons _ _ _ _ _ D) as (x&y&_&R&Da&Dd). rewrite R. cbn [bind fst snd].
    pose proof (sym_word _ _ _ _ SYM_MATCH_ANY ltac:(unfold SYM_MATCH_ANY; lia) Da) as SW. unfold MATCH_ANY.
    destruct (x =? enc_sym SYM_MATCH_ANY) eqn:E.
    + assert (a = Leaf KSym SYM_MATCH_ANY) by (apply SW; auto). subst a. simpl.
      destruct (is_cons y) eqn:Cy.
      * apply (cons_den _ _ _ _ Dd) in Cy as (a&d'&->). destruct (den_cons _ _ _ _ _ Dd) as (x'&y'&_&R'&Da'&Dd'). rewrite R'. cbn [bind fst].
        exists x'. split; auto. pose proof (zero_word _ _ _ _ Da') as ZW.
        assert (NZ : a <> Leaf KSym 0 -> x' <> 0) by (intros NE ->; apply NE, ZW; reflexivity).
        destruct a as [[] m| | |]; try (split; [apply NZ; congruence|auto]; fail). destruct (Z.eqb_spec m 0) as [->|].
        -- apply Z.eqb_eq. apply ZW; auto.
        -- split; auto. apply NZ. congruence.
      * exists 0. split; auto. destruct d; auto. exfalso. exact (not_cons_den _ _ _ _ Dd Cy _ _ eq_refl).
    + simpl. exists 0. split; auto. destruct a as [[] m| | |]; auto. destruct (Z.eqb_spec m SYM_MATCH_ANY) as [->|]; [|destruct d; auto].
      assert (false = true) by (apply SW; auto). discriminate.
  - exists 0. split; auto. destruct t as [k n|a d| |]; try reflexivity. exfalso. exact (not_cons_den _ _ _ _ D C _ _ eq_refl).
Qed.

Lemma bound_frame l h h' l' w b : only l h h' -> incl l' l -> Forall2 (bound l h) w b -> Forall2 (bound l' h') w b.
Proof. intros O I. induction 1 as [|x y ? ? (B1&B2)]; constructor; auto. split; eapply den_frame; eauto. Qed.

Lemma env_at_frame l h h' l' v kvs cs : only l h h' -> incl l' l -> env_at h l v kvs cs -> env_at h' l' v kvs cs.
Proof.
  intros (S&_&_) I (E&N&F). split; [|split; auto].
  - eapply env_on_frame; eauto.
  - intros c C J. apply (F c C). auto.
Qed.

(* match *)
Lemma match_ok fuel : forall h fl p e env tp te kvs cs,
  heap_ok h fl -> den fl h p tp -> den fl h e te -> env_at h fl env kvs cs -> (depth tp < fuel)%nat -> (2 * nbind tp <= length fl)%nat ->
  exists h' r env' fl' new cs', match_pat fuel h p e env false = Ok (h', r, env', false) /\
    heap_ok h' fl' /\ incl fl' fl /\ only fl h h' /\ (length fl <= length fl' + 2 * nbind tp)%nat /\
    env_at h' fl' env' (new ++ kvs) cs' /\ Forall (keyed fl' h' tp) new /\
    if r then exists bs, inst tp te bs /\ Forall2 (bound fl' h') (rev new) bs else forall bs, ~ inst tp te bs.
Proof.
  induction fuel as [|n IH]; intros h fl p e env tp te kvs cs OK Dp De E FU ME; [lia|].
  cbn [match_pat]. destruct (binder_ok _ _ _ _ Dp) as (v&EV&BV). rewrite EV. cbn [bind].
  destruct (binder tp) as [tv|] eqn:EB.
  - destruct BV as (NV&Dv). destruct (Z.eqb_spec v 0); [congruence|]. simpl negb. cbv iota.
    assert (NB : nbind tp = 1%nat) by (destruct tp; cbn [nbind]; rewrite EB; auto).
    rewrite NB in *. destruct fl as [|i [|j fl]]; try (simpl in ME; lia).
    destruct (cons_ok h i (j :: fl) v e OK) as (h1&E1&OK1&C1&S1&Sz1&Cc1&M1&_&Ri). rewrite E1. cbn [bind].
    rewrite rw_is_cons by auto using enc_word, enc_rw.
    destruct (cons_ok h1 j fl (enc_cons_ptr i) env OK1) as (h2&E2&OK2&C2&S2&Sz2&Cc2&M2&_&Rj). rewrite E2. cbn [bind].
    rewrite rw_is_cons by auto using enc_word, enc_rw.
    assert (ND : NoDup (i :: j :: fl)) by (apply ok_nodup with h; auto). inversion ND as [|? ? N1 ND']; subst. inversion ND' as [|? ? N2 ND'']; subst.
    assert (O : only (i :: j :: fl) h h2).
    { split; [|split; congruence]. intros c NC. simpl in NC. rewrite S2, S1; simpl; tauto. }
    assert (I : incl fl (i :: j :: fl)) by (intros ?; simpl; auto).
    destruct (env_at_frame _ _ _ fl _ _ _ O I E) as (EO&NC&FC). destruct E as (_&_&FC0).
    exists h2, true, (enc_cons_ptr j), fl, [(v, e)], (j :: i :: cs). split; auto. split; auto. split; auto. split; auto. split; [simpl; lia|].
    split; [split; [|split]|].
    + simpl. apply env_cons with (q := env); auto. rewrite S2; auto. simpl. intros [->|[]]. apply N1; simpl; auto.
    + constructor; [|constructor; auto].
      * simpl. intros [->|J]; [apply N1; simpl; auto|]. apply (FC0 _ J). simpl; auto.
      * intros J. apply (FC0 _ J). simpl; auto.
    + intros c [<-|[<-|J]]; auto. intros J. apply N1; simpl; auto.
    + split; [constructor; [exists tv; split; [destruct tp; cbn [vars]; rewrite EB; simpl; auto|eapply den_frame; eauto]|constructor]|].
      exists [(tv, te)]. split; [constructor; auto|]. simpl. constructor; auto. split; eapply den_frame; eauto.
  - subst v. simpl negb. cbv iota. destruct (is_symbol p) eqn:SP.
    + destruct (symbol_den _ _ _ _ Dp SP) as (m&->&->).
      pose proof (sym_word _ _ _ _ SYM_DONTCARE ltac:(unfold SYM_DONTCARE; lia) Dp) as SW. fold DONTCARE in SW.
      destruct (m * 2 ^ VAL_SHIFT =? DONTCARE) eqn:ED.
      * assert (X : Leaf KSym m = Leaf KSym SYM_DONTCARE) by (apply SW; auto). injection X as ->.
        exists h, true, env, fl, [], cs. repeat (split; auto using incl_refl, only_refl); try lia. exists []. split; constructor.
      * exists h, (m * 2 ^ VAL_SHIFT =? e), env, fl, [], cs. repeat (split; auto using incl_refl, only_refl); try lia.
        destruct (Z.eqb_spec (m * 2 ^ VAL_SHIFT) e) as [<-|NE].
        -- exists []. split; constructor; auto. destruct (symbol_den _ _ _ _ De SP) as (m'&->&E'). apply sym_inj in E'. subst m'. constructor. reflexivity.
        -- intros bs I. inversion I as [p' v e' B|e'|p1 p2 e1 e2 b1 b2 B|p' e' B B2 SM]; subst.
           ++ discriminate.
           ++ assert (false = true) by (apply SW; auto). discriminate.
           ++ inversion SM as [k x y NS| | |]; subst. simpl in NS. subst y. apply den_symbol in De as (_&->). auto.
    + assert (NW : forall m, tp <> Leaf KSym m) by (intros m ->; apply den_symbol in Dp as (X&_); congruence).
      destruct (is_cons p && is_cons e) eqn:CC.
      * apply andb_true_iff in CC as (Cp&Ce).
        apply (cons_den _ _ _ _ Dp) in Cp as (p1&p2&->). apply (cons_den _ _ _ _ De) in Ce as (e1&e2&->).
        destruct (den_cons _ _ _ _ _ Dp) as (x1&x2&_&Rp&Dp1&Dp2). destruct (den_cons _ _ _ _ _ De) as (y1&y2&_&Re&De1&De2).
        rewrite Rp, Re. cbn [bind fst snd]. simpl depth in FU.
        assert (NB : nbind (Pair p1 p2) = (nbind p1 + nbind p2)%nat) by (cbn [nbind]; rewrite EB; auto). rewrite NB in *.
        destruct (IH h fl x1 y1 env p1 e1 kvs cs) as (h1&r1&env1&fl1&n1&cs1&EM&OK1&I1&O1&L1&EA1&K1&RR); auto; try lia.
        assert (VS : vars (Pair p1 p2) = vars p1 ++ vars p2) by (cbn [vars]; rewrite EB; auto).
        rewrite EM. cbn [bind]. destruct r1.
        -- destruct RR as (b1&IN1&B1).
           destruct (IH h1 fl1 x2 y2 env1 p2 e2 (n1 ++ kvs) cs1) as (h2&r2&env2&fl2&n2&cs2&EM2&OK2&I2&O2&L2&EA2&K2&RR2); auto; try lia.
           { eapply den_frame; eauto. } { eapply den_frame; eauto. }
           rewrite EM2. exists h2, r2, env2, fl2, (n2 ++ n1), cs2. split; auto. split; auto. split; [eapply incl_tran; eauto|].
           split; [eapply only_trans; eauto; eapply only_incl; eauto|]. split; [lia|]. split; [rewrite <- app_assoc; auto|].
           split.
           { apply Forall_app. split; [eapply Forall_impl; [|exact K2]|eapply Forall_impl; [|exact K1]]; intros kx (w&Iw&Dw); exists w; rewrite VS, in_app_iff.
             - auto.
             - split; auto. eapply den_frame; eauto. }
           destruct r2.
           ++ destruct RR2 as (b2&IN2&B2). exists (b1 ++ b2). split; [constructor; auto|]. rewrite rev_app_distr. apply Forall2_app; auto.
              eapply bound_frame; eauto.
           ++ intros bs IN. inversion IN as [p' v e' B|e'|q1 q2 f1 f2 b1' b2' B J1 J2|p' e' B B2 SM]; subst; try congruence.
              ** eapply RR2; eauto.
              ** apply B2. exact I.
        -- exists h1, false, env1, fl1, n1, cs1. split; auto. split; auto. split; auto. split; auto. split; [lia|]. split; auto. split.
           { eapply Forall_impl; [|exact K1]; intros kx (w&Iw&Dw); exists w; rewrite VS, in_app_iff; auto. }
           intros bs IN. inversion IN as [p' v e' B|e'|q1 q2 f1 f2 b1' b2' B J1 J2|p' e' B B2 SM]; subst; try congruence.
           ++ eapply RR; eauto.
           ++ apply B2. exact I.
      * destruct (struct_eq_correct fl h n p e tp te) as (r&ES&SM); auto; try lia. rewrite ES. cbn [bind].
        assert (NP : ~ both_pairs tp te).
        { destruct tp as [| a d | |], te as [| a' d' | |]; simpl; auto. intros _.
          assert (is_cons p = true) by (eapply cons_den; eauto). assert (is_cons e = true) by (eapply cons_den; eauto).
          rewrite H, H0 in CC. discriminate. }
        exists h, r, env, fl, [], cs. repeat (split; auto using incl_refl, only_refl); try lia; try apply E. destruct r.
        -- exists []. split; [|constructor]. apply inst_same; auto. apply SM; auto.
        -- intros bs IN. inversion IN as [p' v e' B|e'|q1 q2 f1 f2 b1' b2' B J1 J2|p' e' B B2 SM']; subst; try congruence.
           ++ apply NP. exact I.
           ++ assert (false = true) by (apply SM; auto). discriminate.
Qed.

Lemma get_car_cons h p x q : is_cons p = true -> ref_cell h p = Ok (x, q) -> get_car h p = Ok (Some x) /\ get_cdr h p = Ok (Some q).
Proof. intros C R. unfold get_car, get_cdr. rewrite (cons_is_ptr _ C), R. auto. Qed.

(* the parts of a case: pattern, body, no third element *)
Lemma case_parts fl h m c : case_at fl h m c -> exists p d, get_car h m = Ok (Some p) /\ den fl h p (fst c) /\
  get_cadr h m = Ok (Some (snd c)) /\ get_cdr h m = Ok (Some d) /\ get_cadr h d = Ok (Some 0).
Proof.
  intros (p&qs&L&U&D). inversion L as [|m' x q xs ps Wm Cm Rm L2]; subst. inversion L2 as [|m' x q' xs' ps' Wq Cq Rq L3]; subst.
  inversion L3; subst. exists p, q. destruct (get_car_cons h m p q Cm Rm) as (E1&E2). rewrite E1, E2. repeat split; auto.
  - unfold get_cadr. rewrite (cons_is_ptr _ Cm), Rm. cbn [bind snd]. rewrite (cons_is_ptr _ Cq), Rq. auto.
  - unfold get_cadr. rewrite (cons_is_ptr _ Cq), Rq. reflexivity.
Qed.

Lemma case_frame l h h' l' m c : only l h h' -> incl l' l -> case_at l h m c -> case_at l' h' m c.
Proof.
  intros O I (p&qs&L&U&D). exists p, qs. split; [eapply list_on_only; eauto|]. split; [|eapply den_frame; eauto].
  intros q Q C J. apply (U q Q C). auto.
Qed.

Lemma cases_frame l h h' l' v cs : only l h h' -> incl l' l -> cases_at l h v cs -> cases_at l' h' v cs.
Proof.
  intros O I (ms&ps&L&U&F). exists ms, ps. split; [eapply list_on_only; eauto|]. split.
  - intros q Q C J. apply (U q Q C). auto.
  - clear L U. induction F; constructor; auto. eapply case_frame; eauto.
Qed.

Lemma keyed_frame l h h' l' (cases : list (tree * Z)) new : only l h h' -> incl l' l -> Forall (fun kx => exists c, In c cases /\ keyed l h (fst c) kx) new ->
  Forall (fun kx => exists c, In c cases /\ keyed l' h' (fst c) kx) new.
Proof. intros O I. apply Forall_impl. intros kx (c&Ic&w&Iw&Dw). exists c. split; auto. exists w. split; auto. eapply den_frame; eauto. Qed.

(* what holds after some cases have been tried and [new] bindings were made *)
Record tried (h : heap) (fl : list Z) (kvs : list (Z * Z)) (cases : list (tree * Z)) (cost : nat) (h' : heap) (fl' : list Z) (env' : Z) (new : list (Z * Z)) : Prop := {
  tr_ok : heap_ok h' fl';
  tr_fl : incl fl' fl;
  tr_only : only fl h h';
  tr_cost : (length fl <= length fl' + 2 * cost)%nat;
  tr_env : exists cs', env_at h' fl' env' (new ++ kvs) cs';
  tr_keys : Forall (fun kx => exists c, In c cases /\ keyed fl' h' (fst c) kx) new
}.

Lemma find_pat_ok mf cases : forall fuel h fl v msg n env t kvs cs,
  heap_ok h fl -> cases_at fl h v cases -> den fl h msg t -> env_at h fl env kvs cs ->
  Forall (fun c => depth (fst c) < mf)%nat cases -> (length cases <= fuel)%nat -> (2 * total cases <= length fl)%nat ->
  exists h' fl' env' junk,
  (find_pat mf fuel h v msg n env false = Ok (h', FNoMatch, env', false) /\ ~ handled cases t /\ tried h fl kvs cases (total cases) h' fl' env' junk) \/
  (exists e j tp bs new, find_pat mf fuel h v msg n env false = Ok (h', FHit n e, env', false) /\
    first (fits t) cases j /\ nth_error cases j = Some (tp, e) /\ inst tp t bs /\ Forall2 (bound fl' h') (rev new) bs /\
    tried h fl kvs cases (total cases) h' fl' env' (new ++ junk)).
Proof.
  induction cases as [|c cases IH]; intros fuel h fl v msg n env t kvs cs OK (ms&ps&L&U&F) D E MF FU ME.
  - inversion F; subst. inversion L; subst. exists h, fl, env, []. left. split; [destruct fuel; reflexivity|]. split; [intros X; inversion X|].
    split; simpl; auto using incl_refl, only_refl; try lia. eauto.
  - inversion F as [|m c' ms' cases' CA F']; subst. inversion L as [|v' m' q ms'' ps' Wv Cv Rv L']; subst.
    destruct fuel as [|fuel]; [simpl in FU; lia|]. cbn [find_pat].
    assert (NZ : is_symbol_nil v = false).
    { unfold is_symbol_nil. apply Z.eqb_neq. intros ->. rewrite zero_not_cons in Cv. discriminate. }
    rewrite NZ. destruct (get_car_cons h v m q Cv Rv) as (G1&G2). rewrite G1. cbn [bind].
    destruct (case_parts _ _ _ _ CA) as (p&d&P1&Dp&_). rewrite P1. cbn [bind].
    inversion MF; subst. simpl total in ME.
    destruct (match_ok mf h fl p msg env (fst c) t kvs cs) as (h1&r&env1&fl1&new&cs1&EM&OK1&I1&O1&L1&EA1&K1&RR); auto; try lia.
    rewrite EM. cbn [bind]. destruct r.
    + pose proof (case_frame _ _ _ _ _ _ O1 I1 CA) as CA1. destruct (case_parts _ _ _ _ CA1) as (_&d1&_&_&P3&P4&P5). rewrite P3. cbn [bind]. rewrite P4. cbn [bind].
      rewrite P5. cbn [bind]. destruct RR as (bs&IN&B).
      exists h1, fl1, env1, []. right. exists (snd c), 0%nat, (fst c), bs, new. split; auto.
      split; [split; [exists c; split; auto; exists bs; auto|lia]|]. split; [destruct c; auto|]. split; auto. split; auto.
      rewrite app_nil_r. split; auto.
      * simpl. lia.
      * eauto.
      * eapply Forall_impl; [|exact K1]. intros. exists c. simpl; auto.
    + assert (UV : is_const_ptr v = false -> ~ In (f_ix v) fl) by (intros; apply U; simpl; auto).
      assert (Rv1 : ref_cell h1 v = Ok (m, q)) by (rewrite (ref_frame fl h h1); auto).
      destruct (get_car_cons h1 v m q Cv Rv1) as (_&G3). rewrite G3. cbn [bind].
      assert (CS1 : cases_at fl1 h1 q cases).
      { eapply cases_frame; eauto. exists ms', ps'. split; auto. split; auto. intros x X. apply U. simpl; auto. }
      destruct (IH fuel h1 fl1 q msg n env1 t (new ++ kvs) cs1) as (h2&fl2&env2&junk&RES); auto; try (simpl in FU; lia).
      { eapply den_frame; eauto. }
      assert (TR : forall l, tried h1 fl1 (new ++ kvs) cases (total cases) h2 fl2 env2 l -> tried h fl kvs (c :: cases) (total (c :: cases)) h2 fl2 env2 (l ++ new)).
      { intros l [T1 T2 T3 T4 T5 T6]. split; auto.
        - eapply incl_tran; eauto.
        - eapply only_trans; eauto. eapply only_incl; eauto.
        - simpl. lia.
        - rewrite <- app_assoc. auto.
        - apply Forall_app. split.
          + eapply Forall_impl; [|exact T6]. intros a (c0&I0&K0). exists c0. simpl; auto.
          + eapply keyed_frame; [exact T3|exact T2|]. eapply Forall_impl; [|exact K1]. intros. exists c. simpl; auto. }
      destruct RES as [(E1&NH&T)|(e&j&tp&bs&nw&E1&(FE&FN)&NT&IN&B&T)].
      * exists h2, fl2, env2, (junk ++ new). left. split; auto. split; auto. intros X. inversion X as [? ? (bs&Y)|]; subst; auto. eapply RR; eauto.
      * exists h2, fl2, env2, (junk ++ new). right. exists e, (Datatypes.S j), tp, bs, nw. split; auto. split; [|split; auto; split; auto; split; auto; rewrite app_assoc; auto].
        split; auto. intros k y K Y. destruct k as [|k]; simpl in Y.
        -- injection Y as <-. intros (b&Y). eapply RR; eauto.
        -- eapply FN; eauto. lia.
Qed.

Lemma find_match_ok mf fuel cases v tms : forall h fl msgs n env kvs cs,
  heap_ok h fl -> cases_at fl h v cases -> Forall2 (den fl h) msgs tms -> env_at h fl env kvs cs ->
  Forall (fun c => depth (fst c) < mf)%nat cases -> (length cases <= fuel)%nat -> (2 * (length msgs * total cases) <= length fl)%nat ->
  exists h' fl' env' junk,
  (find_match mf fuel h v msgs n env false = Ok (h', FNoMatch, env') /\ ~ Exists (handled cases) tms /\ tried h fl kvs cases (length msgs * total cases) h' fl' env' junk) \/
  (exists i t e j tp bs new, find_match mf fuel h v msgs n env false = Ok (h', FHit (n + Z.of_nat i) e, env') /\
    first (handled cases) tms i /\ nth_error tms i = Some t /\ first (fits t) cases j /\ nth_error cases j = Some (tp, e) /\
    inst tp t bs /\ Forall2 (bound fl' h') (rev new) bs /\
    tried h fl kvs cases (length msgs * total cases) h' fl' env' (new ++ junk)).
Proof.
  induction tms as [|t tms IH]; intros h fl msgs n env kvs cs OK CA F E MF FU ME; inversion F as [|msg t' msgs' tms' D F']; subst.
  - exists h, fl, env, []. left. split; auto. split; [intros X; inversion X|]. split; simpl; auto using incl_refl, only_refl; try lia. eauto.
  - cbn [find_match]. simpl length in *.
    destruct (find_pat_ok mf cases fuel h fl v msg n env t kvs cs) as (h1&fl1&env1&junk1&RES); auto; try lia.
    destruct RES as [(E1&NH&[T1 T2 T3 T4 (cs1&T5) T6])|(e&j&tp&bs&nw&E1&FI&NT&IN&B&T)].
    + rewrite E1. cbn [bind].
      destruct (IH h1 fl1 msgs' (n + 1) env1 (junk1 ++ kvs) cs1) as (h2&fl2&env2&junk2&RES); auto; try lia.
      { eapply cases_frame; eauto. } { eapply dens_frame; eauto. }
      assert (TR : forall l, tried h1 fl1 (junk1 ++ kvs) cases (length msgs' * total cases) h2 fl2 env2 l -> tried h fl kvs cases (Datatypes.S (length msgs') * total cases) h2 fl2 env2 (l ++ junk1)).
      { intros l [V1 V2 V3 V4 V5 V6]. split; auto.
        - eapply incl_tran; eauto.
        - eapply only_trans; eauto. eapply only_incl; eauto.
        - simpl. lia.
        - rewrite <- app_assoc. auto.
        - apply Forall_app. split; auto. eapply keyed_frame; [exact V3|exact V2|auto]. }
      destruct RES as [(E2&NE&T)|(i&t2&e&j&tp&bs&nw&E2&(FE&FN)&NI&FI&NT&IN&B&T)].
      * exists h2, fl2, env2, (junk2 ++ junk1). left. split; auto. split; auto. intros X. inversion X; auto.
      * exists h2, fl2, env2, (junk2 ++ junk1). right. exists (Datatypes.S i), t2, e, j, tp, bs, nw.
        split; [replace (n + Z.of_nat (Datatypes.S i)) with (n + 1 + Z.of_nat i) by lia; auto|]. split; [|do 5 (split; auto); rewrite app_assoc; auto].
        split; auto. intros k y K Y. destruct k as [|k]; simpl in Y; [congruence|]. eapply FN; eauto. lia.
    + rewrite E1. cbn [bind]. exists h1, fl1, env1, junk1. right. exists 0%nat, t, e, j, tp, bs, nw.
      split; [rewrite Z.add_0_r; auto|]. split.
      { split; [|lia]. exists t. split; auto. destruct FI as ((x&X1&X2)&_). apply Exists_exists. exists x. split; auto. eapply nth_error_In; eauto. }
      split; auto. split; auto. split; auto. split; auto. split; auto. destruct T as [T1 T2 T3 T4 T5 T6]. split; auto. simpl. lia.
Qed.


(* C25.  match decides whether the value is an instance of the pattern and adds
   exactly the bindings of the instance to the environment, the last variable
   first.  When it fails it may have added bindings of the pattern's variables.
   There must be room for the bindings. *)
Theorem match_correct fuel h fl p e env tp te kvs cs :
  heap_ok h fl -> den fl h p tp -> den fl h e te -> env_at h fl env kvs cs -> (depth tp < fuel)%nat -> (2 * nbind tp <= length fl)%nat ->
  exists h' r env' fl' new cs', match_pat fuel h p e env false = Ok (h', r, env', false) /\
    heap_ok h' fl' /\ incl fl' fl /\ only fl h h' /\ (length fl <= length fl' + 2 * nbind tp)%nat /\
    env_at h' fl' env' (new ++ kvs) cs' /\ Forall (keyed fl' h' tp) new /\
    if r then exists bs, inst tp te bs /\ Forall2 (bound fl' h') (rev new) bs else forall bs, ~ inst tp te bs.
Proof. apply match_ok. Qed.

(* C25: an instance has only one list of bindings *)
Theorem inst_fun p e bs : inst p e bs -> forall bs', inst p e bs' -> bs' = bs.
Proof.
  induction 1 as [p v e B|e|p1 p2 e1 e2 b1 b2 B I1 IH1 I2 IH2|p e B NB S]; intros bs' I'.
  - inversion I' as [p' v' e' B'|e'|q1 q2 f1 f2 c1 c2 B' J1 J2|p' e' B' NB' S']; subst; try congruence. simpl in B. discriminate.
  - inversion I'; subst; auto. simpl in *. discriminate.
  - inversion I' as [p' v' e' B'|e'|q1 q2 f1 f2 c1 c2 B' J1 J2|p' e' B' NB' S']; subst; try congruence.
    + f_equal; auto.
    + exfalso. apply NB'. exact I.
  - inversion I' as [p' v' e' B'|e'|q1 q2 f1 f2 c1 c2 B' J1 J2|p' e' B' NB' S']; subst; auto; try congruence.
    exfalso. apply NB. exact I.
Qed.

(* C24.  recv takes the oldest message that fits one of the cases, with the first
   of the cases it fits, and runs its body with the bindings of the instance on
   top; the rest of the mail keeps its order.  When no message fits it blocks.
   [junk] are bindings of variables of the cases, left by cases that failed. *)
Theorem receive_correct mf fuel h fl pats cases c tms env kvs cs :
  mwf c -> heap_ok h fl -> cases_at fl h pats cases -> Forall2 (den fl h) (mail_of c) tms -> env_at h fl env kvs cs ->
  Forall (fun c => depth (fst c) < mf)%nat cases -> (length cases <= fuel)%nat -> (2 * (length tms * total cases) <= length fl)%nat ->
  exists h',
  (receive_base mf fuel h pats (mail_of c) env = Ok (h', RBlock) /\ ~ Exists (handled cases) tms) \/
  (exists i j t tp body bs env' fl' new junk cs' c',
    receive_base mf fuel h pats (mail_of c) env = Ok (h', RTake (Z.of_nat i) env' body) /\
    first (handled cases) tms i /\ nth_error tms i = Some t /\ first (fits t) cases j /\ nth_error cases j = Some (tp, body) /\
    inst tp t bs /\ Forall2 (bound fl' h') (rev new) bs /\
    Forall (fun kx => exists c, In c cases /\ keyed fl' h' (fst c) kx) junk /\
    heap_ok h' fl' /\ incl fl' fl /\ only fl h h' /\ env_at h' fl' env' (new ++ junk ++ kvs) cs' /\
    mailbox_remove_mail c (Z.of_nat i) = Ok c' /\ mwf c' /\ mail_of c' = remove_nth i (mail_of c)).
Proof.
  intros WF OK CA F E MF FU ME. assert (LM : length (mail_of c) = length tms) by (eapply Forall2_length; eauto).
  unfold receive_base. destruct (mail_of c) as [|m ms] eqn:EM.
  - inversion F; subst. exists h. left. split; auto. intros X; inversion X.
  - destruct (find_match_ok mf fuel cases pats tms h fl (m :: ms) 0 env kvs cs) as (h'&fl'&env'&junk&RES); auto.
    { rewrite LM. auto. }
    destruct RES as [(E1&NE&T)|(i&t&e&j&tp&bs&new&E1&FI&NI&FJ&NJ&IN&B&[T1 T2 T3 T4 (cs'&T5) T6])].
    + rewrite E1. cbn [bind]. exists h'. left. auto.
    + rewrite E1. cbn [bind]. exists h'. right.
      assert (LI : (i < length tms)%nat) by (apply nth_error_Some; congruence).
      pose proof (mail_of_length c WF) as ML. rewrite EM in ML.
      destruct (remove_mail_spec c (Z.of_nat i) WF) as (c'&R1&R2&_&R4); [lia|]. rewrite Nat2Z.id, EM in R4.
      apply Forall_app in T6 as (_&T6). rewrite <- app_assoc in T5.
      exists i, j, t, tp, e, bs, env', fl', new, junk, cs', c'. do 11 (split; auto).
Qed.

(* C25, C54: a match form whose cases have no guards runs the body of the first
   case that fits, in the form's environment with the bindings of that case. *)
Theorem match_form_correct mf guard cases : forall fuel h fl v orig curr e t kvs cs,
  heap_ok h fl -> cases_at fl h v cases -> den fl h e t -> env_at h fl orig kvs cs ->
  Forall (fun c => depth (fst c) < mf)%nat cases -> (length cases < fuel)%nat -> (2 * total cases <= length fl)%nat ->
  exists h',
  (run_match mf fuel guard h v orig curr e = Ok (h', SNone) /\ ~ handled cases t) \/
  (exists j tp body bs env' fl' new cs', run_match mf fuel guard h v orig curr e = Ok (h', SBody env' body) /\
    first (fits t) cases j /\ nth_error cases j = Some (tp, body) /\ inst tp t bs /\ Forall2 (bound fl' h') (rev new) bs /\
    heap_ok h' fl' /\ incl fl' fl /\ only fl h h' /\ env_at h' fl' env' (new ++ kvs) cs').
Proof.
  induction cases as [|c cases IH]; intros fuel h fl v orig curr e t kvs cs OK (ms&ps&L&U&F) D E MF FU ME.
  - inversion F; subst. inversion L; subst. exists h. left. destruct fuel as [|fuel]; [simpl in FU; lia|]. split; auto. intros X; inversion X.
  - inversion F as [|m c' ms' cases' CA F']; subst. inversion L as [|v' m' q ms'' ps' Wv Cv Rv L']; subst.
    destruct fuel as [|fuel]; [simpl in FU; lia|]. cbn [run_match]. unfold cont_match.
    assert (NZ : is_symbol_nil v = false).
    { unfold is_symbol_nil. apply Z.eqb_neq. intros ->. rewrite zero_not_cons in Cv. discriminate. }
    rewrite NZ, Cv. destruct (get_car_cons h v m q Cv Rv) as (G1&G2). rewrite G1. cbn [bind].
    destruct (case_parts _ _ _ _ CA) as (p&d&P1&Dp&P2&P3&P4). rewrite P1. cbn [bind]. rewrite P2. cbn [bind]. rewrite P3. cbn [bind]. rewrite P4. cbn [bind].
    inversion MF; subst. simpl total in ME.
    destruct (match_ok mf h fl p e orig (fst c) t kvs cs) as (h1&r&env1&fl1&new&cs1&EM&OK1&I1&O1&L1&EA1&K1&RR); auto; try lia.
    rewrite EM. cbn [bind].
    assert (UV : is_const_ptr v = false -> ~ In (f_ix v) fl) by (intros; apply U; simpl; auto).
    assert (Rv1 : ref_cell h1 v = Ok (m, q)) by (rewrite (ref_frame fl h h1); auto).
    destruct (get_car_cons h1 v m q Cv Rv1) as (_&G3). rewrite G3. cbn [bind]. destruct r.
    + destruct RR as (bs&IN&B). exists h1. right. exists 0%nat, (fst c), (snd c), bs, env1, fl1, new, cs1. split; auto.
      split; [split; [exists c; split; auto; exists bs; auto|lia]|]. split; [destruct c; auto|]. do 6 (split; auto).
    + assert (CS1 : cases_at fl1 h1 q cases).
      { eapply cases_frame; eauto. exists ms', ps'. split; auto. split; auto. intros x X. apply U. simpl; auto. }
      destruct (IH fuel h1 fl1 q orig curr e t kvs cs) as (h2&RES); auto; try (simpl in FU; lia).
      { eapply den_frame; eauto. } { eapply env_at_frame; eauto. }
      exists h2. destruct RES as [(E1&NH)|(j&tp&body&bs&env2&fl2&nw&cs2&E1&(FE&FN)&NT&IN&B&OK2&I2&O2&EA2)].
      * left. split; auto. intros X. inversion X as [? ? (bs&Y)|]; subst; auto. eapply RR; eauto.
      * right. exists (Datatypes.S j), tp, body, bs, env2, fl2, nw, cs2. split; auto. split.
        -- split; auto. intros k y K Y. destruct k as [|k]; simpl in Y.
           ++ injection Y as <-. intros (b&Y). eapply RR; eauto.
           ++ eapply FN; eauto. lia.
        -- do 4 (split; auto). split; [eapply incl_tran; eauto|]. split; auto. eapply only_trans; eauto. eapply only_incl; eauto.
Qed.

(* C24 fails when the heap is full: a message that fits a case with one variable
   is not taken; the thread blocks and no garbage collection takes place. *)
Lemma receive_full_heap mf fuel h pats m tp body msg t env v :
  heap_ok h [] -> list_at h pats [m] -> case_at [] h m (tp, body) -> binder tp = Some v -> den [] h msg t -> (0 < mf)%nat -> (0 < fuel)%nat ->
  inst tp t [(v, t)] /\ receive_base mf fuel h pats [msg] env = Ok (h, RBlock).
Proof.
  intros OK (ps&L) CA B D MF FU. split; [constructor; auto|]. unfold receive_base. cbn [find_match].
  inversion L as [|v' m' q ms'' ps' Wv Cv Rv L']; subst. inversion L'; subst.
  destruct fuel as [|fuel]; [lia|]. cbn [find_pat].
  assert (NZ : is_symbol_nil pats = false).
  { unfold is_symbol_nil. apply Z.eqb_neq. intros ->. rewrite zero_not_cons in Cv. discriminate. }
  rewrite NZ. destruct (get_car_cons h pats m 0 Cv Rv) as (G1&G2). rewrite G1. cbn [bind].
  destruct (case_parts _ _ _ _ CA) as (p&d&P1&Dp&_). rewrite P1. cbn [bind].
  destruct mf as [|mf]; [lia|]. cbn [match_pat]. simpl in Dp. destruct (binder_ok _ _ _ _ Dp) as (w&EW&BW). rewrite EW. cbn [bind].
  rewrite B in BW. destruct BW as (NW&_). destruct (Z.eqb_spec w 0); [congruence|]. simpl negb. cbv iota.
  rewrite cons_fail by auto. cbn [bind]. unfold is_cons at 1. rewrite MERROR_not_ptr. simpl andb. cbn [bind]. rewrite G2. cbn [bind].
  destruct fuel; reflexivity.
Qed.

End Proofs.

(* ---- concrete cases ---- *)

Section Ex.
Local Instance arch32 : Arch := A32.
Let e (i : Z) := enc_cons_ptr i.
Definition ex_free : list (Z * Z) := [(0, e 13); (0, e 14); (0, e 15); (0, e 16); (0, e 17); (0, e 18); (0, e 19); (0, 0)].
Definition ex_fl : list Z := [12; 13; 14; 15; 16; 17; 18; 19].
Definition ex_heap (cs : list (Z * Z)) : heap := mkHeap (cs ++ ex_free) [] (e 12) 12 [] 10 0 0 0 (fun _ => None) [] false.
Let x := enc_sym 300.

(* the cases (((? x) . 1) 10) and (_ x), the message (5 . 2), the environment ((x . 7)) *)
Definition ex_recv : heap := ex_heap
  [(e 1, enc_i 1); (MATCH_ANY, e 2); (x, 0); (e 0, e 4); (enc_i 10, 0); (DONTCARE, e 6); (x, 0); (e 3, e 8); (e 5, 0); (enc_i 5, enc_i 2); (e 11, 0); (x, enc_i 7)].
Definition ex_cases : list (tree * Z) :=
  [(Pair (Pair (Leaf KSym SYM_MATCH_ANY) (Pair (Leaf KSym 300) (Leaf KSym 0))) (Leaf KI 1), enc_i 10); (Leaf KSym SYM_DONTCARE, x)].
Definition ex_msg : tree := Pair (Leaf KI 5) (Leaf KI 2).

Ltac dleaf := apply den_leaf; [intros ? ?; vm_compute; intuition discriminate|reflexivity || discriminate|reflexivity|reflexivity].
Ltac dpair := eapply den_pair; [reflexivity|intros ? ?; vm_compute; intuition discriminate|reflexivity|reflexivity| |].
Ltac lcons := eapply list_on_cons; [vm_compute; split; [discriminate|reflexivity]|reflexivity|reflexivity|].
Ltac ulist := intros ? I; repeat (destruct I as [<-|I]; [vm_compute; intuition discriminate|]); destruct I.

Lemma ex_heap_ok cs : length cs = 12%nat -> heap_ok (ex_heap cs) ex_fl.
Proof.
  intros L. do 12 (destruct cs as [|? cs]; [discriminate|]). destruct cs; [|discriminate]. split.
  - vm_compute. discriminate.
  - repeat (eapply chain_cons; [reflexivity|]). constructor.
  - repeat constructor; simpl; intuition discriminate.
  - reflexivity.
Qed.

Lemma ex_recv_hyps : heap_ok ex_recv ex_fl /\ cases_at ex_fl ex_recv (e 7) ex_cases /\ den ex_fl ex_recv (e 9) ex_msg /\
  env_at ex_recv ex_fl (e 10) [(x, enc_i 7)] [10; 11].
Proof.
  split; [apply ex_heap_ok; reflexivity|]. split; [|split].
  - exists [e 3; e 5], [e 7; e 8]. split; [lcons; lcons; constructor|]. split; [ulist|]. constructor; [|constructor; [|constructor]].
    + exists (e 0), [e 3; e 4]. split; [lcons; lcons; constructor|]. split; [ulist|].
      dpair; [|dleaf]. dpair; [dleaf|]. dpair; dleaf.
    + exists DONTCARE, [e 5; e 6]. split; [lcons; lcons; constructor|]. split; [ulist|]. dleaf.
  - dpair; dleaf.
  - split; [|split].
    + eapply env_cons with (q := 0); try reflexivity; try (vm_compute; split; [discriminate|reflexivity]). constructor.
    + repeat constructor; simpl; intuition discriminate.
    + intros c [<-|[<-|[]]]; vm_compute; intuition discriminate.
Qed.

(* the hypotheses of receive_correct and match_form_correct *)
Example ex_receive : Forall (fun c => depth (fst c) < 10)%nat ex_cases /\ (length ex_cases <= 2)%nat /\
  (2 * (length [ex_msg] * total ex_cases) <= length ex_fl)%nat.
Proof. split; [repeat constructor|]. split; vm_compute; repeat constructor. Qed.

(* C24 fails: the first case fails after binding x to 5, the second case, which
   binds nothing, runs its body with x bound to 5 instead of 7. *)
Theorem receive_leaks_binding_refuted : exists h' env' kvs' cs',
  inst (Leaf KSym SYM_DONTCARE) ex_msg [] /\
  receive_base 10 2 ex_recv (e 7) [e 9] (e 10) = Ok (h', RTake 0 env' x) /\
  env_on ex_recv (e 10) [(x, enc_i 7)] [10; 11] /\ env_on h' env' kvs' cs' /\
  assoc x [(x, enc_i 7)] = Some (enc_i 7) /\ assoc x kvs' = Some (enc_i 5).
Proof.
  destruct (receive_base 10 2 ex_recv (e 7) [e 9] (e 10)) as [[h' o]| |] eqn:E; vm_compute in E; try discriminate.
  injection E as <- <-. eexists _, _, [(x, enc_i 5); (x, enc_i 7)], [13; 12; 10; 11].
  split; [constructor|]. split; [reflexivity|]. split; [apply ex_recv_hyps|].
  split; [|split; reflexivity].
  match goal with |- env_on _ ?v _ _ => change v with (enc_cons_ptr 13) end. eapply (env_cons _ 13 12 _ _ (e 10)); try reflexivity; try (vm_compute; split; [discriminate|reflexivity]).
  match goal with |- env_on _ ?v _ _ => change v with (enc_cons_ptr 10) end. eapply (env_cons _ 10 11 _ _ 0); try reflexivity; try (vm_compute; split; [discriminate|reflexivity]). constructor.
Qed.

(* the case ((? x) 10), no free cell *)
Theorem receive_full_heap_refuted : exists h pats msg t tp body env m,
  heap_ok h [] /\ list_at h pats [m] /\ case_at [] h m (tp, body) /\ den [] h msg t /\ (exists bs, inst tp t bs) /\
  forall mf fuel, (0 < mf)%nat -> (0 < fuel)%nat -> receive_base mf fuel h pats [msg] env = Ok (h, RBlock).
Proof.
  set (h := mkHeap [(MATCH_ANY, e 1); (x, 0); (e 0, e 3); (enc_i 10, 0); (e 2, 0)] [] 0 5 [] 10 0 0 0 (fun _ => None) [] false).
  set (tp := Pair (Leaf KSym SYM_MATCH_ANY) (Pair (Leaf KSym 300) (Leaf KSym 0))).
  assert (OK : heap_ok h []).
  { split; [vm_compute; discriminate|constructor|constructor|reflexivity]. }
  assert (L : list_at h (e 4) [e 2]) by (exists [e 4]; lcons; constructor).
  assert (C : case_at [] h (e 2) (tp, enc_i 10)).
  { exists (e 0), [e 2; e 3]. split; [lcons; lcons; constructor|]. split; [intros ? ? ? []|]. simpl fst.
    eapply den_pair; [reflexivity|intros ? ? []|reflexivity|reflexivity|apply den_leaf; [intros ? ? []|reflexivity|reflexivity|reflexivity]|].
    eapply den_pair; [reflexivity|intros ? ? []|reflexivity|reflexivity| |]; apply den_leaf; [intros ? ? []|reflexivity|reflexivity|reflexivity|intros ? ? []|reflexivity|reflexivity|reflexivity]. }
  assert (D : den [] h (enc_i 3) (Leaf KI 3)) by (apply den_leaf; [intros ? ? []|discriminate|reflexivity|reflexivity]).
  exists h, (e 4), (enc_i 3), (Leaf KI 3), tp, (enc_i 10), 0, (e 2). repeat (split; auto).
  - exists [(Leaf KSym 300, Leaf KI 3)]. apply inst_var. reflexivity.
  - intros mf fuel MF FU. eapply (receive_full_heap mf fuel h (e 4) (e 2)); eauto. reflexivity.
Qed.

(* C54 fails: in the environment ((x . 7)), both as the form's and the context's,
   (match 5 ((? x) g b) ((? x) g b) (_ x)) with both guards false runs the last
   body with x bound to 5. *)
Definition ex_guard : heap := ex_heap
  [(MATCH_ANY, e 1); (x, 0); (e 0, e 3); (enc_i 1, e 4); (enc_i 2, 0); (DONTCARE, e 6); (x, 0); (e 2, e 8); (e 2, e 9); (e 5, 0); (e 11, 0); (x, enc_i 7)].
Theorem match_guard_env_refuted : exists h' env' kvs' cs',
  inst (Leaf KSym SYM_DONTCARE) (Leaf KI 5) [] /\
  run_match 10 10 (fun _ _ => false) ex_guard (e 7) (e 10) (e 10) (enc_i 5) = Ok (h', SBody env' x) /\
  env_on ex_guard (e 10) [(x, enc_i 7)] [10; 11] /\ env_on h' env' kvs' cs' /\
  assoc x [(x, enc_i 7)] = Some (enc_i 7) /\ assoc x kvs' = Some (enc_i 5).
Proof.
  destruct (run_match 10 10 (fun _ _ => false) ex_guard (e 7) (e 10) (e 10) (enc_i 5)) as [[h' o]| |] eqn:E; vm_compute in E; try discriminate.
  injection E as <- <-. eexists _, _, [(x, enc_i 5); (x, enc_i 7)], [13; 12; 10; 11].
  split; [constructor|]. split; [reflexivity|]. split; [|split; [|split; reflexivity]].
  - match goal with |- env_on _ ?v _ _ => change v with (enc_cons_ptr 10) end. eapply (env_cons _ 10 11 _ _ 0); try reflexivity; try (vm_compute; split; [discriminate|reflexivity]). constructor.
  - match goal with |- env_on _ ?v _ _ => change v with (enc_cons_ptr 13) end. eapply (env_cons _ 13 12 _ _ (e 10)); try reflexivity; try (vm_compute; split; [discriminate|reflexivity]).
    match goal with |- env_on _ ?v _ _ => change v with (enc_cons_ptr 10) end. eapply (env_cons _ 10 11 _ _ 0); try reflexivity; try (vm_compute; split; [discriminate|reflexivity]). constructor.
Qed.

End Ex.

(* C48 fails: for the timeouts 1 .. 16, given as integers, the thread that was
   woken by mail it does not take waits for another time than at first. *)
Theorem recv_to_retry_refuted (A : Arch) n : 1 <= n <= 16 -> recv_to_retry_wait (enc_i n) <> recv_to_wait n.
Proof.
  intros R. assert (n = 1 \/ n = 2 \/ n = 3 \/ n = 4 \/ n = 5 \/ n = 6 \/ n = 7 \/ n = 8 \/ n = 9 \/ n = 10 \/ n = 11 \/ n = 12 \/ n = 13 \/ n = 14 \/ n = 15 \/ n = 16) as H by lia.
  repeat (destruct H as [-> |H]; [destruct A; vm_compute; discriminate|]). subst n. destruct A; vm_compute; discriminate.
Qed.

Print Assumptions match_correct.
Print Assumptions inst_fun.
Print Assumptions receive_correct.
Print Assumptions match_form_correct.
Print Assumptions receive_leaks_binding_refuted.
Print Assumptions receive_full_heap_refuted.
Print Assumptions match_guard_env_refuted.
Print Assumptions recv_to_retry_refuted.
