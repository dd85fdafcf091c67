(* The steps of Ctl_Model: frames, and where an error ends up. *)
From Verif Require Import Base Value_Model Heap_Model Env_Model Match_Model QQ_Model GC_Model Eval_Model Sym_Model Flat_Model Fund_Model
  Value_Proofs Value_Props Eval_Proofs3 Ctl_Model Ctl_Spec Ctl_Proofs.
Local Open Scope Z_scope.

Section Arch.
Context {A : Arch} {HO : Host} {FA : Faults}.
Variable E : Prop.
Variable Q : Z -> Prop.
Hypothesis Q_lor : forall fl, Q fl -> Q (Z.lor fl FLAG_UNROLL).
Hypothesis Q_wrap : forall fl, Q fl -> Q (wrap 32 fl).
Variable P : list Z.
Hypothesis NOT_PROGN : hd_error P <> Some PROGN_REST.
Variable prim : Z -> heap -> list Z -> res (heap * Z).

Notation on := (on E Q P).

(* what a step that is carried out keeps *)
Definition kx (sz : Z) (o : res xout) : Prop :=
  match o with Ok (Next x) => on (e_K (x_e x)) /\ e_size (x_e x) = sz /\ Q (x_flags x) /\ (E \/ x_atomic x = true) | _ => True end.
Lemma kx_bind {T} sz (m : res T) k : (forall x, kx sz (k x)) -> kx sz (bind m k).
Proof. intros H. destruct m; cbn; auto. Qed.
Lemma kx_raise sz x h K err : kx sz (raise x h K err).
Proof.
  unfold raise. destruct (x_e x). destruct (_ && _); [exact I|]. destruct (_ && _); [|exact I].
  destruct (unwind _ _ _) as [[[? ?] ?]|]; [|exact I]. destruct (set_car _ _ _) as [[? ?]| |]; exact I.
Qed.
Ltac kxs :=
  repeat match goal with
  | |- kx _ (raise _ _ _ _) => apply kx_raise
  | |- kx _ (bind _ _) => apply kx_bind; intros ?
  | |- kx _ (Ok Stopped) => exact I
  | |- kx _ (Ok (Jumped _)) => exact I
  | |- kx _ UB => exact I
  | |- kx _ Fuel => exact I
  | |- kx _ (match reserve ?sz ?K ?ws with _ => _ end) => let E1 := fresh "E1" in destruct (reserve sz K ws) eqn:E1; [apply reserve_some in E1 as (-> & E1)|]
  | |- kx _ (match ?x with _ => _ end) => destruct x
  end.
Lemma kx_base f x : going_on E Q P (x_e x) -> e_size (x_e x) <= 2 ^ 28 -> Q (x_flags x) -> E \/ x_atomic x = true -> kx (e_size (x_e x)) (base prim f x).
Proof.
  intros G SZ QF HA. unfold base. pose proof (step_on E Q P prim NOT_PROGN f (x_e x) G SZ) as S.
  destruct (step prim f (x_e x)) as [[s| |]| |]; cbn [bind]; try exact I; [|kxs..].
  cbn in S |- *. tauto.
Qed.
Lemma on_trap fl rv K : Q fl -> on K -> on (CONT 45 :: fl :: rv :: K).
Proof. intros q (X&->&F). exists (CONT 45 :: fl :: rv :: X). split; auto. constructor; auto. Qed.
Lemma dec45 : DEC_CONT (CONT 45) = 45. Proof. arch; reflexivity. Qed.

(* the frame on top when its continuation is known *)
Lemma going_frames s : going_on E Q P s -> on (e_K s).
Proof. intros (X&E0&F&_). exists X. auto. Qed.
Lemma top_trap k K0 : (exists X, k :: K0 = X ++ P /\ frames E Q X /\ X <> []) -> DEC_CONT k = 45 -> exists fl rv K1, K0 = fl :: rv :: K1 /\ Q fl /\ on K1.
Proof.
  intros (X&E0&F&N) D. destruct F as [|k' n ws X I HE L F|rest env ws X F L|fl rv X q F]; [congruence| | |]; cbn [app] in E0; injection E0 as -> ->.
  - exfalso. rewrite (dec_cont k' n) in D by auto. subst k'. cbn [frame_sizes In] in I. repeat (destruct I as [I|I]; [discriminate I|]). destruct I.
  - rewrite (dec_cont 5 0) in D by auto. discriminate.
  - exists fl, rv, (X ++ P). split; [auto|split; [auto|]]. exists X. auto.
Qed.
Lemma top_exit k K0 : (exists X, k :: K0 = X ++ P /\ frames E Q X /\ X <> []) -> DEC_CONT k = 14 -> on K0 /\ E.
Proof.
  intros (X&E0&F&N) D. destruct F as [|k' n ws X I HE L F|rest env ws X F L|fl rv X q F]; [congruence| | |]; cbn [app] in E0; injection E0 as -> ->.
  - rewrite (dec_cont k' n) in D by auto. subst k'. cbn [frame_sizes In] in I.
    assert (n = 0%nat) as -> by (repeat (destruct I as [I|I]; [congruence|]); destruct I). destruct ws; [|discriminate]. split; [exists X; auto|auto].
  - rewrite (dec_cont 5 0) in D by auto. discriminate.
  - rewrite dec45 in D. discriminate.
Qed.
Lemma top_start k K0 : (exists X, k :: K0 = X ++ P /\ frames E Q X /\ X <> []) -> DEC_CONT k = 10 -> exists a e K1, K0 = a :: e :: K1 /\ on K1.
Proof.
  intros (X&E0&F&N) D. destruct F as [|k' n ws X I HE L F|rest env ws X F L|fl rv X q F]; [congruence| | |]; cbn [app] in E0; injection E0 as -> ->.
  - rewrite (dec_cont k' n) in D by auto. subst k'. cbn [frame_sizes In] in I.
    assert (n = 2%nat) as -> by (repeat (destruct I as [I|I]; [congruence|]); destruct I). destruct ws as [|a [|e [|? ?]]]; try discriminate. exists a, e, (X ++ P). split; auto. exists X. auto.
  - rewrite (dec_cont 5 0) in D by auto. discriminate.
  - rewrite dec45 in D. discriminate.
Qed.

Lemma eval_progn_on h g K sz exp env r : on K -> kb E Q P sz (eval_progn (mkE h g K sz exp env r false)).
Proof. intros O. apply (eval_form_on E Q P prim NOT_PROGN 0%nat 2 h g K sz exp env r O). Qed.

Lemma xstep_on f x : going_on E Q P (x_e x) -> e_size (x_e x) <= 2 ^ 28 -> Q (x_flags x) -> E \/ x_atomic x = true -> kx (e_size (x_e x)) (xstep prim f x).
Proof.
  intros G SZ QF HA. pose proof (kx_base f x G SZ QF HA) as KB. pose proof (going_frames _ G) as O.
  destruct x as [[h g K sz exp env r app] fl at_ po ab]. cbn [x_e e_size e_K x_flags x_atomic] in *.
  unfold xstep. cbn [x_e]. destruct app.
  - destruct K as [|k K0]; [exact I|]. destruct G as (X&E0&F&N). cbn [e_K e_app] in E0, N. specialize (N eq_refl).
    assert (T : exists X, k :: K0 = X ++ P /\ frames E Q X /\ X <> []) by eauto.
    destruct (Z.eqb_spec (DEC_CONT k) 45) as [D|_].
    { destruct (top_trap k K0 T D) as (fl1&rv&K1&->&q&O1). unfold cont_exception_handler. cbn [x_e]. kxs. cbn [kx x_e e_K e_size x_flags x_atomic set_flags onto]. auto. }
    destruct (Z.eqb_spec (DEC_CONT k) 14) as [D|_].
    { destruct (top_exit k K0 T D). cbn. auto. }
    destruct (_ && _); [|exact KB]. apply kx_bind. intros (hd&tl). destruct (hd =? S_CONT); [|exact KB].
    unfold apply_cont. cbn [x_e]. kxs.
  - destruct (is_cons exp); [|exact KB]. apply kx_bind. intros (hd&tl). destruct (_ && _); [|exact KB].
    destruct (Z.land (dec_sym hd) 255 =? 22).
    { unfold eval_trap. cbn [x_e]. kxs. cbn [kx x_e e_K e_size x_flags x_atomic set_flags onto rev app]. split; [apply on_trap; auto|split; auto]. }
    destruct (Z.land (dec_sym hd) 255 =? 11).
    { unfold eval_callcc. cbn [x_e]. kxs. cbn [kx x_e e_K e_size x_flags x_atomic set_pool onto rev app]. split; [|split; auto]. apply (on_2 E Q P 10); [cbn [frame_sizes In]; tauto|lia|auto]. }
    destruct (Z.land (dec_sym hd) 255 =? 12); [|exact KB].
    unfold eval_atomic. cbn [x_e]. cbn [x_atomic]. destruct at_; [apply kx_raise|]. assert (HE : E) by (destruct HA; [auto|discriminate]).
    destruct (reserve sz K _) eqn:E1; [apply reserve_some in E1 as (->&E1)|apply kx_raise]. cbn [x_e set_atomic onto rev app].
    assert (O1 : on (EXIT_ATOMIC :: K)) by (apply (on_fixed E Q P 14 [] K); [cbn [frame_sizes In length]; tauto|auto|auto]).
    pose proof (eval_progn_on h g _ sz exp env r O1) as KP.
    destruct (eval_progn _) as [[s| |]| |]; cbn [bind]; try exact I; [|apply kx_raise..]. cbn in KP |- *. tauto.
Qed.

(* runs *)
Lemma plain_on f m x x' : going_on E Q P (x_e x) -> e_size (x_e x) <= 2 ^ 28 -> Q (x_flags x) -> E \/ x_atomic x = true -> plain prim f m x = Ok (Next x') ->
  (exists j y, (j <= m)%nat /\ plain prim f j x = Ok (Next y) /\ returned P (x_e y) /\ (E \/ x_atomic y = true)) \/
  (going_on E Q P (x_e x') /\ e_size (x_e x') = e_size (x_e x) /\ Q (x_flags x') /\ (E \/ x_atomic x' = true)).
Proof.
  revert x. induction m as [|m IH]; intros x G SZ QF HA R; cbn [plain] in R.
  - injection R as <-. right. auto.
  - pose proof (xstep_on f x G SZ QF HA) as KX. destruct (xstep prim f x) as [o| |] eqn:E0; try discriminate R. cbn [bind] in R.
    destruct o as [x1|x1|x1|e b|e b|]; try discriminate R. cbn in KX. destruct KX as ((X&EX&F)&S1&Q1&A1).
    destruct (e_app (x_e x1)) eqn:EA; [destruct X as [|k X]|].
    + left. exists 1%nat, x1. split; [lia|]. split; [cbn [plain]; rewrite E0; reflexivity|]. split; [split; auto|auto].
    + destruct (IH x1) as [(j&y&L&Rj&Re)|(G'&S'&Q'&A')]; auto; [|lia| |].
      { exists (k :: X). split; [auto|split; [auto|discriminate]]. }
      { left. exists (S j), y. split; [lia|]. split; [cbn [plain]; rewrite E0; exact Rj|auto]. }
      right. split; [auto|split; [congruence|auto]].
    + destruct (IH x1) as [(j&y&L&Rj&Re)|(G'&S'&Q'&A')]; auto; [|lia| |].
      { exists X. split; [auto|split; [auto|congruence]]. }
      { left. exists (S j), y. split; [lia|]. split; [cbn [plain]; rewrite E0; exact Rj|auto]. }
      right. split; [auto|split; [congruence|auto]].
Qed.

(* ---- errors ---- *)
Definition ends_in (K : list Z) : Prop := exists Y, K = Y ++ P.
Lemma on_ends K : on K -> ends_in K. Proof. intros (X&->&_). exists X. auto. Qed.
Lemma ends_cons k K : ends_in K -> ends_in (k :: K). Proof. intros (Y&->). exists (k :: Y). auto. Qed.
Lemma ends_app Y K : ends_in K -> ends_in (Y ++ K). Proof. intros (Z&->). exists (Y ++ Z). rewrite app_assoc. auto. Qed.

Lemma frame_words_table k n K : In (k, n) frame_sizes -> frame_words k K = n.
Proof. intros I. cbn [frame_sizes In] in I. repeat (destruct I as [I|I]; [injection I as <- <-; reflexivity|]). destruct I. Qed.
Lemma skip_words (ws K : list Z) : skipn (length ws) (ws ++ K) = K.
Proof. rewrite skipn_app, skipn_all, Nat.sub_diag. reflexivity. Qed.
Lemma below_on s : going_on E Q P s -> on (below s).
Proof.
  intros (X&E0&F&N). unfold below. rewrite E0. destruct (e_app s); [|exists X; auto]. specialize (N eq_refl).
  destruct F as [|k n ws X I HE L F|rest env ws X F L|fl rv X q F]; [congruence| | |]; cbn [app].
  - rewrite (dec_cont k n) by auto. rewrite (frame_words_table k n) by auto. subst n. rewrite <- app_assoc, skip_words. exists X. auto.
  - rewrite (dec_cont 5 0) by auto. unfold frame_words. cbn [Z.eqb Pos.eqb]. rewrite dec_u_enc by lia. rewrite Nat2Z.id. cbn [Nat.add skipn]. rewrite <- app_assoc, skip_words. exists X. auto.
  - rewrite dec45. cbn [frame_words Z.eqb Pos.eqb orb skipn]. exists X. auto.
Qed.
Lemma fault_on x K : going_on E Q P (x_e x) -> fault_stack x = Ok K -> ends_in K.
Proof.
  intros G. unfold fault_stack. destruct (short_call x) as [o| |] eqn:E0; try discriminate. cbn [bind]. intros [= <-].
  assert (D : ends_in (junk (x_e x) ++ below (x_e x))) by (apply ends_app, on_ends, below_on; auto). destruct o as [K1|]; [|exact D].
  revert E0. unfold short_call. destruct (x_e x) as [h g K sz exp env r app] eqn:EX. destruct K as [|k [|a [|e K0]]]; try discriminate.
  destruct app; cbn [andb]; [|discriminate]. destruct (Z.eqb_spec (DEC_CONT k) 10) as [DK|]; cbn [andb]; [|discriminate].
  destruct (_ && _); [|discriminate]. destruct (ref_cell h r) as [[hd tl]| |]; try discriminate. cbn [bind]. destruct (hd =? S_CLOSURE); [|discriminate].
  destruct (extract_3 h tl) as [[[[ps bd] ce] ?]| |]; try discriminate. cbn [bind]. destruct (is_symbol_nil ps); [discriminate|]. intros [= <-].
  destruct G as (X&E1&F&N). cbn [e_K e_app] in E1, N. destruct (top_start k (a :: e :: K0)) as (a'&e'&K1&E2&O); auto; [exists X; auto|].
  injection E2 as <- <- <-. apply ends_app, ends_cons, ends_cons, on_ends, O.
Qed.
End Arch.

Section Trap.
Context {A : Arch} {HO : Host} {FA : Faults}.
Variable prim : Z -> heap -> list Z -> res (heap * Z).

Lemma unwind_plain sz Y K err : ~ In EXCEPTION_HANDLER Y -> unwind sz (Y ++ K) err = unwind sz K err.
Proof.
  induction Y as [|y Y IH]; intros N; [reflexivity|]. cbn [app unwind]. destruct (Z.eqb_spec y EXCEPTION_HANDLER) as [->|_]; [destruct N; left; auto|].
  apply IH. intros X. apply N. right. auto.
Qed.
Lemma unwind_here sz fl rv K0 err : Z.of_nat (length K0) + 3 < sz -> unwind sz (EXCEPTION_HANDLER :: fl :: rv :: K0) err = Some (rv, fl :: rv :: K0, err).
Proof. intros L. cbn [unwind]. rewrite Z.eqb_refl. cbn [length]. destruct (Z.ltb_spec (Z.of_nat (S (S (length K0))) + 1) sz); [reflexivity|lia]. Qed.
Lemma unwind_some sz fl rv K0 : Z.of_nat (length K0) + 3 < sz -> forall Y err, exists r K e, unwind sz (Y ++ EXCEPTION_HANDLER :: fl :: rv :: K0) err = Some (r, K, e).
Proof.
  intros L. induction Y as [|y Y IH]; intros err; [rewrite app_nil_l, unwind_here by auto; eauto|].
  cbn [app unwind]. destruct (y =? EXCEPTION_HANDLER); [|apply IH]. pose proof (IH STACK_ERROR) as W.
  destruct (Y ++ EXCEPTION_HANDLER :: fl :: rv :: K0) as [|a [|b T]] eqn:E; auto. destruct (_ <? sz); eauto.
Qed.

(* inside a trap: no error ends the context *)
Definition survives (o : res xout) : Prop :=
  match o with Ok (Ended e _) => e = FATAL_ERROR | Ok (Lost _ _) => False | _ => True end.
Lemma survives_bind {T} (m : res T) k : (forall x, m = Ok x -> survives (k x)) -> survives (bind m k).
Proof. intros H. destruct m; cbn; auto. Qed.
Lemma raise_survives x h K err fl rv K0 : catching (x_flags x) -> ends_in (EXCEPTION_HANDLER :: fl :: rv :: K0) K -> Z.of_nat (length K0) + 3 < e_size (x_e x) ->
  survives (raise x h K err).
Proof.
  intros (C4&C0) (Y&->) L. unfold raise. destruct (x_e x) as [h0 g K1 sz exp env r app] eqn:E. cbn [e_size] in L. rewrite C4, C0. cbn [andb].
  destruct (Z.eqb_spec err FATAL_ERROR) as [->|]; cbn [negb]; [reflexivity|].
  destruct (unwind_some sz fl rv K0 L Y err) as (r1&K2&e&->). destruct (set_car _ _ _) as [[? ?]| |]; exact I.
Qed.


Lemma catching_lor fl : catching fl -> catching (Z.lor fl FLAG_UNROLL).
Proof. intros (a&b). unfold catching. rewrite !Z.lor_spec, a, b. auto. Qed.
Lemma catching_wrap fl : catching fl -> catching (wrap 32 fl).
Proof. intros (a&b). unfold catching, wrap. rewrite !Z.mod_pow2_bits_low by lia. auto. Qed.
Lemma trap_not_progn fl rv K0 : hd_error (EXCEPTION_HANDLER :: fl :: rv :: K0) <> Some PROGN_REST.
Proof. cbn. intros E. injection E as E. revert E. clear. arch; discriminate. Qed.

Ltac svs R :=
  repeat match goal with
  | |- survives (raise _ _ _ _) => apply R
  | |- survives (bind _ _) => apply survives_bind; intros ? ?
  | |- survives (Ok Stopped) => exact I
  | |- survives (Ok (Jumped _)) => exact I
  | |- survives (Ok (Next _)) => exact I
  | |- survives UB => exact I
  | |- survives Fuel => exact I
  | |- survives (match reserve ?sz ?K ?ws with _ => _ end) => let E := fresh "E" in destruct (reserve sz K ws) eqn:E; [apply reserve_some in E as (-> & E)|]
  | |- survives (match ?x with _ => _ end) => destruct x
  end.

Lemma xstep_survives f x fl rv K0 : going_on True catching (EXCEPTION_HANDLER :: fl :: rv :: K0) (x_e x) -> catching (x_flags x) ->
  Z.of_nat (length K0) + 3 < e_size (x_e x) -> survives (xstep prim f x).
Proof.
  intros G C L. set (P := EXCEPTION_HANDLER :: fl :: rv :: K0) in *.
  assert (R : forall y h K err, x_flags y = x_flags x -> e_size (x_e y) = e_size (x_e x) -> ends_in P K -> survives (raise y h K err)).
  { intros y h K err E1 E2 E3. eapply raise_survives; [congruence|exact E3|congruence]. }
  assert (KB : survives (base prim f x)).
  { unfold base. svs R; auto; eapply (fault_on True catching); eauto using catching_lor, catching_wrap, trap_not_progn. }
  pose proof (on_ends True catching P _ (going_frames True catching P _ G)) as O.
  destruct x as [[h g K sz exp env r app] fl1 at_ po ab]. cbn [x_e e_size e_K x_flags] in *.
  unfold xstep. cbn [x_e]. destruct app.
  - destruct K as [|k K1]; [exact I|]. destruct G as (X&E&F&N). cbn [e_K e_app] in E, N. specialize (N eq_refl).
    assert (T : exists X, k :: K1 = X ++ P /\ frames True catching X /\ X <> []) by eauto.
    assert (O1 : ends_in P K1). { destruct X as [|k' X]; [congruence|]. exists X. injection E as _ E. exact E. }
    destruct (Z.eqb_spec (DEC_CONT k) 45) as [D|_].
    { destruct (top_trap True catching P k K1 T D) as (fl2&rv2&K2&->&q&O2). unfold cont_exception_handler. cbn [x_e]. svs R; auto. apply on_ends with (E := True) (Q := catching); auto. }
    destruct (Z.eqb_spec (DEC_CONT k) 14) as [D|_]; [exact I|].
    destruct (_ && _); [|exact KB]. apply survives_bind. intros (hd&tl) _. destruct (hd =? S_CONT); [|exact KB].
    unfold apply_cont. cbn [x_e]. svs R; auto.
  - destruct (is_cons exp); [|exact KB]. apply survives_bind. intros (hd&tl) _. destruct (_ && _); [|exact KB].
    destruct (Z.land (dec_sym hd) 255 =? 22); [unfold eval_trap; cbn [x_e]; svs R; auto|].
    destruct (Z.land (dec_sym hd) 255 =? 11); [unfold eval_callcc; cbn [x_e]; svs R; cbn [rev app]; auto using ends_cons|].
    destruct (Z.land (dec_sym hd) 255 =? 12); [|exact KB].
    unfold eval_atomic. cbn [x_e]. svs R; auto. all: cbn [rev app]; auto using ends_cons.
Qed.
End Trap.
