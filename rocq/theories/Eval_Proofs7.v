(* Tail positions take no stack. *)
From Verif Require Import Base Value_Model Heap_Model Env_Model Match_Model QQ_Model GC_Model Eval_Model Eval_Spec Tail_Spec
  Value_Proofs Value_Proofs2 Heap_Spec Heap_Proofs Heap_Proofs2 List_Proofs Env_Proofs Env_Props QQ_Proofs GC_Spec Eval_Rel Eval_Proofs
  Eval_GC Eval_Proofs2 Eval_Proofs3 Eval_Proofs4 Eval_Proofs5.
Local Open Scope Z_scope.

Section Sound.
Context {A : Arch} {HO : Host}.
Variable prim : Z -> heap -> list Z -> res (heap * Z).
Hypothesis UNS : forall h K i, ~ stack_ref h (unset K i).

Ltac sp := repeat match goal with |- _ /\ _ => split end.
Notation leads := (leads prim).

(* the evaluator is about to evaluate [x] with the stack [K] *)
Definition arrives (s' : rstate) (e' : list (Z * nat)) (x : val) (K : list Z) (sz : Z) (w : world) (st : est) : Prop :=
  exists g exp env r, st = mkE (wh w) g K sz exp env r false /\ srel w g s' /\ erel w e' env /\ vrel w x exp /\ good w r.

Definition comes f w s' e' x K sz N st : Prop := leads f w K N st (arrives s' e' x K sz).

Lemma com_here f w g s' e' x K sz N exp env r : srel w g s' -> erel w e' env -> vrel w x exp -> good w r ->
  comes f w s' e' x K sz N (mkE (wh w) g K sz exp env r false).
Proof. intros SR ER V G. apply leads_now. exists g, exp, env, r. auto. Qed.

Definition passes s e x s' e' x' d : Prop := exists N, forall f w g K sz exp env r,
    srel w g s -> erel w e env -> vrel w x exp -> good w r -> Forall (kgood w) K -> (N <= f)%nat ->
    Z.of_nat (length K + d) < sz -> sz <= 2 ^ 28 ->
    comes f w s' e' x' K sz N (mkE (wh w) g K sz exp env r false).

Lemma before_last_ok ev : sound prim ev -> forall es s e s' e' y d, before_last ev s e es = Some (s', e', y, d) ->
  match es with
  | VC a rest => exists N, forall f w g K sz x q env r flag,
      srel w g s -> erel w e env -> vrel w a x -> vrel w rest q -> flag = enc_u 0 \/ flag = enc_u 1 ->
      good w r -> Forall (kgood w) K -> (N <= f)%nat -> Z.of_nat (length K + d) < sz -> sz <= 2 ^ 28 ->
      (is_pair rest = true -> Z.of_nat (length K + 4) < sz) /\
      comes f w s' e' y K sz N (progn_state (wh w) g K sz x flag env r (is_pair rest) q)
  | _ => True
  end.
Proof.
  intros SD. induction es as [k|z|a IHa rest IHr|ps ? body ? ce]; intros s e s' e' y d E; auto. clear IHa.
  cbn [before_last] in E.
  assert (LASTC : Some (s, e, a, 0%nat) = Some (s', e', y, d) -> is_pair rest = false -> exists N, forall f w g K sz x q env r flag,
      srel w g s -> erel w e env -> vrel w a x -> vrel w rest q -> flag = enc_u 0 \/ flag = enc_u 1 ->
      good w r -> Forall (kgood w) K -> (N <= f)%nat -> Z.of_nat (length K + d) < sz -> sz <= 2 ^ 28 ->
      (is_pair rest = true -> Z.of_nat (length K + 4) < sz) /\
      comes f w s' e' y K sz N (progn_state (wh w) g K sz x flag env r (is_pair rest) q)).
  { intros [= <- <- <- <-] Ep. exists 0%nat. intros f w g K sz x q env r flag SR ER V1 V2 _ GR GK F D SZ.
    rewrite Ep. split; [discriminate|]. unfold progn_state. apply com_here; auto. }
  destruct rest as [k|z|a2 rest2|ps2 body2 ce2]; [apply LASTC; auto..| |discriminate]. clear LASTC.
  (* what follows in any case *)
  assert (CONTQ : forall s1 e1 d', before_last ev s1 e1 (VC a2 rest2) = Some (s', e', y, d') -> exists N, forall f w g K sz q env exp env0 e0 r flag,
      srel w g s1 -> erel w e1 env -> good w exp -> erel w e0 env0 -> good w r -> vrel w (VC a2 rest2) q -> flag = enc_u 0 \/ flag = enc_u 1 ->
      Forall (kgood w) K -> (N <= f)%nat -> Z.of_nat (length K + d') < sz -> sz <= 2 ^ 28 ->
      comes f w s' e' y K sz N (mkE (wh w) g (PROGN_REST :: q :: flag :: env :: K) sz exp env0 r true)).
  { intros s1 e1 d' E1. specialize (IHr _ _ _ _ _ _ E1). cbn in IHr. destruct IHr as (N&H). exists N.
    intros f w g K sz q env exp env0 e0 r flag SR ER GE ER0 GR V FG GK F D SZ.
    apply vrel_cons_inv in V. destruct V as (x2&q2&P&V1&V2).
    destruct (H f w g K sz x2 q2 env r flag SR ER V1 V2 FG GR GK F D SZ) as (ST&FIN).
    eapply leads_step; [|exact FIN]. unfold PROGN_REST. rewrite st_cont by knum. change (cont prim f 4 ?s) with (cont_progn_rest s).
    unfold cont_progn_rest. rewrite (pair_ref _ _ _ _ P). cbn [bind]. rewrite (vrel_word _ _ _ V2).
    unfold progn_state. destruct rest2; cbn [is_pair] in *; auto.
    - rewrite res_ok; [reflexivity|]. cbn [length]. specialize (ST eq_refl). lia.
    - cbn [before_last] in E1. discriminate. }
  destruct (var_form a) as [[p x1]|] eqn:VF.
  - (* var *)
    destruct (pat_alloc s e p) as [[s1 e1]|] eqn:E1; [|discriminate].
    destruct (ev s1 e1 x1) as [[[u s2] d1]|] eqn:E2; [|discriminate].
    destruct (pat_fill s2 e1 p u) as [s3|] eqn:E3; [|discriminate].
    destruct (before_last ev s3 e1 (VC a2 rest2)) as [[[[s4 e4] v'] d']|] eqn:E4; [|discriminate].
    apply some2 in E; destruct E as (E&<-). injection E as -> -> ->.
    destruct (location_ok _ _ _ _ _ E1) as (N1&H1). destruct (SD _ _ _ _ _ _ E2) as (N2&H2).
    destruct (pat_fill_ok _ _ _ _ _ E3) as (N3&H3). destruct (CONTQ _ _ _ E4) as (N4&H4).
    exists (length e + N1 + N2 + N3 + N4)%nat. intros f w g K sz x q env r flag SR ER V Vq FG GR GK F D SZ.
    cbn [is_pair]. split; [intros _; lia|].
    destruct a as [| |a1 tl|]; try discriminate. destruct a1 as [k| | |]; try discriminate.
    destruct tl as [| |p' tl2|]; try discriminate. destruct tl2 as [| |x1' tl3|]; try discriminate.
    cbn in VF. destruct (Z.eqb_spec k 0x112) as [->|]; [|discriminate]. injection VF as -> ->.
    unfold progn_state. cbn [is_pair].
    destruct (st_form prim f w g (PROGN_REST :: q :: flag :: env :: K) sz _ _ x env r V ltac:(lia)) as (xt&P0&Vt&ST).
    apply vrel_cons_inv in Vt. destruct Vt as (xp&xt2&P1&Vp&Vt2).
    apply vrel_cons_inv in Vt2. destruct Vt2 as (xe&xt3&P2&Ve&_).
    change (0x112 - 0x100) with 0x12 in ST.
    change (eval_form f 18 ?s) with (eval_var f s) in ST. unfold eval_var in ST. rewrite Z.eqb_refl in ST.
    assert (GF : kgood w flag) by (destruct FG as [->| ->]; apply kgood_u; lia).
    (* the copy of the environment *)
    pose (c0 := regs env x r (PROGN_REST :: q :: flag :: env :: K)).
    assert (C0 : ctx_ok w c0) by (unfold PROGN_REST; ctxr).
    match type of ST with _ = (let! o := ?m in _) =>
      assert (CP : (exists w1 env1, m = Ok (Val (wh w1, env1, enc_u 1)) /\ srel w1 g s /\ keeps (cw c0) w w1 /\ erel w1 e env1 /\
                      (length (wfl w) <= length (wfl w1) + length e)%nat) \/
                   (m = Ok NoMem /\ (length (wfl w) < length e)%nat))
    end.
    { destruct FG as [->| ->]; rewrite dec_u_enc by lia; cbn [Z.eqb].
      - apply (copy_ok prim w g s e env f c0 SR ER); auto; [lia|]. unfold c0. rt.
      - left. exists w, env. sp; auto using keeps_refl. lia. }
    destruct CP as [(w1&env1&CP&SR1&K1&ER1&L1)|(CP&L1)]; rewrite CP in ST; clear CP; cbn [bind] in ST.
    2:{ eapply leads_nomem; [exact ST|lia]. }
    unfold c0 in K1. carry SR K1.
    rewrite (pair_cdr _ _ _ _ P0) in ST. cbn [bind] in ST. rewrite (pair_car _ _ _ _ P1) in ST. cbn [bind] in ST.
    pose (c1 := regs env x r (PROGN_REST :: q :: enc_u 1 :: env1 :: K)).
    assert (C1 : ctx_ok w1 c1) by (unfold PROGN_REST; ctxr).
    change (regs env x r (PROGN_REST :: q :: enc_u 1 :: env1 :: K)) with c1 in ST.
    destruct (H1 f w1 g c1 env1 xp SR1 ER1 Vp C1) as [(w2&env2&E5&SR2&K2&ER2&L2)|(E5&L2)]; [unfold c1; rt|lia| |];
      rewrite E5 in ST; cbn [bind] in ST.
    2:{ eapply leads_nomem; [exact ST|lia]. }
    unfold c1 in K2. carry SR1 K2.
    rewrite (pair_cadr _ _ _ _ _ _ P1 P2) in ST. cbn [bind] in ST.
    rewrite res_ok in ST by (cbn [length]; lia). cbn [rev app] in ST.
    assert (K12 : keeps K w w2).
    { eapply keeps_trans; [eapply keeps_incl; [exact K1|inc]|eapply keeps_incl; [exact K2|inc]]. }
    eapply (leads_alloc prim f w w2 K K (length e + N1) (N2 + N3 + N4)); [exact ST|exact K12|apply incl_refl|lia|lia|]. clear ST.
    eapply fin_bind with (N1 := N2) (N2 := (N3 + N4)%nat).
    { eapply (H2 f w2 g); eauto; [unfold PROGN_VAR, PROGN_REST; kg|lia|cbn [length]; lia]. }
    { inc. } { lia. }
    intros w3 g3 exp3 env3 r3 e3 K3 SR3 V3 G3 ER3. carry SR2 K3.
    destruct (H3 f w3 g3 env2 xp r3 SR3 ER2 Vp V3) as (h4&E6&SR4&HX4); [lia|].
    set (w4 := mkW h4 (wfl w3) (wL w3) (wR w3)) in *.
    pose proof (hext_keeps_same K _ _ HX4 eq_refl) as K4. assert (GR3 : good w3 r3) by gd. carryx HX4.
    eapply (leads_alloc prim f w3 w4 K K 0 N4); [|exact K4|apply incl_refl|cbn; lia|lia|].
    { unfold PROGN_VAR. rewrite st_cont by knum. change (cont prim f 26 ?s) with (cont_progn_var f s).
      unfold cont_progn_var. rewrite E6. cbn [bind]. reflexivity. }
    change h4 with (wh w4). eapply H4; eauto; lia.
  - (* another expression *)
    destruct (ev s e a) as [[[u s1] d1]|] eqn:E2; [|discriminate].
    destruct (before_last ev s1 e (VC a2 rest2)) as [[[[s4 e4] v'] d']|] eqn:E4; [|discriminate].
    apply some2 in E; destruct E as (E&<-). injection E as -> -> ->.
    destruct (SD _ _ _ _ _ _ E2) as (N2&H2). destruct (CONTQ _ _ _ E4) as (N4&H4).
    exists (N2 + N4)%nat. intros f w g K sz x q env r flag SR ER V Vq FG GR GK F D SZ.
    cbn [is_pair]. split; [intros _; lia|]. unfold progn_state.
    assert (GF : kgood w flag) by (destruct FG as [->| ->]; apply kgood_u; lia).
    eapply fin_bind with (N1 := N2) (N2 := N4).
    { eapply (H2 f w g); eauto; [unfold PROGN_REST; kg|lia|cbn [length]; lia]. }
    { inc. } { lia. }
    intros w3 g3 exp3 env3 r3 e3 K3 SR3 V3 G3 ER3. carry SR K3. eapply H4; eauto; try lia. gd.
Qed.

(* the first step of an application *)
Lemma app_first f w g K sz p fn tl env r : vrel w (VC fn tl) p -> special fn = false -> Z.of_nat (length K + 3) < sz ->
  exists xf xt, vrel w fn xf /\ vrel w tl xt /\
    step prim f (mkE (wh w) g K sz p env r false) = Ok (Val (mkE (wh w) g (APPLICATION_START :: xt :: env :: K) sz xf env r false)).
Proof.
  intros V NS D. apply vrel_cons_inv in V. destruct V as (xf&xt&P&Vf&Vt). exists xf, xt. sp; auto.
  unfold step. rewrite (cons_not_symbol p), (pair_cons _ _ _ _ P), (pair_ref _ _ _ _ P) by (eapply pair_cons; eauto).
  cbn [bind].
  assert (SF : is_symbol xf && (Z.land xf SF_MASK =? SF_BIT) = false).
  { destruct fn as [k|z|a d0|ps b ce].
    - apply vrel_sym_inv in Vf. destruct Vf as (->&Rk&_). rewrite sym_is_symbol, sf_symbol by auto. cbn [andb]. apply NS; auto.
    - inversion Vf as [|? ? NS1 ?| |]; subst. rewrite NS1. auto.
    - rewrite cons_not_symbol; auto. rewrite (vrel_word _ _ _ Vf). auto.
    - rewrite cons_not_symbol; auto. rewrite (vrel_word _ _ _ Vf). auto. }
  rewrite SF, res_ok by (cbn [length]; lia). reflexivity.
Qed.

Lemma st_appstart f h g K sz exp env r : step prim f (mkE h g (APPLICATION_START :: K) sz exp env r true) =
    cont_application_start prim f (mkE h g K sz exp env r false).
Proof. unfold APPLICATION_START. rewrite st_cont by knum. reflexivity. Qed.

(* an application whose function has the value [fv] *)
Lemma app_value ev s e fn es fv s1 d1 : sound prim ev -> special fn = false -> ev s e fn = Some (fv, s1, d1) ->
  exists N1, forall f w g K sz p env r (Q : world -> est -> Prop) N2,
    srel w g s -> erel w e env -> vrel w (VC fn es) p -> good w r -> Forall (kgood w) K -> (N1 + N2 <= f)%nat ->
    Z.of_nat (length K + (3 + d1)) < sz -> sz <= 2 ^ 28 ->
    (forall w1 g1 x1 n1 r1 e1 xtl, srel w1 g1 s1 -> vrel w1 fv r1 -> good w1 x1 -> erel w1 e1 n1 -> erel w1 e env -> vrel w1 es xtl ->
      Forall (kgood w1) K -> leads f w1 K N2 (mkE (wh w1) g1 (APPLICATION_START :: xtl :: env :: K) sz x1 n1 r1 true) Q) ->
    leads f w K (N1 + N2) (mkE (wh w) g K sz p env r false) Q.
Proof.
  intros SD NS E1. destruct (SD _ _ _ _ _ _ E1) as (N1&H1). exists N1. intros f w g K sz p env r Q N2 SR ER V GR GK F D SZ C.
  destruct (app_first f w g K sz p fn es env r V NS ltac:(lia)) as (xfn&xtl&Vf&Vt&ST0).
  eapply leads_step; [exact ST0|].
  eapply fin_bind with (N1 := N1) (N2 := N2).
  { eapply (H1 f w g); eauto; [unfold APPLICATION_START; kg|lia|cbn [length]; lia]. } { inc. } { lia. }
  intros w1 g1 x1 n1 r1 e1 K1 SR1 V1 G1 ER1. carry SR K1. eapply C; eauto.
Qed.

Lemma macro_leads ev s e fn es ps body m s1 d1 s2 e2 x s3 d2 : sound prim ev -> special fn = false ->
  ev s e fn = Some (m, s1, d1) -> macro_form m = Some (ps, body) ->
  macro_params s1 e ps es = Some (s2, e2) -> ev s2 e2 body = Some (x, s3, d2) ->
  passes s e (VC fn es) s3 e x (max (3 + d1) (2 + d2)).
Proof.
  intros SD NS E1 EM E2 E3. destruct (app_value ev s e fn es _ _ _ SD NS E1) as (N1&H1).
  destruct (macro_bind_ok _ _ _ _ _ _ E2) as (N2&H2). destruct (SD _ _ _ _ _ _ E3) as (N3&H3).
  exists (N1 + (N2 + N3))%nat. intros f w0 g0 K sz p env r0 SR0 ER0 V0 GR0 GK0 F D SZ.
  eapply (H1 f w0 g0 K sz p env r0); eauto; try lia. clear dependent w0.
  intros w1 g1 x1 n1 r1 e1 xtl SR1 V1 G1 ER1 ER Vt GK.
    unfold macro_form in EM. destruct m as [| |fa fd|]; try discriminate. destruct fa as [k| | |]; try discriminate. destruct fd as [| |ps' fd2|]; try discriminate.
    destruct fd2 as [| |body' fd3|]; try discriminate. destruct (Z.eqb_spec k 0x10D) as [->|]; [|discriminate]. injection EM as -> ->.
    apply vrel_cons_inv in V1. destruct V1 as (xm&xm2&P1&Vm&V2). apply vrel_sym_inv in Vm. destruct Vm as (->&_).
    apply vrel_cons_inv in V2. destruct V2 as (xps&xm3&P2&Vps&V3). apply vrel_cons_inv in V3. destruct V3 as (xb&xm4&P3&Vb&_).
    pose (c := regs n1 x1 r1 (xtl :: env :: K)). assert (Gr1 : good w1 r1) by gd.
    assert (CX : ctx_ok w1 c) by ctxr.
    assert (EQ : step prim f (mkE (wh w1) g1 (APPLICATION_START :: xtl :: env :: K) sz x1 n1 r1 true) =
      let* '(h1, expand_env) := macro_bind f (wh w1) g1 c xps xtl env in
      let% d := get_cdr h1 r1 in let% body := get_cadr h1 d in go h1 g1 (EVAL_R :: env :: K) sz body expand_env r1).
    { rewrite st_appstart. unfold cont_application_start. rewrite (cons_not_symbol r1), (pair_cons _ _ _ _ P1), (pair_car _ _ _ _ P1) by (eapply pair_cons; eauto).
      cbn [bind]. replace (enc_sym 0x10D =? S_CLOSURE) with false by (symmetry; apply (sym_eq 0x10D 0x10F); lia).
      replace (enc_sym 0x10D =? S_MACRO) with true by (symmetry; apply Z.eqb_refl).
      rewrite (pair_cadr _ _ _ _ _ _ P1 P2). cbn [bind]. reflexivity. }
    destruct (H2 f w1 g1 c env xps xtl SR1) as [(EB&L2)|(w2&env2&EB&SR2&K2&ER2&L2)]; auto; try lia; [unfold c; rt|unfold c; rt| |];
      rewrite EB in EQ; cbn [bind] in EQ.
    { eapply leads_nomem; [exact EQ|lia]. }
    unfold c in K2. carry SR1 K2.
    rewrite (pair_cdr _ _ _ _ P1) in EQ. cbn [bind] in EQ. rewrite (pair_cadr _ _ _ _ _ _ P2 P3) in EQ. cbn [bind] in EQ. unfold go in EQ.
    eapply (leads_alloc prim f w1 w2 K _ N2 N3); [exact EQ|exact K2|inc|lia|lia|].
    eapply fin_bind with (N1 := N3) (N2 := 0%nat).
    { eapply (H3 f w2 g1); eauto; [unfold EVAL_R; kg|lia|cbn [length]; lia]. } { inc. } { lia. }
    intros w3 g3 x3 n3 r3 e3 K3 SR3 V3 G3 ER3. carry SR2 K3.
    eapply leads_step; [unfold EVAL_R; rewrite st_cont by knum; reflexivity|].
    apply com_here; auto. gd.
Qed.

Lemma call_leads ev s e fn es ps body ce s1 d1 e2 s2 d2 : sound prim ev -> special fn = false ->
  ev s e fn = Some (VClo ps body ce, s1, d1) -> params ev s1 e ce ps es = Some (e2, s2, d2) ->
  passes s e (VC fn es) s2 e2 body (max (3 + d1) d2).
Proof.
  intros SD NS E1 E2. destruct (app_value ev s e fn es _ _ _ SD NS E1) as (N1&H1). destruct (params_ok prim ev SD _ _ _ _ _ _ _ _ E2) as (N2&H2).
  destruct (params_d prim _ _ _ _ _ _ _ _ _ E2) as (D6&CASES).
  exists (N1 + N2)%nat. intros f w0 g0 K sz p env r0 SR0 ER0 V0 GR0 GK0 F D SZ.
  eapply (H1 f w0 g0 K sz p env r0); eauto; try lia. clear dependent w0.
  intros w1 g1 x1 n1 r1 e1 xtl SR1 V1 G1 ER1 ER Vt GK. assert (Gr1 : good w1 r1) by gd.
    inversion V1 as [| | |? ? ? p1 p2 p3 p4 xps xb xce P1 P2 P3 P4 Vps Vb Ec]; subst.
    assert (AR : exists arg0 arg_rest, get_car_and_cdr (wh w1) xtl = Ok (Some (arg0, arg_rest)) /\ good w1 arg0 /\ good w1 arg_rest /\
      (forall xa xd, pair_at w1 xtl xa xd -> xa = arg0 /\ xd = arg_rest)).
    { destruct CASES as [NE|(a&t&->)].
      - exists NIL, NIL. assert (NG : good w1 NIL) by (rewrite NIL_0; apply nil_good). sp; auto.
        + rewrite (vrel_nil_word _ _ _ Vt NE). unfold get_car_and_cdr. destruct nil_fields as (_&_&_&Np&_). rewrite Np. reflexivity.
        + intros xa xd P. apply pair_cons in P. rewrite (vrel_nil_word _ _ _ Vt NE) in P. rewrite zero_not_cons in P. discriminate.
      - apply vrel_cons_inv in Vt. destruct Vt as (xa&xd&P&Va&Vd). exists xa, xd. sp; try gd; [apply (pair_both _ _ _ _ P)|].
        intros ya yd P'. pose proof (pair_both _ _ _ _ P) as Q. rewrite (pair_both _ _ _ _ P') in Q. injection Q as -> ->. auto. }
    destruct AR as (arg0&arg_rest&EA&Ga&Gd&PA).
    pose (K2 := unset (xtl :: env :: K) 3 :: unset (xtl :: env :: K) 2 :: arg_rest :: unset (xtl :: env :: K) 0 :: xb :: env :: K).
    pose (c := regs env arg0 r1 K2).
    assert (GB : good w1 xb) by gd.
    assert (CX : ctx_ok w1 c).
    { eapply ctx_regs; eauto. unfold K2. repeat (apply Forall_cons; [first [apply unref_kgood, UNS|apply good_kgood; gd]|]). auto. }
    eapply leads_bind with (R1 := xb :: K) (N1 := N2) (N2 := 0%nat).
    { eapply (H2 f w1 g1 c K sz xtl xps xce xb env r1); eauto; try lia.
      - unfold c, K2. rts.
      - intros xa xd P. destruct (PA _ _ P) as [-> ->]. split; unfold c, K2; rt.
      - rewrite st_appstart. unfold cont_application_start. rewrite (cons_not_symbol r1), (pair_cons _ _ _ _ P1), (pair_car _ _ _ _ P1) by (eapply pair_cons; eauto).
        cbn [bind]. replace (S_CLOSURE =? S_CLOSURE) with true by (symmetry; apply Z.eqb_refl).
        rewrite (pair_cdr _ _ _ _ P1). cbn [bind]. unfold extract_3.
        rewrite (pair_extract _ _ _ _ P2). cbn [bind]. rewrite (pair_extract _ _ _ _ P3). cbn [bind]. rewrite (pair_extract _ _ _ _ P4). cbn [bind].
        rewrite EA. cbn [bind].
        destruct (Z.ltb_spec (Z.of_nat (length (xtl :: env :: K)) + 4) sz) as [_|X]; [|cbn [length] in X; lia].
        unfold disp. rewrite EA. cbn [bind]. fold K2. fold c. reflexivity. }
    { inc. } { lia. }
    intros w2 st2 KP2 (g2&cenv2&r2&->&SR2&ER2&GR2).
    assert (Vb2 : vrel w2 body xb) by (apply (vrel_k _ _ _ _ _ SR1 KP2); auto; rt).
    assert (GK2 : Forall (kgood w2) K) by (apply (kgoods_k _ _ _ _ _ _ SR1 KP2); auto; apply rooted_incl; inc).
    apply com_here; auto.
Qed.

Lemma eval_leads ev s e a x s' d : sound prim ev -> args ev 0 s e (VC a VNil) = Some ([x], s', d) ->
  passes s e (VC (VSym 0x30008) (VC a VNil)) s' e x (max 3 d).
Proof.
  intros SD E2. destruct (args_ok prim ev SD _ _ _ _ _ _ _ E2) as (N2&H2).
  exists N2. intros f w g K sz p env r SR ER V GR GK F D SZ.
  destruct (app_first f w g K sz p (VSym 0x30008) (VC a VNil) env r V eq_refl ltac:(lia)) as (xfn&xtl&Vf&Vt&ST0).
  eapply leads_step; [exact ST0|]. apply vrel_sym_inv in Vf. destruct Vf as (->&Rx&_&TX).
  eapply leads_step.
  { unfold step. rewrite sym_is_symbol. unfold eval_symbol. rewrite sym_dec by lia. cbn [Z.geb Z.compare RUNTIME_START].
    change (0x30008 >=? RUNTIME_START) with false. unfold ret. reflexivity. }
  assert (SS : step prim f (mkE (wh w) g (APPLICATION_START :: xtl :: env :: K) sz (enc_sym 0x30008) env (enc_sym 0x30008) true) =
    cont_application_args prim f (mkE (wh w) g (enc_u (Z.of_nat 0) :: xtl :: env :: K) sz (enc_sym 0x30008) env (enc_sym 0x30008) false)).
  { rewrite st_appstart. unfold cont_application_start. rewrite sym_is_symbol, res_ok by (cbn [length]; lia). reflexivity. }
  assert (GS : good w (enc_sym 0x30008)) by (apply sym_good; auto).
  eapply leads_bind with (R1 := env :: enc_sym 0x30008 :: K) (N1 := N2) (N2 := 0%nat).
  { eapply (H2 f w g K sz xtl env (enc_sym 0x30008) (enc_sym 0x30008) env); eauto; lia. } { inc. } { lia. }
  intros w2 st2 K2 (g2&ys&x2&r2&LY&ST2&SR2&F2&GE2&GR2). carry SR K2.
  inversion F2 as [|? y ? l Vy F3]; subst. inversion F3; subst.
  eapply leads_step; [|apply com_here with (g := g2) (exp := y) (env := env) (r := r2); eauto].
  rewrite ST2. unfold application. cbn [rev app nth_error firstn skipn length Nat.add]. rewrite sym_dec by lia. reflexivity.
Qed.

(* if: from the words of its continuation *)
Lemma if_leads ev c s e v1 s1 d1 x1 x2 y : sound prim ev -> ev s e c = Some (v1, s1, d1) ->
  (if nilp v1 then exists r, x2 = VC y r else y = x1) ->
  exists N, forall f w g K sz xc p env r, srel w g s -> erel w e env -> vrel w c xc -> vrel w (VC x1 x2) p -> good w r -> Forall (kgood w) K ->
    (N <= f)%nat -> Z.of_nat (length K + (3 + d1)) < sz -> sz <= 2 ^ 28 ->
    comes f w s1 e y K sz N (mkE (wh w) g (IF :: env :: p :: K) sz xc env r false).
Proof.
  intros SD E1 E2. destruct (SD _ _ _ _ _ _ E1) as (N1&H1). exists N1.
  assert (B : forall w p rv, vrel w (VC x1 x2) p -> vrel w v1 rv ->
    exists xy, vrel w y xy /\ (if is_symbol_nil rv then get_cadr (wh w) p else get_car (wh w) p) = Ok (Some xy)).
  { intros w p rv V Vr. rewrite (vrel_nil _ _ _ Vr). apply vrel_cons_inv in V. destruct V as (xx&q&P&Vx&Vq). destruct (nilp v1) eqn:NV.
    - destruct E2 as (r&->). apply vrel_cons_inv in Vq. destruct Vq as (xy&q2&P2&Vy&_). exists xy. split; auto. eapply pair_cadr; eauto.
    - subst y. exists xx. split; auto. eapply pair_car; eauto. }
  intros f w g K sz xc p env r SR ER Vc Vp GR GK F D SZ.
  eapply fin_bind with (N1 := N1) (N2 := 0%nat).
  { eapply (H1 f w g); eauto; [unfold IF; kg|cbn [length]; lia]. } { inc. } { lia. }
  intros w1 g1 y1 n1 r1 e1 K1 SR1 V1 G1 ER1. carry SR K1.
  destruct (B w1 p r1 Vp V1) as (xy&Vy&EG).
  eapply leads_step.
  { unfold IF. rewrite st_cont by knum. change (cont prim f 3 ?s) with (cont_if s). unfold cont_if. rewrite EG. cbn [bind]. unfold go. reflexivity. }
  apply com_here; auto. gd.
Qed.

Lemma cond_leads ev c s e v1 s1 d1 x1 rest : sound prim ev -> ev s e c = Some (v1, s1, d1) ->
  passes s e (VC (VSym 0x110) (VC (VC c (VC x1 VNil)) rest)) s1 e (if nilp v1 then VC (VSym 0x110) rest else x1) (3 + d1).
Proof.
  intros SD E1.
  destruct (if_leads ev c s e v1 s1 d1 x1 (VC (VC (VSym 0x110) rest) VNil) (if nilp v1 then VC (VSym 0x110) rest else x1) SD E1) as (N&H).
  { destruct (nilp v1); eauto. }
  exists (N + 3)%nat. intros f w g K sz p env r SR ER V GR GK F D SZ.
  destruct (st_form prim f w g K sz _ _ p env r V ltac:(lia)) as (q&P&Vq&ST). apply vrel_cons_inv in Vq. destruct Vq as (xcl&xrest&P2&Vcl&Vrest).
  apply vrel_cons_inv in Vcl. destruct Vcl as (xc&xcl2&P3&Vc&Vcl2). apply vrel_cons_inv in Vcl2. destruct Vcl2 as (xx&xcl3&P4&Vx&Vcl3).
  change (eval_form f (0x110 - 0x100) ?s) with (eval_cond f s) in ST. unfold eval_cond, extract_2 in ST.
  rewrite (pair_extract _ _ _ _ P) in ST. cbn [bind] in ST. rewrite (pair_extract _ _ _ _ P2) in ST. cbn [bind] in ST.
  rewrite (cons_not_nil xcl) in ST by (eapply pair_cons; eauto).
  rewrite (len2 w f _ _ _ _ _ P3 P4) in ST by (first [lia|rewrite (vrel_word _ _ _ Vcl3); reflexivity]).
  cbn [bind Z.eqb Pos.eqb negb] in ST. rewrite (pair_extract _ _ _ _ P3) in ST. cbn [bind] in ST. rewrite (pair_extract _ _ _ _ P4) in ST. cbn [bind] in ST.
  assert (GP : good w p) by gd.
  pose (c0 := regs env p r K). assert (CX : ctx_ok w c0) by ctxr.
  match type of ST with _ = ?m =>
    assert (CL : (m = Ok NoMem /\ (length (wfl w) < 3)%nat) \/
      exists w' l, m = Ok (Val (mkE (wh w') g (IF :: env :: l :: K) sz xc env r false)) /\ srel w' g s /\ keeps (cw c0) w w' /\
    (length (wfl w) <= length (wfl w') + 3)%nat /\ vrel w' (VC x1 (VC (VC (VSym 0x110) rest) VNil)) l)
  end.
  { destruct (cond_list w g s c0 x1 rest xx xrest
      (fun y => let '(h3, rest1) := y in match reserve sz K [rest1; env; IF] with Some K1 => go h3 g K1 sz xc env r | None => Ok Err end)
      SR Vx Vrest CX) as [(EL&L)|(w'&l&EL&SR'&K'&L&V')]; [unfold c0; rt|unfold c0; rt| |].
    - left. split; [|exact L]. exact EL.
    - right. exists w', l. sp; auto. rewrite res_ok in EL by (cbn [length]; lia). exact EL. }
  destruct CL as [(EL&L)|(w'&l&EL&SR'&K1&L&V')]; rewrite EL in ST.
  { eapply leads_nomem; [exact ST|lia]. }
  unfold c0 in K1. carry SR K1.
  eapply (leads_alloc prim f w w' K _ 3 N); [exact ST|exact K1|inc|exact L|lia|].
  apply H; auto; lia. 
Qed.

Lemma let_leads ev s e bs body r0 s1 e1 s2 d : sound prim ev ->
  let_alloc s e bs = Some (s1, e1) -> let_fill ev s1 e1 bs = Some (s2, d) ->
  passes s e (VC (VSym 0x105) (VC bs (VC body r0))) s2 e1 body d.
Proof.
  intros SD E1 E2. assert (Rk : 0x100 <= 0x105 < 0x200) by lia.
  destruct (create_all_ok prim _ _ _ _ _ E1) as (N1&H1). pose proof (let_fill_ok prim ev SD _ _ _ _ _ E2) as LF.
    assert (EQ : forall f w g K sz p env r q b q2 bd q3, pair_at w p (enc_sym 0x105) q -> pair_at w q b q2 -> pair_at w q2 bd q3 ->
      eval_form f (0x105 - 0x100) (mkE (wh w) g K sz p env r false) = let_bind f (wh w) g K sz p b bd env r).
    { intros f w g K sz p env r q b q2 bd q3 P P2 P3. change (eval_form f (0x105 - 0x100) ?s) with (eval_let f s). unfold eval_let, extract_3.
      rewrite (pair_extract _ _ _ _ P). cbn [bind]. rewrite (pair_extract _ _ _ _ P2). cbn [bind]. rewrite (pair_extract _ _ _ _ P3). reflexivity. }
    destruct bs as [x|z|b rest|ps0 b0 c0].
    1,2: cbn in E1; injection E1 as <- <-; subst s2; exists 0%nat; intros f w g K sz p env r SR ER V GR GK F D SZ;
      destruct (st_form prim f w g K sz _ _ p env r V Rk) as (q&P&Vq&ST); apply vrel_cons_inv in Vq; destruct Vq as (xbs&q2&P2&Vbs&V2);
      apply vrel_cons_inv in V2; destruct V2 as (xb&q3&P3&Vb&_);
      (eapply leads_step; [rewrite ST, (EQ _ _ _ _ _ _ _ _ _ _ _ _ _ P P2 P3); unfold let_bind; rewrite (vrel_word _ _ _ Vbs); unfold go; reflexivity|]);
      apply com_here; auto.
    - pose proof E1 as E1'. cbn [let_alloc] in E1'. destruct b as [| |pt b2|]; try discriminate. destruct b2 as [| |y b3|]; try discriminate. clear E1'.
      destruct LF as (N2&H2). exists (N1 + N2)%nat. intros f w g K sz p env r SR ER V GR GK F D SZ.
      destruct (st_form prim f w g K sz _ _ p env r V Rk) as (q&P&Vq&ST). apply vrel_cons_inv in Vq. destruct Vq as (xbs&q2&P2&Vbs&V2).
      apply vrel_cons_inv in V2. destruct V2 as (xb&q3&P3&Vb&_).
      assert (GP : good w p) by gd.
      pose (c := regs env p r K). assert (CX : ctx_ok w c) by ctxr.
      rewrite (EQ _ _ _ _ _ _ _ _ _ _ _ _ _ P P2 P3) in ST. unfold let_bind in ST. rewrite (vrel_word _ _ _ Vbs) in ST.
      destruct (H1 f f w g c env xbs SR ER Vbs CX) as [(w1&env1&EC&SR1&K1&ER1&L1)|(EC&L1)]; try lia; [unfold c; rt| |];
        unfold c in EC; rewrite EC in ST; cbn [bind] in ST.
      2:{ eapply leads_nomem; [exact ST|lia]. }
      unfold c in K1. carry SR K1.
      pose proof Vbs as Vbs1. apply vrel_cons_inv in Vbs1. destruct Vbs1 as (xf&xr&Pf&Vf&Vr). apply vrel_cons_inv in Vf. destruct Vf as (xp&xf2&Pp&Vp&Vf2).
      apply vrel_cons_inv in Vf2. destruct Vf2 as (xy&xf3&Py&Vy&_). assert (GB : good w1 xb) by gd.
      destruct (H2 f w1 g K sz xp xy xr env1 r xb SR1 ER1 Vp Vy Vr GR GB GK) as (D5&LD); try lia.
      rewrite (pair_ref _ _ _ _ Pf) in ST. cbn [bind] in ST. unfold extract_2 in ST. rewrite (pair_extract _ _ _ _ Pp) in ST. cbn [bind] in ST.
      rewrite (pair_extract _ _ _ _ Py) in ST. cbn [bind] in ST. rewrite res_ok in ST by (cbn [length]; lia). cbn [rev app] in ST. unfold go in ST.
      eapply (leads_alloc prim f w w1 K _ N1 N2); [exact ST|exact K1|inc|exact L1|lia|].
      eapply leads_bind with (N1 := N2) (N2 := 0%nat); [exact LD|inc|lia|].
      intros w2 st2 K2 (g2&r2&->&SR2&GR2).
      assert (Vb2 : vrel w2 body xb) by (apply (vrel_k _ _ _ _ _ SR1 K2); auto; rt).
      assert (ER2 : erel w2 e1 env1) by (apply (erel_k _ _ _ _ _ SR1 K2); auto; rt).
      assert (GK2 : Forall (kgood w2) K) by (apply (kgoods_k _ _ _ _ _ _ SR1 K2); auto; apply rooted_incl; inc).
      apply com_here; auto.
    - discriminate.
Qed.

Lemma progn_leads ev s e es s' e' x d : sound prim ev -> before_last ev s e es = Some (s', e', x, d) ->
  passes s e (VC (VSym 0x102) es) s' e' x d.
Proof.
  intros SD E. pose proof (before_last_ok ev SD _ _ _ _ _ _ _ E) as PO. destruct es as [k|z|a rest|ps body ce]; try discriminate.
  destruct PO as (N&H). exists N. intros f w g K sz p env r SR ER V GR GK F D SZ.
  destruct (st_form prim f w g K sz _ _ p env r V ltac:(lia)) as (q&P&Vq&ST).
  apply vrel_cons_inv in Vq. destruct Vq as (xa&q2&P2&Va&Vr).
  destruct (H f w g K sz xa q2 env r (enc_u 0) SR ER Va Vr (or_introl eq_refl) GR GK F D SZ) as (D4&FIN).
  eapply leads_step; [|exact FIN].
  rewrite ST. change (eval_form f (0x102 - 0x100) ?s) with (eval_progn s). unfold eval_progn. rewrite (pair_cdr _ _ _ _ P). cbn [bind].
  rewrite (pair_cons _ _ _ _ P2), (pair_ref _ _ _ _ P2). cbn [bind]. rewrite (vrel_word _ _ _ Vr).
  unfold progn_state. destruct rest; cbn [is_pair] in *; auto.
  + rewrite res_ok; [reflexivity|]. specialize (D4 eq_refl). cbn [length]. lia.
  + cbn [before_last] in E. discriminate.
Qed.

Lemma tail_leads prims : implements prim prims -> forall s e x s' e' x' d, tail prims s e x s' e' x' d -> passes s e x s' e' x' d.
Proof.
  intros IMP s e x s' e' x' d T. destruct T.
  - eapply call_leads; eauto. apply eval_sound; auto.
  - assert (SD : sound prim (eval prims false n)) by (apply eval_sound; auto).
    destruct (if_leads _ c s e v s1 d x1 x2 x1 SD H) as (N&HH); [rewrite H0; auto|].
    exists N. intros f w g K sz p env r SR ER V GR GK F D SZ.
    destruct (st_form prim f w g K sz _ _ p env r V ltac:(lia)) as (q&P&Vq&ST). apply vrel_cons_inv in Vq. destruct Vq as (xc&q2&P2&Vc&V2).
    eapply leads_step; [|apply HH; eauto].
    rewrite ST. change (eval_form f (0x104 - 0x100) ?s) with (eval_if s). unfold eval_if.
    rewrite (pair_cdr _ _ _ _ P). cbn [bind]. rewrite (pair_cdr _ _ _ _ P2). cbn [bind].
    rewrite res_ok by (cbn [length]; lia). rewrite (pair_car _ _ _ _ P2). reflexivity.
  - assert (SD : sound prim (eval prims false n)) by (apply eval_sound; auto).
    destruct (if_leads _ c s e v s1 d x1 (VC x2 r) x2 SD H) as (N&HH); [rewrite H0; eauto|].
    exists N. intros f w g K sz p env r0 SR ER V GR GK F D SZ.
    destruct (st_form prim f w g K sz _ _ p env r0 V ltac:(lia)) as (q&P&Vq&ST). apply vrel_cons_inv in Vq. destruct Vq as (xc&q2&P2&Vc&V2).
    eapply leads_step; [|apply HH; eauto].
    rewrite ST. change (eval_form f (0x104 - 0x100) ?s) with (eval_if s). unfold eval_if.
    rewrite (pair_cdr _ _ _ _ P). cbn [bind]. rewrite (pair_cdr _ _ _ _ P2). cbn [bind].
    rewrite res_ok by (cbn [length]; lia). rewrite (pair_car _ _ _ _ P2). reflexivity.
  - eapply cond_leads; eauto. apply eval_sound; auto.
  - eapply let_leads; eauto. apply eval_sound; auto.
  - eapply progn_leads; eauto. apply eval_sound; auto.
  - eapply eval_leads; eauto. apply eval_sound; auto.
  - eapply macro_leads; eauto. apply eval_sound; auto.
Qed.

Lemma tails_leads prims : implements prim prims -> forall d s e x s' e' x', tails prims d s e x s' e' x' -> passes s e x s' e' x' d.
Proof.
  intros IMP d s e x s' e' x' T. induction T as [s e x|s e x s1 e1 x1 s2 e2 x2 d1 T1 LD T2 (N2&H2)].
  - exists 0%nat. intros. apply com_here; auto.
  - destruct (tail_leads _ IMP _ _ _ _ _ _ _ T1) as (N1&H1). exists (N1 + N2)%nat. intros f w g K sz p env r SR ER V GR GK F D SZ.
    eapply leads_bind with (R1 := K) (N1 := N1) (N2 := N2).
    { apply H1; auto; lia. } { apply incl_refl. } { lia. }
    intros w1 st1 K1 (g1&p1&n1&r1&->&SR1&ER1&V1&GR1).
    assert (GK1 : Forall (kgood w1) K) by (apply (kgoods_k _ _ _ _ _ _ SR K1); auto; apply rooted_incl, incl_refl).
    apply H2; auto; lia.
Qed.

End Sound.
