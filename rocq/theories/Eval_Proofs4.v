(* The evaluator does what the reference interpreter says: the arguments of functions,
   closures and macros. *)
From Coq Require Import Permutation.
From Verif Require Import Base Value_Model Heap_Model Env_Model Match_Model QQ_Model GC_Model Eval_Model Eval_Spec
  Value_Proofs Value_Proofs2 Heap_Spec Heap_Proofs Heap_Proofs2 List_Proofs Env_Proofs Env_Props QQ_Proofs GC_Spec Eval_Rel Eval_Proofs
  Eval_GC Eval_Proofs2 Eval_Proofs3.
Local Open Scope Z_scope.

Section Arch.
Context {A : Arch} {HO : Host}.

Ltac sp := repeat match goal with |- _ /\ _ => split end.

(* a chain of cells *)
Fixpoint clist (h : heap) (cs ws : list Z) : Prop :=
  match cs, ws with
  | [], [] => True
  | c :: cs', x :: ws' => cell h c = Some (x, headp cs') /\ clist h cs' ws'
  | _, _ => False
  end.

Lemma clist_same h h' cs : forall ws, (forall c, In c cs -> cell h' c = cell h c) -> clist h cs ws -> clist h' cs ws.
Proof.
  induction cs as [|c cs IH]; intros [|x ws] H; cbn; auto. intros (H1&H2). split.
  - rewrite H by (left; auto). auto.
  - apply IH; auto. intros; apply H; right; auto.
Qed.

Lemma clist_last h cs ws : clist h cs ws -> cs <> [] -> exists x, cell h (last cs 0) = Some (x, 0).
Proof.
  revert ws. induction cs as [|c cs IH]; intros [|x ws] H NE; try congruence; [destruct H|]. destruct H as (H1&H2).
  destruct cs as [|c2 cs]; [exists x; auto|]. apply (IH _ H2). discriminate.
Qed.

Lemma last_in (cs : list Z) d : cs <> [] -> In (last cs d) cs.
Proof.
  induction cs as [|c cs IH]; [congruence|]. intros _. destruct cs as [|c2 cs]; [left; auto|]. right. apply IH. discriminate.
Qed.

Lemma clist_snoc h cs ws c r x : NoDup cs -> ~ In c cs -> (forall j, In j (c :: cs) -> 0 <= j) -> cs <> [] -> clist h cs ws ->
  cell h c = Some (r, 0) -> cell h (last cs 0) = Some (x, 0) ->
  clist (hput h (last cs 0) (x, enc_cons_ptr c)) (cs ++ [c]) (ws ++ [r]).
Proof.
  intros ND NI RG. revert ws. induction cs as [|c1 cs IH]; intros [|w1 ws] NE H Hc Hl; try congruence; [destruct H|].
  destruct H as (H1&H2). inversion ND as [|? ? NI1 ND']; subst. destruct cs as [|c2 cs].
  - destruct ws; [|destruct H2]. cbn in *. assert (x = w1) by congruence. subst. sp; auto.
    + eapply cell_hput_eq; eauto.
    + rewrite cell_hput_neq; auto; try (apply RG; auto).
  - change (last (c1 :: c2 :: cs) 0) with (last (c2 :: cs) 0) in *. cbn [app clist]. split.
    + rewrite cell_hput_neq; [exact H1| |].
      * apply RG. right; right. apply last_in; discriminate.
      * intros E. apply NI1. rewrite <- E. apply last_in; discriminate.
    + apply IH; auto; [|intros j [<-|J]; apply RG; [left|right; right]; auto|discriminate].
      intros J; apply NI; right; auto.
Qed.

(* the cells [F], which were not in reach at first, change in any way *)
Lemma keeps_retire R w0 w w' (F : Z -> Prop) : keeps R w0 w -> (forall j, F j -> ~ rch w0 R j) ->
  ccells (wh w') = ccells (wh w) -> hsize (wh w') = hsize (wh w) -> incl (wfl w') (wfl w) ->
  (forall l j k, wL w l = Some (j, k) -> wL w' l = Some (j, k)) -> (forall j, lcell w' j -> lcell w j \/ F j) ->
  (forall j, ~ F j -> (wR w j <-> wR w' j)) -> (forall j, ~ F j -> ~ lcell w j -> cell (wh w') j = cell (wh w) j) -> keeps R w0 w'.
Proof.
  intros [K1 K2 K3 K4 K5 K6] NF C S FR L LC PR CE.
  assert (X : forall j, rch w0 R j -> ~ F j) by (intros j J f; eapply NF; eauto).
  constructor; try congruence.
  - intros i I J. eapply K3; eauto.
  - intros i I N. destruct (K4 i I N) as (E&N'). split; [rewrite CE; auto|]. intros Y. apply LC in Y. destruct Y as [Y|Y]; auto. eapply X; eauto.
  - intros i l k I E. apply L. eauto.
  - intros i I. rewrite (K6 i I). apply PR. auto.
Qed.

Lemma vrels_k R w w' g s vs xs : srel w g s -> keeps R w w' -> Forall2 (vrel w) vs xs -> Forall (rooted w R) xs -> Forall2 (vrel w') vs xs.
Proof.
  intros SR KP. induction 1 as [|v x vs xs V F IH]; intros RT; constructor; inversion RT; subst; auto.
  apply (vrel_k _ _ _ _ _ SR KP _ _ V); auto.
Qed.

Lemma clist_rch w R cs : forall ws, clist (wh w) cs ws -> (forall c, In c cs -> ~ lcell w c /\ 0 <= c < 2 ^ (W - 8) /\ ~ In c (wfl w)) ->
  match cs with [] => True | c :: _ => rch w R c end -> (forall c, In c cs -> rch w R c) /\ Forall (rooted w R) ws.
Proof.
  induction cs as [|c cs IH]; intros [|x ws] H LV RC; cbn in H; try contradiction.
  - split; [intros c []|constructor].
  - destruct H as (H1&H2). destruct (LV c ltac:(left; auto)) as (N1&R1&F1).
    destruct (IH ws H2) as (I1&I2).
    + intros; apply LV; right; auto.
    + destruct cs as [|c2 cs]; auto. destruct (LV c2 ltac:(right; left; auto)) as (N2&R2&F2).
      eapply rch_step; eauto.
    + split; [intros c' [<-|J]; auto|]. constructor; auto.
      intros j Rj -> Fj. eapply rch_step; eauto.
Qed.

(* ---- the list of rest arguments while it is being built ---- *)

(* [w0] is the world before, from which [R] has to be kept *)
Record building (R : list Z) (w0 w : world) (b i : Z) (cs : list Z) (cenv : Z) (ws : list Z) : Prop := {
  bu_keeps : keeps R w0 w;
  bu_nodup : NoDup (b :: i :: cs);
  bu_cells : forall j, In j (b :: i :: cs) -> wR w j /\ ~ lcell w j /\ 0 <= j < 2 ^ (W - 8) /\ ~ rch w0 R j /\ ~ In j (wfl w);
  bu_i : cell (wh w) i = Some (enc_cons_ptr b, cenv);
  bu_chain : clist (wh w) (b :: cs) (enc_sym 0x30015 :: ws)
}.

Lemma building_rch R w0 w b i cs cenv ws R1 : building R w0 w b i cs cenv ws -> In (enc_cons_ptr i) R1 ->
  (forall j, In j (b :: i :: cs) -> rch w R1 j) /\ Forall (rooted w R1) (cenv :: ws).
Proof.
  intros [H1 H2 H3 H4 H5] Ii.
  assert (Ri : rch w R1 i).
  { destruct (H3 i ltac:(right; left; auto)) as (_&_&Rg&_&NF). apply rch_root; auto. apply in_or_app. auto. }
  destruct (H3 i ltac:(right; left; auto)) as (_&NL&_).
  assert (Rb : rch w R1 b).
  { destruct (H3 b ltac:(left; auto)) as (_&_&Rg&_&NF). apply (rch_step w R1 i (enc_cons_ptr b) cenv); auto. }
  destruct (clist_rch w R1 _ _ H5) as (I1&I2); auto.
  { intros c J. assert (In c (b :: i :: cs)) as J' by (destruct J as [<-|J]; [left|right; right]; auto). destruct (H3 c J') as (_&Y1&Y2&_&Y3). auto. }
  split.
  - intros j [<-|[<-|J]]; auto. apply I1. right; auto.
  - inversion I2; subst. constructor; auto. intros j Rj -> Fj. apply (rch_step w R1 i (enc_cons_ptr b) (enc_cons_ptr j)); auto.
Qed.

Lemma building_keeps R w0 w w' b i cs cenv ws R1 : building R w0 w b i cs cenv ws -> keeps R1 w w' -> incl R R1 -> In (enc_cons_ptr i) R1 ->
  building R w0 w' b i cs cenv ws.
Proof.
  intros B KP IR Ii. destruct (building_rch _ _ _ _ _ _ _ _ _ B Ii) as (RC&_). pose proof B as [H1 H2 H3 H4 H5].
  assert (C : forall j, In j (b :: i :: cs) -> cell (wh w') j = cell (wh w) j /\ ~ lcell w' j).
  { intros j J. destruct (H3 j J) as (_&X&_). apply (kp_cells _ _ _ KP); auto. }
  constructor; auto.
  - eapply keeps_trans; eauto. eapply keeps_incl; eauto.
  - intros j J. destruct (H3 j J) as (X1&X2&X3&X4&X5). destruct (C j J) as (_&Y). pose proof (RC j J) as Z. sp; auto; try lia.
    + apply (kp_priv _ _ _ KP j Z). auto.
    + apply (kp_free _ _ _ KP j Z).
  - rewrite (proj1 (C i ltac:(right; left; auto))). auto.
  - eapply (clist_same (wh w)); [|exact H5]. intros c [<-|Ic]; apply C; [left; auto|right; right; auto].
Qed.

Lemma building_good R w0 w g s b i cs cenv ws j : building R w0 w b i cs cenv ws -> srel w g s -> In j (b :: i :: cs) -> good w (enc_cons_ptr j).
Proof.
  intros [H1 H2 H3 H4 H5] SR J. destruct (H3 j J) as (_&_&Rg&_&NF). apply enc_good; auto; [apply (sr_size _ _ _ SR)|].
  assert (X : exists c, cell (wh w) j = Some c).
  { destruct J as [<-|[<-|J]]; [destruct H5 as (H5&_); eauto|eauto|].
    destruct H5 as (_&H5). revert ws H5 J. clear. induction cs as [|c cs IH]; intros [|x ws] H J; cbn in H; try contradiction.
    destruct H as (H1&H2). destruct J as [<-|J]; eauto. }
  destruct X as (c&X). eapply cell_range; eauto.
Qed.

Lemma building_snoc R w0 w g s b i cs cenv ws c0 r : building R w0 w b i cs cenv ws -> srel w g s -> good w r -> ctx_ok w c0 ->
  In (enc_cons_ptr i) (cw c0) -> In r (cw c0) -> incl R (cw c0) ->
  (cons_gc (wh w) g [] c0 r NIL = Ok NoMem /\ (length (wfl w) < 1)%nat) \/
  exists w1 w2 h1 c, cons_gc (wh w) g [] c0 r NIL = Ok (Val (h1, enc_cons_ptr c)) /\
    set_cdr h1 (enc_cons_ptr (last (b :: cs) 0)) (enc_cons_ptr c) = Ok (wh w2, true) /\
    srel w1 g s /\ keeps (cw c0) w w1 /\ agree w1 w2 /\ hsize (wh w2) = hsize (wh w1) /\ incl (wfl w2) (wfl w1) /\
    building R w0 w2 b i (cs ++ [c]) cenv (ws ++ [r]) /\ srel w2 g s /\ (length (wfl w) <= length (wfl w2) + 1)%nat.
Proof.
  intros B0 SR0 Gr0 CX Ii Ir IR. unfold cons_gc.
  destruct (need1_ok w g s [] c0 SR0 (Forall_nil _) CX) as [(->&L)|(w1&->&SR&KP&L&L1)]; [left; auto|right]. cbn [bind].
  cbn [app] in KP. pose proof (building_keeps _ _ _ _ _ _ _ _ _ _ B0 KP IR Ii) as B.
  assert (Gr : good w1 r) by (apply (good_k _ _ _ _ _ SR0 KP _ Gr0); apply rooted_in; auto).
  clear B0 Gr0 CX IR. destruct (wfl w1) as [|c fl] eqn:EF; [cbn in L1; lia|].
  destruct (take w1 g s c fl r NIL SR EF Gr) as (h1&E1&Rc&SR1&HX1&C1&NF&NL&Gc&SB); [rewrite NIL_0; apply nil_good|].
  rewrite E1. cbn [bind].
  set (w1' := mkW h1 fl (wL w1) (fun j => j = c \/ wR w1 j)) in *.
  pose proof B as [H1 H2 H3 H4 H5].
  assert (Fc : ~ rch w0 R c). { intros X. apply (kp_free _ _ _ H1 _ X). rewrite EF. left; auto. }
  assert (CH : forall j, In j (b :: i :: cs) -> cell h1 j = cell (wh w1) j /\ j <> c).
  { intros j J. destruct (H3 j J) as (X1&X2&X3&X4&X5). split; [apply (hx_cells _ _ HX1); auto|].
    intros ->. apply X5. rewrite EF. left; auto. }
  assert (SUB : forall j, In j (b :: cs) -> In j (b :: i :: cs)) by (intros j [<-|J]; [left|right; right]; auto).
  assert (CL1 : clist h1 (b :: cs) (enc_sym 0x30015 :: ws)).
  { eapply (clist_same (wh w1)); [|exact H5]. intros j J. apply CH; auto. }
  destruct (clist_last _ _ _ CL1) as (x&Cl); [discriminate|].
  assert (Il : In (last (b :: cs) 0) (b :: cs)) by (apply last_in; discriminate).
  set (l := last (b :: cs) 0) in *. destruct (H3 l (SUB _ Il)) as (L2&L3&L4&L5&L6).
  assert (NFl : ~ In l (wfl w1')) by (cbn; intros X; apply L6; rewrite EF; right; auto).
  destruct (sr_good _ _ _ SR1 l x 0 NFl Cl) as (Gx&_).
  destruct (scribble w1' g s l x (enc_cons_ptr c) (x, 0) SR1) as (SR2&G2); auto; try lia.
  { cbn. auto. }
  set (w2 := mkW (hput (wh w1') l (x, enc_cons_ptr c)) (wfl w1') (wL w1') (wR w1')) in *.
  exists w1, w2, h1, c. split; auto. split; [apply (set_cdr_enc h1 l x 0); auto|].
  assert (SZ : hsize (wh w2) = hsize (wh w1)) by (cbn; rewrite hput_size; apply (hx_size _ _ HX1)).
  sp; auto.
  - eapply agree_trans; [apply hext_agree; exact HX1|exact G2].
  - apply (hx_free _ _ HX1).
  - constructor.
    + apply (keeps_retire R w0 w1 w2 (fun j => j = c \/ In j (b :: i :: cs))); auto.
      * intros j [->|J]; auto. apply H3; auto.
      * apply (hx_ccells _ _ HX1).
      * apply (hx_free _ _ HX1).
      * intros j N. cbn. split; auto. intros [->|X]; auto. destruct N; auto.
      * intros j N NLj. change (wh w2) with (hput h1 l (x, enc_cons_ptr c)). rewrite cell_hput_neq; [|apply L4|intros <-; apply N; right; auto].
        destruct (in_dec Z.eq_dec j (wfl w1)) as [J|J]; [|apply (hx_cells _ _ HX1); auto].
        apply SB. intros [->|[]]. auto.
    + rewrite !app_comm_cons. apply Permutation_NoDup with (c :: b :: i :: cs); [apply Permutation_cons_append|].
      constructor; auto. intros J. apply (CH _ J). auto.
    + intros j J. rewrite !app_comm_cons in J. apply in_app_or in J. destruct J as [J|[<-|[]]].
      * destruct (H3 j J) as (X1&X2&X3&X4&X5). sp; auto; try apply X3; cbn; auto. intros X. apply X5. rewrite EF. right; auto.
      * sp; auto; try apply Rc. cbn; auto.
    + change (wh w2) with (hput h1 l (x, enc_cons_ptr c)). rewrite cell_hput_neq; [rewrite (proj1 (CH i ltac:(right; left; auto))); auto|apply L4|].
      intros E. apply NoDup_cons_iff in H2. destruct H2 as (N1&N2). apply NoDup_cons_iff in N2. destruct N2 as (N3&N4).
      rewrite E in Il. destruct Il as [Il|Il]; auto. apply N1. left; auto.
    + change (wh w2) with (hput h1 l (x, enc_cons_ptr c)). rewrite app_comm_cons. change (enc_sym 0x30015 :: ws ++ [r]) with ((enc_sym 0x30015 :: ws) ++ [r]).
      apply clist_snoc; auto.
      * apply NoDup_cons_iff in H2. destruct H2 as (N1&N2). apply NoDup_cons_iff in N2. destruct N2 as (N3&N4). constructor; auto. intros X; apply N1; right; auto.
      * intros J. apply (CH c (SUB _ J)). auto.
      * intros j [<-|J]; [lia|]. apply (H3 j (SUB _ J)).
      * discriminate.
      * rewrite <- NIL_0. auto.
  - cbn in *. lia.
Qed.

Lemma clist_vlist w cs : forall vs ws, clist (wh w) cs ws -> (forall c, In c cs -> live w c /\ 0 <= c < 2 ^ (W - 8)) ->
  Forall2 (vrel w) vs ws -> vrel w (vlist vs) (headp cs).
Proof.
  induction cs as [|c cs IH]; intros vs [|x ws] H LV F; cbn in H; try contradiction.
  - inversion F; subst. apply vrel_nil_0.
  - destruct H as (H1&H2). inversion F as [|v x' vs' ws' V F']; subst. cbn [vlist headp].
    apply vr_cons with (x := x) (y := headp cs); auto.
    + apply enc_pair; auto; apply LV; left; auto.
    + apply IH with (ws := ws); auto. intros; apply LV; right; auto.
Qed.

Lemma building_done R w0 w g s b i cs cenv ws e vs : building R w0 w b i cs cenv ws -> srel w g s -> erel w e cenv -> Forall2 (vrel w) vs ws ->
  exists w', wh w' = wh w /\ wfl w' = wfl w /\ keeps R w0 w' /\
    srel w' g (fst (alloc s (Some (vlist vs)))) /\ erel w' ((0x30015, length (sto s)) :: e) (enc_cons_ptr i) /\ agree w w'.
Proof.
  intros B SR ER F. pose proof B as [H1 H2 H3 H4 H5].
  set (P := fun j => wR w j /\ ~ In j (b :: i :: cs)).
  destruct (publish w g s (fun j => j = b \/ P j) SR) as (SR1&G1).
  { intros j [->|[J _]]; auto. apply H3. left; auto. }
  set (w1 := mkW (wh w) (wfl w) (wL w) (fun j => j = b \/ P j)) in *.
  assert (NB : forall j, In j (i :: cs) -> j <> b).
  { intros j J ->. inversion H2; auto. }
  assert (LV1 : forall j, In j (i :: cs) -> live w1 j /\ 0 <= j < 2 ^ (W - 8)).
  { intros j J. destruct (H3 j ltac:(right; auto)) as (X1&X2&X3&X4&X5). split; auto. split; [|split]; auto.
    intros [X|[_ X]]; [eapply NB; eauto|]. apply X. right; auto. }
  destruct H5 as (Cb&CL).
  assert (V : vrel w1 (vlist vs) (headp cs)).
  { apply clist_vlist with (ws := ws); auto; [intros c Ic; apply LV1; right; auto|]. eapply vrels_mono; eauto. }
  destruct (H3 b ltac:(left; auto)) as (B1&B2&B3&B4&B5).
  destruct (promote w1 g s b P 0x30015 (Some (vlist vs)) (headp cs) SR1) as (SR2&G2); auto; cbn; auto.
  { intros (_&X). apply X. left; auto. }
  { right; reflexivity. }
  set (w2 := mkW (wh w1) (wfl w1) (addL (wL w1) (length (sto s)) (b, 0x30015)) P) in *.
  exists w2. sp; auto.
  - apply (keeps_retire R w0 w w2 (fun j => In j (b :: i :: cs))); auto using incl_refl.
    + intros j J. apply H3; auto.
    + apply G2.
    + intros j (l&k&E). apply addL_inv in E. destruct E as [[-> E]|[_ E]]; [|left; exists l, k; auto].
      injection E as -> ->. right. left; auto.
    + intros j N. cbn. unfold P. tauto.
  - destruct (LV1 i ltac:(left; auto)) as (Li&Ri). apply er_cons with (j := b) (d := cenv); auto.
    + apply G2; auto.
    + cbn. unfold addL. rewrite Nat.eqb_refl. reflexivity.
    + eauto using erel_mono, agree_trans.
  - eapply agree_trans; eauto.
Qed.

(* ---- new bindings ---- *)

Lemma binding_ok w g s c e env k v x : srel w g s -> erel w e env -> key_ok k -> vrel w v x -> ctx_ok w c ->
  (allocate_binding (wh w) g c (enc_sym k) x env = Ok NoMem /\ (length (wfl w) < 2)%nat) \/
  exists w' env', allocate_binding (wh w) g c (enc_sym k) x env = Ok (Val (wh w', env')) /\
    srel w' g (fst (alloc s (Some v))) /\ keeps (enc_sym k :: x :: env :: cw c) w w' /\
    erel w' ((k, length (sto s)) :: e) env' /\ (length (wfl w) <= length (wfl w') + 2)%nat.
Proof.
  intros SR ER KO V CX. unfold allocate_binding. change 2 with (Z.of_nat 2).
  destruct (need_ok w g s [enc_sym k; x; env] c 2 SR) as [(->&L)|(w1&->&SR1&KP&L&L1)]; auto.
  { repeat (apply Forall_cons; [first [apply key_good; assumption|gd]|]). constructor. }
  right. cbn [bind]. cbn [app] in KP. carry SR KP.
  destruct (wfl w1) as [|b [|i fl]] eqn:EF; try (cbn in L1; lia).
  destruct (bind_new w1 g s e env k (Some v) x b i fl SR1 ER EF KO V) as (h1&h2&C1&C2&Rb&Ri&SR'&HX&ER'&SB).
  eexists _, (enc_cons_ptr i). rewrite C1. cbn [bind]. rewrite C2. cbn [bind]. split; [|split; [exact SR'|]]; [reflexivity|].
  sp; auto; [|cbn in *; lia]. eapply keeps_trans; [exact KP|]. apply hext_keeps_same; auto.
Qed.

(* the same, but not yet known to the program *)
Lemma binding_priv w g s c e env : srel w g s -> erel w e env -> ctx_ok w c ->
  (allocate_binding (wh w) g c S_REST_ARGS NIL env = Ok NoMem /\ (length (wfl w) < 2)%nat) \/
  exists w' b i, allocate_binding (wh w) g c S_REST_ARGS NIL env = Ok (Val (wh w', enc_cons_ptr i)) /\
    srel w' g s /\ keeps (env :: cw c) w w' /\ (forall R, incl R (env :: cw c) -> building R w w' b i [] env []) /\
    (length (wfl w) <= length (wfl w') + 2)%nat.
Proof.
  intros SR ER CX. unfold allocate_binding. change 2 with (Z.of_nat 2).
  assert (GS : forall w, good w S_REST_ARGS). { intros w'. apply key_good. right; reflexivity. }
  assert (GN : forall w, good w NIL). { intros w'. rewrite NIL_0. apply nil_good. }
  destruct (need_ok w g s [S_REST_ARGS; NIL; env] c 2 SR) as [(->&L)|(w1&->&SR1&KP&L&L1)]; auto.
  { repeat (apply Forall_cons; [first [apply GS|apply GN|gd]|]). constructor. }
  right. cbn [bind]. cbn [app] in KP. assert (ER1 : erel w1 e env) by (apply (erel_k _ _ _ _ _ SR KP _ _ ER); rt).
  destruct (wfl w1) as [|b [|i fl]] eqn:EF; try (cbn in L1; lia).
  destruct (take w1 g s b (i :: fl) S_REST_ARGS NIL SR1 EF (GS _) (GN _)) as (h1&C1&Rb&SR2&HX1&Cb&NFb&NLb&Gb&SB1).
  set (w2 := mkW h1 (i :: fl) (wL w1) (fun j => j = b \/ wR w1 j)) in *.
  pose proof (erel_mono _ _ _ _ (hext_agree _ _ HX1) ER1) as ER2.
  destruct (take w2 g s i fl (enc_cons_ptr b) env SR2 eq_refl Gb ltac:(gd)) as (h2&C2&Ri&SR3&HX2&Ci&NFi&NLi&Gi&SB2).
  set (w3 := mkW h2 fl (wL w2) (fun j => j = i \/ wR w2 j)) in *.
  exists w3, b, i. rewrite C1. cbn [bind]. change h1 with (wh w2). rewrite C2. cbn [bind].
  assert (K3 : keeps (env :: cw c) w w3).
  { eapply keeps_trans; [eapply keeps_incl; [exact KP|]; intros y Y; right; right; exact Y|].
    eapply keeps_trans; apply hext_keeps; eauto; cbn; auto. }
  sp; auto; [|cbn in *; lia]. intros R IR.
  assert (NI : i <> b) by (intros ->; apply NFb; left; auto).
  assert (FR : forall j, In j (b :: i :: fl) -> ~ rch w R j).
  { intros j J X. assert (KR : keeps R w w1) by (eapply keeps_incl; [exact KP|]; intros y Y; right; right; auto).
    apply (kp_free _ _ _ KR j X). rewrite EF. auto. }
  assert (CB : cell (wh w3) b = Some (S_REST_ARGS, NIL)).
  { rewrite <- Cb. apply (hx_cells _ _ HX2); cbn; auto. }
  constructor; auto.
  - eapply keeps_incl; eauto.
  - constructor; [intros [X|[]]; auto|]. constructor; auto. constructor.
  - intros j [<-|[<-|[]]]; (split; [|split; [|split; [|split]]]); auto; try (apply FR; cbn; auto); cbn; auto.
    intros X. apply NFb. right; auto.
  - split; [|exact I]. cbn [headp]. rewrite <- NIL_0. exact CB.
Qed.

(* the binding of a parameter of a macro *)
Lemma macro_pair w g s c e env k v x : srel w g s -> erel w e env -> key_ok k -> vrel w v x -> ctx_ok w c ->
  (cons_gc (wh w) g [enc_sym k; x; env] c (enc_sym k) x = Ok NoMem /\ (length (wfl w) < 2)%nat) \/
  exists h1 en, cons_gc (wh w) g [enc_sym k; x; env] c (enc_sym k) x = Ok (Val (h1, en)) /\
    ((cons_gc h1 g [en; env; NIL] c en env = Ok NoMem /\ (length (wfl w) < 2)%nat) \/
     exists w' env', cons_gc h1 g [en; env; NIL] c en env = Ok (Val (wh w', env')) /\
       srel w' g (fst (alloc s (Some v))) /\ keeps (env :: cw c) w w' /\
       erel w' ((k, length (sto s)) :: e) env' /\ (length (wfl w) <= length (wfl w') + 2)%nat).
Proof.
  intros SR ER KO V CX. unfold cons_gc.
  destruct (need1_ok w g s [enc_sym k; x; env] c SR) as [(->&L)|(w1&->&SR1&KP&L&L1)]; auto.
  { repeat (apply Forall_cons; [first [apply key_good; assumption|gd]|]). constructor. }
  right. cbn [bind]. cbn [app] in KP. pose proof (ctx_k _ _ _ _ _ SR (keeps_incl _ (cw c) _ _ KP ltac:(inc)) CX) as CX1. carry SR KP.
  destruct (wfl w1) as [|b fl] eqn:EF; [cbn in L1; lia|].
  destruct (take w1 g s b fl (enc_sym k) x SR1 EF (key_good _ _ KO) ltac:(gd)) as (h1&C1&Rb&SR2&HX1&Cb&NFb&NLb&Gb&SB1).
  set (w2 := mkW h1 fl (wL w1) (fun j => j = b \/ wR w1 j)) in *.
  pose proof (ctx_mono _ _ _ (hext_agree _ _ HX1) (hx_size _ _ HX1) (hx_free _ _ HX1) CX1) as CX2. carryx HX1.
  exists h1, (enc_cons_ptr b). rewrite C1. cbn [bind]. split; auto.
  change h1 with (wh w2).
  destruct (need1_ok w2 g s [enc_cons_ptr b; env; NIL] c SR2) as [(->&L2)|(w3&->&SR3&KP2&L2&L3)]; auto.
  { repeat (apply Forall_cons; [first [rewrite NIL_0; apply nil_good|gd]|]). constructor. }
  { left. split; auto. cbn in *; lia. }
  right. cbn [bind]. cbn [app] in KP2.
  assert (RC : rch w2 (enc_cons_ptr b :: env :: NIL :: cw c) b) by (apply rch_root; auto; left; auto).
  assert (NLb2 : ~ lcell w2 b) by exact NLb.
  destruct (kp_cells _ _ _ KP2 b RC NLb2) as (Cb3&NLb3). pose proof (kp_free _ _ _ KP2 b RC) as NFb3.
  assert (Rb3 : wR w3 b). { apply (kp_priv _ _ _ KP2 b RC). left; auto. }
  assert (Gb3 : good w3 (enc_cons_ptr b)) by (apply (good_k _ _ _ _ _ SR2 KP2 _ Gb); rt).
  assert (RX : rooted w2 (enc_cons_ptr b :: env :: NIL :: cw c) x).
  { intros j Rj -> Fj. apply (rch_step w2 _ b (enc_sym k) (enc_cons_ptr j)); auto. }
  carry SR2 KP2.
  destruct (wfl w3) as [|i fl3] eqn:EF3; [cbn in L3; lia|].
  destruct (take w3 g s i fl3 (enc_cons_ptr b) env SR3 EF3 Gb ltac:(gd)) as (h2&C2&Ri&SR4&HX2&Ci&NFi&NLi&Gi&SB2).
  set (w4 := mkW h2 fl3 (wL w3) (fun j => j = i \/ wR w3 j)) in *. carryx HX2.
  assert (NI : i <> b) by (intros ->; apply NFb3; left; auto).
  assert (CB4 : cell (wh w4) b = Some (enc_sym k, x)).
  { rewrite (hx_cells _ _ HX2) by (rewrite ?EF3; auto). rewrite Cb3. exact Cb. }
  destruct (promote w4 g s b (fun j => wR w3 j /\ j <> b) k (Some v) x SR4) as (SR5&G5); auto; try (cbn; auto; fail).
  { intros j (J&_). right; auto. }
  { intros (_&X). auto. }
  { cbn. intros X. apply NFb3. right; auto. }
  set (w5 := mkW (wh w4) (wfl w4) (addL (wL w4) (length (sto s)) (b, k)) (fun j => wR w3 j /\ j <> b)) in *.
  exists w5, (enc_cons_ptr i). rewrite C2. cbn [bind]. sp; auto; [| |cbn in *; lia].
  - assert (K1 : keeps (env :: cw c) w w1) by (eapply keeps_incl; [exact KP|inc]).
    assert (K3 : keeps (env :: cw c) w w3).
    { eapply keeps_trans; [exact K1|]. eapply keeps_trans; [apply (hext_keeps _ w1 w2); [exact HX1|cbn; auto]|].
      eapply keeps_incl; [exact KP2|inc]. }
    assert (K4 : keeps (env :: cw c) w w4).
    { eapply keeps_trans; [exact K3|]. apply (hext_keeps _ w3 w4); [exact HX2|cbn; auto]. }
    apply (keeps_retire _ w w4 w5 (fun j => j = b \/ j = i)); auto using incl_refl.
    + intros j [-> | ->] X.
      * apply (kp_free _ _ _ K1 _ X). rewrite EF. left; auto.
      * apply (kp_free _ _ _ K3 _ X). rewrite EF3. left; auto.
    + apply G5.
    + intros j (l&k'&E). apply addL_inv in E. destruct E as [[-> E]|[_ E]]; [|left; exists l, k'; auto].
      injection E as -> ->. right. left; auto.
    + intros j N. cbn. split; [intros [->|X]; [tauto|split; auto; intros ->; tauto]|tauto].
  - apply er_cons with (j := b) (d := env); auto.
    + split; [|split]; cbn.
      * auto.
      * intros (l&k'&E). apply addL_inv in E. destruct E as [[-> E]|[_ E]]; [injection E as -> ->; auto|]. apply NLi. exists l, k'. auto.
      * intros (X&_). apply (sr_priv _ _ _ SR3 _ X). rewrite EF3. left; auto.
    + cbn. unfold addL. rewrite Nat.eqb_refl. reflexivity.
    + eauto using erel_mono.
Qed.

Lemma macro_bind_ok ps : forall es s e s' e', macro_params s e ps es = Some (s', e') -> exists N, forall f w g c env xp xa,
  srel w g s -> erel w e env -> vrel w ps xp -> vrel w es xa -> ctx_ok w c -> rooted w (cw c) xp -> rooted w (cw c) xa -> (N <= f)%nat ->
  (macro_bind f (wh w) g c xp xa env = Ok NoMem /\ (length (wfl w) < N)%nat) \/
  exists w' env', macro_bind f (wh w) g c xp xa env = Ok (Val (wh w', env')) /\
    srel w' g s' /\ keeps (cw c) w w' /\ erel w' e' env' /\ (length (wfl w) <= length (wfl w') + N)%nat.
Proof.
  assert (STOP : forall s e, exists N, forall f w g c env xp xa, srel w g s -> erel w e env -> is_cons xp && is_cons xa = false ->
    (N <= f)%nat ->
    exists w' env', macro_bind f (wh w) g c xp xa env = Ok (Val (wh w', env')) /\
    srel w' g s /\ keeps (cw c) w w' /\ erel w' e env' /\ (length (wfl w) <= length (wfl w') + N)%nat).
  { intros s e. exists 0%nat. intros f w g c env xp xa SR ER N _. exists w, env. sp; auto using keeps_refl; [|lia].
    destruct f; cbn [macro_bind]; rewrite N; auto. }
  induction ps as [k|z|p IHp ps IH|pp ? body ? ce]; intros es s e s' e' E; cbn [macro_params] in E; [..|discriminate].
  - injection E as <- <-. destruct (STOP s e) as (N&H). exists N. intros f w g c env xp xa SR ER V _ _ _ _ F. right. apply H; auto.
    rewrite (vrel_word _ _ _ V); auto.
  - injection E as <- <-. destruct (STOP s e) as (N&H). exists N. intros f w g c env xp xa SR ER V _ _ _ _ F. right. apply H; auto.
    rewrite (vrel_word _ _ _ V); auto.
  - clear IHp. destruct es as [k|z|y es|pp body ce]; [..|discriminate].
    + injection E as <- <-. destruct (STOP s e) as (N&H). exists N. intros f w g c env xp xa SR ER _ V _ _ _ F. right. apply H; auto.
      rewrite (vrel_word _ _ _ V), andb_false_r; auto.
    + injection E as <- <-. destruct (STOP s e) as (N&H). exists N. intros f w g c env xp xa SR ER _ V _ _ _ F. right. apply H; auto.
      rewrite (vrel_word _ _ _ V), andb_false_r; auto.
    + destruct p as [k| | |]; try discriminate. destruct (variable k) eqn:VK; [|discriminate]. apply variable_iff in VK.
      destruct (alloc s (Some y)) as [s1 l] eqn:EA. destruct (IH _ _ _ _ _ E) as (N&H).
      exists (S (S N)). intros f w g c env xp xa SR ER Vp Va CX Rp Ra Ff. destruct f as [|f]; [lia|].
      apply vrel_cons_inv in Vp. destruct Vp as (xk&xps&Pp&Vk&Vps). apply vrel_cons_inv in Va. destruct Va as (xy&xes&Pa&Vy&Ves).
      apply vrel_sym_inv in Vk. destruct Vk as (->&Rk&_).
      cbn [macro_bind]. rewrite (pair_cons _ _ _ _ Pp), (pair_cons _ _ _ _ Pa). cbn [andb].
      rewrite (pair_ref _ _ _ _ Pp). cbn [bind]. rewrite (pair_ref _ _ _ _ Pa). cbn [bind].
      destruct (macro_pair w g s c e env k y xy SR ER (or_introl (conj VK (proj2 Rk))) Vy CX)
        as [(->&L)|(h1&en&->&[(EN&L)|(w2&env2&EN&SR2&KP&ER2&L)])]; cbn [bind].
      { left. split; auto. lia. }
      { left. rewrite EN. cbn [bind]. split; auto. lia. }
      rewrite EN. cbn [bind]. rewrite EA in SR2. cbn [fst] in SR2.
      replace (length (sto s)) with l in ER2 by (unfold alloc in EA; congruence).
      assert (KC : keeps (cw c) w w2) by (eapply keeps_incl; [exact KP|inc]).
      pose proof (rooted_car _ _ _ _ _ _ _ SR Pa Ra) as Ry. pose proof (rooted_cdr _ _ _ _ _ _ _ SR Pa Ra) as Re.
      pose proof (rooted_cdr _ _ _ _ _ _ _ SR Pp Rp) as Rps.
      destruct (H f w2 g c env2 xps xes SR2 ER2) as [(->&L3)|(w3&env3&E3&SR3&K3&ER3&L3)]; try lia.
      * apply (vrel_k _ _ _ _ _ SR KC _ _ Vps); auto.
      * apply (vrel_k _ _ _ _ _ SR KC _ _ Ves); auto.
      * apply (ctx_k _ _ _ _ _ SR KC CX).
      * apply (rooted_k _ _ _ _ _ SR KC); auto. gd.
      * apply (rooted_k _ _ _ _ _ SR KC); auto. gd.
      * left. split; auto. lia.
      * right. exists w3, env3. sp; auto; [eapply keeps_trans; eauto|lia].
Qed.

End Arch.

(* what is known of words when cells change that the program does not know *)
Ltac carrya G SZ FR :=
  match type of G with agree ?w ?w' =>
    repeat match goal with
    | H : vrel w ?v ?x |- _ => apply (vrel_mono _ _ _ _ G) in H
    | H : erel w ?v ?x |- _ => apply (erel_mono _ _ _ _ G) in H
    | H : pair_at w ?p ?x ?y |- _ => apply (pair_mono _ _ _ _ _ G) in H
    | H : good w ?x |- _ => apply (good_mono _ _ _ SZ FR) in H
    | H : kgood w ?x |- _ => apply (kgood_mono _ _ _ SZ FR) in H
    | H : Forall (kgood w) ?x |- _ => apply (Forall_impl (kgood w') (fun y => kgood_mono w w' y SZ FR)) in H
    | H : Forall2 (vrel w) ?x ?y |- _ => apply (vrels_mono _ _ _ _ G) in H
    end
  end.

Section Sound.
Context {A : Arch} {HO : Host}.
Variable prim : Z -> heap -> list Z -> res (heap * Z).

Ltac sp := repeat match goal with |- _ /\ _ => split end.
Notation reach := (reach prim).
Notation sound := (sound prim).
Notation leads := (leads prim).
Notation finishes := (finishes prim).
Notation starves := (starves prim).

(* [leads] without the words that are kept *)
Definition gets (f : nat) (w : world) (N : nat) (st : est) (Q : world -> est -> Prop) : Prop :=
  (exists w' st', reach f st st' /\ (length (wfl w) <= length (wfl w') + N)%nat /\ Q w' st') \/ starves f w N st.

Lemma gets_leads f w R N st (Q : world -> est -> Prop) : gets f w N st (fun w' st' => keeps R w w' /\ Q w' st') -> leads f w R N st Q.
Proof. intros [(w'&st'&H1&H2&H3&H4)|H]; [left|right; auto]. exists w', st'. auto. Qed.

Lemma gets_bind f w R N1 N2 N st Q1 Q : leads f w R N1 st Q1 -> (N1 + N2 <= N)%nat ->
  (forall w1 st1, keeps R w w1 -> Q1 w1 st1 -> gets f w1 N2 st1 Q) -> gets f w N st Q.
Proof.
  intros [(w1&st1&RE&KP&L&H)|(L&m&H)] LN C.
  - destruct (C w1 st1 KP H) as [(w'&st'&RE'&L'&H')|(L'&m&H')].
    + left. exists w', st'. sp; auto; [eapply reach_trans; eauto|lia].
    + right. split; [lia|]. destruct RE as (n&RE). exists (n + m)%nat. rewrite run_add, RE. exact H'.
  - right. split; [lia|eauto].
Qed.

Lemma gets_step f w w1 N1 N2 N st st1 Q : step prim f st = Ok (Val st1) -> (length (wfl w) <= length (wfl w1) + N1)%nat -> (N1 + N2 <= N)%nat ->
  gets f w1 N2 st1 Q -> gets f w N st Q.
Proof.
  intros E L LN [(w'&st'&RE'&L'&H')|(L'&m&H')].
  - left. exists w', st'. sp; auto; [eapply reach_step; eauto|lia].
  - right. split; [lia|]. exists (S m). cbn [run]. rewrite E. exact H'.
Qed.

Lemma gets_now f w N st (Q : world -> est -> Prop) : Q w st -> gets f w N st Q.
Proof. intros H. left. exists w, st. sp; auto using reach_refl. lia. Qed.
Lemma gets_nomem f w N st Q : step prim f st = Ok NoMem -> (length (wfl w) < N)%nat -> gets f w N st Q.
Proof. intros H L. right. split; auto. exists 1%nat. cbn [run]. rewrite H. reflexivity. Qed.
Lemma gets_fin f w K1 sz s1 u N1 N2 N st Q : finishes f w s1 u K1 sz N1 st -> (N1 + N2 <= N)%nat ->
  (forall w1 g1 exp1 env1 r1 e1, keeps K1 w w1 -> srel w1 g1 s1 -> vrel w1 u r1 -> good w1 exp1 -> erel w1 e1 env1 ->
    gets f w1 N2 (mkE (wh w1) g1 K1 sz exp1 env1 r1 true) Q) -> gets f w N st Q.
Proof.
  intros H LN C. eapply gets_bind; eauto. intros w1 st1 KP (g1&exp1&env1&r1&->&SR&V&G&e1&E). eapply C; eauto.
Qed.

Lemma rest_ok ev : sound ev -> forall es a s e vs s' d, rest_args ev s e (VC a es) = Some (vs, s', d) ->
  exists N, forall f w0 w g K sz b i cs cenv ws xa xes body aenv r ce us,
    building (body :: K) w0 w b i cs cenv ws -> srel w g s -> erel w e aenv -> erel w ce cenv -> vrel w a xa -> vrel w es xes ->
    Forall2 (vrel w) us ws -> good w r -> good w body -> Forall (kgood w) K ->
    (N <= f)%nat -> Z.of_nat (length K + d) < sz -> sz <= 2 ^ 28 ->
    gets f w N (mkE (wh w) g (CLOSURE_ARGS_REST :: enc_cons_ptr (last (b :: cs) 0) :: xes :: enc_cons_ptr i :: body :: aenv :: K) sz xa aenv r false)
      (fun w' st' => exists g' r' cs' ys, st' = mkE (wh w') g' K sz body (enc_cons_ptr i) r' false /\
        building (body :: K) w0 w' b i cs' cenv ys /\ srel w' g' s' /\ erel w' ce cenv /\ Forall2 (vrel w') (us ++ vs) ys /\ good w' r').
Proof.
  intros SD. induction es as [k|z|a2 IHa es IH|ps ? body0 ? ce0]; intros a s e vs s' d E;
    change (rest_args ev s e (VC a ?r)) with (match ev s e a with Some (v, s1, d) => match rest_args ev s1 e r with Some (vs, s2, d') => Some (v :: vs, s2, max (6 + d) d') | None => None end | None => None end) in E;
    (destruct (ev s e a) as [[[u s1] d1]|] eqn:E1; [|discriminate]);
    (destruct (rest_args ev s1 e _) as [[[us' s2] d2]|] eqn:E2; [|discriminate]);
    apply some3 in E; destruct E as (<-&<-&<-); destruct (SD _ _ _ _ _ _ E1) as (N1&H1);
    try (cbn in E2; discriminate).
  - (* the last *)
    cbn [rest_args] in E2. destruct (nilp (VSym k)) eqn:NK; [|discriminate]. apply some3 in E2. destruct E2 as (<-&<-&<-).
    exists (S N1). intros f w0 w g K sz b i cs cenv ws xa xes body aenv r ce us B SR ER CE Va Ves VS Gr Gb KK F D SZ.
    set (K1 := CLOSURE_ARGS_REST :: enc_cons_ptr (last (b :: cs) 0) :: xes :: enc_cons_ptr i :: body :: aenv :: K).
    assert (Gl : good w (enc_cons_ptr (last (b :: cs) 0))).
    { eapply building_good; eauto. assert (X : In (last (b :: cs) 0) (b :: cs)) by (apply last_in; discriminate). destruct X as [<-|X]; [left|right; right]; auto. }
    assert (Gi : good w (enc_cons_ptr i)) by (eapply building_good; eauto; right; left; auto).
    eapply gets_fin with (N1 := N1) (N2 := 1%nat); [apply (H1 f w g K1 sz xa aenv r); auto; try lia; [unfold K1, CLOSURE_ARGS_REST; kg|unfold K1; cbn [length]; lia]|lia|].
    intros w1 g1 exp1 env1 r1 e1 KP SR1 V1 G1 ER1.
    assert (Ii : In (enc_cons_ptr i) K1) by (unfold K1; cbn; auto).
    destruct (building_rch _ _ _ _ _ _ _ _ _ B Ii) as (_&RTS). apply Forall_cons_iff in RTS. destruct RTS as (RTc&RTw).
    pose proof (building_keeps _ _ _ _ _ _ _ _ _ _ B KP ltac:(unfold K1; inc) Ii) as B1.
    pose proof (vrels_k _ _ _ _ _ _ _ SR KP VS RTw) as VS1. clear VS RTw.
    unfold K1 in KP. carry SR KP. clear B Ii.
    set (c0 := regs env1 exp1 r1 (enc_cons_ptr (last (b :: cs) 0) :: xes :: enc_cons_ptr i :: body :: aenv :: K)).
    assert (CX : ctx_ok w1 c0) by (unfold c0; ctxr).
    assert (ST : step prim f (mkE (wh w1) g1 K1 sz exp1 env1 r1 true) = cont_closure_args_rest (mkE (wh w1) g1 (tl K1) sz exp1 env1 r1 false)).
    { unfold K1, CLOSURE_ARGS_REST. rewrite st_cont by knum. reflexivity. }
    unfold cont_closure_args_rest, K1 in ST. cbn [tl] in ST. fold c0 in ST.
    assert (Ii : In (enc_cons_ptr i) (cw c0)) by (unfold c0, cw, regs; cbn; auto 10).
    destruct (building_rch _ _ _ _ _ _ _ _ _ B1 Ii) as (_&RTS). apply Forall_cons_iff in RTS. destruct RTS as (RTc1&RTw).
    destruct (building_snoc _ _ _ _ _ _ _ _ _ _ c0 r1 B1 SR1 ltac:(gd) CX Ii ltac:(unfold c0, cw, regs; cbn; auto) ltac:(unfold c0; inc))
      as [(EN&L)|(w2&w3&h1&c&E3&E4&SR2&KP2&G2&SZ2&FR2&B3&SR3&L3)].
    { apply gets_nomem; auto. unfold K1; rewrite ST, EN. reflexivity. }
    pose proof (vrels_k _ _ _ _ _ _ _ SR1 KP2 VS1 RTw) as VS2. unfold c0 in KP2, RTc1. unfold cw, regs in RTc1. cbn [c_env c_roots c_stack app] in RTc1.
    carry SR1 KP2. carrya G2 SZ2 FR2.
    eapply (gets_step f w1 w3 1 0); [|lia|lia|].
    { unfold K1; rewrite ST, E3. cbn [bind]. rewrite E4. cbn [bind].
      rewrite (vrel_nil_word _ _ _ Ves NK). rewrite NIL_0. reflexivity. }
    apply gets_now. exists g1, r1, (cs ++ [c]), (ws ++ [r1]). sp; auto; [|gd].
    apply Forall2_app; auto.
  - (* more *)
    destruct (IH _ _ _ _ _ _ E2) as (N2&H2).
    exists (S (N1 + N2)). intros f w0 w g K sz b i cs cenv ws xa xes body aenv r ce us B SR ER CE Va Ves VS Gr Gb KK F D SZ.
    set (K1 := CLOSURE_ARGS_REST :: enc_cons_ptr (last (b :: cs) 0) :: xes :: enc_cons_ptr i :: body :: aenv :: K).
    assert (Gl : good w (enc_cons_ptr (last (b :: cs) 0))).
    { eapply building_good; eauto. assert (X : In (last (b :: cs) 0) (b :: cs)) by (apply last_in; discriminate). destruct X as [<-|X]; [left|right; right]; auto. }
    assert (Gi : good w (enc_cons_ptr i)) by (eapply building_good; eauto; right; left; auto).
    eapply gets_fin with (N1 := N1) (N2 := S N2); [apply (H1 f w g K1 sz xa aenv r); auto; try lia; [unfold K1, CLOSURE_ARGS_REST; kg|unfold K1; cbn [length]; lia]|lia|].
    intros w1 g1 exp1 env1 r1 e1 KP SR1 V1 G1 ER1.
    assert (Ii : In (enc_cons_ptr i) K1) by (unfold K1; cbn; auto).
    destruct (building_rch _ _ _ _ _ _ _ _ _ B Ii) as (_&RTS). apply Forall_cons_iff in RTS. destruct RTS as (RTc&RTw).
    pose proof (building_keeps _ _ _ _ _ _ _ _ _ _ B KP ltac:(unfold K1; inc) Ii) as B1.
    pose proof (vrels_k _ _ _ _ _ _ _ SR KP VS RTw) as VS1. clear VS RTw.
    unfold K1 in KP. carry SR KP. clear B Ii.
    set (c0 := regs env1 exp1 r1 (enc_cons_ptr (last (b :: cs) 0) :: xes :: enc_cons_ptr i :: body :: aenv :: K)).
    assert (CX : ctx_ok w1 c0) by (unfold c0; ctxr).
    assert (ST : step prim f (mkE (wh w1) g1 K1 sz exp1 env1 r1 true) = cont_closure_args_rest (mkE (wh w1) g1 (tl K1) sz exp1 env1 r1 false)).
    { unfold K1, CLOSURE_ARGS_REST. rewrite st_cont by knum. reflexivity. }
    unfold cont_closure_args_rest, K1 in ST. cbn [tl] in ST. fold c0 in ST.
    assert (Ii : In (enc_cons_ptr i) (cw c0)) by (unfold c0, cw, regs; cbn; auto 10).
    destruct (building_rch _ _ _ _ _ _ _ _ _ B1 Ii) as (_&RTS). apply Forall_cons_iff in RTS. destruct RTS as (RTc1&RTw).
    destruct (building_snoc _ _ _ _ _ _ _ _ _ _ c0 r1 B1 SR1 ltac:(gd) CX Ii ltac:(unfold c0, cw, regs; cbn; auto) ltac:(unfold c0; inc))
      as [(EN&L)|(w2&w3&h1&c&E3&E4&SR2&KP2&G2&SZ2&FR2&B3&SR3&L3)].
    { apply gets_nomem; [unfold K1; rewrite ST, EN; reflexivity|lia]. }
    pose proof (vrels_k _ _ _ _ _ _ _ SR1 KP2 VS1 RTw) as VS2. unfold c0 in KP2, RTc1. unfold cw, regs in RTc1. cbn [c_env c_roots c_stack app] in RTc1.
    carry SR1 KP2. carrya G2 SZ2 FR2.
    apply vrel_cons_inv in Ves. destruct Ves as (xa2&xes2&P&Va2&Ves2).
    eapply (gets_step f w1 w3 1 N2); [|lia|lia|].
    { unfold K1; rewrite ST, E3. cbn [bind]. rewrite E4. cbn [bind].
      assert (NN : (xes =? NIL) = false). { rewrite NIL_0. change (is_symbol_nil xes = false). apply cons_not_nil. eapply pair_cons; exact P. }
      rewrite NN. rewrite (pair_cdr _ _ _ _ P). cbn [bind].
      rewrite res_ok by (cbn [length]; lia). rewrite (pair_car _ _ _ _ P). cbn [bind rev app]. reflexivity. }
    assert (LL : enc_cons_ptr c = enc_cons_ptr (last (b :: cs ++ [c]) 0)) by (rewrite app_comm_cons, last_last; auto).
    rewrite LL. replace (us ++ u :: us') with ((us ++ [u]) ++ us') by (rewrite <- app_assoc; reflexivity).
    apply (H2 f w0 w3 g1 K sz b i (cs ++ [c]) cenv (ws ++ [r1]) xa2 xes2 body aenv r1 ce (us ++ [u])); auto; try lia; [|gd].
    apply Forall2_app; auto.
Qed.

(* what is done with the arguments and the parameters that are left *)
Definition disp (h : heap) (g : list Z) (c : croots) (K : list Z) (sz args params clo_env body arg_env r : Z) : res (out est) :=
  let a_nil := is_symbol_nil args in
  let p_nil := is_symbol_nil params in
  if negb a_nil && negb p_nil then
    let% '(a, d) := get_car_and_cdr h args in
    go h g (CLOSURE_ARGS :: d :: params :: clo_env :: body :: arg_env :: K) sz a arg_env r
  else if a_nil && p_nil then go h g K sz body clo_env r
  else if p_nil then
    let% '(a, d) := get_car_and_cdr h args in
    let* '(h2, rest_binder) := allocate_binding h g c S_REST_ARGS NIL clo_env in
    let% last := get_car h2 rest_binder in
    go h2 g (CLOSURE_ARGS_REST :: last :: d :: rest_binder :: body :: arg_env :: K) sz a arg_env r
  else Ok Err.

Lemma closure_args_disp w g s K sz args params clo_env body arg_env exp env0 r cp cd h binder e es :
  let c := regs env0 exp r (args :: params :: clo_env :: body :: arg_env :: K) in
  get_car_and_cdr h params = Ok (Some (cp, cd)) -> allocate_binding h g c cp r clo_env = Ok (Val (wh w, binder)) ->
  srel w g s -> erel w e binder -> ctx_ok w c -> vrel w es args -> nilp es = true \/ (exists a d, pair_at w args a d) -> Z.of_nat (length K + 6) < sz ->
  cont_closure_args (mkE h g (args :: params :: clo_env :: body :: arg_env :: K) sz exp env0 r false) = disp (wh w) g c K sz args cd binder body arg_env r.
Proof.
  intros c E1 E2 SR ER CX V LA D. unfold cont_closure_args, disp. rewrite E1. cbn [bind]. fold c. rewrite E2. cbn [bind].
  destruct (negb (is_symbol_nil args) && negb (is_symbol_nil cd)) eqn:Q1.
  - destruct (get_car_and_cdr (wh w) args) as [[[a d]|]| |]; cbn [bind]; auto. rewrite res_ok by (cbn [length]; lia). reflexivity.
  - destruct (is_symbol_nil args && is_symbol_nil cd) eqn:Q2; auto. destruct (is_symbol_nil cd) eqn:Q3; auto.
    rewrite andb_true_r, (vrel_nil _ _ _ V) in Q2. destruct LA as [LA|(a&d&P)]; [congruence|].
    rewrite (pair_both _ _ _ _ P). cbn [bind].
    destruct (binding_priv w g s c e binder SR ER CX) as [(->&_)|(w'&b&i&->&SR'&KP&B&_)]; cbn [bind]; auto.
    assert (P' : pair_at w' args a d).
    { apply (pair_k _ _ _ _ _ SR KP _ _ _ P). unfold c. rt. }
    rewrite (pair_cdr _ _ _ _ P'). cbn [bind]. destruct (get_car (wh w') (enc_cons_ptr i)) as [[l|]| |]; cbn [bind]; auto.
    rewrite res_ok by (cbn [length]; lia). rewrite (pair_car _ _ _ _ P'). reflexivity.
Qed.

Lemma params_d ev ps : forall es s e ce ce' s' d, params ev s e ce ps es = Some (ce', s', d) ->
  (6 <= d)%nat /\ (nilp es = true \/ exists a t, es = VC a t).
Proof.
  intros es s e ce ce' s' d E. destruct ps as [k|z|p ps|pp bb cce]; cbn [params] in E; try discriminate.
  - destruct (Z.eqb_spec k 0) as [->|]; [|discriminate]. destruct (nilp es) eqn:NE.
    + apply some3 in E. destruct E as (_&_&<-). auto.
    + destruct (rest_args ev s e es) as [[[vs s1] d1]|] eqn:E1; [|discriminate].
      destruct (alloc s1 (Some (vlist vs))) as [s2 l] eqn:EA. apply some3 in E. destruct E as (_&_&<-).
      destruct es as [k|z|y es|pp body ce0]; try (cbn [rest_args] in E1; try rewrite NE in E1; discriminate).
      split; [|right; eauto]. clear - E1. cbn [rest_args] in E1. destruct (ev s e y) as [[[u s'] d']|]; [|discriminate].
      destruct (rest_args ev s' e es) as [[[us s3] d2]|]; [|discriminate]. apply some3 in E1. lia.
  - destruct p as [x| | |]; try discriminate. destruct (variable x) eqn:VX; [|discriminate].
    destruct es as [|?|y es|]; try discriminate. destruct (ev s e y) as [[[u s1] d1]|] eqn:E1; [|discriminate].
    destruct (alloc s1 (Some u)) as [s2 l] eqn:EA.
    destruct (params ev s2 e ((x, l) :: ce) ps es) as [[[ce3 s3] d3]|] eqn:E3; [|discriminate].
    apply some3 in E. destruct E as (_&_&<-). split; [lia|right; eauto].
Qed.

Lemma params_ok ev : sound ev -> forall ps es s e ce ce' s' d, params ev s e ce ps es = Some (ce', s', d) ->
  exists N, forall f w g c K sz xes xps cenv body aenv r st,
    srel w g s -> erel w e aenv -> erel w ce cenv -> vrel w es xes -> vrel w ps xps -> good w r -> good w body -> Forall (kgood w) K ->
    ctx_ok w c -> Forall (rooted w (cw c)) (body :: aenv :: r :: K) ->
    (forall xa xd, pair_at w xes xa xd -> rooted w (cw c) xa /\ rooted w (cw c) xd) ->
    (N <= f)%nat -> Z.of_nat (length K + d) < sz -> sz <= 2 ^ 28 ->
    step prim f st = disp (wh w) g c K sz xes xps cenv body aenv r ->
    leads f w (body :: K) N st (fun w' st' => exists g' cenv' r', st' = mkE (wh w') g' K sz body cenv' r' false /\
      srel w' g' s' /\ erel w' ce' cenv' /\ good w' r').
Proof.
  intros SD. induction ps as [k|z|p IHp ps IH|pp ? bb ? cce]; intros es s e ce ce' s' d E; cbn [params] in E; try discriminate.
  - destruct (Z.eqb_spec k 0) as [->|]; [|discriminate]. destruct (nilp es) eqn:NE.
    + apply some3 in E. destruct E as (<-&<-&<-). exists 0%nat. intros f w g c K sz xes xps cenv body aenv r st SR ER CE Ves Vps Gr Gb KK CX RT RP F D SZ ST.
      eapply leads_step.
      { rewrite ST. unfold disp. rewrite (vrel_nil _ _ _ Ves), (vrel_nil _ _ _ Vps), NE. reflexivity. }
      apply leads_now. exists g, cenv, r. auto.
    + destruct (rest_args ev s e es) as [[[vs s1] d1]|] eqn:E1; [|discriminate].
      destruct (alloc s1 (Some (vlist vs))) as [s2 l] eqn:EA. apply some3 in E. destruct E as (<-&<-&<-).
      destruct es as [k|z|y es|pp body ce0]; try (cbn [rest_args] in E1; try rewrite NE in E1; discriminate).
      destruct (rest_ok ev SD _ _ _ _ _ _ _ E1) as (N1&H1).
      exists (S (S N1)). intros f w g c K sz xes xps cenv body aenv r st SR ER CE Ves Vps Gr Gb KK CX RT RP F D SZ ST.
      apply vrel_cons_inv in Ves. destruct Ves as (xy&xes2&P&Vy&Ves2).
      destruct (RP _ _ P) as (RT1&RT2).
      apply Forall_cons_iff in RT. destruct RT as (RTb&RT). apply Forall_cons_iff in RT. destruct RT as (RTa&RT). apply Forall_cons_iff in RT. destruct RT as (RTr&RTK).
      unfold disp in ST. rewrite (cons_not_nil xes) in ST by (eapply pair_cons; eauto). rewrite (vrel_nil _ _ _ Vps) in ST. cbn [nilp negb andb Z.eqb] in ST.
      rewrite (pair_both _ _ _ _ P) in ST. cbn [bind] in ST.
      apply gets_leads.
      destruct (binding_priv w g s c ce cenv SR CE CX) as [(EB&L)|(w2&b&i&EB&SR2&KP&B&L2)]; rewrite EB in ST; cbn [bind] in ST.
      { apply gets_nomem; auto. lia. }
      assert (B' : building (body :: K) w w2 b i [] cenv []).
      { apply (fun B : building (cw c) w w2 b i [] cenv [] => B) in B; [|inc].
        destruct B as [H1' H2' H3' H4' H5']. constructor; auto.
        - eapply keeps_mono; [exact H1'|]. constructor; auto.
        - intros j J. destruct (H3' j J) as (X1&X2&X3&X4&X5). sp; auto; try apply X3. intros X. apply X4. eapply rch_mono; [|exact X]. constructor; auto. }
      assert (RIN : forall x, rooted w (cw c) x -> rooted w (cenv :: cw c) x).
      { intros x. apply rooted_mono, rooted_incl. intros ? ?; right; auto. }
      pose proof (rooted_in w (cenv :: cw c) cenv (or_introl eq_refl)) as RTc.
      assert (KK2 : Forall (kgood w2) K).
      { apply (kgoods_k _ _ _ _ _ _ SR KP KK). eapply Forall_impl; [exact RIN|exact RTK]. }
      apply RIN in RT1, RT2, RTb, RTa, RTr. carry SR KP.
      assert (GC : get_car (wh w2) (enc_cons_ptr i) = Ok (Some (enc_cons_ptr b))).
      { destruct B' as [_ _ X1 X2 _]. destruct (X1 i ltac:(right; left; auto)) as (_&_&Ri&_).
        unfold get_car. rewrite enc_is_ptr by auto. rewrite (ref_enc _ _ _ Ri X2). reflexivity. }
      rewrite GC in ST. cbn [bind] in ST.
      eapply (gets_step f w w2 2 N1); [exact ST|lia|lia|].
      pose proof (H1 f w w2 g K sz b i [] cenv [] xy xes2 body aenv r ce [] B' SR2 ER CE Vy Ves2 (Forall2_nil _) Gr Gb KK ltac:(lia) D SZ) as G.
      destruct G as [(w3&st3&RE&L3&(g3&r3&cs3&ys&->&B3&SR3&CE3&F3&G3))|G]; [|right; exact G].
      destruct (building_done _ w w3 g3 s1 b i cs3 cenv _ ce vs B3 SR3 CE3 F3) as (w4&Hh&Hf&KP4&SR4&ER4&G4).
      rewrite EA in SR4. cbn [fst] in SR4. replace (length (sto s1)) with l in ER4 by (unfold alloc in EA; congruence).
      left. exists w4, (mkE (wh w3) g3 K sz body (enc_cons_ptr i) r3 false). rewrite Hf. sp; auto.
      exists g3, (enc_cons_ptr i), r3. rewrite Hh. sp; auto. eapply good_mono; [| |exact G3]; [congruence|rewrite Hf; apply incl_refl].
  - destruct p as [x| | |]; try discriminate. destruct (variable x) eqn:VX; [|discriminate]. apply variable_iff in VX.
    destruct es as [|?|y es|]; try discriminate. clear IHp.
    destruct (ev s e y) as [[[u s1] d1]|] eqn:E1; [|discriminate].
    destruct (alloc s1 (Some u)) as [s2 l] eqn:EA.
    destruct (params ev s2 e ((x, l) :: ce) ps es) as [[[ce3 s3] d3]|] eqn:E3; [|discriminate].
    apply some3 in E. destruct E as (<-&<-&<-). destruct (SD _ _ _ _ _ _ E1) as (N1&H1). destruct (IH _ _ _ _ _ _ _ E3) as (N3&H3).
    destruct (params_d _ _ _ _ _ _ _ _ _ E3) as (D6&LA).
    exists (S (S (N1 + N3))). intros f w g c K sz xes xps cenv body aenv r st SR ER CE Ves Vps Gr Gb KK CX _ _ F D SZ ST.
    apply vrel_cons_inv in Ves. destruct Ves as (xy&xes2&P&Vy&Ves2).
    apply vrel_cons_inv in Vps. destruct Vps as (xx&xps2&Pp&Vx&Vps2). apply vrel_sym_inv in Vx. destruct Vx as (->&Rx&_).
    eapply leads_step.
    { rewrite ST. unfold disp. rewrite (cons_not_nil xes) by (eapply pair_cons; eauto). rewrite (cons_not_nil xps) by (eapply pair_cons; eauto).
      cbn [negb andb]. rewrite (pair_both _ _ _ _ P). cbn [bind]. unfold go. reflexivity. }
    clear st ST CX c.
    eapply fin_bind with (N1 := N1) (N2 := S (S N3)) (K1 := CLOSURE_ARGS :: xes2 :: xps :: cenv :: body :: aenv :: K);
      [apply H1; auto; try lia; [unfold CLOSURE_ARGS; kg|cbn [length]; lia]|inc|lia|].
    intros w1 g1 exp1 env1 r1 e1 KP SR1 V1 G1 ER1. carry SR KP.
    set (c1 := regs env1 exp1 r1 (xes2 :: xps :: cenv :: body :: aenv :: K)).
    assert (CX : ctx_ok w1 c1) by (unfold c1; ctxr).
    assert (ST : step prim f (mkE (wh w1) g1 (CLOSURE_ARGS :: xes2 :: xps :: cenv :: body :: aenv :: K) sz exp1 env1 r1 true) =
      cont_closure_args (mkE (wh w1) g1 (xes2 :: xps :: cenv :: body :: aenv :: K) sz exp1 env1 r1 false)).
    { unfold CLOSURE_ARGS. rewrite st_cont by knum. reflexivity. }
    destruct (binding_ok w1 g1 s1 c1 ce cenv x u r1 SR1 CE (or_introl (conj VX (proj2 Rx))) V1 CX)
      as [(EB&L)|(w2&env2&EB&SR2&KP2&ER2&L2)].
    { apply leads_nomem; [|lia]. rewrite ST. unfold cont_closure_args. rewrite (pair_both _ _ _ _ Pp). cbn [bind]. fold c1. rewrite EB. reflexivity. }
    rewrite EA in SR2. cbn [fst] in SR2. replace (length (sto s1)) with l in ER2 by (unfold alloc in EA; congruence).
    pose proof (ctx_k _ _ _ _ _ SR1 (keeps_incl _ (cw c1) _ _ KP2 ltac:(inc)) CX) as CX2.
    pose proof (pair_both _ _ _ _ Pp) as EP. unfold c1 in KP2. unfold cw, regs in KP2. cbn [c_env c_roots c_stack app] in KP2. carry SR1 KP2.
    rewrite (closure_args_disp w2 g1 s2 K sz xes2 xps cenv body aenv exp1 env1 r1 (enc_sym x) xps2 (wh w1) env2 _ es EP EB SR2 ER2 CX2 Ves2) in ST; [|..|lia].
    2:{ destruct LA as [LA|(a&t&->)]; auto. right. apply vrel_cons_inv in Ves2. destruct Ves2 as (a'&t'&P'&_). eauto. }
    eapply (leads_reach prim f w1 w2 _ _ 2 N3); [apply reach_refl|exact KP2|inc|lia|lia|].
    eapply (H3 f w2 g1 c1 K sz xes2 xps2 env2 body aenv r1); eauto; try lia; [gd| |].
    + unfold c1. repeat (apply Forall_cons; [rt|]). apply rooted_incl. inc.
    + intros xa xd P'. unfold c1. split; rt.
Qed.

(* ---- the arguments of functions of the runtime system ---- *)

Lemma args_ok ev : sound ev -> forall es i s e vs s' d, args ev i s e es = Some (vs, s', d) ->
  exists N, forall f w g K sz xes aenv r exp env0 st,
    srel w g s -> erel w e aenv -> vrel w es xes -> good w exp -> good w r -> Forall (kgood w) K ->
    (N <= f)%nat -> Z.of_nat (length K + d) < sz + Z.of_nat i -> Z.of_nat (length K) + 3 < sz -> sz <= 2 ^ 28 ->
    (i <= length K)%nat ->
    step prim f st = cont_application_args prim f (mkE (wh w) g (enc_u (Z.of_nat i) :: xes :: aenv :: K) sz exp env0 r false) ->
    leads f w (aenv :: r :: K) N st (fun w' st' => exists g' ys exp' r', length ys = length vs /\
      step prim f st' = application prim f (mkE (wh w') g' (rev ys ++ r :: K) sz exp' aenv r' false) (i + length vs) /\
      srel w' g' s' /\ Forall2 (vrel w') vs ys /\ good w' exp' /\ good w' r').
Proof.
  intros SD.
  assert (STOP : forall i s e es, end_of_list es = true -> forall f w g K sz xes aenv r exp env0 st,
    srel w g s -> erel w e aenv -> vrel w es xes -> good w exp -> good w r -> Z.of_nat (length K) + 3 < sz -> sz <= 2 ^ 28 -> (i <= length K)%nat ->
    step prim f st = cont_application_args prim f (mkE (wh w) g (enc_u (Z.of_nat i) :: xes :: aenv :: K) sz exp env0 r false) ->
    leads f w (aenv :: r :: K) 0 st (fun w' st' => exists g' ys exp' r', length ys = length (@nil val) /\
      step prim f st' = application prim f (mkE (wh w') g' (rev ys ++ r :: K) sz exp' aenv r' false) (i + length (@nil val)) /\
      srel w' g' s /\ Forall2 (vrel w') [] ys /\ good w' exp' /\ good w' r')).
  { intros i s e es EL f w g K sz xes aenv r exp env0 st SR ER V Ge Gr D SZ LK ST.
    apply leads_now. exists g, [], exp, r. sp; auto. rewrite ST. unfold cont_application_args.
    rewrite (vrel_word _ _ _ V). destruct es; try discriminate; rewrite dec_u_enc, Nat2Z.id, Nat.add_0_r by lia; reflexivity. }
  induction es as [k|z|a IHa es IH|ps ? bb ? ce]; intros i s e vs s' d E; cbn [args end_of_list] in E; try discriminate.
  - apply some3 in E. destruct E as (<-&<-&<-). exists 0%nat. intros. apply (STOP i s e (VSym k) eq_refl f w g K sz xes aenv r exp env0 st); auto.
  - apply some3 in E. destruct E as (<-&<-&<-). exists 0%nat. intros. apply (STOP i s e (VAtom z) eq_refl f w g K sz xes aenv r exp env0 st); auto.
  - clear IHa STOP. destruct (ev s e a) as [[[u s1] d1]|] eqn:E1; [|discriminate].
    destruct (args ev (S i) s1 e es) as [[[us s2] d2]|] eqn:E2; [|discriminate]. apply some3 in E. destruct E as (<-&<-&<-).
    destruct (SD _ _ _ _ _ _ E1) as (N1&H1). destruct (IH _ _ _ _ _ _ E2) as (N2&H2). exists (N1 + N2)%nat.
    intros f w g K sz xes aenv r exp env0 st SR ER V Ge Gr KK F D D3 SZ LK ST.
    apply vrel_cons_inv in V. destruct V as (xa&xes2&P&Va&Ves).
    eapply leads_step.
    { rewrite ST. unfold cont_application_args. rewrite (pair_cons _ _ _ _ P), (pair_ref _ _ _ _ P). cbn [bind].
      rewrite res_ok by (cbn [length]; lia). rewrite enc_u_next by lia. replace (Z.of_nat i + 1) with (Z.of_nat (S i)) by lia. reflexivity. }
    clear st ST. cbn [rev app].
    eapply fin_bind with (N1 := N1) (N2 := N2) (K1 := APPLICATION_ARGS :: enc_u (Z.of_nat (S i)) :: xes2 :: aenv :: r :: K);
      [apply H1; auto; try lia; [unfold APPLICATION_ARGS; kg|cbn [length]; lia]|inc|lia|].
    intros w1 g1 exp1 env1 r1 e1 KP SR1 V1 G1 ER1. carry SR KP.
    assert (ST : step prim f (mkE (wh w1) g1 (APPLICATION_ARGS :: enc_u (Z.of_nat (S i)) :: xes2 :: aenv :: r :: K) sz exp1 env1 r1 true) =
      cont_application_args prim f (mkE (wh w1) g1 (enc_u (Z.of_nat (S i)) :: xes2 :: aenv :: r :: K) sz exp1 env1 r1 false)).
    { unfold APPLICATION_ARGS. rewrite st_cont by knum. reflexivity. }
    eapply (leads_bind prim f w1 (aenv :: r :: K) (aenv :: r1 :: r :: K) N2 0); [|inc|lia|].
    { eapply (H2 f w1 g1 (r :: K) sz xes2 aenv r1 exp1 env1); eauto; try lia; try (cbn [length]; lia); [gd|kg]. }
    intros w3 st3 KP3 (g3&ys&exp3&r3&LY&FIN&SR3&F3&Ge3&Gr3). carry SR1 KP3.
    apply leads_now. exists g3, (r1 :: ys), exp3, r3. sp; auto; [cbn; congruence|].
    cbn [rev length]. rewrite <- app_assoc. cbn [app].
    replace (i + S (length us))%nat with (S i + length us)%nat by lia. exact FIN.
Qed.

End Sound.
