(* C60 to C65: the evaluator. *)
From Verif Require Import Base Value_Model Heap_Model Env_Model Match_Model QQ_Model GC_Model Eval_Model Prim_Model Eval_Spec Prim_Spec Tail_Spec
  Value_Proofs Value_Proofs2 Value_Props Heap_Spec Heap_Proofs Heap_Proofs2 List_Proofs Env_Proofs GC_Spec Eval_Rel Eval_Proofs Eval_GC Eval_Proofs2
  Eval_Proofs3 Eval_Proofs5 Eval_Proofs6 Eval_Proofs7.
Local Open Scope Z_scope.

Section Props.
Context {A : Arch} {HO : Host}.

Ltac sp := repeat match goal with |- _ /\ _ => split end.

(* what the stack held before is not taken for a reference: see C64 *)
Definition clean_stack : Prop := forall h K i, ~ stack_ref h (unset K i).

(* ---- C60: the value and the effects of an expression ---- *)

(* If the reference interpreter gives the expression [x] the value [v] and the
   state [s'], with [d] words of stack, then the evaluator, from any state that
   represents [s], [e] and [x], with any continuations [K] on the stack and any
   other contexts, returns a representation of [v] to the same continuations [K],
   in a state that represents [s'], however often it collects garbage on the way;
   and what could be reached from [K] and by the other contexts is as it was.  It
   may run out of memory instead, but not if there are [N] free cells. *)
Theorem eval_correct prim prims : implements prim prims -> clean_stack ->
  forall n s e x v s' d, eval prims false n s e x = Some (v, s', d) ->
  exists N, forall f w g K sz exp env r,
    srel w g s -> erel w e env -> vrel w x exp -> good w r -> Forall (kgood w) K ->
    (N <= f)%nat -> Z.of_nat (length K + d) < sz -> sz <= 2 ^ 28 ->
    (exists m w' g' exp' env' r',
      run prim f m (mkE (wh w) g K sz exp env r false) = Ok (Val (mkE (wh w') g' K sz exp' env' r' true)) /\
      srel w' g' s' /\ vrel w' v r' /\ keeps K w w' /\ (length (wfl w) <= length (wfl w') + N)%nat) \/
    ((length (wfl w) < N)%nat /\ exists m, run prim f m (mkE (wh w) g K sz exp env r false) = Ok NoMem).
Proof.
  intros IMP UNS n s e x v s' d E. destruct (eval_sound prim prims IMP UNS n _ _ _ _ _ _ E) as (N&H). exists N.
  intros f w g K sz exp env r SR ER V GR GK F D SZ.
  destruct (H f w g K sz exp env r SR ER V GR GK F D SZ) as [(w'&st&(m&R)&KP&L&g'&p'&n'&r'&->&SR'&V'&_)|ST].
  - left. exists m, w', g', p', n', r'. auto 10.
  - right. exact ST.
Qed.

(* Programs: values without closures. *)
Fixpoint program (x : val) : Prop :=
  match x with
  | VSym id => 0 <= id < 2 ^ 28 /\ id <> 0x2A /\ ~ (0x30 <= id <= 0x39)
  | VAtom w => word w /\ is_symbol w = false /\ is_ptr w = false /\ get_gc_mark w = false
  | VC a d => program a /\ program d
  | VClo _ _ _ => False
  end.

(* a program made in the heap, cell by cell *)
Fixpoint load (h : heap) (x : val) : res (heap * Z) :=
  match x with
  | VSym id => Ok (h, enc_sym id)
  | VAtom w => Ok (h, w)
  | VC a d =>
    let! (h1, y) := load h d in
    let! (h2, z) := load h1 a in
    cons h2 z y
  | VClo _ _ _ => UB
  end.

Lemma load_ok x : program x -> exists N, forall w g s, srel w g s -> (N <= length (wfl w))%nat ->
  exists w' p, load (wh w) x = Ok (wh w', p) /\ srel w' g s /\ hext w w' /\ wR w' = wR w /\ vrel w' x p /\ (length (wfl w) <= length (wfl w') + N)%nat.
Proof.
  induction x as [id|z|a IHa d IHd|ps ? bd ? ce]; intros P; cbn in P.
  - exists 0%nat. intros w g s SR _. exists w, (enc_sym id). sp; auto using hext_refl; [constructor; try tauto; unfold type_sym; lia|lia].
  - exists 0%nat. intros w g s SR _. exists w, z. destruct P as (P1&P2&P3&P4). sp; auto using hext_refl; [|lia].
    constructor; auto.
    + destruct (is_cons z) eqn:C; auto. apply cons_is_ptr in C. congruence.
    + rewrite get_mark_f in P4. apply Z.eqb_neq in P4. pose proof (f_gc_range z). lia.
    + intros (X&_). congruence.
  - destruct (IHa (proj1 P)) as (N1&H1). destruct (IHd (proj2 P)) as (N2&H2). exists (S (N1 + N2)). intros w g s SR L.
    destruct (H2 w g s SR ltac:(lia)) as (w1&y&E1&SR1&HX1&R1&V1&L1).
    destruct (H1 w1 g s SR1 ltac:(lia)) as (w2&x&E2&SR2&HX2&R2&V2&L2).
    destruct (wfl w2) as [|i fl] eqn:EF; [cbn in L2; lia|].
    assert (V1' : vrel w2 d y) by (eapply vrel_mono; [exact (hext_agree _ _ HX2)|exact V1]).
    assert (Ga : good w2 x) by gd. assert (Gb : good w2 y) by gd.
    destruct (take w2 g s i fl x y SR2 EF Ga Gb) as (h3&EC&Ri&SR3&HX3&C3&N3&NL&G3&_).
    destruct (publish _ g s (wR w2) SR3) as [SR4 AG]; [cbn; auto|]. cbn [wh wfl wL] in *.
    set (w4 := mkW h3 fl (wL w2) (wR w2)) in *.
    assert (NR : ~ wR w2 i). { intros X. apply (sr_priv _ _ _ SR2) in X. apply X. rewrite EF. left; auto. }
    assert (HX4 : hext w2 w4).
    { pose proof HX3 as [x1 x2 x3 x4 x5 x6 x7]. constructor; cbn in *; auto. }
    pose proof (hext_agree _ _ HX4) as G4.
    exists w4, (enc_cons_ptr i). sp; auto.
    + cbn [load]. rewrite E1. cbn [bind]. rewrite E2. cbn [bind]. exact EC.
    + eauto using hext_trans.
    + cbn. congruence.
    + apply vr_cons with (x := x) (y := y); eauto using vrel_mono. apply enc_pair; auto. split; [|split]; cbn; auto.
    + cbn in *. lia.
  - destruct P.
Qed.

(* the state of the reference interpreter before anything is defined, and its
   representation by a new heap *)
Definition empty : rstate := mkS [] [].

Lemma gen_free_same f : forall i n h h', gen_free f i n h = Ok h' -> ccells h' = ccells h /\ lost h' = lost h.
Proof.
  induction f as [|f IH]; intros i n h h' E; cbn [gen_free] in E; destruct (i <? n); try discriminate; try (injection E as <-; auto).
  cbn [bind] in E. unfold put_cell in E.
  match type of E with context [if ?b then _ else _] => destruct b; [discriminate|] end.
  destruct (wr (cells h) _ _) as [cs| |]; try discriminate. cbn [bind] in E. apply IH in E. exact E.
Qed.
Lemma heap_init_same n g h : heap_init n g = Ok h -> ccells h = [] /\ lost h = false.
Proof.
  unfold heap_init, generate_freelist. destruct (gen_free _ _ _ _) as [h1| |] eqn:E; try discriminate. cbn [bind].
  apply gen_free_same in E. destruct E as (E1&E2). cbn in E1, E2.
  destruct (ref_cell h1 _) as [c| |]; try discriminate. cbn [bind]. unfold put_cell.
  match goal with |- context [if ?b then _ else _] => destruct b; [discriminate|] end.
  destruct (wr (cells h1) _ _) as [cs| |]; try discriminate. cbn [bind]. intros [= <-]. cbn. auto.
Qed.

Lemma init_srel n g : 1 <= n <= 2 ^ (W - 8) -> 1 <= g -> others = [] -> exists h, heap_init n g = Ok h /\
  exists w, wh w = h /\ Z.of_nat (length (wfl w)) = n /\ srel w (groots (init_env h)) empty.
Proof.
  intros Hn Hg NO. destruct (heap_init_ok n g Hn) as (h&E&OK&Sz&Gs&Gk&Mm&_). exists h. split; auto.
  exists (mkW h (zseq n) (fun _ => None) (fun _ => False)). split; [auto|].
  split; [pose proof (ok_count _ _ OK); pose proof (ok_chain _ _ OK); cbn; unfold zseq; rewrite map_length, seq_length; lia|].
  assert (OT : ccells h = [] /\ lost h = false).
  { destruct (heap_init_same _ _ _ E) as (X1&X2). auto. }
  destruct OT as (CC&LO).
  constructor; cbn; auto; try tauto.
  - intros l l' j k k' X. discriminate.
  - intros l j k X. discriminate.
  - intros b Hb. exists 0. rewrite NIL_0. split; [|constructor].
    assert (L : (Z.to_nat b < 32)%nat) by lia. exact (nth_error_repeat 0 L).
  - intros i a d NI C. exfalso. apply NI. apply cell_range in C. unfold zseq. apply in_map_iff.
    exists (Z.to_nat i). split; [lia|]. apply in_seq. lia.
  - rewrite CC. intros a d [].
  - split; auto. split; [lia|]. auto.
  - rewrite NO. constructor.
Qed.

(* A whole run: a program in a new heap, nothing defined, the stack empty but for
   any word [k] that is not a reference.  The functions are those of Prim_Model. *)
Theorem program_correct n x v s' d : clean_stack -> others = [] -> program x -> eval basic false n empty [] x = Some (v, s', d) ->
  exists N, forall f size gcs sz k,
    Z.of_nat N <= size <= 2 ^ (W - 8) -> 1 <= gcs -> (forall h, ~ stack_ref h k) -> (N <= f)%nat -> Z.of_nat (S d) < sz -> sz <= 2 ^ 28 ->
    exists h0 h1 p m w g exp' env' r',
      heap_init size gcs = Ok h0 /\ load h0 x = Ok (h1, p) /\
      run fundamental_table f m (mkE h1 (groots (init_env h0)) [k] sz p NIL NIL false) = Ok (Val (mkE (wh w) g [k] sz exp' env' r' true)) /\
      srel w g s' /\ vrel w v r'.
Proof.
  intros UNS NO P E. destruct (load_ok x P) as (N1&H1). destruct (eval_correct _ _ fundamental_basic UNS _ _ _ _ _ _ _ E) as (N2&H2).
  exists (S (N1 + N2)). intros f size gcs sz k Hs Hg Hk F D SZ.
  destruct (init_srel size gcs ltac:(lia) Hg NO) as (h0&E0&w0&W0&L0&SR0).
  destruct (H1 w0 _ _ SR0 ltac:(lia)) as (w1&p&E1&SR1&HX1&_&V1&L1).
  assert (ER : erel w1 [] NIL) by (rewrite NIL_0; constructor).
  assert (GN : good w1 NIL) by (rewrite NIL_0; apply nil_good).
  assert (GK : Forall (kgood w1) [k]) by (apply Forall_cons; [intros X; destruct (Hk _ X)|apply Forall_nil]).
  destruct (H2 f w1 _ [k] sz p NIL NIL SR1 ER V1 GN GK ltac:(lia) ltac:(cbn [length]; lia) SZ) as [(m&w'&g'&p'&n'&r'&R&SR'&V'&_)|(L&_)]; [|lia].
  exists h0, (wh w1), p, m, w', g', p', n', r'. subst h0. auto.
Qed.

(* ---- C61: tail calls ---- *)

(* However long a chain of tail calls is, and whatever is evaluated on the way: if
   each step of it needs no more than [d] words, then so does all of it, and its
   end is evaluated with the stack of its beginning. *)
Theorem tail_calls prim prims : implements prim prims -> clean_stack ->
  forall d s e x s' e' x', tails prims d s e x s' e' x' ->
  exists N, forall f w g K sz exp env r,
    srel w g s -> erel w e env -> vrel w x exp -> good w r -> Forall (kgood w) K ->
    (N <= f)%nat -> Z.of_nat (length K + d) < sz -> sz <= 2 ^ 28 ->
    (exists m w' g' exp' env' r',
      run prim f m (mkE (wh w) g K sz exp env r false) = Ok (Val (mkE (wh w') g' K sz exp' env' r' false)) /\
      srel w' g' s' /\ erel w' e' env' /\ vrel w' x' exp' /\ good w' r' /\ keeps K w w' /\ (length (wfl w) <= length (wfl w') + N)%nat) \/
    ((length (wfl w) < N)%nat /\ exists m, run prim f m (mkE (wh w) g K sz exp env r false) = Ok NoMem).
Proof.
  intros IMP UNS d s e x s' e' x' T. destruct (tails_leads prim UNS prims IMP _ _ _ _ _ _ _ T) as (N&H). exists N.
  intros f w g K sz exp env r SR ER V GR GK F D SZ.
  destruct (H f w g K sz exp env r SR ER V GR GK F D SZ) as [(w'&st&(m&R)&KP&L&g'&p'&n'&r'&->&SR'&ER'&V'&GR')|ST].
  - left. exists m, w', g', p', n', r'. auto 12.
  - right. exact ST.
Qed.

(* A function that calls itself as often as its argument says:
   (define f (lambda (n) (if (< n 1) n (f (- n 1))))) *)
Definition F_ : val := VSym 0x40000.
Definition N_ : val := VSym 0x40001.
Definition count_body : val :=
  vlist [VSym 0x104; vlist [VSym 0x20009; N_; VInt 1]; N_; vlist [F_; vlist [VSym 0x20001; N_; VInt 1]]].
Definition count_clo : val := VClo (vlist [N_]) count_body [].
Definition count_state : rstate := mkS [Some count_clo] [(0x40000, 0%nat)].

Lemma int_of_VInt k : - 2 ^ (W - VAL_SHIFT - 1) <= k < 2 ^ (W - VAL_SHIFT - 1) -> int_of (VInt k) = Some k.
Proof.
  intros R. unfold VInt, int_of. destruct (enc_kinds k) as (->&_). rewrite Z.eqb_refl. f_equal. apply enc_i_roundtrip. rewrite payload_eq. auto.
Qed.

Lemma small_ints : 2 <= 2 ^ (W - VAL_SHIFT - 1).
Proof. change 2 with (2 ^ 1) at 1. apply Z.pow_le_mono_r; arch; lia. Qed.

Lemma count_args s l k : content s l = Some (VInt k) -> 
  args (eval basic false 1) 0 s [(0x40001, l)] (vlist [N_; VInt 1]) = Some ([VInt k; VInt 1], s, 6%nat).
Proof.
  intros C. unfold N_, VInt in *. cbn -[content enc_i]. rewrite C. reflexivity.
Qed.

Lemma count_prim s l k f r : content s l = Some (VInt k) -> f = 0x20009 \/ f = 0x20001 -> basic f [VInt k; VInt 1] = Some r ->
  eval basic false 2 s [(0x40001, l)] (vlist [VSym f; N_; VInt 1]) = Some (r, s, 6%nat).
Proof.
  intros C Hf B. change (vlist (VSym f :: ?t)) with (VC (VSym f) (vlist t)). pose proof (count_args s l k C) as CA.
  set (t := vlist [N_; VInt 1]) in *. clearbody t.
  assert (E : forall x, x = 0x20009 \/ x = 0x20001 -> eval basic false 2 s [(0x40001, l)] (VC (VSym x) t) = apply basic (eval basic false 1) s [(0x40001, l)] (VSym x) t)
    by (intros x [-> | ->]; reflexivity).
  assert (E1 : forall x, x = 0x20009 \/ x = 0x20001 -> eval basic false 1 s [(0x40001, l)] (VSym x) = Some (VSym x, s, 0%nat)) by (intros x [-> | ->]; reflexivity).
  rewrite E by auto. unfold apply. rewrite E1, CA by auto. unfold builtin.
  destruct Hf as [-> | ->]; cbn [Z.leb Z.ltb Z.compare Pos.compare Pos.compare_cont andb]; rewrite B; reflexivity.
Qed.

Lemma tails_app d s e x s1 e1 x1 s2 e2 x2 : tails basic d s e x s1 e1 x1 -> tails basic d s1 e1 x1 s2 e2 x2 -> tails basic d s e x s2 e2 x2.
Proof. induction 1; intros; auto. eapply ts_step; eauto. Qed.

(* the first location after [s] *)
Lemma alloc_content s v : content (fst (alloc s (Some v))) (length (sto s)) = Some v.
Proof. unfold content. cbn. rewrite nth_error_app2, Nat.sub_diag by lia. reflexivity. Qed.
Lemma alloc_global s v x u : global s x = Some u -> global (fst (alloc s (Some v))) x = Some u.
Proof.
  unfold global. cbn [alloc fst glo]. destruct (find x (glo s)) as [l|]; [|discriminate]. unfold content. cbn [sto].
  destruct (nth_error (sto s) l) eqn:E; [|discriminate]. rewrite nth_error_app1 by (apply nth_error_Some; congruence). rewrite E. auto.
Qed.

Definition one_more (s : rstate) (v : val) : rstate := fst (alloc s (Some v)).

(* a call of f *)
Lemma count_call s e x v n d : (1 <= n)%nat -> global s 0x40000 = Some count_clo -> find 0x40000 e = None -> eval basic false n s e x = Some (v, s, d) -> (d <= 6)%nat ->
  tails basic 12 s e (vlist [F_; x]) (one_more s v) [(0x40001, length (sto s))] count_body.
Proof.
  intros Hn G Fe E D. eapply ts_step; [|instantiate (1 := max 3 (max (6 + d) 6)); lia|apply ts_refl].
  assert (LF : local s 0x40000 e = None).
  { clear -Fe. induction e as [|(a&b) e IH]; auto. cbn in *. destruct (a =? 0x40000); [discriminate|auto]. }
  refine (t_call basic n s e F_ (vlist [x]) (vlist [N_]) count_body [] s 0 _ _ _ eq_refl _ _).
  - destruct n as [|n]; [lia|]. cbn [eval eval1 F_]. change (variable 0x40000) with true. cbv iota. rewrite LF, G. reflexivity.
  - cbn [vlist fold_right params N_]. change (variable 0x40001) with true. cbv iota. rewrite E. cbn [alloc fst]. reflexivity.
Qed.

Lemma count_iter m : forall s l, global s 0x40000 = Some count_clo -> content s l = Some (VInt (Z.of_nat m)) -> Z.of_nat m < 2 ^ (W - VAL_SHIFT - 1) ->
  exists s' l', tails basic 12 s [(0x40001, l)] count_body s' [(0x40001, l')] N_ /\ content s' l' = Some (VInt 0).
Proof.
  pose proof small_ints as SI.
  induction m as [|m IH]; intros s l G C R.
  - exists s, l. split; auto. eapply ts_step; [|instantiate (1 := 9%nat); lia|apply ts_refl].
    refine (t_then basic 2 s _ _ N_ _ VTrue s 6 _ eq_refl).
    apply count_prim with (k := 0); auto. unfold basic. cbn [Z.eqb Pos.eqb]. rewrite !int_of_VInt by lia. reflexivity.
  - set (k := Z.of_nat (S m)) in *.
    assert (E1 : eval basic false 2 s [(0x40001, l)] (vlist [VSym 0x20001; N_; VInt 1]) = Some (VInt (Z.of_nat m), s, 6%nat)).
    { apply count_prim with (k := k); auto. unfold basic. cbn [Z.eqb Pos.eqb]. rewrite !int_of_VInt by lia. do 2 f_equal. lia. }
    destruct (IH (one_more s (VInt (Z.of_nat m))) (length (sto s))) as (s'&l'&T&C').
    { apply alloc_global; auto. } { apply alloc_content. } { lia. }
    exists s', l'. split; auto.
    eapply ts_step with (d1 := 9%nat); [|lia|].
    { refine (t_else basic 2 s _ _ N_ _ VNil VNil s 6 _ eq_refl).
      apply count_prim with (k := k); auto. unfold basic. cbn [Z.eqb Pos.eqb]. rewrite !int_of_VInt by lia.
      destruct (Z.ltb_spec k 1); [lia|]. reflexivity. }
    eapply tails_app; [|exact T]. eapply count_call; [|auto| |exact E1|]; [lia|reflexivity|lia].
Qed.

(* However large k is, (f k) takes the same twelve words of stack. *)
Theorem count_constant_stack k : clean_stack -> 0 <= k < 2 ^ (W - VAL_SHIFT - 1) ->
  exists N, forall f w g K sz exp env r,
    srel w g count_state -> erel w [] env -> vrel w (vlist [F_; VInt k]) exp -> good w r -> Forall (kgood w) K ->
    (N <= f)%nat -> Z.of_nat (length K + 12) < sz -> sz <= 2 ^ 28 ->
    (exists m s', run fundamental_table f m (mkE (wh w) g K sz exp env r false) = Ok (Val s') /\
      e_app s' = true /\ e_K s' = K /\ e_r s' = enc_i 0) \/
    ((length (wfl w) < N)%nat /\ exists m, run fundamental_table f m (mkE (wh w) g K sz exp env r false) = Ok NoMem).
Proof.
  intros UNS Rk.
  assert (T0 : tails basic 12 count_state [] (vlist [F_; VInt k]) (one_more count_state (VInt k)) [(0x40001, 1%nat)] count_body).
  { apply (count_call count_state [] (VInt k) (VInt k) 1 0); auto; lia. }
  destruct (count_iter (Z.to_nat k) (one_more count_state (VInt k)) 1%nat) as (s'&l'&T&C'); [reflexivity|rewrite Z2Nat.id by lia; reflexivity|lia|].
  destruct (tail_calls _ _ fundamental_basic UNS _ _ _ _ _ _ _ (tails_app _ _ _ _ _ _ _ _ _ _ T0 T)) as (N1&H1).
  assert (E : eval basic false 1 s' [(0x40001, l')] N_ = Some (VInt 0, s', 0%nat)).
  { cbn [eval eval1 N_]. change (variable 0x40001) with true. cbv iota. cbn [local Z.eqb Pos.eqb]. rewrite C'. reflexivity. }
  destruct (eval_correct _ _ fundamental_basic UNS _ _ _ _ _ _ _ E) as (N2&H2).
  exists (N1 + N2)%nat. intros f w g K sz exp env r SR ER V GR GK F D SZ.
  destruct (H1 f w g K sz exp env r SR ER V GR GK ltac:(lia) D SZ) as [(m1&w1&g1&x1&n1&r1&R1&SR1&ER1&V1&GR1&KP1&L1)|(L1&ST)];
    [|right; split; [lia|exact ST]].
  assert (GK1 : Forall (kgood w1) K) by (apply (kgoods_k _ _ _ _ _ _ SR KP1); auto; apply rooted_incl, incl_refl).
  destruct (H2 f w1 g1 K sz x1 n1 r1 SR1 ER1 V1 GR1 GK1 ltac:(lia) ltac:(lia) SZ) as [(m2&w2&g2&x2&n2&r2&R2&SR2&V2&_)|(L2&m2&R2)].
  - left. exists (m1 + m2)%nat, (mkE (wh w2) g2 K sz x2 n2 r2 true). rewrite run_add, R1. cbn [bind]. rewrite R2. sp; auto. cbn.
    inversion V2; auto.
  - right. split; [lia|]. exists (m1 + m2)%nat. rewrite run_add, R1. cbn [bind]. exact R2.
Qed.

(* ---- C63: garbage collection in the middle of an evaluation ---- *)

(* Whatever the words that the evaluator holds stand for before a collection (in
   [pre], its registers, its stack), they stand for after it, and the locations and
   the global environment are as they were; unless the collector runs out of
   stack. *)
Theorem collection_invisible w g s pre c : srel w g s -> Forall (good w) pre -> ctx_ok w c ->
  collect (wh w) g pre c = Ok NoMem \/
  exists w', collect (wh w) g pre c = Ok (Val (wh w')) /\ srel w' g s /\ (length (wfl w) <= length (wfl w'))%nat /\
    (forall v x, In x (pre ++ c_env c :: c_roots c ++ c_stack c) -> vrel w v x -> vrel w' v x) /\
    (forall e x, In x (pre ++ c_env c :: c_roots c ++ c_stack c) -> erel w e x -> erel w' e x) /\
    Forall (ctx_ok w') (c :: others).
Proof.
  intros SR G C. destruct (collect_cw w g s pre c SR G C) as [E|(w'&E&SR'&K&L)]; auto. right. exists w'. sp; auto.
  - intros v x I V. apply (vrel_k _ _ _ _ _ SR K); auto. apply rooted_in; auto.
  - intros e x I V. apply (erel_k _ _ _ _ _ SR K); auto. apply rooted_in; auto.
  - apply Forall_cons; [|apply SR']. eapply (ctx_k w w' g s c SR); auto. eapply keeps_incl; [exact K|].
    intros x X. apply in_or_app. auto.
Qed.

(* Two runs of the same expression, in heaps of any sizes with any numbers of free
   cells, that do not run out of memory, return the same value. *)
Theorem heap_size_invisible prim prims : implements prim prims -> clean_stack ->
  forall n s e x v s' d, eval prims false n s e x = Some (v, s', d) -> exists N, forall f sz,
  let result st v' := exists w' g' K' exp' env' r', st = mkE (wh w') g' K' sz exp' env' r' true /\ srel w' g' s' /\ vrel w' v' r' in
  let good_start w g K exp env r := srel w g s /\ erel w e env /\ vrel w x exp /\ good w r /\ Forall (kgood w) K /\ Z.of_nat (length K + d) < sz in
  (N <= f)%nat -> sz <= 2 ^ 28 -> forall w1 g1 K1 exp1 env1 r1 w2 g2 K2 exp2 env2 r2,
  good_start w1 g1 K1 exp1 env1 r1 -> good_start w2 g2 K2 exp2 env2 r2 ->
  (forall m, run prim f m (mkE (wh w1) g1 K1 sz exp1 env1 r1 false) <> Ok NoMem) ->
  (forall m, run prim f m (mkE (wh w2) g2 K2 sz exp2 env2 r2 false) <> Ok NoMem) ->
  exists m1 m2 st1 st2, run prim f m1 (mkE (wh w1) g1 K1 sz exp1 env1 r1 false) = Ok (Val st1) /\
    run prim f m2 (mkE (wh w2) g2 K2 sz exp2 env2 r2 false) = Ok (Val st2) /\ e_K st1 = K1 /\ e_K st2 = K2 /\ result st1 v /\ result st2 v.
Proof.
  intros IMP UNS n s e x v s' d E. destruct (eval_correct _ _ IMP UNS _ _ _ _ _ _ _ E) as (N&H). exists N.
  intros f sz result good_start F SZ w1 g1 K1 exp1 env1 r1 w2 g2 K2 exp2 env2 r2 (A1&A2&A3&A4&A5&A6) (B1&B2&B3&B4&B5&B6) N1 N2.
  destruct (H f w1 g1 K1 sz exp1 env1 r1) as [(m1&w1'&g1'&p1&n1&q1&R1&S1&V1&_)|(_&m&R)]; auto; [|destruct (N1 m R)].
  destruct (H f w2 g2 K2 sz exp2 env2 r2) as [(m2&w2'&g2'&p2&n2&q2&R2&S2&V2&_)|(_&m&R)]; auto; [|destruct (N2 m R)].
  exists m1, m2. do 2 eexists. sp; eauto; unfold result; eauto 10.
Qed.

End Props.

(* ---- concrete cases ---- *)

(* (define f (lambda (n) (if (< n 1) n (f (- n 1))))) and then (f 3) *)
Definition ex_define {A : Arch} : val := vlist [VSym 0x101; F_; vlist [VSym 0x103; vlist [N_]; count_body]].
Definition ex_prog {A : Arch} : val := vlist [VSym 0x102; ex_define; vlist [F_; VInt 3]].

(* no other contexts, and nothing was on the stack before *)
Definition alone : Host := mkHost [] (fun _ _ => 0).

Lemma alone_clean {A : Arch} : clean_stack (HO := alone).
Proof. intros h K i (X&_). discriminate. Qed.

(* run until a value is returned to the bottom of the stack *)
Fixpoint finish {A : Arch} {HO : Host} (m : nat) (s : est) : res (out est) :=
  match m with
  | O => Fuel
  | S k =>
    if e_app s && (length (e_K s) =? 1)%nat then Ok (Val s)
    else let* s1 := step fundamental_table 64 s in finish k s1
  end.
(* run a program in a new heap of [size] cells *)
Definition run_program {A : Arch} {HO : Host} (size sz : Z) (m : nat) (x : val) : res (out (list Z * Z)) :=
  let! h0 := heap_init size 20 in
  let! (h1, p) := load h0 x in
  let* s := finish m (mkE h1 (groots (init_env h0)) [CONT 0] sz p NIL NIL false) in
  Ok (Val (e_K s, e_r s)).

#[local] Existing Instance alone.

(* (progn (var (a . b) (cons 1 2)) (let ((c (+ a b)) (d 10)) (and c (setq d ( * c d)) (cond ((< d 5) nil) (t (- d b)))))) = 28 *)
Definition A_ : val := VSym 0x40002.
Definition B_ : val := VSym 0x40003.
Definition C_ : val := VSym 0x40004.
Definition D_ : val := VSym 0x40005.
Definition ex_prog2 {A : Arch} : val :=
  vlist [VSym 0x102;
    vlist [VSym 0x112; VC A_ B_; vlist [VSym 0x20011; VInt 1; VInt 2]];
    vlist [VSym 0x105; vlist [vlist [C_; vlist [VSym 0x20000; A_; B_]]; vlist [D_; VInt 10]];
      vlist [VSym 0x106; C_; vlist [VSym 0x113; D_; vlist [VSym 0x20002; C_; D_]];
        vlist [VSym 0x110; vlist [vlist [VSym 0x20009; D_; VInt 5]; VNil]; vlist [VTrue; vlist [VSym 0x20001; D_; B_]]]]]].
(* ((lambda (a) (progn (define b a) (rest-args))) 1 2 3) = (2 3) *)
Definition ex_prog3 {A : Arch} : val :=
  vlist [vlist [VSym 0x103; vlist [A_]; vlist [VSym 0x102; vlist [VSym 0x101; B_; A_]; vlist [VSym 0x30015]]]; VInt 1; VInt 2; VInt 3].

Ltac prog A := try destruct A; cbn; unfold word; repeat match goal with |- _ /\ _ => split end; try lia; vm_compute; try congruence; reflexivity.

(* after the definition of f the state is the one the theorem about f starts from *)
Example count_ready : forall A : Arch, program ex_define /\ eval basic false 3 empty [] ex_define = Some (count_clo, count_state, 2%nat).
Proof. intros A. split; [prog A|reflexivity]. Qed.

(* the reference interpreter gives them values, and so the theorems apply *)
Example ex_eval_1 : option_map (fun r => (fst (fst r), snd r)) (eval (basic (A := A32)) false 20 empty [] (ex_prog (A := A32))) = Some (VInt (A := A32) 0, 12%nat).
Proof. vm_compute. reflexivity. Qed.
Example ex_eval_2 : option_map (fun r => (fst (fst r), snd r)) (eval (basic (A := A64)) false 20 empty [] (ex_prog2 (A := A64))) = Some (VInt (A := A64) 28, 13%nat).
Proof. vm_compute. reflexivity. Qed.
Example ex_eval_3 : option_map (fun r => (fst (fst r), snd r)) (eval (basic (A := A32)) false 20 empty [] (ex_prog3 (A := A32))) = Some (vlist [VInt (A := A32) 2; VInt (A := A32) 3], 6%nat).
Proof. vm_compute. reflexivity. Qed.
Example ex_program : program (A := A32) (ex_prog (A := A32)) /\ program (A := A32) (ex_prog3 (A := A32)).
Proof. split; prog A32. Qed.

(* and the evaluator computes them *)
Example ex_run_1 : run_program (A := A32) 200 20 400 (ex_prog (A := A32)) = Ok (Val ([CONT (A := A32) 0], enc_i (A := A32) 0)).
Proof. vm_compute. reflexivity. Qed.
Example ex_run_2 : run_program (A := A64) 200 20 400 (ex_prog2 (A := A64)) = Ok (Val ([CONT (A := A64) 0], enc_i (A := A64) 28)).
Proof. vm_compute. reflexivity. Qed.

(* ---- C62: the environment of a loop ---- *)

(* (progn (define a 0) (loop ((b 0)) (< b 3) (progn (setq b (+ b 1)) (setq a b) (let ((b 10)) b))) a) *)
Definition loop_prog {A : Arch} : val :=
  vlist [VSym 0x102; vlist [VSym 0x101; A_; VInt 0];
    vlist [VSym 0x115; vlist [vlist [B_; VInt 0]]; vlist [VSym 0x20009; B_; VInt 3];
      vlist [VSym 0x102; vlist [VSym 0x113; B_; vlist [VSym 0x20000; B_; VInt 1]]; vlist [VSym 0x113; A_; B_];
        vlist [VSym 0x105; vlist [vlist [B_; VInt 10]]; B_]]];
    A_].

(* The claim that the condition and the body of a loop are evaluated in the
   environment of its bindings, each time, is false: the evaluator keeps whatever
   environment the body left, and here the condition is tested on the variable b
   of the inner let.  The interpreter goes round three times, the evaluator once. *)
Theorem loop_environment_refuted : forall A : Arch, exists x v s' d r,
  program x /\ eval basic true 20 empty [] x = Some (v, s', d) /\
  run_program 200 (Z.of_nat (d + 20)) 400 x = Ok (Val ([CONT 0], r)) /\
  v = VInt 3 /\ r = enc_i 1.
Proof.
  intros A. exists loop_prog. destruct (eval basic true 20 empty [] loop_prog) as [[[v s'] d]|] eqn:E.
  - exists v, s', d, (enc_i 1). split; [prog A|]. split; [reflexivity|].
    destruct A; vm_compute in E; injection E as <- <- <-; vm_compute; auto.
  - exfalso. destruct A; vm_compute in E; discriminate.
Qed.

(* (progn (define f (lambda (a) a)) (loop ((b 0)) (< b 3) (progn (setq b (+ b 1)) (f b)))) *)
Definition loop_prog2 {A : Arch} : val :=
  vlist [VSym 0x102; vlist [VSym 0x101; F_; vlist [VSym 0x103; vlist [A_]; A_]];
    vlist [VSym 0x115; vlist [vlist [B_; VInt 0]]; vlist [VSym 0x20009; B_; VInt 3];
      vlist [VSym 0x102; vlist [VSym 0x113; B_; vlist [VSym 0x20000; B_; VInt 1]]; vlist [F_; B_]]]].

(* A body that ends in the call of a function leaves the environment of that
   function, in which the variables of the loop have no values: the evaluator
   raises an error where the interpreter returns nil. *)
Theorem loop_call_refuted : forall A : Arch, exists x s' d,
  program x /\ eval basic true 20 empty [] x = Some (VNil, s', d) /\
  run_program 200 (Z.of_nat (d + 20)) 400 x = Ok Err.
Proof.
  intros A. exists loop_prog2. destruct (eval basic true 20 empty [] loop_prog2) as [[[v s'] d]|] eqn:E.
  - exists s', d. split; [prog A|].
    destruct A; vm_compute in E; injection E as <- <- <-; split; vm_compute; auto.
  - exfalso. destruct A; vm_compute in E; discriminate.
Qed.

(* ---- C63, a concrete case ---- *)

(* (f 100) in a heap of 70 cells: each of the calls takes two cells for the variable
   n, so that the garbage must be collected several times on the way *)
Example ex_collect : run_program (A := A32) 70 20 4000 (vlist [VSym 0x102; ex_define (A := A32); vlist [F_; VInt (A := A32) 100]]) =
  Ok (Val ([CONT (A := A32) 0], enc_i (A := A32) 0)).
Proof. vm_compute. reflexivity. Qed.

(* ---- C64: words of the stack that were never written ---- *)

(* the stack held [z] everywhere before *)
Definition stale (z : Z) : Host := mkHost [] (fun _ _ => z).
(* ((lambda () 1) 2) *)
Definition stale_prog {A : Arch} : val := vlist [vlist [VSym 0x103; VNil; VInt 1]; VInt 2].

(* When a closure without parameters is called with arguments (for rest-args),
   cont_application_start reserves four words of the stack, writes one of them, and
   may then collect garbage, with the other three as roots.  The claim that a run depends on nothing but the program is false: a
   pointer to an array, left on the stack by an earlier computation, whose cell is
   by now another's, is undefined behaviour; and an old pointer to a dead list keeps
   it alive and makes the memory run out. *)
Theorem stale_stack_refuted : forall A : Arch, exists x v s' d z1 z2,
  program x /\ eval basic false 5 empty [] x = Some (v, s', d) /\ v = VInt 1 /\
  run_program (HO := alone) 10 20 100 x = Ok (Val ([CONT 0], enc_i 1)) /\
  run_program (HO := stale z1) 10 20 100 x = UB /\
  run_program (HO := stale z2) 10 20 100 x = Ok NoMem /\ is_cons z2 = true /\ type_of z1 = TYPE_LISPARRAY.
Proof.
  intros A. exists stale_prog. destruct (eval basic false 5 empty [] stale_prog) as [[[v s'] d]|] eqn:E.
  - exists v, s', d, (set_ptr_type (enc_cons_ptr 0) TYPE_LISPARRAY), (enc_cons_ptr 4). split; [prog A|]. split; [reflexivity|].
    destruct A; vm_compute in E; injection E as <- <- <-; vm_compute; repeat split; reflexivity.
  - exfalso. destruct A; vm_compute in E; discriminate.
Qed.

(* ---- C65: symbols that are taken for failures ---- *)

(* (progn (define a 1) (setq a (quote out_of_memory))) *)
Definition oom : val := vlist [VSym 0x100; VSym 0x23].
Definition oom_prog {A : Arch} : val := vlist [VSym 0x102; vlist [VSym 0x101; A_; VInt 1]; vlist [VSym 0x113; A_; oom]].
(* (car (quote (out_of_memory))) *)
Definition oom_prog2 : val := vlist [VSym 0x20012; vlist [VSym 0x100; vlist [VSym 0x23]]].

(* The claims that setq assigns whatever the value of its second argument is, and
   that car returns whatever is the first of a pair, are false: the symbol
   out_of_memory is taken for the failure of an allocation, so that garbage is
   collected and then an error raised, however much memory is free. *)
Theorem out_of_memory_refuted : forall A : Arch,
  program oom_prog /\ program oom_prog2 /\ (forall s e, eval basic false 3 s e oom = Some (VSym 0x23, s, 0%nat)) /\
  run_program 200 20 100 oom = Ok (Val ([CONT 0], enc_sym 0x23)) /\
  run_program 200 20 100 oom_prog = Ok NoMem /\ run_program 200 20 100 oom_prog2 = Ok NoMem.
Proof.
  intros A. split; [prog A|]. split; [prog A|]. split; [reflexivity|]. destruct A; vm_compute; auto.
Qed.

Print Assumptions eval_correct.
Print Assumptions program_correct.
Print Assumptions tail_calls.
Print Assumptions count_constant_stack.
Print Assumptions loop_environment_refuted.
Print Assumptions loop_call_refuted.
Print Assumptions collection_invisible.
Print Assumptions heap_size_invisible.
Print Assumptions stale_stack_refuted.
Print Assumptions out_of_memory_refuted.
