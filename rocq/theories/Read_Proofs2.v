(* Running the reader: steps, memory, symbols and numbers. *)
From Coq Require Import String.
From Verif Require Import Base Value_Model Heap_Model Value_Proofs Value_Proofs2 Value_Props Heap_Spec Heap_Proofs Heap_Proofs2 List_Proofs Env_Proofs
  GC_Model Eq_Model Eq_Spec Eq_Props Sym_Model Sym_Props Flat_Model Flat_Spec Flat_Proofs Flat_Proofs2 Flat_Proofs3 QQ_Model Tok_Model Print_Spec
  Read_Model Read_Spec Read_Proofs.
From Verif Require Tok_Props.
Import List.
Local Open Scope Z_scope.

Section Arch.
Context {A : Arch} {L : Libc}.

(* ---- runs ---- *)
Definition goes (u : ust) (text : list Z) (K : list rframe) (r : Z) (u' : ust) (text' : list Z) (K' : list rframe) (r' : Z) : Prop :=
  forall fr, exists n fr', (fr = false -> fr' = false) /\
    forall fuel, read_run (n + fuel) (mkR u text false false fr K r) = read_run fuel (mkR u' text' false false fr' K' r').

Lemma goes_trans u t K r u1 t1 K1 r1 u2 t2 K2 r2 : goes u t K r u1 t1 K1 r1 -> goes u1 t1 K1 r1 u2 t2 K2 r2 -> goes u t K r u2 t2 K2 r2.
Proof.
  intros G1 G2 fr. destruct (G1 fr) as (n1&fr1&F1&E1). destruct (G2 fr1) as (n2&fr2&F2&E2). exists (n1 + n2)%nat, fr2. split; [auto|].
  intros fuel. rewrite <- Nat.add_assoc, E1, E2. reflexivity.
Qed.
Lemma goes_step u t K r u1 t1 K1 r1 :
  (forall f fr, exists fr', (fr = false -> fr' = false) /\ rstep f (mkR u t false false fr K r) = Ok (RGo (mkR u1 t1 false false fr' K1 r1))) -> goes u t K r u1 t1 K1 r1.
Proof.
  intros H fr. pose proof (fun f => H f fr) as X.
  destruct K as [|k K]; [destruct (X 0%nat) as (?&_&E); discriminate E|].
  assert (Y : exists fr', (fr = false -> fr' = false) /\ forall f, rstep f (mkR u t false false fr (k :: K) r) = Ok (RGo (mkR u1 t1 false false fr' K1 r1))).
  { destruct k; try (destruct (X 0%nat) as (fr1&F&E); exists fr1; split; [exact F|]; intros f; rewrite <- E; reflexivity).
    exists fr. split; [auto|]. intros f0. destruct (X f0) as (fr1&F&E). rewrite E. revert E. unfold rstep. cbn [rk rr uh ru].
    destruct (qq_step f0 (uh u) f [] r) as [[[[h' fs'] r']|]| |]; cbn [bind]; try discriminate. unfold set_k, set_u. cbn.
    intros E; injection E as <- <- <- <- <-. reflexivity. }
  destruct Y as (fr1&F&E). exists 1%nat, fr1. split; auto. intros fuel. cbn [Nat.add read_run]. rewrite E. reflexivity.
Qed.

Lemma next_step b t rest tk u K r f fr : blank b -> (exists c q, t = c :: q /\ starter c) ->
  next_token (mkChan (t ++ rest) false) = Ok (NTok tk (Z.of_nat (List.length t))) ->
  rstep f (mkR u (b ++ t ++ rest) false false fr (FNext :: K) r) = read_token (mkR u rest false false false (FNext :: K) r) K tk.
Proof.
  intros B (c&q&->&S) N. unfold rstep. cbn [rk]. unfold read_next. cbv beta zeta. unfold set_text. cbn [ru rtext rmore rcomment rfresh rk rr negb andb].
  assert (NE : match b ++ (c :: q) ++ rest with [] => true | _ :: _ => false end = false) by (destruct b; reflexivity). rewrite NE. cbv iota.
  rewrite blank_clean by auto. cbn [app]. rewrite starter_clean by auto. cbn [ru rtext rmore rcomment rfresh rk rr negb andb].
  cbn [app] in N. rewrite N. cbn [bind]. rewrite Nat2Z.id.
  change (c :: q ++ rest) with ((c :: q) ++ rest). rewrite skipn_app, skipn_all, Nat.sub_diag. cbn [app skipn].
  do 2 f_equal. apply Bool.andb_false_iff. right. cbn [List.length]. rewrite app_length. apply Nat.eqb_neq. lia.
Qed.
Lemma token_goes b t rest tk u K r u' K' r' : blank b -> (exists c q, t = c :: q /\ starter c) ->
  next_token (mkChan (t ++ rest) false) = Ok (NTok tk (Z.of_nat (List.length t))) ->
  (forall fr, read_token (mkR u rest false false fr (FNext :: K) r) K tk = Ok (RGo (mkR u' rest false false fr K' r'))) ->
  goes u (b ++ t ++ rest) (FNext :: K) r u' rest K' r'.
Proof.
  intros B S N T. apply goes_step. intros f fr. exists false. split; [auto|]. rewrite (next_step b t rest tk u K r f fr B S N). apply T.
Qed.
Lemma syntax_goes b c tok rest u K r K' r' : blank b -> In (c, tok) syntax_chars ->
  (forall s : rst, rr s = r -> read_syntax s K tok = RGo (set_k s K' r')) ->
  goes u (b ++ c :: rest) (FNext :: K) r u rest K' r'.
Proof.
  intros B I T. destruct (syntax_token c tok rest I) as (N&S). change (c :: rest) with ([c] ++ rest).
  apply token_goes with (tk := KSyntax tok); auto. { exists c, []. auto. }
  intros fr. cbn [read_token]. rewrite T by reflexivity. reflexivity.
Qed.

(* ---- the state the reader works on: [c] cells, [m] blocks and [y] symbols to come ---- *)
Record wf (c m y : nat) (u : ust) (fl : list Z) : Prop := {
  w_heap : heap_ok (uh u) fl;
  w_cells : (c <= List.length fl)%nat;
  w_mem : exists blk rest, up u = blk ++ rest /\ (m <= List.length blk)%nat /\ NoDup blk /\ Forall (fun a => a <> 0 /\ mem (uh u) a = None) blk;
  w_ans : forall k, (k < y)%nat -> nth k (uk u) false = true;
  w_sym : exists b, inv b (us u) /\ b + Z.of_nat y < 2 ^ 28 }.

Lemma wf_weak c m y c' m' y' u fl : (c' <= c)%nat -> (m' <= m)%nat -> (y' <= y)%nat -> wf c m y u fl -> wf c' m' y' u fl.
Proof.
  intros H1 H2 H3 [W1 W2 (blk&rest&W3&W4&W5&W6) W7 (b&W8&W9)]. constructor; auto; try lia.
  - exists blk, rest. repeat split; auto; lia.
  - intros k K. apply W7. lia.
  - exists b. split; auto; lia.
Qed.

Definition kept (s s' : syms) : Prop := forall n i, name_ok n -> get_symbol_by_name s n = Ok (Some i) -> get_symbol_by_name s' n = Ok (Some i).
Lemma kept_refl s : kept s s. Proof. intros n i _ H; exact H. Qed.
Lemma kept_trans s1 s2 s3 : kept s1 s2 -> kept s2 s3 -> kept s1 s3. Proof. intros H1 H2 n i N E. auto. Qed.

Lemma meant_kept s s' e t : kept s s' -> all_names name_ok e -> meant s e t -> meant s' e t.
Proof. intros K N M. revert N. induction M; cbn [all_names]; intros N; constructor; auto; apply IHM1 || apply IHM2; tauto. Qed.
Lemma addable_kept s s' e : kept s s' -> all_names name_ok e -> all_names (addable s) e -> all_names (addable s') e.
Proof.
  intros K. induction e; cbn [all_names]; auto.
  - intros N [(i&E)|X]; [left; exists i; auto|right; auto].
  - intuition.
Qed.

Lemma grows_refl l h : grows l h h.
Proof. split; [apply same_but_refl|split; auto]. Qed.
Lemma grows_trans l h1 h2 h3 : grows l h1 h2 -> grows l h2 h3 -> grows l h1 h3.
Proof. intros (S1&C1&M1) (S2&C2&M2). split; [eapply same_but_trans; eauto|split; [congruence|auto]]. Qed.
Lemma grows_incl l l' h h' : incl l l' -> grows l h h' -> grows l' h h'.
Proof. intros I (S1&C&M). split; [eapply same_but_incl; eauto|auto]. Qed.

(* ---- what reading an expression achieves ---- *)
Definition off (X fl : list Z) : Prop := forall x, In x X -> ~ In x fl.
Lemma off_incl X fl fl' : incl fl' fl -> off X fl -> off X fl'. Proof. intros I O x H1 H2. exact (O x H1 (I _ H2)). Qed.
Definition means (s : syms) (h : heap) (fl fl' : list Z) (v : Z) (e : sexp) : Prop :=
  exists t, meant s e t /\ forall X, off X fl -> den (X ++ fl') h v t.
Record built (e : sexp) (c m y : nat) (u u' : ust) (fl fl' : list Z) (v : Z) : Prop := {
  p_wf : wf c m y u' fl';
  p_grows : grows fl (uh u) (uh u');
  p_incl : incl fl' fl;
  p_kept : kept (us u) (us u');
  p_means : means (us u') (uh u') fl fl' v e;
  p_plain : tokenizer_symbol v = false }.

(* ---- symbols ---- *)
Lemma sym_facts i : 0 <= i < 2 ^ 28 ->
  is_ptr (enc_sym i) = false /\ is_symbol (enc_sym i) = true /\ type_of_functional (enc_sym i) = TYPE_SYMBOL /\ dec_sym (enc_sym i) = i.
Proof.
  intros R. assert (2 ^ 28 <= 2 ^ payload A) by (unfold payload; destruct A; cbn; lia).
  pose proof (enc_kinds i) as (T1&T2&T3&T4&P1&P2&P3&P4&Y&_). split; [auto|split; [auto|split]].
  - rewrite functional_nonptr; auto.
  - apply enc_sym_roundtrip; lia.
Qed.
Lemma den_sym fl h i : 0 <= i < 2 ^ 28 -> den fl h (enc_sym i) (Leaf KSym i).
Proof.
  intros R. destruct (sym_facts i R) as (P&S&T&D). constructor; auto; [intros X; congruence|]. cbn. auto.
Qed.
Lemma tokenizer_sym i : 0 <= i < 2 ^ 28 -> tokenizer_symbol (enc_sym i) = (TOKENIZER_SYMBOLS_START <=? i) && (i <=? TOKENIZER_SYMBOLS_END).
Proof. intros R. destruct (sym_facts i R) as (P&S&T&D). unfold tokenizer_symbol. rewrite S, D. reflexivity. Qed.
Lemma tokenizer_not_sym v : type_of_functional v <> TYPE_SYMBOL -> is_ptr v = false -> tokenizer_symbol v = false.
Proof.
  intros T P. unfold tokenizer_symbol. destruct (is_symbol v) eqn:S; auto. exfalso. apply T. rewrite functional_nonptr by auto.
  revert S P. unfold is_symbol, type_of, is_ptr. intros S P. apply Z.eqb_eq in S.
  assert (Z.land v VAL_TYPE_MASK = 0 /\ Z.land v PTR_BIT = 0) as (X1&X2).
  { assert (E1 : VAL_TYPE_MASK = Z.land LOW_RESERVED_BITS VAL_TYPE_MASK) by (arch; reflexivity).
    assert (E2 : PTR_BIT = Z.land LOW_RESERVED_BITS PTR_BIT) by (arch; reflexivity).
    rewrite E1, E2, !Z.land_assoc, S, !Z.land_0_l. auto. }
  rewrite X1, X2. reflexivity.
Qed.
Lemma tokenizer_ptr v : is_ptr v = true -> tokenizer_symbol v = false.
Proof.
  intros P. unfold tokenizer_symbol. destruct (is_symbol v) eqn:S; auto. exfalso. revert S P. unfold is_symbol, is_ptr. intros S P. apply Z.eqb_eq in S.
  assert (Z.land v PTR_BIT = 0) as X2.
  { assert (E2 : PTR_BIT = Z.land LOW_RESERVED_BITS PTR_BIT) by (arch; reflexivity). rewrite E2, !Z.land_assoc, S, !Z.land_0_l. auto. }
  rewrite X2 in P. discriminate.
Qed.

Definition bracketedb (p : string * Z) : bool :=
  negb ((TOKENIZER_SYMBOLS_START <=? snd p) && (snd p <=? TOKENIZER_SYMBOLS_END)) || (hd 0 (Sym_Model.chars (fst p)) =? 91).
Lemma bracketed : forallb bracketedb special_symbols = true. Proof. vm_compute. reflexivity. Qed.
Lemma lookup_plain b s n i : inv b s -> b < 2 ^ 28 -> name_ok n -> hd 0 n <> 91 -> get_symbol_by_name s n = Ok (Some i) ->
  0 <= i < 2 ^ 28 /\ tokenizer_symbol (enc_sym i) = false.
Proof.
  intros I B N H E. pose proof (lookup_ok b s n I N) as LK. rewrite E in LK.
  assert (R : 0 <= i < 2 ^ 28 /\ ~ (TOKENIZER_SYMBOLS_START <= i <= TOKENIZER_SYMBOLS_END)).
  { unfold TOKENIZER_SYMBOLS_START, TOKENIZER_SYMBOLS_END. destruct LK as [S|[X|Y]].
    - pose proof (sentry_ok n i S) as (_&R&_). split; [lia|]. destruct S as (str&IN&<-). pose proof bracketed as F. rewrite forallb_forall in F.
      specialize (F _ IN). unfold bracketedb in F. cbn [fst snd] in F. apply Bool.orb_true_iff in F.
      destruct F as [F|F]; [|apply Z.eqb_eq in F; congruence]. unfold TOKENIZER_SYMBOLS_START, TOKENIZER_SYMBOLS_END in F. lia.
    - pose proof (xentry_id s b n i I X) as R. unfold ext_id in R. lia.
    - pose proof (i_ids _ _ I n i Y). pose proof (i_ynext _ _ I). lia. }
  destruct R as (R1&R2). split; auto. rewrite tokenizer_sym by auto. lia.
Qed.

Lemma wf_syms c m y u fl s k : wf c m (S y) u fl -> (exists b, inv b s /\ b + Z.of_nat y < 2 ^ 28) ->
  (forall j, (j < y)%nat -> nth j k false = true) -> wf c m y (mkU (uh u) (up u) s k) fl.
Proof. intros [W1 W2 W3 W4 W5] B K. constructor; cbn [uh up us uk]; auto. Qed.

Lemma not_ext n : ~ (exists r, n = codes "ext-" ++ r) -> ext_name n = false.
Proof.
  intros N. unfold ext_name. destruct (list_eq_dec _ _ _) as [E|]; [|apply Bool.andb_false_r].
  exfalso. apply N. exists (skipn 4 n). change (codes "ext-") with (Tok_Model.chars "ext-"). rewrite <- E. symmetry. apply firstn_skipn.
Qed.

Lemma read_symbol_ok c m y u fl n K : wf c m (S y) u fl -> name_ok n -> hd 0 n <> 91 -> (1 <= List.length n <= 255)%nat -> addable (us u) n ->
  exists u' i, (forall rest fr K0 r, read_symbol (mkR u rest false false fr K0 r) K n = Ok (RGo (mkR u' rest false false fr K (enc_sym i)))) /\
    built (Sy n) c m y u u' fl fl (enc_sym i).
Proof.
  intros Wf N H91 Ln AD. pose proof (w_sym _ _ _ _ _ Wf) as (b&I&B). unfold read_symbol.
  assert (FIN : forall u' i, wf c m y u' fl -> uh u' = uh u -> kept (us u) (us u') -> get_symbol_by_name (us u') n = Ok (Some i) -> built (Sy n) c m y u u' fl fl (enc_sym i)).
  { intros u' i W' Eh Kp G. destruct (w_sym _ _ _ _ _ W') as (b'&I'&B').
    destruct (lookup_plain b' (us u') n i I' ltac:(lia) N H91 G) as (R&T). constructor; auto.
    - rewrite Eh. apply grows_refl.
    - apply incl_refl.
    - exists (Leaf KSym i). split; [constructor; auto|]. intros X _. apply den_sym; auto. }
  destruct (get_symbol_by_name (us u) n) as [[i|]| |] eqn:E.
  - exists u, i. split; [intros; cbv zeta; cbn [ru]; rewrite E; reflexivity|]. apply FIN; auto using kept_refl. eapply wf_weak; [..|exact Wf]; lia.
  - destruct AD as [(i&X)|NX]; [congruence|]. pose proof (lookup_ok b (us u) n I N) as LK. rewrite E in LK.
    destruct (push_inv b (us u) n I N ltac:(lia) LK) as (s'&PS&I'&EN&_).
    pose proof (w_ans _ _ _ _ _ Wf 0%nat ltac:(lia)) as A0.
    assert (H0 : hd false (uk u) = true) by (destruct (uk u); cbn in *; congruence).
    assert (ST : add_symbol_base (us u) Memory n true = (s', Some (y_next (us u)))).
    { unfold add_symbol_base, storable. replace ((Z.of_nat (List.length n) + 1 >? 1) && (Z.of_nat (List.length n) + 1 <=? 257) && true) with true by lia. exact PS. }
    exists (mkU (uh u) (up u) s' (tl (uk u))), (y_next (us u)). split.
    { intros. cbv zeta. cbn [ru]. rewrite E. cbn [bind]. rewrite (not_ext n NX). rewrite H0, ST. reflexivity. }
    assert (LK' : forall m0 i, name_ok m0 -> entry s' m0 i -> get_symbol_by_name s' m0 = Ok (Some i)).
    { intros m0 i Nm En. rewrite (lookup_total _ _ _ I' Nm). f_equal. apply (symbol_entry _ _ _ _ I' Nm). auto. }
    apply FIN; cbn [uh us]; auto.
    + apply wf_syms; auto.
      * exists (b + 1). split; auto. lia.
      * intros j J. pose proof (w_ans _ _ _ _ _ Wf (S j) ltac:(lia)) as AJ. destruct (uk u); cbn in *; [destruct j; auto|auto].
    + intros m0 i Nm G. apply LK'; auto. apply EN. left. pose proof (lookup_ok b (us u) m0 I Nm) as LM. rewrite G in LM. auto.
    + apply LK'; auto. apply EN. auto.
  - pose proof (lookup_ok b (us u) n I N) as LK. rewrite E in LK. contradiction.
  - pose proof (lookup_ok b (us u) n I N) as LK. rewrite E in LK. contradiction.
Qed.

(* ---- numbers ---- *)
Lemma enc_raw_at u i fl x q ty u' v : heap_ok (uh u) (i :: fl) -> enc_raw u x q ty = Ok (u', v) -> uk u' = uk u /\ v = set_ptr_type (enc_cons_ptr i) ty /\ 0 <= i < 2 ^ (W - 8).
Proof.
  intros OK. destruct (cons_ok _ i fl x (enc_sym q) OK) as (h1&E&_&_&_&_&_&_&_&R). unfold enc_raw. rewrite E. cbn [bind].
  rewrite enc_type_not_sym by auto. intros X. injection X as <- <-. auto.
Qed.
Lemma enc_64_at u i fl x q ty a rest u' v : heap_ok (uh u) (i :: fl) -> up u = a :: rest -> a <> 0 -> enc_64_on_32 u x q ty = Ok (u', v) ->
  uk u' = uk u /\ v = set_ptr_type (enc_cons_ptr i) ty /\ 0 <= i < 2 ^ (W - 8).
Proof.
  intros OK U NA. destruct (cons_ok _ i fl NIL NIL OK) as (h1&E&_&_&_&_&_&_&_&R). unfold enc_64_on_32. rewrite E. cbn [bind].
  rewrite enc_type_not_sym by auto. cbn [negb]. unfold malloc. cbn [up set_h]. rewrite U.
  destruct (Z.eqb_spec a 0) as [|_]; [congruence|]. cbn [negb uh]. destruct (set_car_and_cdr _ _ _ _) as [[h3 ?]| |]; cbn [bind]; try discriminate.
  intros X. injection X as <- <-. auto.
Qed.

Lemma pool_after ads blk h h' : NoDup (ads ++ blk) -> Forall (fun a => a <> 0 /\ mem h a = None) (ads ++ blk) ->
  (forall x, ~ In x ads -> mem h' x = mem h x) -> NoDup blk /\ Forall (fun a => a <> 0 /\ mem h' a = None) blk.
Proof.
  intros N F M. assert (NI : forall x, In x blk -> ~ In x ads).
  { intros x H1 H2. clear F M. induction ads as [|a ads IH]; [destruct H2|]. cbn [app] in N. inversion N as [|? ? NA N']; subst.
    destruct H2 as [->|H2]; auto. apply NA, in_or_app. auto. }
  split.
  - clear - N. induction ads as [|a ads IH]; auto. inversion N; auto.
  - apply Forall_forall. intros x X. rewrite Forall_forall in F. rewrite M by auto. apply F, in_or_app. auto.
Qed.
Lemma pool_split (ads rest blk rest0 : list Z) : ads ++ rest = blk ++ rest0 -> (List.length ads <= List.length blk)%nat ->
  exists blk', blk = ads ++ blk' /\ rest = blk' ++ rest0.
Proof.
  revert blk. induction ads as [|a ads IH]; intros blk E Ln; cbn in *; [eauto|]. destruct blk as [|b blk]; cbn in *; [lia|].
  injection E as -> E. destruct (IH blk E ltac:(lia)) as (blk'&->&->). eauto.
Qed.

(* from the description of the encoders to that of the reader *)
Lemma gives_built k n c m y u u' v ads rest fl fl' : wf (c + cells (Nu k n)) (m + blocks (Nu k n)) y u fl -> k <> KSym ->
  up u = ads ++ rest -> List.length ads = blocks (Nu k n) -> uk u' = uk u -> (is_ptr v = true -> In (f_ix v) fl /\ ~ In (f_ix v) fl') ->
  gives (Leaf k n) u u' v ads rest fl fl' -> built (Nu k n) c m y u u' fl fl' v.
Proof.
  intros [W1 W2 (blk&rest0&W3&W4&W5&W6) W7 W8] NS UP LA UK HV [G1 G2 G3 G4 G5 G6 G7 G8 G9].
  change (cells_of (Leaf k n)) with (cells (Nu k n)) in G3.
  destruct (pool_split ads rest blk rest0) as (blk'&->&->); [congruence|lia|].
  assert (D0 : den fl' (uh u') v (Leaf k n)).
  { apply hide_none, G9. auto. }
  assert (NP : type_of_functional v = kind_tag k) by (inversion D0; auto).
  constructor; auto.
  - rewrite app_length in W4. destruct (pool_after ads blk' (uh u) (uh u') W5 W6 G6) as (P1&P2). constructor; auto.
    + lia.
    + exists blk', rest0. split; [auto|split; [lia|auto]].
    + rewrite UK. auto.
    + rewrite G7. auto.
  - split; [auto|split; [auto|]]. intros a o Ma. rewrite G6; auto. intros I. rewrite Forall_forall in W6.
    destruct (W6 a) as (_&X); [apply in_or_app; auto|]. congruence.
  - rewrite G7. apply kept_refl.
  - exists (Leaf k n). split; [constructor|]. intros X OX. inversion D0; subst. constructor; auto.
    intros P _ I. destruct (HV P) as (Q1&Q2). apply in_app_or in I. destruct I as [I|I]; [exact (OX _ I Q1)|auto].
  - destruct (is_ptr v) eqn:P; [apply tokenizer_ptr; auto|]. apply tokenizer_not_sym; auto. rewrite NP.
    clear - NS. destruct k; try congruence; arch; discriminate.
Qed.

Definition imm (k : kind) (n : Z) : Z := match k with KChar => enc_char n | KI => enc_i n | _ => enc_u n end.
Lemma range_tok k n : (exists suf, suffixes k suf) -> in_range k n ->
  exists bits sgd, Tok_Props.int_type W (tok_type k) bits sgd /\ Tok_Props.in_range bits sgd n.
Proof.
  intros (suf&S) R. pose proof pay_le as (PL1&PL2&PL3). destruct k; cbn [suffixes] in S; try contradiction; cbn [in_range] in R; cbn [tok_type].
  - exists 8, false. split; [constructor|]. exact R.
  - exists W, true. split; [constructor|]. unfold Tok_Props.in_range. lia.
  - exists W, false. split; [constructor|]. unfold Tok_Props.in_range. lia.
  - exists 32, true. split; [constructor|]. exact R.
  - exists 32, false. split; [constructor|]. exact R.
  - exists 64, true. split; [constructor|]. exact R.
  - exists 64, false. split; [constructor|]. exact R.
Qed.
Lemma W_le : 1 <= W <= 64. Proof. arch; cbn; lia. Qed.
Lemma literal_ok k neg val n : (exists suf, suffixes k suf) -> in_range k n -> n = signed neg val -> int_literal W neg (val mod 2 ^ 64) (tok_type k) = Some n.
Proof.
  intros S R E. destruct (range_tok k n S R) as (bits&sgd&T&Rg). eapply Tok_Props.int_literal_value; eauto. apply W_le.
Qed.

Lemma read_int_imm k neg val n s K : k = KI \/ k = KU \/ k = KChar -> in_range k n -> n = signed neg val ->
  read_int s K neg (val mod 2 ^ 64) (tok_type k) = Ok (RGo (set_k s K (imm k n))).
Proof.
  intros H R E. unfold read_int. rewrite (literal_ok k neg val n); auto. 2:{ destruct H as [->|[->| ->]]; cbn; eauto. }
  destruct H as [->|[->| ->]]; reflexivity.
Qed.

Lemma imm_built k n c m y u fl : k = KI \/ k = KU \/ k = KChar -> in_range k n -> wf c m y u fl -> built (Nu k n) c m y u u fl fl (imm k n).
Proof.
  intros H R Wf. pose proof (enc_kinds n) as (T1&T2&T3&T4&P1&P2&P3&P4&Y&_).
  assert (B : cells (Nu k n) = 0%nat /\ blocks (Nu k n) = 0%nat) by (destruct H as [->|[->| ->]]; auto). destruct B as (B1&B2).
  assert (NP : is_ptr (imm k n) = false) by (destruct H as [->|[->| ->]]; auto).
  apply gives_built with (ads := []) (rest := up u).
  - rewrite B1, B2, !Nat.add_0_r. auto.
  - destruct H as [->|[->| ->]]; discriminate.
  - reflexivity.
  - rewrite B2. reflexivity.
  - reflexivity.
  - congruence.
  - rewrite (ust_eta u) at 2. apply imm_gives; auto.
    + apply Wf.
    + destruct H as [->|[->| ->]]; auto.
    + destruct H as [->|[->| ->]]; discriminate.
    + intros h. destruct H as [->|[->| ->]]; cbn [in_range] in R; cbn.
      * rewrite enc_i_roundtrip; auto.
      * rewrite enc_u_roundtrip, Z.mod_small; auto.
      * rewrite enc_char_roundtrip; auto.
Qed.

Lemma boxed_built k n c m y u fl ads rest u' v i fl' ty : wf (c + cells (Nu k n)) (m + blocks (Nu k n)) y u fl -> k <> KSym -> fl = i :: fl' ->
  up u = ads ++ rest -> List.length ads = blocks (Nu k n) -> good_tag ty -> uk u' = uk u /\ v = set_ptr_type (enc_cons_ptr i) ty /\ 0 <= i < 2 ^ (W - 8) ->
  gives (Leaf k n) u u' v ads rest fl fl' -> built (Nu k n) c m y u u' fl fl' v.
Proof.
  intros Wf NS -> UP LA GT (UK&EV&R) G. eapply gives_built; eauto. intros _. rewrite EV.
  destruct (tagged_facts i ty R GT) as (_&->&_). split; [left; auto|]. pose proof (ok_nodup _ _ (w_heap _ _ _ _ _ Wf)) as ND. inversion ND; auto.
Qed.

Lemma read_int_ok k neg val n c m y u fl K : (exists suf, suffixes k suf) -> in_range k n -> n = signed neg val ->
  wf (c + cells (Nu k n)) (m + blocks (Nu k n)) y u fl ->
  exists u' fl' v, (forall rest fr K0 r, read_int (mkR u rest false false fr K0 r) K neg (val mod 2 ^ 64) (tok_type k) = Ok (RGo (mkR u' rest false false fr K v))) /\
    built (Nu k n) c m y u u' fl fl' v.
Proof.
  intros SU R E Wf. destruct (w_mem _ _ _ _ _ Wf) as (blk&rest0&W3&W4&W5&W6). pose proof (w_heap _ _ _ _ _ Wf) as OK. pose proof (w_cells _ _ _ _ _ Wf) as WC.
  assert (CB : boxed k = true -> exists i fl', fl = i :: fl').
  { intros B. cbn [cells] in WC. rewrite B in WC. destruct fl; [cbn in WC; lia|eauto]. }
  assert (AB : blocked k = true -> exists a r, up u = a :: r /\ a <> 0).
  { intros B. cbn [blocks] in W4. rewrite B in W4. destruct blk as [|a blk]; [cbn in W4; lia|]. inversion W6 as [|? ? (NA&_) _]; subst. rewrite W3. cbn. eauto. }
  assert (IM : (k = KI \/ k = KU \/ k = KChar) -> exists u' fl' v, (forall rest fr K0 r, read_int (mkR u rest false false fr K0 r) K neg (val mod 2 ^ 64) (tok_type k) = Ok (RGo (mkR u' rest false false fr K v))) /\
    built (Nu k n) c m y u u' fl fl' v).
  { intros H. exists u, fl, (imm k n). split; [intros; rewrite (read_int_imm k neg val n) by auto; reflexivity|]. apply imm_built; auto.
    eapply wf_weak; [..|exact Wf]; lia. }
  assert (VOE : forall (F : ust -> res (ust * Z)) u' v fl', F u = Ok (u', v) -> v <> MERROR -> 
     (forall s, ru s = u -> read_int s K neg (val mod 2 ^ 64) (tok_type k) = value_or_error s K (F u)) -> built (Nu k n) c m y u u' fl fl' v ->
     exists u' fl' v, (forall rest fr K0 r, read_int (mkR u rest false false fr K0 r) K neg (val mod 2 ^ 64) (tok_type k) = Ok (RGo (mkR u' rest false false fr K v))) /\
       built (Nu k n) c m y u u' fl fl' v).
  { intros F u' v fl' EF NM RI B. exists u', fl', v. split; auto. intros. rewrite RI by reflexivity. unfold value_or_error. rewrite EF. cbn [bind].
    rewrite merror_neq by auto. reflexivity. }
  assert (LIT : int_literal W neg (val mod 2 ^ 64) (tok_type k) = Some n) by (apply literal_ok; auto).
  assert (B01 : blocked k = false -> blocks (Nu k n) = 0%nat) by (intros B; cbn; rewrite B; auto).
  assert (B11 : blocked k = true -> blocks (Nu k n) = 1%nat) by (intros B; cbn; rewrite B; auto).
  assert (C11 : boxed k = true -> cells_of (Leaf k n) = 1%nat) by (intros B; cbn; rewrite B; auto).
  assert (C01 : boxed k = false -> cells (Nu k n) = 0%nat) by (intros B; cbn; rewrite B; auto).
  destruct k; try (destruct SU as (suf&SU); cbn in SU; contradiction); auto; cbn [in_range] in R.
  all: assert (RI : forall s K', read_int s K' neg (val mod 2 ^ 64) (tok_type _) = _) by (intros; unfold read_int; rewrite LIT; reflexivity).
  - (* i32 *)
    destruct b64 eqn:B.
    + destruct (i32_imm B n R) as (IP&IT&IR).
      apply (VOE (fun u => enc_i32 u (wrap 32 n)) u (enc_i32_imm n) fl); [| |intros s0 <-; apply RI|].
      * unfold enc_i32. rewrite B. do 2 f_equal. unfold wrap. rewrite sgn_mod_id by lia. reflexivity.
      * intros X. rewrite X in IT. revert IT. clear -B. destruct A; [|discriminate]. vm_compute. discriminate.
      * apply gives_built with (ads := []) (rest := up u); auto; [discriminate|congruence|].
        rewrite (ust_eta u) at 2. apply imm_gives; auto; [discriminate|]. cbn. rewrite B. reflexivity.
    + assert (BX : boxed KI32 = true) by (cbn; rewrite B; auto). destruct (CB BX) as (i&fl'&EF). rewrite EF in OK.
      destruct (enc_raw_ok u i fl' (wrap 32 n) SYM_RAW_I_TYPE TYPE_I32 KI32 n) as (u'&v&EE&NM&G); auto using good_i32; try discriminate.
      { intros h w Ec. cbn. unfold payload32. rewrite B. eexists. split; [eauto|]. unfold wrap. rewrite sgn_mod_id; lia. }
      apply (VOE (fun u => enc_i32 u (wrap 32 n)) u' v fl'); [unfold enc_i32; rewrite B; auto|auto|intros s0 <-; apply RI|].
      eapply boxed_built with (ads := []) (rest := up u); eauto using good_i32, enc_raw_at; try discriminate. rewrite EF. exact G.
  - (* u32 *)
    destruct b64 eqn:B.
    + destruct (u32_imm B n R) as (IP&IT&IR&_).
      apply (VOE (fun u => enc_u32 u n) u (enc_u32_imm n) fl); [| |intros s0 <-; apply RI|].
      * unfold enc_u32. rewrite B. auto.
      * intros X. rewrite X in IT. revert IT. clear -B. destruct A; [|discriminate]. vm_compute. discriminate.
      * apply gives_built with (ads := []) (rest := up u); auto; [discriminate|congruence|].
        rewrite (ust_eta u) at 2. apply imm_gives; auto; [discriminate|]. cbn. rewrite B. reflexivity.
    + assert (BX : boxed KU32 = true) by (cbn; rewrite B; auto). destruct (CB BX) as (i&fl'&EF). rewrite EF in OK.
      destruct (enc_raw_ok u i fl' n SYM_RAW_U_TYPE TYPE_U32 KU32 n) as (u'&v&EE&NM&G); auto using good_u32; try discriminate.
      { intros h w Ec. cbn. unfold payload32. rewrite B. eexists. split; [eauto|]. rewrite wrap_small; auto. }
      apply (VOE (fun u => enc_u32 u n) u' v fl'); [unfold enc_u32; rewrite B; auto|auto|intros s0 <-; apply RI|].
      eapply boxed_built with (ads := []) (rest := up u); eauto using good_u32, enc_raw_at; try discriminate. rewrite EF. exact G.
  - (* i64 *)
    destruct (CB eq_refl) as (i&fl'&EF). rewrite EF in OK. destruct b64 eqn:B.
    + destruct (enc_raw_ok u i fl' (wrap 64 n) SYM_RAW_I_TYPE TYPE_I64 KI64 n) as (u'&v&EE&NM&G); auto using good_i64; try discriminate.
      { intros h w Ec. cbn. unfold payload64. rewrite Ec, B. cbn. eexists. split; [eauto|]. unfold wrap. rewrite sgn_mod_id; lia. }
      apply (VOE (fun u => enc_i64 u (wrap 64 n)) u' v fl'); [unfold enc_i64; rewrite B; auto|auto|intros s0 <-; apply RI|].
      eapply boxed_built with (ads := []) (rest := up u); eauto using good_i64, enc_raw_at; try discriminate.
      { rewrite B01; auto. cbn. rewrite B. auto. } rewrite EF. exact G.
    + assert (BX : blocked KI64 = true) by (cbn; rewrite B; auto). destruct (AB BX) as (a&r&UA&NA).
      destruct (enc_64_on_32_ok u i fl' a r (wrap 64 n) SYM_IND_I_TYPE TYPE_I64 KI64 n) as (u'&v&EE&NM&G); auto using good_i64; try discriminate.
      { intros h w Ec. cbn. eexists. split; [eauto|]. unfold wrap. rewrite sgn_mod_id; lia. }
      apply (VOE (fun u => enc_i64 u (wrap 64 n)) u' v fl'); [unfold enc_i64; rewrite B; auto|auto|intros s0 <-; apply RI|].
      eapply boxed_built with (ads := [a]) (rest := r); eauto using good_i64, enc_64_at; try discriminate. { rewrite B11; auto. } rewrite EF. exact G.
  - (* u64 *)
    destruct (CB eq_refl) as (i&fl'&EF). rewrite EF in OK. destruct b64 eqn:B.
    + destruct (enc_raw_ok u i fl' n SYM_RAW_U_TYPE TYPE_U64 KU64 n) as (u'&v&EE&NM&G); auto using good_u64; try discriminate.
      { intros h w Ec. cbn. unfold payload64. rewrite Ec, B. cbn. eexists. split; [eauto|]. rewrite wrap_small; auto. }
      apply (VOE (fun u => enc_u64 u n) u' v fl'); [unfold enc_u64; rewrite B; auto|auto|intros s0 <-; apply RI|].
      eapply boxed_built with (ads := []) (rest := up u); eauto using good_u64, enc_raw_at; try discriminate.
      { rewrite B01; auto. cbn. rewrite B. auto. } rewrite EF. exact G.
    + assert (BX : blocked KU64 = true) by (cbn; rewrite B; auto). destruct (AB BX) as (a&r&UA&NA).
      destruct (enc_64_on_32_ok u i fl' a r n SYM_IND_U_TYPE TYPE_U64 KU64 n) as (u'&v&EE&NM&G); auto using good_u64; try discriminate.
      { intros h w Ec. cbn. eexists. split; [eauto|]. rewrite wrap_small; auto. }
      apply (VOE (fun u => enc_u64 u n) u' v fl'); [unfold enc_u64; rewrite B; auto|auto|intros s0 <-; apply RI|].
      eapply boxed_built with (ads := [a]) (rest := r); eauto using good_u64, enc_64_at; try discriminate. { rewrite B11; auto. } rewrite EF. exact G.
Qed.

End Arch.
