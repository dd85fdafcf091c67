(* Running the reader: lists, expressions and programs. *)
From Coq Require Import String.
From Verif Require Import Base Value_Model Heap_Model Value_Proofs Value_Proofs2 Value_Props Heap_Spec Heap_Proofs Heap_Proofs2 List_Proofs Env_Proofs
  GC_Model Eq_Model Eq_Spec Eq_Props Sym_Model Sym_Props Flat_Model Flat_Spec Flat_Proofs Flat_Proofs2 Flat_Proofs3 QQ_Model Tok_Model Print_Spec
  Read_Model Read_Spec Read_Proofs Read_Proofs2 Read_Proofs3.
From Verif Require Tok_Props QQ_Proofs2.
Import List Read_Spec.
Local Open Scope Z_scope.

(* ---- induction over texts ---- *)
Scheme spell_min := Minimality for spell Sort Prop with tail_min := Minimality for tail Sort Prop.
Combined Scheme spell_tail from spell_min, tail_min.

Section Arch.
Context {A : Arch} {L : Libc}.

Definition good_name (n : name) : Prop := name_ok n /\ hd 0 n <> 91 /\ (1 <= List.length n <= 255)%nat.
Lemma symbol_good s : symbol_text s -> good_name (map lower s).
Proof.
  intros (c&cs&->&F&N&Ln&_). assert (LZ : forall x, x <> 0 -> lower x <> 0) by (intros x X; unfold lower; destruct (_ && _) eqn:E; lia).
  split; [|split].
  - cbn [map]. constructor; [apply LZ; apply (sym_first_cases c F)|]. apply Forall_forall. intros y Y. apply in_map_iff in Y.
    destruct Y as (x&<-&X). rewrite Forall_forall in N. apply LZ. apply (sym_next_cases x (N x X)).
  - cbn [map hd]. unfold lower. destruct F as [[F|F]|[F|F]].
    + replace (65 <=? c) with true by lia. replace (c <=? 90) with false by lia. cbn. lia.
    + replace (65 <=? c) with true by lia. replace (c <=? 90) with true by lia. cbn. lia.
    + cbn in F. repeat destruct F as [<-|F]; try destruct F; cbn; lia.
    + subst. cbn. lia.
  - rewrite map_length. cbn [List.length] in *. lia.
Qed.
Lemma good_codes str : In str ["_"; "?"; "nil"; "progn"; "quote"]%string -> good_name (codes str).
Proof.
  intros I. cbn in I. repeat destruct I as [<-|I]; try destruct I; (split; [|split]); unfold name_ok; cbn; try lia;
  repeat match goal with |- Forall _ _ => constructor end; lia.
Qed.
Lemma names_good : (forall o s e, spell o s e -> all_names good_name e) /\ (forall cl s d, tail cl s d -> all_names good_name d).
Proof.
  apply spell_tail; intros; unfold empty; cbn [all_names]; auto using symbol_good; try (repeat split; auto; fail);
  repeat match goal with |- _ /\ _ => split end; auto; try (apply good_codes; cbn; tauto).
Qed.
Lemma names_weak (P Q : name -> Prop) e : (forall n, P n -> Q n) -> all_names P e -> all_names Q e.
Proof. intros H. induction e; cbn; auto. intuition. Qed.
Lemma names_ok e : all_names good_name e -> all_names name_ok e.
Proof. apply names_weak. intros n (H&_). auto. Qed.

Lemma tail_nonempty cl s d : tail cl s d -> s <> [].
Proof.
  intros T X. assert (I : In cl s); [|rewrite X in I; destruct I]. clear X. revert T. generalize cl s d. clear.
  assert (H : (forall o s e, spell o s e -> True) /\ (forall cl s d, tail cl s d -> In cl s)); [|intros; eapply H; eauto].
  apply spell_tail; auto; intros; repeat (apply in_or_app; right); cbn; auto.
Qed.
Lemma ends_app s rest : ends s -> s <> [] -> ends (s ++ rest).
Proof. destruct s; [congruence|auto]. Qed.

(* ---- adding a cell to a list ---- *)
Lemma cons_wf c m y u fl v : wf (S c) m y u fl ->
  exists i fl1 h1, fl = i :: fl1 /\ consg (uh u) v NIL = Ok (Some (h1, enc_cons_ptr i)) /\ wf c m y (set_h u h1) fl1 /\ cell h1 i = Some (v, NIL) /\
    grows [i] (uh u) h1 /\ 0 <= i < 2 ^ (W - 8).
Proof.
  intros [W1 W2 (blk&rest&W3&W4&W5&W6) W7 W8]. destruct fl as [|i fl]; [cbn in W2; lia|].
  destruct (cons_ok (uh u) i fl v NIL W1) as (h1&E&OK&C&Sb&Sz&Cc&M&_&R). exists i, fl, h1.
  assert (Fn : is_symbol_nil (freelist (uh u)) = false).
  { pose proof (ok_chain _ _ W1) as Ch. inversion Ch; subst. unfold is_symbol_nil. rewrite <- nil_sym. apply QQ_Proofs2.enc_not_sym; auto. }
  unfold consg. rewrite Fn, E. cbn [bind]. split; [auto|split; [auto|split; [|split; [auto|split; [|auto]]]]].
  - cbn in W2. constructor; cbn [uh up us uk set_h]; auto; [lia|]. exists blk, rest. rewrite M. auto.
  - split; [auto|split; [auto|]]. rewrite M. auto.
Qed.
Lemma put_wf c m y u fl i p : wf c m y u fl -> ~ In i fl -> 0 <= i -> wf c m y (set_h u (hput (uh u) i p)) fl.
Proof.
  intros [W1 W2 (blk&rest&W3&W4&W5&W6) W7 W8] N R. constructor; cbn [uh up us uk set_h]; auto.
  - apply heap_ok_put; auto.
  - exists blk, rest. auto.
Qed.
Lemma put_grows h i p : 0 <= i -> grows [i] h (hput h i p).
Proof. intros R. split; [|split; auto]. intros j J. apply cell_hput_neq; auto. intros ->. apply J. left; auto. Qed.

Lemma not_marker v : tokenizer_symbol v = false -> ((type_of v =? TYPE_SYMBOL) && (v =? CLOSEPAR) = false) /\ ((type_of v =? TYPE_SYMBOL) && (v =? DOT) = false) /\
  ((type_of v =? TYPE_SYMBOL) && ((v =? CLOSEPAR) || (v =? DOT)) = false).
Proof. intros T. rewrite (plain_close v T), (plain_dot v T). cbn [orb]. rewrite !Bool.andb_false_r. auto. Qed.

Lemma append_first c m y u fl v t K : wf (S c) m y u fl -> tokenizer_symbol v = false ->
  exists i fl1 u1, fl = i :: fl1 /\ goes u t (FItems NIL NIL :: K) v u1 t (FNext :: FItems (enc_cons_ptr i) (enc_cons_ptr i) :: K) v /\
    wf c m y u1 fl1 /\ cell (uh u1) i = Some (v, NIL) /\ grows [i] (uh u) (uh u1) /\ us u1 = us u /\ 0 <= i < 2 ^ (W - 8).
Proof.
  intros Wf T. destruct (cons_wf c m y u fl v Wf) as (i&fl1&h1&->&E&W1&C&G&R). destruct (not_marker v T) as (N1&N2&_).
  exists i, fl1, (set_h u h1). split; [auto|split; [|repeat (split; auto)]]; try apply G; try lia.
  apply goes_step. intros f fr. exists fr. split; [auto|]. unfold rstep. cbn [rk]. unfold read_append. cbn [rr ru]. rewrite N1, N2, E. cbn [bind]. rewrite nil_not_cons. reflexivity.
Qed.
Lemma append_next c m y u fl v t K first j x : wf (S c) m y u fl -> tokenizer_symbol v = false -> cell (uh u) j = Some (x, NIL) -> 0 <= j < 2 ^ (W - 8) -> ~ In j fl ->
  exists i fl1 u1, fl = i :: fl1 /\ goes u t (FItems first (enc_cons_ptr j) :: K) v u1 t (FNext :: FItems first (enc_cons_ptr i) :: K) v /\
    wf c m y u1 fl1 /\ cell (uh u1) i = Some (v, NIL) /\ cell (uh u1) j = Some (x, enc_cons_ptr i) /\ grows [j; i] (uh u) (uh u1) /\ us u1 = us u /\ 0 <= i < 2 ^ (W - 8).
Proof.
  intros Wf T Cj Rj NI. destruct (cons_wf c m y u fl v Wf) as (i&fl1&h1&->&E&W1&C&G&R). destruct (not_marker v T) as (N1&N2&_).
  assert (NE : j <> i) by (intros ->; apply NI; left; auto). assert (NI1 : ~ In j fl1) by (intros X; apply NI; right; auto).
  assert (Cj1 : cell h1 j = Some (x, NIL)). { destruct G as (Sb&_). rewrite Sb; auto. intros [->|[]]. congruence. }
  exists i, fl1, (set_h u (hput h1 j (x, enc_cons_ptr i))). split; [auto|split; [|split; [|split; [|split; [|split; [|split; auto]]]]]].
  - apply goes_step. intros f fr. exists fr. split; [auto|]. unfold rstep. cbn [rk]. unfold read_append. cbn [rr ru]. rewrite N1, N2, E. cbn [bind].
    rewrite enc_type by auto. rewrite (set_cdr_enc h1 j x NIL _ Rj Cj1). reflexivity.
  - apply (put_wf c m y (set_h u h1) fl1 j (x, enc_cons_ptr i) W1 NI1). lia.
  - cbn [uh set_h]. rewrite cell_hput_neq; auto. lia.
  - cbn [uh set_h]. eapply cell_hput_eq; eauto.
  - cbn [uh set_h]. eapply grows_trans; [eapply grows_incl; [|exact G]|eapply grows_incl; [|apply put_grows; lia]]; intros z [->|[]]; cbn; auto.
Qed.

(* ---- the rest of a list behind the cell [i] ---- *)
Record tailed (d : sexp) (c m y : nat) (u u' : ust) (fl fl' : list Z) (i x w : Z) : Prop := {
  t_wf : wf c m y u' fl';
  t_grows : grows (i :: fl) (uh u) (uh u');
  t_incl : incl fl' fl;
  t_kept : kept (us u) (us u');
  t_cell : cell (uh u') i = Some (x, w);
  t_means : means (us u') (uh u') fl fl' w d }.

Lemma enc_pair_facts i : 0 <= i < 2 ^ (W - 8) -> is_ptr (enc_cons_ptr i) = true /\ f_ix (enc_cons_ptr i) = i /\ type_of_functional (enc_cons_ptr i) = TYPE_CONS.
Proof. intros R. rewrite <- (cons_enc i R). destruct (tagged_facts i TYPE_CONS R good_cons) as (P&I&K&T&NM). auto. Qed.

Lemma den_cell fl h i a d ta td : 0 <= i < 2 ^ (W - 8) -> ~ In i fl -> cell h i = Some (a, d) -> den fl h a ta -> den fl h d td -> den fl h (enc_cons_ptr i) (Pair ta td).
Proof.
  intros R N C D1 D2. destruct (enc_pair_facts i R) as (P&I&T). eapply den_pair; eauto.
  - intros _ _. rewrite I. auto.
  - apply ref_enc; auto.
Qed.

Lemma pair_means J e d c1 m1 y1 c m y u u1 u2 u3 fl fl1 fl2 fl3 v i w : off J fl -> NoDup fl -> built e c1 m1 y1 u u1 fl fl1 v -> fl1 = i :: fl2 ->
  grows (J ++ fl1) (uh u1) (uh u2) -> us u2 = us u1 -> tailed d c m y u2 u3 fl2 fl3 i v w -> all_names name_ok e -> 0 <= i < 2 ^ (W - 8) ->
  means (us u3) (uh u3) fl fl3 (enc_cons_ptr i) (Cn e d).
Proof.
  intros OJ ND Bu -> G E T N R. destruct (p_means _ _ _ _ _ _ _ _ _ Bu) as (te&Me&De). destruct (t_means _ _ _ _ _ _ _ _ _ _ _ T) as (td&Md&Dd).
  pose proof (p_incl _ _ _ _ _ _ _ _ _ Bu) as I1. pose proof (t_incl _ _ _ _ _ _ _ _ _ _ _ T) as I3.
  pose proof (w_heap _ _ _ _ _ (p_wf _ _ _ _ _ _ _ _ _ Bu)) as Hk. pose proof (ok_nodup _ _ Hk) as ND1. inversion ND1 as [|? ? NI _]; subst.
  exists (Pair te td). split.
  - constructor; auto. eapply meant_kept; [|exact N|exact Me]. rewrite <- E. apply (t_kept _ _ _ _ _ _ _ _ _ _ _ T).
  - intros X OX. apply (den_cell _ _ _ v w); auto.
    + intros H. apply in_app_or in H. destruct H as [H|H]; [|auto]. apply (OX i H). apply I1. left; auto.
    + apply (t_cell _ _ _ _ _ _ _ _ _ _ _ T).
    + assert (OJX : off (J ++ X) fl) by (intros z Z1; apply in_app_or in Z1; destruct Z1; auto).
      eapply den_grows; [|idtac|apply (De (J ++ X) OJX)].
      * eapply grows_trans; [eapply grows_incl; [|exact G]|eapply grows_incl; [|apply (t_grows _ _ _ _ _ _ _ _ _ _ _ T)]].
        -- intros z Z1. apply in_app_or in Z1. apply in_or_app. destruct Z1; auto. left. apply in_or_app. auto.
        -- intros z Z1. apply in_or_app. auto.
      * intros z Z1. apply in_app_or in Z1. apply in_or_app. destruct Z1 as [Z1|Z1]; [left; apply in_or_app; auto|right; right; auto].
    + apply Dd. intros z Z1 Z2. apply (OX z Z1). apply I1. right; auto.
Qed.

Definition room (e : sexp) : Prop := forall u, Z.of_nat (longest e) + 2 <= array_room u.
Definition Reads (o : bool) (s : list Z) (e : sexp) : Prop := forall c m y u fl b K r rest, blank b -> (o = true -> ends rest) ->
  wf (c + cells e) (m + blocks e) (y + symbols e) u fl -> all_names (addable (us u)) e -> room e ->
  exists u' fl' v, goes u (b ++ s ++ rest) (FNext :: K) r u' rest K v /\ built e c m y u u' fl fl' v.
Definition Tails (cl : Z) (s : list Z) (d : sexp) : Prop := cl = 41 \/ cl = 125 -> forall c m y u fl K first i x rest r,
  wf (c + cells d) (m + blocks d) (y + symbols d) u fl -> all_names (addable (us u)) d -> room d ->
  cell (uh u) i = Some (x, NIL) -> 0 <= i < 2 ^ (W - 8) -> ~ In i fl ->
  exists u' fl' w, goes u (s ++ rest) (FNext :: FItems first (enc_cons_ptr i) :: K) r u' rest K first /\ tailed d c m y u u' fl fl' i x w.

Lemma room_l a d : room (Cn a d) -> room a. Proof. intros H u. specialize (H u). cbn [longest] in H. lia. Qed.
Lemma room_r a d : room (Cn a d) -> room d. Proof. intros H u. specialize (H u). cbn [longest] in H. lia. Qed.

Lemma close_goes cl b rest u K r : cl = 41 \/ cl = 125 -> blank b -> goes u (b ++ [cl] ++ rest) (FNext :: K) r u rest K CLOSEPAR.
Proof.
  intros [->| ->] B.
  - apply (syntax_goes b 41 2 rest u K r _ _ B); [cbn; tauto|]. intros s0 _. reflexivity.
  - apply (syntax_goes b 125 13 rest u K r _ _ B); [cbn; tauto|]. intros s0 _. reflexivity.
Qed.

Lemma nil_means c m y u fl h fl' : wf c m y u fl -> means (us u) h fl' fl' NIL empty.
Proof.
  intros Wf. destruct (w_sym _ _ _ _ _ Wf) as (b&I&_). exists (Leaf KSym 0). split.
  - constructor. apply (special_known b (us u) "nil" 0 I). vm_compute. tauto.
  - intros X _. apply den_sym. lia.
Qed.

Lemma tail_close cl b : blank b -> Tails cl (b ++ [cl]) empty.
Proof.
  intros B CL c m y u fl K first i x rest r Wf N Rm C R NI.
  assert (W' : wf c m y u fl) by (eapply wf_weak; [..|exact Wf]; lia).
  exists (set_h u (hput (uh u) i (x, NIL))), fl, NIL. split.
  - rewrite <- app_assoc. eapply goes_trans; [apply (close_goes cl); auto|]. apply goes_step. intros f fr. exists fr. split; [auto|]. unfold rstep. cbn [rk]. unfold read_append. cbn [rr ru].
    rewrite close_type, Z.eqb_refl. cbn [andb]. rewrite enc_type, (set_cdr_enc _ i x NIL _ R C) by auto. reflexivity.
  - constructor; cbn [uh us set_h].
    + apply put_wf; auto; lia.
    + eapply grows_incl; [|apply put_grows; lia]. intros z [->|[]]; left; auto.
    + apply incl_refl.
    + apply kept_refl.
    + eapply cell_hput_eq; eauto.
    + apply (nil_means c m y u fl _ fl W').
Qed.

Lemma tail_dot cl b b1 o s e b2 : blank b -> blank b1 -> Reads o s e -> blank b2 -> (o = true -> ends (b2 ++ [cl])) ->
  Tails cl (b ++ codes "." ++ b1 ++ s ++ b2 ++ [cl]) e.
Proof.
  intros B B1 Re B2 En CL c m y u fl K first i x rest r Wf N Rm C R NI.
  destruct (Re c m y u fl b1 (FDot first (enc_cons_ptr i) :: K) DOT (b2 ++ [cl] ++ rest) B1) as (u1&fl1&v&G1&Bu); auto.
  { intros O. rewrite app_assoc. apply ends_app; auto. destruct b2; discriminate. }
  destruct Bu as [P1 P2 P3 P4 (t&M&D) P6]. destruct (not_marker v P6) as (_&_&N3).
  assert (C1 : cell (uh u1) i = Some (x, NIL)) by (destruct P2 as (Sb&_); rewrite Sb; auto).
  exists (set_h u1 (hput (uh u1) i (x, v))), fl1, v. split.
  - rewrite <- !app_assoc. eapply goes_trans.
    { apply (syntax_goes b 46 5 (b1 ++ s ++ b2 ++ [cl] ++ rest) u _ r (FItems first (enc_cons_ptr i) :: K) DOT B); [cbn; tauto|]. intros s0 _. reflexivity. }
    eapply goes_trans with (u1 := u) (t1 := b1 ++ s ++ b2 ++ [cl] ++ rest) (K1 := FNext :: FDot first (enc_cons_ptr i) :: K) (r1 := DOT).
    { apply goes_step. intros f fr. exists fr. split; [auto|]. unfold rstep. cbn [rk]. unfold read_append. cbn [rr ru]. rewrite dot_type, dot_not_close, Z.eqb_refl. reflexivity. }
    eapply goes_trans; [exact G1|]. eapply goes_trans with (K1 := FNext :: FClose first :: K) (r1 := first) (t1 := b2 ++ [cl] ++ rest) (u1 := set_h u1 (hput (uh u1) i (x, v))).
    { apply goes_step. intros f fr. exists fr. split; [auto|]. unfold rstep. cbn [rk]. unfold read_dot. cbn [rr ru]. rewrite N3.
      rewrite rw_is_cons by (auto using enc_rw, enc_word). rewrite (set_cdr_enc _ i x NIL _ R C1). reflexivity. }
    eapply goes_trans; [apply (close_goes cl); auto|]. apply goes_step. intros f fr. exists fr. split; [auto|]. unfold rstep. cbn [rk]. unfold read_expect_close. cbn [rr ru].
    rewrite close_type, Z.eqb_refl. reflexivity.
  - constructor; cbn [uh us set_h]; auto.
    + apply put_wf; auto; lia.
    + eapply grows_trans; [eapply grows_incl; [|exact P2]|eapply grows_incl; [|apply put_grows; lia]].
      * intros z Z1; right; auto.
      * intros z [->|[]]; left; auto.
    + eapply cell_hput_eq; eauto.
    + exists t. split; auto. intros X OX.
      assert (OX' : off (i :: X) fl) by (intros z [->|Z1]; auto).
      eapply den_grows; [|idtac|apply (D (i :: X) OX')].
      * eapply grows_incl; [|apply put_grows; lia]. intros z [->|[]]; left; auto.
      * intros z Z1. right. exact Z1.
Qed.

Lemma tail_item cl b o s e rest0 d : blank b -> Reads o s e -> all_names good_name e -> all_names good_name d -> (o = true -> ends rest0) -> rest0 <> [] -> Tails cl rest0 d ->
  Tails cl (b ++ s ++ rest0) (Cn e d).
Proof.
  intros B Re Ge Gd En Ne Td CL c m y u fl K first j x rest r Wf N Rm C R NI. cbn [cells blocks symbols all_names] in Wf, N. destruct N as (Ne1&Nd1).
  destruct (Re (S (c + cells d)) (m + blocks d)%nat (y + symbols d)%nat u fl b (FItems first (enc_cons_ptr j) :: K) r (rest0 ++ rest) B) as (u1&fl1&v&G1&Bu); auto.
  { intros O. apply ends_app; auto. }
  { eapply wf_weak; [..|exact Wf]; lia. }
  { eapply room_l; eauto. }
  assert (NI1 : ~ In j fl1) by (intros H; apply NI; apply (p_incl _ _ _ _ _ _ _ _ _ Bu); auto).
  assert (C1 : cell (uh u1) j = Some (x, NIL)) by (destruct (p_grows _ _ _ _ _ _ _ _ _ Bu) as (Sb&_); rewrite Sb; auto).
  destruct (append_next (c + cells d) (m + blocks d) (y + symbols d) u1 fl1 v (rest0 ++ rest) K first j x) as (i&fl2&u2&E1&G2&W2&Ci&Cj&Gr&Us&Ri); auto.
  { apply Bu. } { apply Bu. }
  pose proof (ok_nodup _ _ (w_heap _ _ _ _ _ (p_wf _ _ _ _ _ _ _ _ _ Bu))) as ND1. rewrite E1 in ND1. inversion ND1 as [|? ? NIi ND2]; subst x0 l.
  destruct (Td CL c m y u2 fl2 K first i v rest v) as (u3&fl3&w&G3&T); auto.
  { rewrite Us. eapply addable_kept; [apply Bu|apply names_ok; auto|auto]. }
  { eapply room_r; eauto. }
  exists u3, fl3, (enc_cons_ptr i). split.
  - rewrite <- !app_assoc. eapply goes_trans; [exact G1|]. eapply goes_trans; [exact G2|exact G3].
  - assert (I2 : incl fl2 fl) by (intros z Z1; apply (p_incl _ _ _ _ _ _ _ _ _ Bu); rewrite E1; right; auto).
    assert (Ii : In i fl) by (apply (p_incl _ _ _ _ _ _ _ _ _ Bu); rewrite E1; left; auto).
    constructor.
    + apply T.
    + eapply grows_trans; [eapply grows_incl; [|apply (p_grows _ _ _ _ _ _ _ _ _ Bu)]|eapply grows_trans; [eapply grows_incl; [|exact Gr]|eapply grows_incl; [|apply (t_grows _ _ _ _ _ _ _ _ _ _ _ T)]]].
      * intros z Z1; right; auto.
      * intros z [->|[->|[]]]; [left; auto|right; auto].
      * intros z [->|Z1]; right; auto.
    + intros z Z1. apply I2, (t_incl _ _ _ _ _ _ _ _ _ _ _ T); auto.
    + eapply kept_trans; [apply (p_kept _ _ _ _ _ _ _ _ _ Bu)|]. rewrite <- Us. apply (t_kept _ _ _ _ _ _ _ _ _ _ _ T).
    + destruct (t_grows _ _ _ _ _ _ _ _ _ _ _ T) as (Sb&_). rewrite Sb; auto. intros [->|H]; auto.
    + apply (pair_means [j] e d (S (c + cells d)) (m + blocks d) (y + symbols d) c m y u u1 u2 u3 fl fl1 fl2 fl3 v i w); auto.
      * intros z [->|[]]; auto.
      * apply (ok_nodup _ _ (w_heap _ _ _ _ _ Wf)).
      * eapply grows_incl; [|exact Gr]. intros z [->|[->|[]]]; [left; auto|right; rewrite E1; left; auto].
      * apply names_ok; auto.
Qed.

(* the items of a list, from the first one on *)
Lemma items_built e d c m y u u1 u2 u3 c1 m1 y1 fl fl1 fl2 fl3 v i w : wf c1 m1 y1 u fl -> built e c1 m1 y1 u u1 fl fl1 v -> fl1 = i :: fl2 -> grows [i] (uh u1) (uh u2) -> us u2 = us u1 ->
  tailed d c m y u2 u3 fl2 fl3 i v w -> all_names good_name e -> 0 <= i < 2 ^ (W - 8) -> built (Cn e d) c m y u u3 fl fl3 (enc_cons_ptr i).
Proof.
  intros Wf Bu E1 Gr Us T Ge Ri.
  assert (I2 : incl fl2 fl) by (intros z Z1; apply (p_incl _ _ _ _ _ _ _ _ _ Bu); rewrite E1; right; auto).
  assert (Ii : In i fl) by (apply (p_incl _ _ _ _ _ _ _ _ _ Bu); rewrite E1; left; auto).
  constructor.
  - apply T.
  - eapply grows_trans; [apply (p_grows _ _ _ _ _ _ _ _ _ Bu)|eapply grows_trans; [eapply grows_incl; [|exact Gr]|eapply grows_incl; [|apply (t_grows _ _ _ _ _ _ _ _ _ _ _ T)]]].
    + intros z [->|[]]; auto.
    + intros z [->|Z1]; auto.
  - intros z Z1. apply I2, (t_incl _ _ _ _ _ _ _ _ _ _ _ T); auto.
  - eapply kept_trans; [apply (p_kept _ _ _ _ _ _ _ _ _ Bu)|]. rewrite <- Us. apply (t_kept _ _ _ _ _ _ _ _ _ _ _ T).
  - apply (pair_means [] e d c1 m1 y1 c m y u u1 u2 u3 fl fl1 fl2 fl3 v i w); auto.
    + intros z [].
    + apply (ok_nodup _ _ (w_heap _ _ _ _ _ Wf)).
    + eapply grows_incl; [|exact Gr]. intros z [->|[]]. rewrite E1. left; auto.
    + apply names_ok; auto.
  - apply tokenizer_ptr. apply enc_pair_facts; auto.
Qed.

End Arch.
