(* Running the reader: expressions and programs. *)
From Coq Require Import String.
From Verif Require Import Base Value_Model Heap_Model Value_Proofs Value_Proofs2 Value_Props Heap_Spec Heap_Proofs Heap_Proofs2 List_Proofs Env_Proofs
  GC_Model Eq_Model Eq_Spec Eq_Props Sym_Model Sym_Props Flat_Model Flat_Spec Flat_Proofs Flat_Proofs2 Flat_Proofs3 QQ_Model Tok_Model Print_Spec
  Read_Model Read_Spec Read_Proofs Read_Proofs2 Read_Proofs3 Read_Proofs4.
From Verif Require Tok_Props.
Import List Read_Spec.
Local Open Scope Z_scope.

Section Arch.
Context {A : Arch} {L : Libc}.

Lemma reads_sym s : symbol_text s -> Reads true s (Sy (map lower s)).
Proof.
  intros T c m y u fl b K r rest B En Wf N Rm. destruct (symbol_token s rest T (En eq_refl)) as (Tk&St).
  destruct (symbol_good s T) as (N1&N2&N3). cbn [cells blocks symbols] in Wf.
  destruct (read_symbol_ok c m y u fl (map lower s) K) as (u'&i&E&Bu); auto.
  { eapply wf_weak; [..|exact Wf]; lia. }
  exists u', fl, (enc_sym i). split; auto. eapply token_goes; [eassumption|eassumption|eauto|]. intros fr. cbn [read_token]. apply E.
Qed.

Lemma reads_num s k n : number_text s k n -> Reads true s (Nu k n).
Proof.
  intros T c m y u fl b K r rest B En Wf N Rm. destruct (integer_token s k n rest T (En eq_refl)) as (neg&val&Tk&E&R&Su&St).
  destruct (read_int_ok k neg val n c m y u fl K) as (u'&fl'&v&Er&Bu); auto.
  { eapply wf_weak; [..|exact Wf]; lia. }
  exists u', fl', v. split; auto. eapply token_goes; [eassumption|eassumption|eauto|]. intros fr. cbn [read_token]. apply Er.
Qed.

Lemma reads_character t c0 o : (forall rest, next_token (mkChan (t ++ rest) false) = Ok (NTok (KCharacter c0) (Z.of_nat (List.length t)))) ->
  (exists c q, t = c :: q /\ starter c) -> 0 <= c0 < 256 -> Reads o t (Nu KChar c0).
Proof.
  intros Tk St R c m y u fl b K r rest B En Wf N Rm. exists u, fl, (imm KChar c0). split.
  - eapply token_goes; [eassumption|eassumption|eauto|]. intros fr. cbn [read_token]. rewrite wrap_small by (change (2 ^ 8) with 256; auto). reflexivity.
  - apply imm_built; auto. eapply wf_weak; [..|exact Wf]; lia.
Qed.
Lemma backslash_starter : starter 92.
Proof. unfold starter, space. lia. Qed.
Lemma named_range c x : In (c, x) named_chars -> 0 <= x < 256.
Proof. intros I. cbn in I. repeat destruct I as [[= <- <-]|I]; try destruct I; lia. Qed.

Lemma reads_string s : (List.length s <= 256)%nat -> Reads false (string_text s) (By (s ++ [0])).
Proof.
  intros Ln c m y u fl b K r rest B En Wf N Rm. destruct (read_string_ok c m y u fl s K) as (u'&fl'&v&E&Bu).
  { eapply wf_weak; [..|exact Wf]; lia. }
  exists u', fl', v. split; auto. eapply token_goes; [eassumption| |apply string_token; auto|].
  - exists 34, (flat_map in_quotes s ++ codes """"). split; [reflexivity|]. unfold starter, space. lia.
  - intros fr. cbn [read_token]. apply E.
Qed.

Lemma reads_array s bs : array_text s bs -> Reads false (codes "[" ++ s) (By bs).
Proof.
  intros T c m y u fl b K r rest B En Wf N Rm. apply array_goes; auto. eapply wf_weak; [..|exact Wf]; lia.
Qed.

Lemma reads_special c0 tok str i : In (c0, tok) syntax_chars -> In (str, i) special_symbols ->
  0 <= i < TOKENIZER_SYMBOLS_START \/ TOKENIZER_SYMBOLS_END < i < 2 ^ 28 ->
  (forall (s : rst) K, read_syntax s K tok = RGo (set_k s K (enc_sym i))) -> Reads false [c0] (Sy (codes str)).
Proof.
  intros I1 I2 R E c m y u fl b K r rest B En Wf N Rm. exists u, fl, (enc_sym i). split.
  - apply (syntax_goes b c0 tok rest u K r _ _ B I1). intros s0 _. apply E.
  - apply special_built; auto. eapply wf_weak; [..|exact Wf]; lia.
Qed.

Lemma reads_empty b0 : blank b0 -> Reads false (codes "(" ++ b0 ++ codes ")") empty.
Proof.
  intros B0 c m y u fl b K r rest B En Wf N Rm. exists u, fl, NIL. split.
  - rewrite <- !app_assoc. eapply goes_trans.
    { apply (syntax_goes b 40 1 (b0 ++ codes ")" ++ rest) u K r _ _ B); [cbn; tauto|]. intros s0 _. reflexivity. }
    eapply goes_trans; [apply (close_goes 41 b0 rest u (FItems NIL NIL :: K) _ (or_introl eq_refl) B0)|].
    apply goes_step. intros f fr. exists fr. split; [auto|]. unfold rstep. cbn [rk]. unfold read_append. cbn [rr ru].
    rewrite close_type, Z.eqb_refl, nil_not_cons. reflexivity.
  - apply (special_built c m y u fl "nil" 0).
    + eapply wf_weak; [..|exact Wf]; lia.
    + vm_compute. tauto.
    + unfold TOKENIZER_SYMBOLS_START. lia.
Qed.

(* the items of a list after the first one was read *)
Lemma first_item e d c m y u fl u1 fl1 v cl rest0 rest K : all_names good_name e -> all_names good_name d -> Tails cl rest0 d -> cl = 41 \/ cl = 125 ->
  wf (S (c + cells d)) (m + blocks d) (y + symbols d) u fl ->
  built e (S (c + cells d)) (m + blocks d) (y + symbols d) u u1 fl fl1 v -> all_names (addable (us u)) d -> room d ->
  exists u3 fl3 w, goes u1 (rest0 ++ rest) (FItems NIL NIL :: K) v u3 rest K w /\ built (Cn e d) c m y u u3 fl fl3 w.
Proof.
  intros Ge Gd Td CL Wf Bu Nd Rd.
  destruct (append_first (c + cells d) (m + blocks d) (y + symbols d) u1 fl1 v (rest0 ++ rest) K) as (i&fl2&u2&E1&G2&W2&Ci&Gr&Us&Ri).
  { apply Bu. } { apply Bu. }
  pose proof (ok_nodup _ _ (w_heap _ _ _ _ _ (p_wf _ _ _ _ _ _ _ _ _ Bu))) as ND1. rewrite E1 in ND1. inversion ND1 as [|? ? NIi ND2]; subst x l.
  destruct (Td CL c m y u2 fl2 K (enc_cons_ptr i) i v rest v) as (u3&fl3&w&G3&T); auto.
  { rewrite Us. eapply addable_kept; [apply Bu|apply names_ok; auto|auto]. }
  exists u3, fl3, (enc_cons_ptr i). split; [eapply goes_trans; [exact G2|exact G3]|]. eapply items_built; eauto.
Qed.

Lemma reads_list b0 o s e rest0 d : blank b0 -> Reads o s e -> all_names good_name e -> all_names good_name d -> (o = true -> ends rest0) -> rest0 <> [] -> Tails 41 rest0 d ->
  Reads false (codes "(" ++ b0 ++ s ++ rest0) (Cn e d).
Proof.
  intros B0 Re Ge Gd En0 Ne Td c m y u fl b K r rest B En Wf N Rm. cbn [cells blocks symbols all_names] in Wf, N. destruct N as (Ne1&Nd1).
  destruct (Re (S (c + cells d)) (m + blocks d)%nat (y + symbols d)%nat u fl b0 (FItems NIL NIL :: K) (enc_sym SYM_OPENPAR) (rest0 ++ rest) B0) as (u1&fl1&v&G1&Bu); auto.
  { intros O. apply ends_app; auto. }
  { eapply wf_weak; [..|exact Wf]; lia. }
  { eapply room_l; eauto. }
  destruct (first_item e d c m y u fl u1 fl1 v 41 rest0 rest K) as (u3&fl3&w&G2&Bw); auto.
  { eapply wf_weak; [..|exact Wf]; lia. }
  { eapply room_r; eauto. }
  exists u3, fl3, w. split; auto. rewrite <- !app_assoc. eapply goes_trans.
  { apply (syntax_goes b 40 1 (b0 ++ s ++ rest0 ++ rest) u K r _ _ B); [cbn; tauto|]. intros s0 _. reflexivity. }
  eapply goes_trans; [exact G1|exact G2].
Qed.

Lemma reads_block rest0 d : all_names good_name d -> Tails 125 rest0 d -> Reads false (codes "{" ++ rest0) (Cn (Sy (codes "progn")) d).
Proof.
  intros Gd Td c m y u fl b K r rest B En Wf N Rm. cbn [cells blocks symbols all_names] in Wf, N. destruct N as (Ne1&Nd1).
  assert (W1 : wf (S (c + cells d)) (m + blocks d) (y + symbols d) u fl) by (eapply wf_weak; [..|exact Wf]; lia).
  assert (Bu : built (Sy (codes "progn")) (S (c + cells d)) (m + blocks d) (y + symbols d) u u fl fl (enc_sym SYM_PROGN)).
  { apply special_built; auto; [vm_compute; tauto|]. unfold TOKENIZER_SYMBOLS_START, TOKENIZER_SYMBOLS_END, SYM_PROGN. lia. }
  pose proof (room_r _ _ Rm) as Rd. assert (Gp : all_names good_name (Sy (codes "progn"))) by (cbn [all_names]; apply good_codes; cbn; tauto).
  destruct (first_item (Sy (codes "progn")) d c m y u fl u fl (enc_sym SYM_PROGN) 125 rest0 rest K) as (u3&fl3&w&G2&Bw); auto.
  exists u3, fl3, w. split; auto. rewrite <- !app_assoc. eapply goes_trans; [|exact G2].
  apply (syntax_goes b 123 12 (rest0 ++ rest) u K r _ _ B); [cbn; tauto|]. intros s0 _. reflexivity.
Qed.

Lemma quote_known b s : inv b s -> get_symbol_by_name s (codes "quote") = Ok (Some SYM_QUOTE).
Proof. intros I. apply (special_known b s "quote" _ I). vm_compute. tauto. Qed.
Lemma nil_known b s : inv b s -> get_symbol_by_name s (codes "nil") = Ok (Some 0).
Proof. intros I. apply (special_known b s "nil" _ I). vm_compute. tauto. Qed.

Lemma reads_quote b0 o s e : blank b0 -> Reads o s e -> Reads o (codes "'" ++ b0 ++ s) (Cn (Sy (codes "quote")) (Cn e empty)).
Proof.
  intros B0 Re c m y u fl b K r rest B En Wf N Rm. cbn [cells blocks symbols all_names empty] in Wf, N. destruct N as (_&Ne1&_).
  destruct (Re (S (S c)) m y u fl b0 (FWrap QUOTE :: K) r rest B0) as (u1&fl1&v&G1&Bu); auto.
  { eapply wf_weak; [..|exact Wf]; lia. }
  { intros u0. specialize (Rm u0). cbn [longest empty] in Rm. lia. }
  destruct Bu as [P1 P2 P3 P4 (t&M&D) P6]. pose proof (w_cells _ _ _ _ _ P1) as Lc. destruct fl1 as [|i [|j fl1]]; cbn in Lc; try lia.
  destruct (alloc_list_init_ok (uh u1) (i :: j :: fl1) [QUOTE; v]) as (h'&p&E&OK&LO&Hp&Sb&Sz&Cc&Me&_); [apply P1|discriminate|cbn; lia|].
  cbn [List.length skipn firstn map headp] in *. subst p.
  pose proof (ok_nodup _ _ (w_heap _ _ _ _ _ P1)) as ND. inversion ND as [|? ? N1 ND']; subst. inversion ND' as [|? ? N2 _]; subst.
  assert (RR : forall z, In z (i :: j :: fl1) -> 0 <= z < 2 ^ (W - 8)).
  { intros z Z1. pose proof (w_heap _ _ _ _ _ P1) as Hk. pose proof (ok_size _ _ Hk).
    assert (0 <= z < hsize (uh u1)); [|lia]. clear - Z1 Hk. pose proof (ok_chain _ _ Hk) as Ch. pose proof (chain_range _ _ _ Ch) as F; rewrite Forall_forall in F; auto. }
  assert (Ri : 0 <= i < 2 ^ (W - 8)) by (apply RR; left; auto). assert (Rj : 0 <= j < 2 ^ (W - 8)) by (apply RR; right; left; auto).
  inversion LO as [|? ? q ? ? _ _ C1 LO1]; subst. inversion LO1 as [|? ? q2 ? ? _ _ C2 LO2]; subst. inversion LO2; subst.
  exists (set_h u1 h'), fl1, (enc_cons_ptr i). split.
  - rewrite <- !app_assoc. eapply goes_trans.
    { apply (syntax_goes b 39 7 (b0 ++ s ++ rest) u K r (FNext :: FWrap QUOTE :: K) r B); [cbn; tauto|]. intros s0 <-. reflexivity. }
    eapply goes_trans; [exact G1|]. apply goes_step. intros f fr. exists fr. split; [auto|]. unfold rstep. cbn [rk]. unfold read_wrap. cbn [rr ru]. rewrite E. cbn [bind].
    rewrite merror_neq; [reflexivity|]. intros X. pose proof (enc_is_ptr i Ri) as Pi. rewrite X in Pi. revert Pi. unfold MERROR. clear. arch; discriminate.
  - assert (Gr : grows [i; j] (uh u1) h') by (split; [auto|split; [auto|rewrite Me; auto]]).
    constructor; cbn [uh us set_h].
    + destruct P1 as [W1 W2 (blk&rest0&W3&W4&W5&W6) W7 W8]. constructor; cbn [uh up us uk set_h]; auto; [lia|]. exists blk, rest0. rewrite Me. auto.
    + eapply grows_trans; [exact P2|]. eapply grows_incl; [|exact Gr]. intros z [->|[->|[]]]; apply P3; cbn; auto.
    + intros z Z1. apply P3. right. right. auto.
    + auto.
    + destruct (w_sym _ _ _ _ _ P1) as (bb&Iv&_). exists (Pair (Leaf KSym SYM_QUOTE) (Pair t (Leaf KSym 0))). split.
      * constructor; [constructor; eapply quote_known; eauto|]. constructor; auto. constructor. eapply nil_known; eauto.
      * intros X OX.
        assert (NI : ~ In i (X ++ fl1)). { intros H. apply in_app_or in H. destruct H as [H|H]; [apply (OX i H), P3; left; auto|]. apply N1. right; auto. }
        assert (NJ : ~ In j (X ++ fl1)). { intros H. apply in_app_or in H. destruct H as [H|H]; [apply (OX j H), P3; right; left; auto|]. auto. }
        rewrite ref_cell_rw, enc_ix in C1 by auto using enc_not_const. rewrite ref_cell_rw, enc_ix in C2 by auto using enc_not_const.
        destruct (cell h' i) as [ci|] eqn:Ci; [|discriminate]. destruct (cell h' j) as [cj|] eqn:Cj; [|discriminate]. injection C1 as ->. injection C2 as ->.
        apply (den_cell _ _ _ QUOTE (enc_cons_ptr j)); auto; [apply den_sym; unfold SYM_QUOTE; lia|].
        apply (den_cell _ _ _ v 0); auto.
        -- eapply den_grows; [|idtac|apply (D X OX)].
           ++ eapply grows_incl; [|exact Gr]. intros z Z1. apply in_or_app. right. destruct Z1 as [->|[->|[]]]; cbn; auto.
           ++ intros z Z1. apply in_app_or in Z1. apply in_or_app. destruct Z1; auto. right. right. right. auto.
        -- assert (DN : den (X ++ fl1) h' NIL (Leaf KSym 0)) by (apply den_sym; lia). rewrite NIL_0 in DN. exact DN.
    + apply tokenizer_ptr, enc_is_ptr; auto.
Qed.

Theorem reads_all : (forall o s e, spell o s e -> Reads o s e) /\ (forall cl s d, tail cl s d -> Tails cl s d).
Proof.
  assert (H : (forall o s e, spell o s e -> Reads o s e /\ all_names good_name e) /\ (forall cl s d, tail cl s d -> Tails cl s d /\ all_names good_name d /\ s <> [])).
  2:{ split; intros; apply H; auto. }
  assert (Q : forall (P Q : Prop), (Q -> P) -> Q -> P /\ Q) by tauto.
  destruct names_good as (NG1&NG2).
  apply spell_tail.
  - intros s T. split; [apply reads_sym; auto|]. apply (NG1 true s). apply sp_sym; auto.
  - intros s k n T. split; [apply reads_num; auto|]. exact I.
  - intros c R N. split; [|exact I]. apply reads_character; auto.
    + intros rest. rewrite char_token by auto. reflexivity.
    + exists 92, [35; c]. split; [reflexivity|apply backslash_starter].
  - intros c x H. split; [|exact I]. apply reads_character.
    + intros rest. rewrite (named_token c x) by auto. reflexivity.
    + exists 92, [35; 92; c]. split; [reflexivity|apply backslash_starter].
    + eapply named_range; eauto.
  - intros s Ln F. split; [|exact I]. apply reads_string; auto.
  - intros s bs T. split; [|exact I]. apply reads_array; auto.
  - split; [|cbn [all_names]; apply good_codes; cbn; tauto]. apply (reads_special 95 6 "_" SYM_DONTCARE).
    + cbn; tauto.
    + vm_compute; tauto.
    + unfold TOKENIZER_SYMBOLS_START, SYM_DONTCARE. lia.
    + reflexivity.
  - split; [|cbn [all_names]; apply good_codes; cbn; tauto]. apply (reads_special 63 11 "?" SYM_MATCH_ANY).
    + cbn; tauto.
    + vm_compute; tauto.
    + unfold TOKENIZER_SYMBOLS_START, SYM_MATCH_ANY. lia.
    + reflexivity.
  - intros b B. split; [apply reads_empty; auto|cbn [all_names empty]; apply good_codes; cbn; tauto].
  - intros b o s e rest d B Sp (IH&G) En Ta (IHt&Gd&Ne). split; [|cbn [all_names]; auto]. eapply reads_list; eauto.
  - intros rest d Ta (IHt&Gd&Ne). split; [apply reads_block; auto|]. cbn [all_names]. split; auto. apply good_codes; cbn; tauto.
  - intros b o s e B Sp (IH&G). split; [apply reads_quote; auto|]. cbn [all_names empty]. repeat split; auto; apply good_codes; cbn; tauto.
  - intros cl b B. split; [apply tail_close; auto|]. split; [cbn [all_names empty]; apply good_codes; cbn; tauto|]. destruct b; discriminate.
  - intros cl b b1 o s e b2 B B1 Sp (IH&G) B2 En. split; [eapply tail_dot; eauto|]. split; auto. destruct b; discriminate.
  - intros cl b o s e rest d B Sp (IH&G) En Ta (IHt&Gd&Ne). split; [eapply tail_item; eauto|]. split; [cbn [all_names]; auto|].
    intros X. apply app_eq_nil in X. destruct X as (_&X). apply app_eq_nil in X. tauto.
Qed.

(* ---- programs: the end of the text closes the list ---- *)
Definition last_blank (b : list Z) : Prop := blank b \/ exists b0 txt, b = b0 ++ codes ";" ++ txt /\ blank b0 /\ ~ In 10 txt.
Lemma end_step b K u r f fr : last_blank b ->
  exists fr', (fr = false -> fr' = false) /\ rstep f (mkR u b false false fr (FNext :: K) r) = Ok (read_finish (mkR u [] false false fr' K r)).
Proof.
  intros H.
  assert (CL : clean_whitespace false b false = (true, [], false)).
  { destruct H as [B|(b0&txt&->&B&N)].
    - rewrite <- (app_nil_r b). rewrite blank_clean by auto. reflexivity.
    - rewrite blank_clean by auto. apply comment_clean; auto. }
  destruct b as [|x b].
  - exists fr. split; [auto|]. reflexivity.
  - eexists. split; [|unfold rstep; cbn [rk]; unfold read_next; cbv beta zeta; cbn [ru rtext rmore rcomment rfresh rk rr negb andb];
    rewrite CL; unfold set_text; cbn [ru rtext rmore rcomment rfresh rk rr negb andb]; reflexivity]. intros ->. reflexivity.
Qed.
Lemma program_end b a l K u r : last_blank b -> tokenizer_symbol r = false ->
  goes u b (FNext :: FItems a l :: FDone Program :: K) r u [] (FItems a l :: FDone Program :: K) CLOSEPAR.
Proof.
  intros H T. apply goes_step. intros f fr. destruct (end_step b (FItems a l :: FDone Program :: K) u r f fr H) as (fr'&F&E). exists fr'. split; [exact F|].
  rewrite E. unfold read_finish. cbn [rr rk set_k]. rewrite T. reflexivity.
Qed.

Definition PTails (s : list Z) (d : sexp) : Prop := forall c m y u fl K first i x r,
  wf (c + cells d) (m + blocks d) (y + symbols d) u fl -> all_names (addable (us u)) d -> room d ->
  cell (uh u) i = Some (x, NIL) -> 0 <= i < 2 ^ (W - 8) -> ~ In i fl -> tokenizer_symbol r = false ->
  exists u' fl' w, goes u s (FNext :: FItems first (enc_cons_ptr i) :: FDone Program :: K) r u' [] (FDone Program :: K) first /\ tailed d c m y u u' fl fl' i x w.

Lemma ptail_end b : last_blank b -> PTails b empty.
Proof.
  intros B c m y u fl K first i x r Wf N Rm C R NI T.
  assert (W' : wf c m y u fl) by (eapply wf_weak; [..|exact Wf]; lia).
  exists (set_h u (hput (uh u) i (x, NIL))), fl, NIL. split.
  - eapply goes_trans; [apply program_end; auto|]. apply goes_step. intros f fr. exists fr. split; [auto|]. unfold rstep. cbn [rk]. unfold read_append. cbn [rr ru].
    rewrite close_type, Z.eqb_refl. cbn [andb]. rewrite enc_type, (set_cdr_enc _ i x NIL _ R C) by auto. reflexivity.
  - constructor; cbn [uh us set_h].
    + apply put_wf; auto; lia.
    + eapply grows_incl; [|apply put_grows; lia]. intros z [->|[]]; left; auto.
    + apply incl_refl.
    + apply kept_refl.
    + eapply cell_hput_eq; eauto.
    + apply (nil_means c m y u fl _ fl W').
Qed.

Lemma ptails s d : program_text s d -> PTails s d /\ all_names good_name d.
Proof.
  induction 1 as [b B|b txt B N|b o s e rest d B Sp En P (IH&Gd)].
  - split; [apply ptail_end; left; auto|]. cbn [all_names empty]; apply good_codes; cbn; tauto.
  - split; [apply ptail_end; right; eauto 6|]. cbn [all_names empty]; apply good_codes; cbn; tauto.
  - destruct reads_all as (RA&_). pose proof (RA _ _ _ Sp) as Re. destruct names_good as (NG1&_). pose proof (NG1 _ _ _ Sp) as Ge.
    split; [|cbn [all_names]; auto].
    intros c m y u fl K first j x r Wf N Rm C R NI T. cbn [cells blocks symbols all_names] in Wf, N. destruct N as (Ne1&Nd1).
    destruct (Re (S (c + cells d)) (m + blocks d)%nat (y + symbols d)%nat u fl b (FItems first (enc_cons_ptr j) :: FDone Program :: K) r rest B) as (u1&fl1&v&G1&Bu); auto.
    { eapply wf_weak; [..|exact Wf]; lia. }
    { eapply room_l; eauto. }
    assert (NI1 : ~ In j fl1) by (intros H; apply NI; apply (p_incl _ _ _ _ _ _ _ _ _ Bu); auto).
    assert (C1 : cell (uh u1) j = Some (x, NIL)) by (destruct (p_grows _ _ _ _ _ _ _ _ _ Bu) as (Sb&_); rewrite Sb; auto).
    destruct (append_next (c + cells d) (m + blocks d) (y + symbols d) u1 fl1 v rest (FDone Program :: K) first j x) as (i&fl2&u2&E1&G2&W2&Ci&Cj&Gr&Us&Ri); auto.
    { apply Bu. } { apply Bu. }
    pose proof (ok_nodup _ _ (w_heap _ _ _ _ _ (p_wf _ _ _ _ _ _ _ _ _ Bu))) as ND1. rewrite E1 in ND1. inversion ND1 as [|? ? NIi ND2]; subst x0 l.
    destruct (IH c m y u2 fl2 K first i v v) as (u3&fl3&w&G3&Td); auto.
    { rewrite Us. eapply addable_kept; [apply Bu|apply names_ok; auto|auto]. }
    { eapply room_r; eauto. }
    { apply Bu. }
    exists u3, fl3, (enc_cons_ptr i). split.
    + eapply goes_trans; [exact G1|]. eapply goes_trans; [exact G2|exact G3].
    + assert (I2 : incl fl2 fl) by (intros z Z1; apply (p_incl _ _ _ _ _ _ _ _ _ Bu); rewrite E1; right; auto).
      assert (Ii : In i fl) by (apply (p_incl _ _ _ _ _ _ _ _ _ Bu); rewrite E1; left; auto).
      constructor.
      * apply Td.
      * eapply grows_trans; [eapply grows_incl; [|apply (p_grows _ _ _ _ _ _ _ _ _ Bu)]|eapply grows_trans; [eapply grows_incl; [|exact Gr]|eapply grows_incl; [|apply (t_grows _ _ _ _ _ _ _ _ _ _ _ Td)]]].
        -- intros z Z1; right; auto.
        -- intros z [->|[->|[]]]; [left; auto|right; auto].
        -- intros z [->|Z1]; right; auto.
      * intros z Z1. apply I2, (t_incl _ _ _ _ _ _ _ _ _ _ _ Td); auto.
      * eapply kept_trans; [apply (p_kept _ _ _ _ _ _ _ _ _ Bu)|]. rewrite <- Us. apply (t_kept _ _ _ _ _ _ _ _ _ _ _ Td).
      * destruct (t_grows _ _ _ _ _ _ _ _ _ _ _ Td) as (Sb&_). rewrite Sb; auto. intros [->|H]; auto.
      * apply (pair_means [j] e d (S (c + cells d)) (m + blocks d) (y + symbols d) c m y u u1 u2 u3 fl fl1 fl2 fl3 v i w); auto.
        -- intros z [->|[]]; auto.
        -- apply (ok_nodup _ _ (w_heap _ _ _ _ _ Wf)).
        -- eapply grows_incl; [|exact Gr]. intros z [->|[->|[]]]; [left; auto|right; rewrite E1; left; auto].
        -- apply names_ok; auto.
Qed.

Lemma programs s d : program_text s d -> forall c m y u fl K, wf (c + cells d) (m + blocks d) (y + symbols d) u fl -> all_names (addable (us u)) d -> room d ->
  exists u' fl' v, goes u s (FNext :: FItems NIL NIL :: FDone Program :: K) NIL u' [] (FDone Program :: K) v /\ built d c m y u u' fl fl' v.
Proof.
  intros P c m y u fl K Wf N Rm.
  assert (TN : tokenizer_symbol NIL = false) by (unfold NIL; rewrite tokenizer_sym by (unfold SYM_NIL; lia); reflexivity).
  assert (EM : forall b, d = empty -> last_blank b ->
    exists u' fl' v, goes u b (FNext :: FItems NIL NIL :: FDone Program :: K) NIL u' [] (FDone Program :: K) v /\ built d c m y u u' fl fl' v).
  { intros b -> B. exists u, fl, NIL. split.
    - eapply goes_trans; [apply program_end; auto|]. apply goes_step. intros f fr. exists fr. split; [auto|]. unfold rstep. cbn [rk]. unfold read_append. cbn [rr ru].
      rewrite close_type, Z.eqb_refl, nil_not_cons. reflexivity.
    - apply (special_built c m y u fl "nil" 0).
      + eapply wf_weak; [..|exact Wf]; lia.
      + vm_compute. tauto.
      + unfold TOKENIZER_SYMBOLS_START. lia. }
  inversion P as [b B|b txt B Nt|b o s0 e rest d0 B Sp En P0]; subst.
  - apply EM; auto. left; auto.
  - apply EM; auto. right; eauto 6.
  - destruct reads_all as (RA&_). pose proof (RA _ _ _ Sp) as Re. destruct names_good as (NG1&_). pose proof (NG1 _ _ _ Sp) as Ge. destruct (ptails _ _ P0) as (PT&Gd).
    cbn [cells blocks symbols all_names] in Wf, N. destruct N as (Ne1&Nd1).
    destruct (Re (S (c + cells d0)) (m + blocks d0)%nat (y + symbols d0)%nat u fl b (FItems NIL NIL :: FDone Program :: K) NIL rest B) as (u1&fl1&v&G1&Bu); auto.
    { eapply wf_weak; [..|exact Wf]; lia. }
    { eapply room_l; eauto. }
    destruct (append_first (c + cells d0) (m + blocks d0) (y + symbols d0) u1 fl1 v rest (FDone Program :: K)) as (i&fl2&u2&E1&G2&W2&Ci&Gr&Us&Ri).
    { apply Bu. } { apply Bu. }
    pose proof (ok_nodup _ _ (w_heap _ _ _ _ _ (p_wf _ _ _ _ _ _ _ _ _ Bu))) as ND1. rewrite E1 in ND1. inversion ND1 as [|? ? NIi ND2]; subst x l.
    destruct (PT c m y u2 fl2 K (enc_cons_ptr i) i v v) as (u3&fl3&w&G3&T); auto.
    { rewrite Us. eapply addable_kept; [apply Bu|apply names_ok; auto|auto]. }
    { eapply room_r; eauto. }
    { apply Bu. }
    exists u3, fl3, (enc_cons_ptr i). split; [eapply goes_trans; [exact G1|eapply goes_trans; [exact G2|exact G3]]|].
    eapply items_built with (c1 := S (c + cells d0)); eauto. eapply wf_weak; [..|exact Wf]; lia.
Qed.

(* a list that is not closed: the items [s], whose list would be [d], run to the
   end of the text *)
Lemma open_items s d : program_text s d -> forall c m y u fl K first i x r, hd FNext K = FDone Expression ->
  wf (c + cells d) (m + blocks d) (y + symbols d) u fl -> all_names (addable (us u)) d -> room d ->
  cell (uh u) i = Some (x, NIL) -> 0 <= i < 2 ^ (W - 8) -> ~ In i fl -> tokenizer_symbol r = false ->
  exists n, forall fuel, read_run (n + fuel) (mkR u s false false false (FNext :: FItems first (enc_cons_ptr i) :: K) r) = Ok RErr.
Proof.
  assert (EM : forall b u K a l r, last_blank b -> hd FNext K = FDone Expression -> tokenizer_symbol r = false ->
    exists n, forall fuel, read_run (n + fuel) (mkR u b false false false (FNext :: FItems a l :: K) r) = Ok RErr).
  { intros b u K a l r B HK T. exists 1%nat. intros fuel. destruct (end_step b (FItems a l :: K) u r fuel false B) as (fr'&F&E).
    cbn [Nat.add read_run]. rewrite E. unfold read_finish. cbn [rr rk bind]. rewrite T. destruct K as [|k K]; [discriminate|]. cbn [hd] in HK. subst k. rewrite F by auto. reflexivity. }
  induction 1 as [b B|b txt B Nt|b o s e rest d B Sp En P IH]; intros c m y u fl K first j x r HK Wf N Rm C R NI T.
  - apply EM; auto. left; auto.
  - apply EM; auto. right; eauto 6.
  - destruct reads_all as (RA&_). pose proof (RA _ _ _ Sp) as Re. pose proof (proj2 (ptails _ _ P)) as Gd.
    cbn [cells blocks symbols all_names] in Wf, N. destruct N as (Ne1&Nd1).
    destruct (Re (S (c + cells d)) (m + blocks d)%nat (y + symbols d)%nat u fl b (FItems first (enc_cons_ptr j) :: K) r rest B) as (u1&fl1&v&G1&Bu); auto.
    { eapply wf_weak; [..|exact Wf]; lia. }
    { eapply room_l; eauto. }
    assert (NI1 : ~ In j fl1) by (intros H; apply NI; apply (p_incl _ _ _ _ _ _ _ _ _ Bu); auto).
    assert (C1 : cell (uh u1) j = Some (x, NIL)) by (destruct (p_grows _ _ _ _ _ _ _ _ _ Bu) as (Sb&_); rewrite Sb; auto).
    destruct (append_next (c + cells d) (m + blocks d) (y + symbols d) u1 fl1 v rest K first j x) as (i&fl2&u2&E1&G2&W2&Ci&Cj&Gr&Us&Ri); auto.
    { apply Bu. } { apply Bu. }
    pose proof (ok_nodup _ _ (w_heap _ _ _ _ _ (p_wf _ _ _ _ _ _ _ _ _ Bu))) as ND1. rewrite E1 in ND1. inversion ND1 as [|? ? NIi ND2]; subst x0 l.
    destruct (IH c m y u2 fl2 K first i v v) as (n3&E3); auto.
    { rewrite Us. eapply addable_kept; [apply Bu|apply names_ok; auto|auto]. }
    { eapply room_r; eauto. }
    { apply Bu. }
    destruct (goes_trans _ _ _ _ _ _ _ _ _ _ _ _ G1 G2 false) as (n1&fr1&F1&X1). rewrite F1 in X1 by auto.
    exists (n1 + n3)%nat. intros fuel. rewrite <- Nat.add_assoc, X1. apply E3.
Qed.
Lemma open_list s d b : program_text s d -> blank b -> forall c m y u fl K r fr, hd FNext K = FDone Expression ->
  wf (c + cells d) (m + blocks d) (y + symbols d) u fl -> all_names (addable (us u)) d -> room d ->
  exists n, forall fuel, read_run (n + fuel) (mkR u (b ++ codes "(" ++ s) false false fr (FNext :: K) r) = Ok RErr.
Proof.
  intros P B c m y u fl K r fr HK Wf N Rm. destruct (syntax_token 40 1 s ltac:(cbn; tauto)) as (Tk&St).
  assert (ST : forall f, rstep f (mkR u (b ++ codes "(" ++ s) false false fr (FNext :: K) r) =
    Ok (RGo (mkR u s false false false (FNext :: FItems NIL NIL :: K) (enc_sym SYM_OPENPAR)))).
  { intros f. rewrite (next_step b [40] s (KSyntax 1)); auto. exists 40, []. auto. }
  assert (EM : last_blank s -> exists n, forall fuel, read_run (n + fuel) (mkR u (b ++ codes "(" ++ s) false false fr (FNext :: K) r) = Ok RErr).
  { intros Bs. exists 2%nat. intros fuel. cbn [Nat.add read_run]. rewrite ST. cbn [bind].
    destruct (end_step s (FItems NIL NIL :: K) u (enc_sym SYM_OPENPAR) fuel false Bs) as (fr'&F&E). rewrite E. unfold read_finish. cbn [rr].
    rewrite tokenizer_sym by (unfold SYM_OPENPAR; lia). reflexivity. }
  inversion P as [b0 B0|b0 txt B0 Nt|b0 o s0 e rest d0 B0 Sp En P0]; subst.
  - apply EM. left; auto.
  - apply EM. right; eauto 6.
  - destruct reads_all as (RA&_). pose proof (RA _ _ _ Sp) as Re. pose proof (proj2 (ptails _ _ P0)) as Gd.
    cbn [cells blocks symbols all_names] in Wf, N. destruct N as (Ne1&Nd1).
    destruct (Re (S (c + cells d0)) (m + blocks d0)%nat (y + symbols d0)%nat u fl b0 (FItems NIL NIL :: K) (enc_sym SYM_OPENPAR) rest B0) as (u1&fl1&v&G1&Bu); auto.
    { eapply wf_weak; [..|exact Wf]; lia. }
    { eapply room_l; eauto. }
    destruct (append_first (c + cells d0) (m + blocks d0) (y + symbols d0) u1 fl1 v rest K) as (i&fl2&u2&E1&G2&W2&Ci&Gr&Us&Ri).
    { apply Bu. } { apply Bu. }
    pose proof (ok_nodup _ _ (w_heap _ _ _ _ _ (p_wf _ _ _ _ _ _ _ _ _ Bu))) as ND1. rewrite E1 in ND1. inversion ND1 as [|? ? NIi ND2]; subst x l.
    destruct (open_items rest d0 P0 c m y u2 fl2 K (enc_cons_ptr i) i v v) as (n3&E3); auto.
    { rewrite Us. eapply addable_kept; [apply Bu|apply names_ok; auto|auto]. }
    { eapply room_r; eauto. }
    { apply Bu. }
    destruct (goes_trans _ _ _ _ _ _ _ _ _ _ _ _ G1 G2 false) as (n1&fr1&F1&X1). rewrite F1 in X1 by auto.
    exists (S (n1 + n3))%nat. intros fuel. cbn [Nat.add read_run]. rewrite ST. cbn [bind]. rewrite <- Nat.add_assoc, X1. apply E3.
Qed.

End Arch.
