(* The tokens of the text of an expression. *)
From Coq Require Import String.
From Verif Require Import Base Value_Model Heap_Model Sym_Model Flat_Model Tok_Model Eq_Spec Flat_Spec Print_Spec Read_Spec.
From Verif Require Tok_Props.
Import List.
Local Open Scope Z_scope.

(* ---- white space ---- *)
Lemma blank_clean b r : blank b -> clean_whitespace false (b ++ r) false = clean_whitespace false r false.
Proof.
  intros B. apply Tok_Props.blank_dropped. induction B as [|c t S B IH|txt t N B IH].
  - constructor.
  - apply Tok_Props.b_space; auto.
  - apply (Tok_Props.b_comment txt t); auto.
Qed.
Lemma comment_clean txt : ~ In 10 txt -> clean_whitespace false (codes ";" ++ txt) false = (true, [], false).
Proof. intros N. change (codes ";" ++ txt) with (59 :: txt). cbn [clean_whitespace Z.eqb Pos.eqb]. apply (Tok_Props.comment_open txt false N). Qed.

Definition starter (c : Z) : Prop := c <> 59 /\ ~ space c.
Lemma starter_clean c r : starter c -> clean_whitespace false (c :: r) false = (true, c :: r, false).
Proof.
  intros (N&S). cbn [clean_whitespace]. destruct (Z.eqb_spec c 59); [congruence|].
  destruct (isspace c) eqn:I; auto. apply Tok_Props.isspace_ok in I. contradiction.
Qed.

(* ---- the attempts that fail ---- *)
Definition syntax_starts : list Z := codes "()[]._'`,?{}@".
Lemma no_syntax c r : ~ In c syntax_starts -> tok_syntax (mkChan (c :: r) false) = (0, 0).
Proof.
  intros N. assert (K : forall x, In x syntax_starts -> (c =? x) = false) by (intros x I; apply Z.eqb_neq; intros ->; auto).
  unfold tok_syntax, fixed_size_tokens.
  repeat (cbn [match_tokens match_str chars list_ascii_of_string List.map Z.of_N Ascii.N_of_ascii Ascii.N_of_digits N.add N.mul Pos.add Pos.mul peek ch_data nth_error];
    first [ rewrite K by (vm_compute; tauto) | reflexivity ]).
Qed.
Lemma no_string c r : c <> 34 -> tok_string (mkChan (c :: r) false) = Ok (0, []).
Proof. intros N. unfold tok_string, peek. cbn [ch_data nth_error]. destruct (Z.eqb_spec c 34); [congruence|]. reflexivity. Qed.
Lemma no_double c r : c <> 45 -> c <> 46 -> ~ digit c -> tok_double (mkChan (c :: r) false) = Ok (0, [], 0).
Proof.
  intros N1 N2 D. assert (E : num_char c = false) by (unfold num_char; unfold digit in D; lia).
  unfold tok_double, peek. cbn [ch_data nth_error]. destruct (Z.eqb_spec c 45); [congruence|]. cbv zeta. cbn [bind nth_error dbl_loop].
  rewrite E. cbn [bind]. destruct (Z.eqb_spec c 46); [congruence|]. reflexivity.
Qed.
Lemma no_integer c r : c <> 45 -> ~ digit c -> tok_integer (mkChan (c :: r) false) = Ok (mkInt 0 false 0 0).
Proof.
  intros N1 D. assert (E : num_char c = false) by (unfold num_char; unfold digit in D; lia).
  assert (c <> 48) by (unfold digit in D; lia).
  unfold tok_integer, peek. cbn [ch_data nth_error]. destruct (Z.eqb_spec c 45); [congruence|]. cbv zeta. cbn [bind nth_error].
  destruct (Z.eqb_spec c 48); [congruence|]. cbn [bind nth_error int_loop]. rewrite E. reflexivity.
Qed.

(* after a minus that does not start a number *)
Definition no_digit (r : list Z) : Prop := match r with [] => True | c :: _ => ~ digit c /\ c <> 46 end.
Lemma no_double_minus r : no_digit r -> tok_double (mkChan (45 :: r) false) = Ok (0, [], 0).
Proof.
  intros D. unfold tok_double, peek. cbn [ch_data nth_error Z.eqb Pos.eqb]. cbv zeta. unfold push. cbn [length Nat.ltb Nat.leb bind app nth_error].
  destruct r as [|c r]; cbn [nth_error]; auto. destruct D as (D&N). assert (E : num_char c = false) by (unfold num_char; unfold digit in D; lia).
  cbn [dbl_loop]. rewrite E. cbn [bind]. destruct (Z.eqb_spec c 46); [congruence|]. reflexivity.
Qed.
Lemma no_integer_minus r : no_digit r -> tok_integer (mkChan (45 :: r) false) = Ok (mkInt 0 false 0 0).
Proof.
  intros D. unfold tok_integer, peek. cbn [ch_data nth_error Z.eqb Pos.eqb]. cbv zeta. cbn [nth_error].
  assert (NM : forall ch, ch_more ch = false -> forall n m, fst (match_tokens ch n m) <> NEED_MORE).
  { intros ch M n m. assert (S : forall s n, match_str ch n s <> MMore).
    { induction s as [|x s IH]; intros n'; cbn [match_str]; [discriminate|]. unfold peek. destruct (nth_error _ _); [destruct (_ =? _); [apply IH|discriminate]|].
      rewrite M. discriminate. }
    induction m as [|(s&t) m IH]; cbn [match_tokens]; [discriminate|]. specialize (S s n). destruct (match_str ch n s); [cbn; unfold NEED_MORE; lia|congruence|auto]. }
  destruct r as [|c r]; cbn [nth_error bind ch_more].
  - reflexivity.
  - destruct D as (D&N). assert (E : num_char c = false) by (unfold num_char; unfold digit in D; lia).
    assert (c <> 48) by (unfold digit in D; lia). destruct (Z.eqb_spec c 48); [congruence|]. cbn [bind nth_error int_loop]. rewrite E. cbn [bind].
    change (1 =? 0)%nat with false. cbv iota. specialize (NM (mkChan (45 :: c :: r) false) eq_refl 1%nat type_qual_table).
    destruct (match_tokens _ _ _) as [tl tk]. cbn [fst] in NM. destruct (Z.eqb_spec tl NEED_MORE); [congruence|]. reflexivity.
Qed.

(* ---- symbols ---- *)
Lemma ends_stop rest : ends rest -> match rest with [] => True | c :: _ => symchar c = false /\ ~ digit c /\ c <> 46 /\ ~ letter c end.
Proof.
  destruct rest as [|c r]; [auto|]. cbn [ends]. intros [S|I].
  - unfold symchar, alpha_char, num_char, digit, letter. assert (E : existsb (Z.eqb c) (chars "+-*/=<>!?_") = false).
    { vm_compute. destruct S as [->|S]; [reflexivity|]. assert (C : c = 9 \/ c = 10 \/ c = 11 \/ c = 12 \/ c = 13) by lia. repeat destruct C as [->|C]; try subst; reflexivity. }
    rewrite E. unfold space in S. lia.
  - cbn in I. repeat destruct I as [<-|I]; try destruct I; (split; [reflexivity|]); unfold digit, letter; lia.
Qed.

Lemma sym_first_ok c : sym_first c -> symchar0 c = true.
Proof.
  intros [[H|H]|[H|H]]; unfold symchar0, alpha_char.
  - replace (97 <=? c) with true by lia. replace (c <=? 122) with true by lia. reflexivity.
  - replace (65 <=? c) with true by lia. replace (c <=? 90) with true by lia. rewrite Bool.orb_true_r. reflexivity.
  - cbn in H. repeat destruct H as [<-|H]; try destruct H; reflexivity.
  - subst. reflexivity.
Qed.
Lemma sym_next_ok c : sym_next c -> symchar c = true.
Proof.
  intros [[H|H]|[H|[H|H]]]; unfold symchar, alpha_char, num_char.
  - replace (97 <=? c) with true by lia. replace (c <=? 122) with true by lia. reflexivity.
  - replace (65 <=? c) with true by lia. replace (c <=? 90) with true by lia. rewrite Bool.orb_true_r. reflexivity.
  - unfold digit in H. replace (48 <=? c) with true by lia. replace (c <=? 57) with true by lia. cbn [andb]. rewrite Bool.orb_true_r. reflexivity.
  - cbn in H. repeat destruct H as [<-|H]; try destruct H; reflexivity.
  - cbn in H. repeat destruct H as [<-|H]; try destruct H; reflexivity.
Qed.
Lemma sym_first_cases c : sym_first c -> starter c /\ ~ In c syntax_starts /\ c <> 34 /\ ~ digit c /\ c <> 46 /\ c <> 0.
Proof.
  intros H.
  assert (G : c <> 59 /\ c <> 32 /\ ~ (9 <= c <= 13) /\ ~ In c syntax_starts /\ c <> 34 /\ ~ (48 <= c <= 57) /\ c <> 46 /\ c <> 0).
  { destruct H as [[H|H]|[H|H]].
    - unfold syntax_starts. cbn. lia.
    - unfold syntax_starts. cbn. lia.
    - cbn in H. unfold syntax_starts. cbn. lia.
    - subst. unfold syntax_starts. cbn. lia. }
  unfold starter, space, digit. intuition.
Qed.
Lemma sym_next_cases c : sym_next c -> c <> 46 /\ c <> 0.
Proof. intros H. unfold sym_next, letter, digit, mark in H. cbn in H. lia. Qed.

Lemma symbol_token s rest : symbol_text s -> ends rest ->
  next_token (mkChan (s ++ rest) false) = Ok (NTok (KSymbol (map lower s)) (Z.of_nat (List.length s))) /\
  exists c r, s = c :: r /\ starter c.
Proof.
  intros (c&cs&->&S&F&L&M) E. destruct (sym_first_cases c S) as (ST&NS&N34&ND&N46&_). split; [|eauto].
  pose proof (Tok_Props.tok_symbol_name c cs rest false (sym_first_ok c S)) as T.
  assert (TS : tok_symbol (mkChan ((c :: cs) ++ rest) false) = Ok (Z.of_nat (List.length (c :: cs)), map lower (c :: cs))).
  { apply T; [|apply ends_stop in E; destruct rest; cbn; [auto|]; unfold Tok_Props.sym_part; destruct E as (->&_); discriminate|exact L].
    eapply Forall_impl; [|exact F]. intros a H. apply sym_next_ok; auto. }
  assert (D : tok_double (mkChan ((c :: cs) ++ rest) false) = Ok (0, [], 0) /\ tok_integer (mkChan ((c :: cs) ++ rest) false) = Ok (mkInt 0 false 0 0)).
  { destruct (Z.eq_dec c 45) as [->|N].
    - assert (G : no_digit (cs ++ rest)).
      { destruct cs as [|x cs]; cbn [app no_digit].
        - apply ends_stop in E. destruct rest; cbn; [auto|tauto].
        - split; [eapply M; eauto|]. inversion F; subst. apply sym_next_cases; auto. }
      split; [apply no_double_minus|apply no_integer_minus]; auto.
    - split; [apply no_double|apply no_integer]; auto. }
  destruct D as (D1&D2). unfold next_token. cbn [app] in *. rewrite no_syntax by auto. change (0 >? 0) with false. change (0 <? 0) with false. cbv iota.
  rewrite no_string by auto. cbn [bind]. change (0 >=? 2) with false. cbv iota. rewrite D1. cbn [bind]. change (0 >? 0) with false. cbv iota.
  rewrite D2. cbn [bind ti_len]. change (0 >? 0) with false. change (0 <? 0) with false. cbv iota. rewrite TS. cbn [bind].
  destruct (Z.gtb_spec (Z.of_nat (List.length (c :: cs))) 0) as [_|N]; [reflexivity|cbn [List.length] in N; lia].
Qed.

(* ---- integers ---- *)
Lemma dbl_digits ds : forall pre rest c buf fuel, Forall digit (c :: ds) -> (match rest with [] => True | x :: _ => ~ digit x end) ->
  List.length buf = List.length pre -> (List.length pre + List.length (c :: ds) <= 128)%nat -> (List.length ds < fuel)%nat ->
  exists n x buf', dbl_loop fuel num_char (mkChan (pre ++ (c :: ds) ++ rest) false) (List.length pre) c buf = Ok (Some (n, x, buf')) /\
    (x = hd (last (c :: ds) 0) rest).
Proof.
  induction ds as [|y ds IH]; intros pre rest c buf fuel F S LB L FU; (destruct fuel as [|fuel]; [cbn in FU; lia|]); cbn [dbl_loop];
    inversion F as [|? ? D F']; subst; (assert (E : num_char c = true) by (unfold num_char; unfold digit in D; lia)); rewrite E;
    rewrite Tok_Props.push_ok by (cbn [List.length] in L; lia); cbn [bind app].
  - rewrite (Tok_Props.app_snoc pre c), (Tok_Props.len_snoc pre c). destruct rest as [|x rest].
    + rewrite app_nil_r, Tok_Props.peek_end. eauto.
    + rewrite Tok_Props.peek_app. destruct fuel; cbn [dbl_loop]; (assert (E2 : num_char x = false) by (unfold num_char; unfold digit in S; lia)); rewrite E2; eauto.
  - rewrite (Tok_Props.app_snoc pre c), (Tok_Props.len_snoc pre c), Tok_Props.peek_app.
    destruct (IH (pre ++ [c]) rest y (buf ++ [c]) fuel F' S) as (n&x&b&E1&E2).
    + rewrite !app_length, LB. reflexivity.
    + rewrite app_length. cbn [List.length] in *. lia.
    + cbn [List.length] in FU. lia.
    + cbn [app] in E1. rewrite E1. do 3 eexists. split; [reflexivity|]. exact E2.
Qed.

Lemma last_digit c ds : Forall digit (c :: ds) -> digit (last (c :: ds) 0).
Proof.
  revert c. induction ds as [|y ds IH]; intros c F; inversion F; subst; [auto|]. change (last (c :: y :: ds) 0) with (last (y :: ds) 0). auto.
Qed.

Lemma digits_no_double neg ds rest : ds <> [] -> Forall digit ds -> (List.length ds <= 120)%nat ->
  (match rest with [] => True | x :: _ => ~ digit x /\ x <> 46 end) -> tok_double (mkChan (minus neg ++ ds ++ rest) false) = Ok (0, [], 0).
Proof.
  intros NE F L ST. destruct ds as [|c ds]; [congruence|]. clear NE. pose proof (last_digit c ds F) as LD.
  assert (DC : digit c) by (inversion F; auto). unfold digit in DC.
  assert (S' : match rest with [] => True | x :: _ => ~ digit x end) by (destruct rest; tauto).
  assert (HX : hd (last (c :: ds) 0) rest <> 46) by (destruct rest; cbn [hd]; [unfold digit in LD; lia|tauto]).
  unfold tok_double. destruct neg; cbn [minus app].
  - change (codes "-" ++ c :: ds ++ rest) with (45 :: c :: ds ++ rest). unfold peek. cbn [ch_data nth_error Z.eqb Pos.eqb]. cbv zeta. unfold push at 1. cbn [List.length Nat.ltb Nat.leb bind app nth_error].
    destruct (dbl_digits ds [45] rest c [45] (S (List.length (45 :: c :: ds ++ rest))) F S' eq_refl) as (n&x&b&E&X).
    { cbn [List.length] in *. lia. } { cbn [List.length]. rewrite app_length. lia. }
    cbn [app List.length] in E |- *. rewrite E. cbn [bind]. rewrite <- X in HX. destruct (Z.eqb_spec x 46); [congruence|]. reflexivity.
  - unfold peek. cbn [ch_data nth_error]. destruct (Z.eqb_spec c 45); [lia|]. cbv zeta. cbn [bind nth_error].
    destruct (dbl_digits ds [] rest c [] (S (List.length (c :: ds ++ rest))) F S' eq_refl) as (n'&x&b&E&X).
    { cbn [List.length] in *. lia. } { cbn [List.length]. rewrite app_length. lia. }
    cbn [app List.length] in E |- *. rewrite E. cbn [bind]. rewrite <- X in HX. destruct (Z.eqb_spec x 46); [congruence|]. reflexivity.
Qed.

Definition tok_type (k : kind) : Z :=
  match k with
  | KI => TOKTYPEI | KU => TOKTYPEU | KChar => TOKTYPEBYTE | KI32 => TOKTYPEI32 | KU32 => TOKTYPEU32 | KI64 => TOKTYPEI64 | _ => TOKTYPEU64
  end.
Lemma not_starts a r p : match r with [] => True | c :: _ => c <> a end -> ~ Tok_Props.starts (a :: p) r.
Proof. intros N (x&E). destruct r; [discriminate|]. injection E as -> _. congruence. Qed.
Lemma suffix_text k suf rest : suffixes k suf -> ends rest -> Tok_Props.suffix (suf ++ rest) (tok_type k) (List.length suf).
Proof.
  intros S E. apply ends_stop in E.
  assert (NL : forall a p, letter a -> ~ Tok_Props.starts (a :: p) rest).
  { intros a p La. apply not_starts. destruct rest; auto. intros ->. tauto. }
  assert (LT : letter 105 /\ letter 117 /\ letter 98 /\ letter 102) by (unfold letter; lia). destruct LT as (L1&L2&L3&L4).
  assert (I : forall p, (exists s, s = p ++ rest) -> Tok_Props.starts p (p ++ rest)) by (intros p _; exists rest; auto).
  assert (ND : forall a p, digit a -> ~ Tok_Props.starts (a :: p) rest).
  { intros a p La. apply not_starts. destruct rest; auto. intros ->. tauto. }
  assert (C1 : forall a p, ~ Tok_Props.starts p rest -> ~ Tok_Props.starts (a :: p) (a :: rest)).
  { intros a p N (x&X). apply N. exists x. cbn [app] in X. congruence. }
  assert (D : digit 54 /\ digit 51) by (unfold digit; lia). destruct D as (D1&D2).
  destruct k; cbn [suffixes] in S; try contradiction; try (destruct S as [S|S]); subst suf; cbn [tok_type].
  - apply Tok_Props.suf_b. apply I; eauto.
  - cbn [app List.length]. apply Tok_Props.suf_none; apply NL; auto.
  - apply Tok_Props.suf_i; [apply I; eauto|apply C1, ND; auto..].
  - apply Tok_Props.suf_u; [apply I; eauto|apply C1, ND; auto..].
  - apply Tok_Props.suf_i32. apply I; eauto.
  - apply Tok_Props.suf_u32. apply I; eauto.
  - apply Tok_Props.suf_i64. apply I; eauto.
  - apply Tok_Props.suf_u64. apply I; eauto.
Qed.

Section Arch.
Context {A : Arch}.

Lemma suffixes_head k suf rest : suffixes k suf -> ends rest ->
  match suf ++ rest with [] => True | c :: _ => ~ digit c /\ c <> 46 /\ c <> 120 /\ c <> 88 end.
Proof.
  intros S E. apply ends_stop in E.
  destruct k; cbn [suffixes] in S; try contradiction; try (destruct S as [S|S]); subst suf; cbn; try (unfold digit; lia).
  destruct rest; auto. destruct E as (_&E1&E2&E3). unfold letter in E3. repeat split; auto; intros ->; apply E3; lia.
Qed.

Lemma minus_sign neg : minus neg = Tok_Props.sign neg. Proof. destruct neg; reflexivity. Qed.

Lemma integer_token s k n rest : number_text s k n -> ends rest ->
  exists neg val, next_token (mkChan (s ++ rest) false) = Ok (NTok (KInt neg (val mod 2 ^ 64) (tok_type k)) (Z.of_nat (List.length s))) /\
    n = signed neg val /\ in_range k n /\ (exists suf, suffixes k suf) /\ exists c r, s = c :: r /\ starter c.
Proof.
  intros N E.
  assert (TT : forall k suf, suffixes k suf -> (100 <=? tok_type k) && (tok_type k <=? 106) = true) by (intros k0 suf; destruct k0; cbn; tauto).
  assert (FIN : forall c r neg val len, ~ In c syntax_starts -> c <> 34 -> (exists suf, suffixes k suf) -> 0 < len ->
    tok_double (mkChan (c :: r) false) = Ok (0, [], 0) -> tok_integer (mkChan (c :: r) false) = Ok (mkInt len neg val (tok_type k)) ->
    next_token (mkChan (c :: r) false) = Ok (NTok (KInt neg val (tok_type k)) len)).
  { intros c r neg val len NS N34 (suf&SU) LP D I. unfold next_token. rewrite no_syntax by auto. change (0 >? 0) with false. change (0 <? 0) with false. cbv iota.
    rewrite no_string by auto. cbn [bind]. change (0 >=? 2) with false. cbv iota. rewrite D. cbn [bind]. change (0 >? 0) with false. cbv iota.
    rewrite I. cbn [bind ti_len ti_type ti_neg ti_val]. destruct (Z.gtb_spec len 0); [|lia]. rewrite (TT _ _ SU). reflexivity. }
  assert (HD : forall neg c r, digit c -> exists c' r', minus neg ++ c :: r = c' :: r' /\ starter c' /\ ~ In c' syntax_starts /\ c' <> 34).
  { intros neg c r Dc. destruct neg; [exists 45, (c :: r)|exists c, r]; (split; [reflexivity|]); unfold digit in Dc; unfold starter, space, syntax_starts; cbn; lia. }
  inversion N as [neg ds suf k0 n0 NE F L SU V R|neg x ds vs suf k0 n0 X NE F2 SU NK V R]; subst.
  - pose proof (suffixes_head _ _ _ SU E) as SH. destruct ds as [|c ds]; [congruence|]. assert (DC : digit c) by (inversion F; auto).
    destruct (HD neg c (ds ++ suf) DC) as (c'&r'&E'&ST&NS&N34).
    exists neg, (positional 10 (map (fun c => c - 48) (c :: ds))). split; [|split; [auto|split; [auto|split; [eauto|exists c', r'; auto]]]].
    pose proof (Tok_Props.tok_integer_decimal neg (c :: ds) (suf ++ rest) (tok_type k) (List.length suf) NE F) as T.
    pose proof (digits_no_double neg (c :: ds) (suf ++ rest) NE F L) as D.
    rewrite <- !app_assoc. rewrite minus_sign in *.
    assert (PV : Tok_Props.number 10 Tok_Props.dec_digit (c :: ds) = positional 10 (map (fun c => c - 48) (c :: ds))).
    { unfold Tok_Props.number, positional. generalize 0. generalize (c :: ds). induction l as [|a l IH]; intros z; cbn [fold_left map]; auto. }
    rewrite PV in T.
    assert (E2 : Tok_Props.sign neg ++ (c :: ds) ++ suf ++ rest = c' :: r' ++ rest).
    { change (c' :: r' ++ rest) with ((c' :: r') ++ rest). rewrite <- E', <- !app_assoc. cbn [app]. rewrite <- ?app_assoc. reflexivity. }
    rewrite !app_length, Nat.add_assoc. rewrite E2 in *. apply FIN; eauto.
    + cbn [List.length]. lia.
    + apply D. destruct (suf ++ rest); tauto.
    + apply T.
      * destruct (suf ++ rest); [reflexivity|]. cbn. unfold Tok_Props.is_dec. cbn. unfold digit in SH. tauto.
      * apply suffix_text; auto.
      * intros _. destruct (suf ++ rest) as [|z zs]; split; intros (q&Q); try discriminate; injection Q as -> _; destruct SH as (_&_&H1&H2); [apply H1|apply H2]; reflexivity.
  - pose proof (suffixes_head _ _ _ SU E) as SH.
    destruct (HD neg 48 (x :: ds ++ suf)) as (c'&r'&E'&ST&NS&N34); [unfold digit; lia|].
    exists neg, (positional 16 vs). split; [|split; [auto|split; [auto|split; [eauto|exists c', r'; auto]]]].
    assert (HX : Forall Tok_Props.is_hex ds /\ Tok_Props.number 16 Tok_Props.hex_digit ds = positional 16 vs).
    { unfold Tok_Props.number, positional. clear - F2. generalize 0. induction F2 as [|c v ds vs H F2 IH]; intros z; cbn [fold_left]; [split; [constructor|auto]|].
      destruct (IH (z * 16 + v)) as (I1&I2). split.
      - constructor; auto. unfold hex_digit in H. unfold Tok_Props.is_hex, Tok_Props.is_dec. cbn. lia.
      - rewrite <- I2. do 2 f_equal. unfold hex_digit in H. unfold Tok_Props.hex_digit. cbn.
        destruct (Z.leb_spec c 57); [lia|]. destruct (Z.leb_spec c 70); lia. }
    destruct HX as (HX&PV).
    pose proof (Tok_Props.tok_integer_hex neg x ds (suf ++ rest) (tok_type k) (List.length suf) X NE HX) as T. rewrite PV in T.
    rewrite <- !app_assoc. rewrite minus_sign in *. cbn [app]. rewrite <- app_assoc.
    assert (E2 : Tok_Props.sign neg ++ 48 :: x :: ds ++ suf ++ rest = c' :: r' ++ rest).
    { change (c' :: r' ++ rest) with ((c' :: r') ++ rest). rewrite <- E', <- !app_assoc. cbn [app]. rewrite <- ?app_assoc. reflexivity. }
    assert (LE : Z.of_nat (List.length (Tok_Props.sign neg ++ 48 :: x :: ds ++ suf)) = Z.of_nat (List.length (Tok_Props.sign neg) + 2 + List.length ds + List.length suf)).
    { rewrite app_length. cbn [List.length]. rewrite app_length. lia. }
    assert (DB : tok_double (mkChan (Tok_Props.sign neg ++ 48 :: x :: ds ++ suf ++ rest) false) = Ok (0, [], 0)).
    { pose proof (digits_no_double neg [48] (x :: ds ++ suf ++ rest)) as D. rewrite minus_sign in D. apply D; [discriminate| |cbn; lia|].
      - constructor; [unfold digit; lia|constructor].
      - unfold digit. lia. }
    rewrite LE. cbn [app] in T. change (Tok_Model.char_of _) with 48 in T. rewrite E2 in *. apply FIN; eauto; [lia|].
    apply T; [|apply suffix_text; auto].
    clear - SU SH E NK. apply ends_stop in E.
    destruct k; cbn [suffixes] in SU; try contradiction; try congruence; try (destruct SU as [SU|SU]); subst suf; cbn [app Tok_Props.stops codes list_ascii_of_string map];
      try (unfold Tok_Props.is_hex, Tok_Props.is_dec; cbn; lia).
    destruct rest; [reflexivity|]. cbn [app] in SH. destruct E as (_&E1&_&E3). unfold letter, digit in *. unfold Tok_Props.is_hex, Tok_Props.is_dec. cbn. lia.
Qed.

(* ---- characters, strings, syntax ---- *)
Lemma backslash_token r n c : tok_char (mkChan (92 :: r) false) = (n, c) -> 0 < n -> next_token (mkChan (92 :: r) false) = Ok (NTok (KCharacter c) n).
Proof.
  intros T P. unfold next_token. rewrite no_syntax by (unfold syntax_starts; cbn; lia). change (0 >? 0) with false. change (0 <? 0) with false. cbv iota.
  rewrite no_string by lia. cbn [bind]. change (0 >=? 2) with false. cbv iota. rewrite no_double by (unfold digit; lia). cbn [bind]. change (0 >? 0) with false. cbv iota.
  rewrite no_integer by (unfold digit; lia). cbn [bind ti_len]. change (0 >? 0) with false. change (0 <? 0) with false. cbv iota.
  change (tok_symbol (mkChan (92 :: r) false)) with (Ok (0, []) : res (Z * list Z)). cbn [bind]. change (0 >? 0) with false. change (0 <? 0) with false. cbv iota.
  rewrite T. destruct (Z.gtb_spec n 0); [reflexivity|lia].
Qed.
Lemma char_token c rest : c <> 92 -> next_token (mkChan ((codes "\#" ++ [c]) ++ rest) false) = Ok (NTok (KCharacter c) 3).
Proof.
  intros N. apply (backslash_token (35 :: c :: rest)); [|lia]. unfold tok_char, peek. cbn [ch_data nth_error Z.eqb Pos.eqb negb].
  destruct (Z.eqb_spec c 92); [congruence|]. reflexivity.
Qed.
Lemma named_token c x rest : In (c, x) named_chars -> next_token (mkChan ((codes "\#\" ++ [c]) ++ rest) false) = Ok (NTok (KCharacter x) 4).
Proof.
  intros I. apply (backslash_token (35 :: 92 :: c :: rest)); [|lia]. unfold tok_char, peek. cbn [ch_data nth_error Z.eqb Pos.eqb negb].
  cbn in I. repeat destruct I as [[= <- <-]|I]; try destruct I; reflexivity.
Qed.
Lemma in_quotes_escape c : in_quotes c = Tok_Props.escape c.
Proof.
  unfold in_quotes, Tok_Props.escape, esc. destruct (Z.eqb_spec c 0) as [->|N]; [reflexivity|].
  repeat match goal with |- context [c =? ?x] => destruct (Z.eqb_spec c x); [reflexivity|] end. reflexivity.
Qed.
Lemma string_quoted s : string_text s = Tok_Props.quoted s.
Proof. unfold string_text, Tok_Props.quoted. change (codes """") with [34]. do 2 f_equal. apply flat_map_ext. apply in_quotes_escape. Qed.
Lemma string_token s rest : (List.length s <= 256)%nat ->
  next_token (mkChan (string_text s ++ rest) false) = Ok (NTok (KString s) (Z.of_nat (List.length (string_text s)))).
Proof. intros L. rewrite string_quoted. apply (Tok_Props.tok_string_quoted s rest false L). Qed.

Definition syntax_chars : list (Z * Z) := [(40, 1); (41, 2); (91, 3); (93, 4); (46, 5); (95, 6); (39, 7); (63, 11); (123, 12); (125, 13)].
Lemma syntax_token c tok rest : In (c, tok) syntax_chars -> next_token (mkChan (c :: rest) false) = Ok (NTok (KSyntax tok) 1) /\ starter c.
Proof.
  intros I. cbn in I. unfold starter, space. repeat destruct I as [[= <- <-]|I]; try destruct I; (split; [reflexivity|lia]).
Qed.

End Arch.
