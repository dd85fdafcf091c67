(* C43, C55-C57: the tokenizer. *)
From Coq Require Import String Ascii.
From Verif Require Import Base Tok_Model.
Local Open Scope Z_scope.

(* ---- specifications ---- *)

(* the number a string of digits stands for *)
Definition number (base : Z) (val : Z -> Z) (ds : list Z) : Z := fold_left (fun n d => n * base + val d) ds 0.
Definition dec_digit (c : Z) : Z := c - char_of "0".
Definition is_dec (c : Z) : Prop := char_of "0" <= c <= char_of "9".
Definition is_hex (c : Z) : Prop := is_dec c \/ char_of "a" <= c <= char_of "f" \/ char_of "A" <= c <= char_of "F".
Definition hex_digit (c : Z) : Z :=
  if c <=? char_of "9" then c - char_of "0" else if c <=? char_of "F" then c - char_of "A" + 10 else c - char_of "a" + 10.

(* the characters end here: [P] does not hold of the next one, or there is none *)
Definition stops (P : Z -> Prop) (rest : list Z) (more : bool) : Prop :=
  match rest with [] => more = false | c :: _ => ~ P c end.

(* the type suffixes and the type and length they give *)
Definition starts (p l : list Z) : Prop := exists r, l = p ++ r.
Inductive suffix : list Z -> Z -> nat -> Prop :=
| suf_i64 l : starts (chars "i64") l -> suffix l TOKTYPEI64 3
| suf_u64 l : starts (chars "u64") l -> suffix l TOKTYPEU64 3
| suf_i32 l : starts (chars "i32") l -> suffix l TOKTYPEI32 3
| suf_u32 l : starts (chars "u32") l -> suffix l TOKTYPEU32 3
| suf_i l : starts (chars "i") l -> ~ starts (chars "i64") l -> ~ starts (chars "i32") l -> suffix l TOKTYPEI 1
| suf_u l : starts (chars "u") l -> ~ starts (chars "u64") l -> ~ starts (chars "u32") l -> suffix l TOKTYPEU 1
| suf_b l : starts (chars "b") l -> suffix l TOKTYPEBYTE 1
| suf_none l : ~ starts (chars "i") l -> ~ starts (chars "u") l -> ~ starts (chars "b") l -> ~ starts (chars "f") l -> suffix l TOKTYPEI 0.

(* a string between quotes *)
Definition escape (c : Z) : list Z :=
  if c =? 34 then [92; 34] else if c =? 92 then [92; 92] else if c =? 10 then [92; 110] else if c =? 13 then [92; 114]
  else if c =? 9 then [92; 116] else if c =? 0 then [92; 48] else [c].
Definition quoted (s : list Z) : list Z := [34] ++ flat_map escape s ++ [34].

(* ---- streaming ---- *)

Lemma peek_ext d d' m n c : (exists x, peek (mkChan d true) n c = (PSucc, x) /\ peek (mkChan (d ++ d') m) n c = (PSucc, x)) \/
  peek (mkChan d true) n c = (PMore, c).
Proof.
  unfold peek. simpl. destruct (nth_error d n) as [x|] eqn:E; auto. left. exists x. split; auto.
  rewrite nth_error_app1; [rewrite E; auto|]. apply nth_error_Some. congruence.
Qed.

Ltac pext d d' m n c := let x := fresh "x" in let E1 := fresh "PE" in let E2 := fresh "PE" in
  destruct (peek_ext d d' m n c) as [(x&E1&E2)|E1]; [rewrite ?E1, ?E2|rewrite ?E1].

Lemma match_str_ext d d' m s : forall n, match_str (mkChan d true) n s = MMore \/ match_str (mkChan (d ++ d') m) n s = match_str (mkChan d true) n s.
Proof.
  induction s as [|x s IH]; intros n; cbn [match_str]; auto.
  pext d d' m n 0; auto. destruct (_ =? x); auto.
Qed.

Lemma match_tokens_ext d d' m n t : fst (match_tokens (mkChan d true) n t) = NEED_MORE \/
  match_tokens (mkChan (d ++ d') m) n t = match_tokens (mkChan d true) n t.
Proof.
  induction t as [|[s tok] t IH]; cbn [match_tokens]; auto.
  destruct (match_str_ext d d' m s n) as [E|E]; rewrite E; [left; reflexivity|].
  destruct (match_str (mkChan d true) n s); auto.
Qed.

Lemma int_loop_ext ok val base d d' m : forall fuel fuel' n c acc o, (fuel <= fuel')%nat ->
  int_loop fuel ok val base (mkChan d true) n c acc = Ok (Some o) -> int_loop fuel' ok val base (mkChan (d ++ d') m) n c acc = Ok (Some o).
Proof.
  induction fuel as [|k IH]; intros fuel' n c acc o L; cbn [int_loop]; destruct (ok c) eqn:OK.
  - discriminate.
  - intros E. destruct fuel'; cbn [int_loop]; rewrite OK; auto.
  - destruct fuel' as [|k']; [lia|]. cbn [int_loop]. rewrite OK. pext d d' m (Datatypes.S n) c.
    + apply IH. lia.
    + discriminate.
  - intros E. destruct fuel'; cbn [int_loop]; rewrite OK; auto.
Qed.

Lemma dbl_loop_ext ok d d' m : forall fuel fuel' n c buf o, (fuel <= fuel')%nat ->
  dbl_loop fuel ok (mkChan d true) n c buf = Ok (Some o) -> dbl_loop fuel' ok (mkChan (d ++ d') m) n c buf = Ok (Some o).
Proof.
  induction fuel as [|k IH]; intros fuel' n c buf o L; cbn [dbl_loop]; destruct (ok c) eqn:OK.
  - discriminate.
  - intros E. destruct fuel'; cbn [dbl_loop]; rewrite OK; auto.
  - destruct fuel' as [|k']; [lia|]. cbn [dbl_loop]. rewrite OK. destruct (push 128 buf c); cbn [bind]; try discriminate. pext d d' m (Datatypes.S n) c.
    + apply IH. lia.
    + discriminate.
  - intros E. destruct fuel'; cbn [dbl_loop]; rewrite OK; auto.
Qed.

Lemma sym_loop_ext d d' m : forall fuel fuel' n r c buf o, (fuel <= fuel')%nat -> r <> PEnd ->
  sym_loop fuel (mkChan d true) n r c buf = Ok o -> fst o = NEED_MORE \/ sym_loop fuel' (mkChan (d ++ d') m) n r c buf = Ok o.
Proof.
  induction fuel as [|k IH]; intros fuel' n r c buf o L R; cbn [sym_loop]; destruct r; try congruence; try (intros [= <-]; auto; fail).
  - destruct (symchar c) eqn:OK; [discriminate|]. intros E. right. destruct fuel'; cbn [sym_loop]; rewrite OK; auto.
  - destruct (symchar c) eqn:OK.
    + destruct fuel' as [|k']; [lia|]. cbn [sym_loop]. rewrite OK. destruct (255 <=? n)%nat; auto.
      match goal with |- context [bind ?x _] => destruct x as [b| |] end; cbn [bind]; try discriminate.
      pext d d' m (Datatypes.S n) (tolower c).
      * apply IH; [lia|discriminate].
      * destruct k; cbn [sym_loop]; intros [= <-]; auto.
    + intros E. right. destruct fuel'; cbn [sym_loop]; rewrite OK; auto.
Qed.

Lemma str_loop_ext d d' m : forall fuel fuel' n r c en buf o, (fuel <= fuel')%nat -> r <> PEnd ->
  str_loop fuel (mkChan d true) n r c en buf = Ok o -> fst o = NEED_MORE \/ str_loop fuel' (mkChan (d ++ d') m) n r c en buf = Ok o.
Proof.
  induction fuel as [|k IH]; intros fuel' n r c en buf o L R; cbn [str_loop]; destruct r; try congruence; try (intros [= <-]; auto; fail).
  - destruct (_ && _) eqn:OK; [discriminate|]. intros E. right. destruct fuel'; cbn [str_loop]; rewrite OK; auto.
  - destruct (_ && _) eqn:OK.
    + destruct fuel' as [|k']; [lia|]. cbn [str_loop]. rewrite OK.
      match goal with |- context [bind ?x _] => destruct x as [[b en']| |] end; cbn [bind]; try discriminate.
      pext d d' m (Datatypes.S n) c.
      * apply IH; [lia|discriminate].
      * destruct k; cbn [str_loop]; intros [= <-]; auto.
    + intros E. right. destruct fuel'; cbn [str_loop]; rewrite OK; auto.
Qed.

Section Ext.
Variables (d d' : list Z) (m : bool).
Let c1 := mkChan d true.
Let c2 := mkChan (d ++ d') m.

Lemma fuel_le : (Datatypes.S (length d) <= Datatypes.S (length (d ++ d')))%nat.
Proof. rewrite app_length. lia. Qed.

Lemma tok_syntax_ext : fst (tok_syntax c1) = NEED_MORE \/ tok_syntax c2 = tok_syntax c1.
Proof. apply match_tokens_ext. Qed.

Lemma tok_string_ext o : tok_string c1 = Ok o -> fst o = NEED_MORE \/ tok_string c2 = Ok o.
Proof.
  unfold tok_string, c1, c2. pext d d' m 0%nat 0; [|intros [= <-]; auto]. destruct (negb _); auto.
  pext d d' m 1%nat x; [|cbn [str_loop]; intros [= <-]; auto]. apply str_loop_ext; [apply fuel_le|discriminate].
Qed.

Lemma tok_symbol_ext o : tok_symbol c1 = Ok o -> fst o = NEED_MORE \/ tok_symbol c2 = Ok o.
Proof.
  unfold tok_symbol, c1, c2. pext d d' m 0%nat 0; [|intros [= <-]; auto]. destruct (negb _); auto.
  destruct (push _ _ _) as [b| |]; cbn [bind]; try discriminate.
  pext d d' m 1%nat x; [|cbn [sym_loop]; intros [= <-]; auto]. apply sym_loop_ext; [apply fuel_le|discriminate].
Qed.

Lemma tok_char_ext : fst (tok_char c1) = NEED_MORE \/ tok_char c2 = tok_char c1.
Proof.
  unfold tok_char, c1, c2. pext d d' m 0%nat 0; auto. destruct (negb _); auto.
  pext d d' m 1%nat x; auto. destruct (negb _); auto. pext d d' m 2%nat x0; auto. destruct (_ =? _); auto.
  pext d d' m 3%nat x1; auto.
Qed.

Lemma tok_integer_ext o : tok_integer c1 = Ok o -> ti_len o = NEED_MORE \/ tok_integer c2 = Ok o.
Proof.
  unfold tok_integer, c1, c2. cbn [ch_data]. pext d d' m 0%nat 0; [|intros [= <-]; auto].
  set (n := if x =? 45 then 1%nat else 0%nat).
  assert (TAIL : forall r : res (option (nat * Z)), forall r2,
    (forall v, r = Ok (Some v) -> r2 = Ok (Some v)) -> forall o,
    bind (bind r (fun d => Ok (match d with None => inl NEED_MORE | Some x => inr x end)))
      (fun d => match d with
      | inl code => Ok (mkInt code false 0 0)
      | inr (n, acc) =>
        if (n =? 0)%nat then Ok (mkInt NO_TOKEN false 0 0) else
        let '(type_len, tok) := match_tokens c1 n type_qual_table in
        if type_len =? NEED_MORE then Ok (mkInt NEED_MORE false 0 0) else
        let type := if type_len =? NO_TOKEN then TOKTYPEI else tok in
        if negb (x =? 45) || (1 <? n)%nat then Ok (mkInt (Z.of_nat n + type_len) (x =? 45) acc type)
        else Ok (mkInt NO_TOKEN false 0 0)
      end) = Ok o -> ti_len o = NEED_MORE \/
    bind (bind r2 (fun d => Ok (match d with None => inl NEED_MORE | Some x => inr x end)))
      (fun d => match d with
      | inl code => Ok (mkInt code false 0 0)
      | inr (n, acc) =>
        if (n =? 0)%nat then Ok (mkInt NO_TOKEN false 0 0) else
        let '(type_len, tok) := match_tokens c2 n type_qual_table in
        if type_len =? NEED_MORE then Ok (mkInt NEED_MORE false 0 0) else
        let type := if type_len =? NO_TOKEN then TOKTYPEI else tok in
        if negb (x =? 45) || (1 <? n)%nat then Ok (mkInt (Z.of_nat n + type_len) (x =? 45) acc type)
        else Ok (mkInt NO_TOKEN false 0 0)
      end) = Ok o).
  { intros r r2 H o0. destruct r as [[[k acc]|]| |]; cbn [bind]; try discriminate; [|intros [= <-]; auto].
    rewrite (H _ eq_refl). cbn [bind]. destruct (k =? 0)%nat; auto. unfold c1, c2.
    destruct (match_tokens_ext d d' m k type_qual_table) as [E|E].
    - destruct (match_tokens _ k _) as [tl tk]. simpl in E. subst tl. simpl. intros [= <-]; auto.
    - rewrite E. destruct (match_tokens _ k _) as [tl tk]. destruct (tl =? NEED_MORE); auto. }
  destruct (peek_ext d d' m n x) as [(y&Ey&Ey2)|Ey]; rewrite Ey, ?Ey2; [|intros [= <-]; auto].
  destruct (y =? 48) eqn:Y.
  - destruct (peek_ext d d' m (Datatypes.S n) y) as [(z&Ez&Ez2)|Ez]; rewrite Ez, ?Ez2; [|intros [= <-]; auto].
    destruct (_ || _) eqn:HX.
    + destruct (peek_ext d d' m (Datatypes.S (Datatypes.S n)) z) as [(w&Ew&Ew2)|Ew]; rewrite Ew, ?Ew2; [|cbn [bind]; intros [= <-]; auto].
      apply TAIL. intros v. apply int_loop_ext. apply fuel_le.
    + destruct (peek_ext d d' m n z) as [(w&Ew&Ew2)|Ew]; rewrite Ew, ?Ew2; [|cbn [bind]; intros [= <-]; auto].
      apply TAIL. intros v. apply int_loop_ext. apply fuel_le.
  - destruct (peek_ext d d' m n y) as [(w&Ew&Ew2)|Ew]; rewrite Ew, ?Ew2; [|cbn [bind]; intros [= <-]; auto].
    apply TAIL. intros v. apply int_loop_ext. apply fuel_le.
Qed.

Lemma tok_double_ext o : tok_double c1 = Ok o -> fst (fst o) = NEED_MORE \/ tok_double c2 = Ok o.
Proof.
  unfold tok_double, c1, c2. cbn [ch_data]. pext d d' m 0%nat 0; [|intros [= <-]; auto].
  set (n := if x =? 45 then 1%nat else 0%nat).
  match goal with |- context [bind ?b _] => destruct b as [buf| |] end; cbn [bind]; try discriminate.
  destruct (peek_ext d d' m n x) as [(y&Ey&Ey2)|Ey]; rewrite Ey, ?Ey2; [|intros [= <-]; auto].
  destruct (dbl_loop (Datatypes.S (length d)) num_char (mkChan d true) n y buf) as [[[[n1 y1] b1]|]| |] eqn:L1; cbn [bind]; try discriminate; [|intros [= <-]; auto].
  rewrite (dbl_loop_ext _ _ d' m _ _ _ _ _ _ fuel_le L1). cbn [bind]. destruct (negb _); auto.
  destruct (push 128 b1 y1) as [b2| |]; cbn [bind]; try discriminate.
  destruct (peek_ext d d' m (Datatypes.S n1) y1) as [(z&Ez&Ez2)|Ez]; rewrite Ez, ?Ez2; [|intros [= <-]; auto].
  destruct (negb _); auto.
  destruct (dbl_loop (Datatypes.S (length d)) num_char (mkChan d true) (Datatypes.S n1) z b2) as [[[[n2 y2] b3]|]| |] eqn:L2; cbn [bind]; try discriminate; [|intros [= <-]; auto].
  rewrite (dbl_loop_ext _ _ d' m _ _ _ _ _ _ fuel_le L2). cbn [bind].
  assert (TAIL : forall n3 (b4 : list Z) (o : Z * list Z * Z),
      (let '(type_len, tok) := match_tokens (mkChan d true) n3 type_qual_table in
              if type_len =? NEED_MORE then Ok (NEED_MORE, @nil Z, 0) else
              let type := if type_len =? NO_TOKEN then TOKTYPEF32 else tok in
              let valid := if x =? 45 then (1 <? n3)%nat else (0 <? n3)%nat in
              if (127 <? n3)%nat then Ok (NO_TOKEN, @nil Z, 0)
              else if valid then Ok (Z.of_nat n3 + type_len, b4, type)
              else Ok (NO_TOKEN, @nil Z, 0)) = Ok o -> fst (fst o) = NEED_MORE \/
      (let '(type_len, tok) := match_tokens (mkChan (d ++ d') m) n3 type_qual_table in
              if type_len =? NEED_MORE then Ok (NEED_MORE, @nil Z, 0) else
              let type := if type_len =? NO_TOKEN then TOKTYPEF32 else tok in
              let valid := if x =? 45 then (1 <? n3)%nat else (0 <? n3)%nat in
              if (127 <? n3)%nat then Ok (NO_TOKEN, @nil Z, 0)
              else if valid then Ok (Z.of_nat n3 + type_len, b4, type)
              else Ok (NO_TOKEN, @nil Z, 0)) = Ok o).
  { intros n3 b4 o0. destruct (match_tokens_ext d d' m n3 type_qual_table) as [E|E].
    - destruct (match_tokens _ n3 _) as [tl tk]. simpl in E. subst tl. simpl. intros [= <-]; auto.
    - rewrite E. destruct (match_tokens _ n3 _) as [tl tk]. destruct (tl =? NEED_MORE); auto. }
  destruct (y2 =? 101).
  - destruct (push 128 b3 y2) as [b4| |]; cbn [bind]; try discriminate.
    destruct (peek_ext d d' m (Datatypes.S n2) y2) as [(w&Ew&Ew2)|Ew]; rewrite Ew, ?Ew2; [|cbn [bind]; intros [= <-]; auto].
    destruct (negb _); auto.
    match goal with |- context [dbl_loop (Datatypes.S (length d)) ?f (mkChan d true) ?a ?b ?c] =>
      destruct (dbl_loop (Datatypes.S (length d)) f (mkChan d true) a b c) as [[[[n3 y3] b5]|]| |] eqn:L3 end; cbn [bind]; try discriminate; [|intros [= <-]; auto].
    rewrite (dbl_loop_ext _ _ d' m _ _ _ _ _ _ fuel_le L3). cbn [bind]. apply TAIL.
  - cbn [bind]. apply TAIL.
Qed.

End Ext.

(* C55.  What has arrived decides the token or the reader waits: if characters
   [d] have arrived and more may come, and the reader does not wait, then the
   outcome is the same whatever comes after them. *)
Theorem tokenizer_streaming d d' m o : next_token (mkChan d true) = Ok o -> o = NMore \/ next_token (mkChan (d ++ d') m) = Ok o.
Proof.
  unfold next_token.
  destruct (tok_syntax_ext d d' m) as [E|E].
  { destruct (tok_syntax (mkChan d true)) as [n tk]. simpl in E. subst n. simpl. intros [= <-]; auto. }
  rewrite E. destruct (tok_syntax (mkChan d true)) as [n tk]. destruct (n >? 0); auto. destruct (n <? 0); auto. clear E n tk.
  destruct (tok_string (mkChan d true)) as [[n s]| |] eqn:E; cbn [bind]; try discriminate.
  destruct (tok_string_ext d d' m _ E) as [N|E2]; [simpl in N; subst n; simpl; intros [= <-]; auto|].
  rewrite E2. cbn [bind]. destruct (n >=? 2); auto. destruct (n <? 0); auto. clear E E2 n s.
  destruct (tok_double (mkChan d true)) as [[[n s] t]| |] eqn:E; cbn [bind]; try discriminate.
  destruct (tok_double_ext d d' m _ E) as [N|E2]; [simpl in N; subst n; simpl; intros [= <-]; auto|].
  rewrite E2. cbn [bind]. destruct (n >? 0); auto. destruct (n <? 0); auto. clear E E2 n s t.
  destruct (tok_integer (mkChan d true)) as [t| |] eqn:E; cbn [bind]; try discriminate.
  destruct (tok_integer_ext d d' m _ E) as [N|E2]; [rewrite N; simpl; intros [= <-]; auto|].
  rewrite E2. cbn [bind]. destruct (ti_len t >? 0); auto. destruct (ti_len t <? 0); auto. clear E E2 t.
  destruct (tok_symbol (mkChan d true)) as [[n s]| |] eqn:E; cbn [bind]; try discriminate.
  destruct (tok_symbol_ext d d' m _ E) as [N|E2]; [simpl in N; subst n; simpl; intros [= <-]; auto|].
  rewrite E2. cbn [bind]. destruct (n >? 0); auto. destruct (n <? 0); auto. clear E E2 n s.
  destruct (tok_char_ext d d' m) as [E|E].
  { destruct (tok_char (mkChan d true)) as [n tk]. simpl in E. subst n. simpl. intros [= <-]; auto. }
  rewrite E. auto.
Qed.

(* C55: the same for whitespace and comments: cleaning what has arrived and then
   the rest is cleaning all of it *)
Theorem whitespace_streaming d : forall cm d' m, 
  let '(r, lf, cm') := clean_whitespace cm d true in
  if r then lf <> [] /\ clean_whitespace cm (d ++ d') m = (true, lf ++ d', false)
  else lf = [] /\ clean_whitespace cm (d ++ d') m = clean_whitespace cm' d' m.
Proof.
  induction d as [|c d IH]; intros cm d' m; simpl; auto.
  destruct cm; [apply IH|]. destruct (c =? 59); [apply IH|]. destruct (isspace c); [apply IH|]. split; auto. discriminate.
Qed.

(* White space: blanks, and comments from a ';' to the end of the line. *)
Definition space (c : Z) : Prop := c = 32 \/ 9 <= c <= 13.
Inductive blank : list Z -> Prop :=
| b_nil : blank []
| b_space c t : space c -> blank t -> blank (c :: t)
| b_comment txt t : ~ In 10 txt -> blank t -> blank (59 :: txt ++ 10 :: t).

Lemma isspace_ok c : isspace c = true <-> space c.
Proof. unfold isspace, space. rewrite orb_true_iff, andb_true_iff, Z.eqb_eq, !Z.leb_le. tauto. Qed.

Lemma comment_ok txt r more : ~ In 10 txt -> clean_whitespace true (txt ++ 10 :: r) more = clean_whitespace false r more.
Proof.
  induction txt as [|x t IH]; intros N; cbn [app clean_whitespace]; auto.
  destruct (Z.eqb_spec x 10); [exfalso; apply N; left; auto|]. cbn [negb]. apply IH. intros J; apply N; right; auto.
Qed.

Lemma comment_open txt more : ~ In 10 txt -> clean_whitespace true txt more = (negb more, [], more).
Proof.
  induction txt as [|x t IH]; intros N; cbn [clean_whitespace]; [destruct more; auto|].
  destruct (Z.eqb_spec x 10); [exfalso; apply N; left; auto|]. cbn [negb]. apply IH. intros J; apply N; right; auto.
Qed.

Lemma blank_dropped b r more : blank b -> clean_whitespace false (b ++ r) more = clean_whitespace false r more.
Proof.
  induction 1 as [|c t S B IH|txt t N B IH]; auto; cbn [app clean_whitespace].
  - destruct (Z.eqb_spec c 59) as [->|]; [unfold space in S; lia|]. apply isspace_ok in S. rewrite S. auto.
  - cbn [Z.eqb Pos.eqb]. rewrite <- app_assoc. cbn [app]. rewrite comment_ok; auto.
Qed.

(* C55: exactly the white space and comments in front of the next token are
   dropped; a comment without its end is dropped as far as it has come. *)
Theorem whitespace_dropped b : blank b ->
  (forall c r more, c <> 59 -> ~ space c -> clean_whitespace false (b ++ c :: r) more = (true, c :: r, false)) /\
  (forall txt more, ~ In 10 txt -> clean_whitespace false (b ++ 59 :: txt) more = (negb more, [], more)) /\
  (forall more, clean_whitespace false b more = (negb more, [], false)).
Proof.
  intros B. split; [|split].
  - intros c r more N S. rewrite blank_dropped by auto. cbn [clean_whitespace]. destruct (Z.eqb_spec c 59); [congruence|].
    destruct (isspace c) eqn:I; auto. apply isspace_ok in I. contradiction.
  - intros txt more N. rewrite blank_dropped by auto. cbn [clean_whitespace Z.eqb Pos.eqb]. apply comment_open; auto.
  - intros more. rewrite <- (app_nil_r b), blank_dropped by auto. destruct more; auto.
Qed.

Example blank_case : blank [32; 59; 97; 59; 10; 9] /\ clean_whitespace false [32; 59; 97; 59; 10; 9; 40; 32] true = (true, [40; 32], false).
Proof.
  split; [|reflexivity]. apply b_space; [left; auto|]. apply (b_comment [97; 59] [9]); [cbn; intuition lia|].
  apply b_space; [right; lia|constructor].
Qed.

(* ---- integers ---- *)

Lemma peek_app pre x rest m c : peek (mkChan (pre ++ x :: rest) m) (length pre) c = (PSucc, x).
Proof. unfold peek. simpl. rewrite nth_error_app2, Nat.sub_diag by lia. reflexivity. Qed.
Lemma peek_end pre m c : peek (mkChan pre m) (length pre) c = ((if m then PMore else PEnd), c).
Proof. unfold peek. simpl. assert (E : nth_error pre (length pre) = None) by (apply nth_error_None; lia). rewrite E. reflexivity. Qed.

Fixpoint startsb (p l : list Z) : bool :=
  match p, l with
  | [], _ => true
  | x :: p, y :: l => (y =? x) && startsb p l
  | _, [] => false
  end.

Lemma startsb_ok p : forall l, startsb p l = true <-> starts p l.
Proof.
  unfold starts. induction p as [|x p IH]; intros l; simpl.
  - split; eauto.
  - destruct l as [|y l]; [split; [discriminate|intros (r&?); discriminate]|].
    rewrite andb_true_iff, IH, Z.eqb_eq. split; [intros (->&r&->); eauto|intros (r&[= -> ->]); eauto].
Qed.

Lemma startsb_no p l : ~ starts p l -> startsb p l = false.
Proof. intros N. destruct (startsb p l) eqn:E; auto. apply startsb_ok in E. tauto. Qed.

Lemma match_str_starts s : forall pre rest, match_str (mkChan (pre ++ rest) false) (length pre) s = if startsb s rest then MFull else MNo.
Proof.
  induction s as [|x s IH]; intros pre rest; cbn [match_str startsb]; auto. destruct rest as [|y rest].
  - rewrite app_nil_r, peek_end. reflexivity.
  - rewrite peek_app. destruct (y =? x); auto. simpl andb.
    specialize (IH (pre ++ [y]) rest). rewrite <- app_assoc, app_length, Nat.add_1_r in IH. exact IH.
Qed.

Lemma not_starts_hd a p l : ~ starts [a] l -> ~ starts (a :: p) l.
Proof. intros N (r&->). apply N. exists (p ++ r). auto. Qed.

Lemma suffix_ok pre rest ty k : suffix rest ty k ->
  exists tok, match_tokens (mkChan (pre ++ rest) false) (length pre) type_qual_table = (Z.of_nat k, tok) /\ (if Z.of_nat k =? NO_TOKEN then TOKTYPEI else tok) = ty.
Proof.
  intros S. unfold type_qual_table. cbn [match_tokens]. rewrite !match_str_starts.
  inversion S as [l H|l H|l H|l H|l H H1 H2|l H H1 H2|l H|l H1 H2 H3 H4]; subst.
  1-4: destruct H as (r&->); eexists; split; reflexivity.
  1: apply startsb_no in H1, H2; rewrite H1, H2; destruct H as (r&->); eexists; split; reflexivity.
  1: apply startsb_no in H1, H2; rewrite H1, H2; destruct H as (r&->); eexists; split; reflexivity.
  1: destruct H as (r&->); eexists; split; reflexivity.
  assert (G : forall a p, ~ starts [a] rest -> startsb (a :: p) rest = false) by (intros; apply startsb_no, not_starts_hd; auto).
  change (chars "f64") with (102 :: chars "64"). change (chars "f32") with (102 :: chars "32").
  change (chars "i64") with (105 :: chars "64"). change (chars "i32") with (105 :: chars "32").
  change (chars "u64") with (117 :: chars "64"). change (chars "u32") with (117 :: chars "32").
  change (chars "i") with [105] in *. change (chars "u") with [117] in *. change (chars "b") with [98] in *. change (chars "f") with [102] in *.
  rewrite !G by auto. eexists; split; reflexivity.
Qed.

Section Loop.
Variables (ok : Z -> bool) (val : Z -> Z) (base : Z).

Definition wfold (ds : list Z) (acc : Z) : Z := fold_left (fun n d => wrap 64 (n * base + val d)) ds acc.

Lemma int_loop_ok ds : forall pre c rest m acc fuel, ok c = true -> Forall (fun c => ok c = true) ds -> stops (fun c => ok c = true) rest m ->
  (length ds < fuel)%nat ->
  int_loop fuel ok val base (mkChan (pre ++ c :: ds ++ rest) m) (length pre) c acc = Ok (Some ((length pre + length (c :: ds))%nat, wfold (c :: ds) acc)).
Proof.
  induction ds as [|x ds IH]; intros pre c rest m acc fuel OK F S FU; (destruct fuel as [|fuel]; [simpl in FU; lia|]); cbn [int_loop]; rewrite OK.
  - simpl app. assert (E : pre ++ c :: rest = (pre ++ [c]) ++ rest) by (rewrite <- app_assoc; auto). rewrite E.
    replace (Datatypes.S (length pre)) with (length (pre ++ [c])) by (rewrite app_length; simpl; lia).
    destruct rest as [|y rest].
    + rewrite app_nil_r, peek_end. simpl in S. subst m. rewrite app_length. reflexivity.
    + rewrite peek_app. simpl in S. destruct fuel; cbn [int_loop]; (destruct (ok y) eqn:Y; [congruence|]); rewrite app_length; reflexivity.
  - assert (E : pre ++ c :: (x :: ds) ++ rest = (pre ++ [c]) ++ x :: ds ++ rest) by (rewrite <- app_assoc; auto). rewrite E.
    replace (Datatypes.S (length pre)) with (length (pre ++ [c])) by (rewrite app_length; simpl; lia).
    rewrite peek_app. inversion F; subst. rewrite IH; auto; [|simpl in FU; lia]. rewrite app_length. simpl.
    do 3 f_equal. lia.
Qed.

Lemma wfold_number ds acc : wfold ds (wrap 64 acc) = wrap 64 (fold_left (fun n d => n * base + val d) ds acc).
Proof.
  revert acc. induction ds as [|d ds IH]; intros acc; simpl; auto.
  rewrite <- IH. f_equal. unfold wrap. rewrite <- Zplus_mod_idemp_l, Zmult_mod_idemp_l, Zplus_mod_idemp_l. reflexivity.
Qed.

End Loop.

Lemma num_char_iff c : num_char c = true <-> is_dec c.
Proof. unfold num_char, is_dec. change (char_of "0") with 48. change (char_of "9") with 57. lia. Qed.
Lemma hex_char_iff c : hex_char c = true <-> is_hex c.
Proof.
  unfold hex_char, is_hex. rewrite !orb_true_iff, num_char_iff.
  change (char_of "a") with 97. change (char_of "f") with 102. change (char_of "A") with 65. change (char_of "F") with 70. rewrite !andb_true_iff, !Z.leb_le. tauto.
Qed.
Lemma hex_val_ok c : is_hex c -> hex_val c = hex_digit c.
Proof.
  unfold is_hex, is_dec, hex_val, hex_digit. change (char_of "a") with 97. change (char_of "f") with 102. change (char_of "A") with 65. change (char_of "F") with 70.
  change (char_of "0") with 48. change (char_of "9") with 57. intros.
  destruct ((97 <=? c) && (c <=? 102)) eqn:A1, ((65 <=? c) && (c <=? 70)) eqn:A2, (c <=? 57) eqn:A3, (c <=? 70) eqn:A4; lia.
Qed.

Lemma Forall_iff {T} (P Q : T -> Prop) l : (forall x, P x <-> Q x) -> Forall P l <-> Forall Q l.
Proof. intros H. rewrite !Forall_forall. firstorder. Qed.
Lemma stops_iff (P Q : Z -> Prop) rest m : (forall x, P x <-> Q x) -> stops P rest m -> stops Q rest m.
Proof. intros H. destruct rest; simpl; auto. rewrite H. auto. Qed.

Lemma fold_ext base (f g : Z -> Z) (ds : list Z) acc : Forall (fun c => f c = g c) ds ->
  fold_left (fun n d => n * base + f d) ds acc = fold_left (fun n d => n * base + g d) ds acc.
Proof. intros F. revert acc. induction F as [|c ds E F IH]; intros acc; simpl; auto. rewrite E, IH. auto. Qed.

Definition sign (neg : bool) : list Z := if neg then chars "-" else [].

(* C43: an optional sign, decimal digits, an optional suffix *)
Theorem tok_integer_decimal neg ds rest ty k :
  ds <> [] -> Forall is_dec ds -> stops is_dec rest false -> suffix rest ty k ->
  (ds = chars "0" -> ~ starts (chars "x") rest /\ ~ starts (chars "X") rest) ->
  tok_integer (mkChan (sign neg ++ ds ++ rest) false) =
    Ok (mkInt (Z.of_nat (length (sign neg) + length ds + k)) neg (number 10 dec_digit ds mod 2 ^ 64) ty).
Proof.
  intros NE F S SU NX. destruct ds as [|c ds]; [congruence|]. clear NE. inversion F as [|? ? C F']; subst.
  assert (NC : num_char c = true) by (apply num_char_iff; auto).
  assert (L : int_loop (Datatypes.S (length (sign neg ++ (c :: ds) ++ rest))) num_char (fun c => c - 48) 10
     (mkChan (sign neg ++ (c :: ds) ++ rest) false) (length (sign neg)) c 0 = Ok (Some ((length (sign neg) + length (c :: ds))%nat, number 10 dec_digit (c :: ds) mod 2 ^ 64))).
  { cbn [app]. rewrite int_loop_ok; auto.
    - change 0 with (wrap 64 0). rewrite wfold_number. reflexivity.
    - eapply Forall_iff; [|exact F']. apply num_char_iff.
    - eapply stops_iff; [|exact S]. intros; rewrite num_char_iff; tauto.
    - rewrite app_length. simpl. rewrite app_length. lia. }
  destruct (suffix_ok (sign neg ++ c :: ds) rest ty k SU) as (tok&MT&TY). rewrite <- app_assoc, app_length in MT.
  unfold tok_integer. cbn [ch_data].
  assert (P0 : exists x, peek (mkChan (sign neg ++ (c :: ds) ++ rest) false) 0 0 = (PSucc, x) /\ (x =? 45) = neg).
  { destruct neg; simpl; eexists; split; try reflexivity. unfold num_char in NC. lia. }
  destruct P0 as (x&P0&X). rewrite P0, X.
  assert (LS : (if neg then 1%nat else 0%nat) = length (sign neg)) by (destruct neg; auto). rewrite LS.
  assert (PN : forall y, peek (mkChan (sign neg ++ (c :: ds) ++ rest) false) (length (sign neg)) y = (PSucc, c)) by (intros; apply peek_app).
  rewrite PN.
  assert (FIN : forall d, d = Ok (inr ((length (sign neg) + length (c :: ds))%nat, number 10 dec_digit (c :: ds) mod 2 ^ 64)) ->
    bind d (fun d => match d with
      | inl code => Ok (mkInt code false 0 0)
      | inr (n, acc) =>
        if (n =? 0)%nat then Ok (mkInt NO_TOKEN false 0 0) else
        let '(type_len, tok) := match_tokens (mkChan (sign neg ++ (c :: ds) ++ rest) false) n type_qual_table in
        if type_len =? NEED_MORE then Ok (mkInt NEED_MORE false 0 0) else
        let type := if type_len =? NO_TOKEN then TOKTYPEI else tok in
        if negb neg || (1 <? n)%nat then Ok (mkInt (Z.of_nat n + type_len) neg acc type)
        else Ok (mkInt NO_TOKEN false 0 0)
      end) = Ok (mkInt (Z.of_nat (length (sign neg) + length (c :: ds) + k)) neg (number 10 dec_digit (c :: ds) mod 2 ^ 64) ty)).
  { intros d ->. cbn [bind]. rewrite MT.
    destruct (Nat.eqb_spec (length (sign neg) + length (c :: ds)) 0); [simpl in *; lia|].
    destruct (Z.eqb_spec (Z.of_nat k) NEED_MORE) as [E|_]; [unfold NEED_MORE in E; lia|]. rewrite TY.
    assert (V : negb neg || (1 <? length (sign neg) + length (c :: ds))%nat = true) by (destruct neg; simpl; lia). rewrite V.
    do 2 f_equal. lia. }
  destruct (c =? 48) eqn:C0.
  - apply Z.eqb_eq in C0. subst c.
    destruct (peek (mkChan (sign neg ++ (48 :: ds) ++ rest) false) (Datatypes.S (length (sign neg))) 48) as [r y] eqn:E.
    assert (NM : r <> PMore /\ (r = PSucc -> (y =? 120) || (y =? 88) = false)).
    { unfold peek in E. cbn [ch_data ch_more] in E. rewrite nth_error_app2 in E by lia.
      replace (Datatypes.S (length (sign neg)) - length (sign neg))%nat with 1%nat in E by lia. simpl in E.
      destruct ds as [|z ds]; simpl in E.
      - destruct (NX eq_refl) as (N1&N2). destruct rest as [|z rest]; simpl in E; injection E as <- <-; (split; [discriminate|]); [discriminate|].
        intros _. apply orb_false_iff. split; apply Z.eqb_neq; intros ->; [apply N1|apply N2]; exists rest; reflexivity.
      - injection E as <- <-. split; [discriminate|]. intros _. inversion F' as [|? ? D _]; subst. unfold is_dec in D. change (char_of "0") with 48 in D. change (char_of "9") with 57 in D. lia. }
    destruct NM as (NM&NH). destruct r; try congruence.
    + rewrite (NH eq_refl). cbv beta iota. rewrite PN, L. exact (FIN _ eq_refl).
    + cbv beta iota. rewrite PN, L. exact (FIN _ eq_refl).
  - cbv beta iota. rewrite PN, L. exact (FIN _ eq_refl).
Qed.

Lemma tok_integer_hex_gen neg ds rest ty k : stops is_hex rest false -> Forall is_hex ds -> suffix rest ty k -> ds ++ rest <> [] -> forall x, x = char_of "x" \/ x = char_of "X" ->
  tok_integer (mkChan (sign neg ++ [char_of "0"; x] ++ ds ++ rest) false) =
    Ok (mkInt (Z.of_nat (length (sign neg) + 2 + length ds + k)) neg (number 16 hex_digit ds mod 2 ^ 64) ty).
Proof.
  intros S F SU NE x X. change (char_of "0") with 48.
  set (pre := sign neg ++ [48; x]).
  assert (ED : sign neg ++ [48; x] ++ ds ++ rest = pre ++ ds ++ rest) by (unfold pre; rewrite <- app_assoc; auto).
  assert (LP : length pre = (length (sign neg) + 2)%nat) by (unfold pre; rewrite app_length; auto).
  destruct (suffix_ok (pre ++ ds) rest ty k SU) as (tok&MT&TY). rewrite <- app_assoc, app_length, LP in MT.
  assert (HX : (x =? 120) || (x =? 88) = true) by (change (char_of "x") with 120 in X; change (char_of "X") with 88 in X; lia).
  assert (exists c l, ds ++ rest = c :: l) as (c&l&EL) by (destruct (ds ++ rest); [congruence|eauto]).
  assert (L : int_loop (Datatypes.S (length (pre ++ ds ++ rest))) hex_char hex_val 16 (mkChan (pre ++ ds ++ rest) false) (length pre) c 0 =
     Ok (Some ((length pre + length ds)%nat, number 16 hex_digit ds mod 2 ^ 64))).
  { destruct ds as [|c' ds].
    - simpl in EL. subst rest. simpl in S. cbn [int_loop]. rewrite <- hex_char_iff in S. destruct (hex_char c); [congruence|].
      do 2 f_equal. rewrite Nat.add_0_r. reflexivity.
    - injection EL as <- <-. cbn [app]. rewrite int_loop_ok; auto.
      + change 0 with (wrap 64 0). rewrite wfold_number. unfold number. rewrite (fold_ext 16 hex_val hex_digit); [reflexivity|].
        eapply Forall_impl; [|exact F]. intros; apply hex_val_ok; auto.
      + apply hex_char_iff. inversion F; auto.
      + inversion F; subst. eapply Forall_iff; [|eassumption]. apply hex_char_iff.
      + eapply stops_iff; [|exact S]. intros; rewrite hex_char_iff; tauto.
      + rewrite app_length. simpl. rewrite app_length. lia. }
  unfold tok_integer. cbn [ch_data].
  assert (P0 : exists y, peek (mkChan (sign neg ++ [48; x] ++ ds ++ rest) false) 0 0 = (PSucc, y) /\ (y =? 45) = neg).
  { destruct neg; simpl; eexists; split; reflexivity. }
  destruct P0 as (y&P0&Y). rewrite P0, Y.
  assert (LS : (if neg then 1%nat else 0%nat) = length (sign neg)) by (destruct neg; auto). rewrite LS.
  assert (P1 : peek (mkChan (sign neg ++ [48; x] ++ ds ++ rest) false) (length (sign neg)) y = (PSucc, 48)) by apply peek_app.
  rewrite P1. change (48 =? 48) with true. cbv iota.
  assert (P2 : peek (mkChan (sign neg ++ [48; x] ++ ds ++ rest) false) (Datatypes.S (length (sign neg))) 48 = (PSucc, x)).
  { unfold peek. cbn [ch_data]. rewrite nth_error_app2 by lia. replace (Datatypes.S (length (sign neg)) - length (sign neg))%nat with 1%nat by lia. reflexivity. }
  rewrite P2, HX, ED.
  replace (Datatypes.S (Datatypes.S (length (sign neg)))) with (length pre) by lia.
  assert (P3 : peek (mkChan (pre ++ ds ++ rest) false) (length pre) x = (PSucc, c)) by (rewrite EL; apply peek_app).
  rewrite P3, L. cbn [bind]. rewrite LP, MT.
  destruct (Nat.eqb_spec (length (sign neg) + 2 + length ds) 0); [lia|].
  destruct (Z.eqb_spec (Z.of_nat k) NEED_MORE) as [E|_]; [unfold NEED_MORE in E; lia|]. rewrite TY.
  assert (V : negb neg || (1 <? length (sign neg) + 2 + length ds)%nat = true) by (destruct neg; simpl; lia). rewrite V.
  do 2 f_equal. lia.
Qed.

(* C43: an optional sign, 0x or 0X, hexadecimal digits, an optional suffix *)
Theorem tok_integer_hex neg x ds rest ty k :
  x = char_of "x" \/ x = char_of "X" -> ds <> [] -> Forall is_hex ds -> stops is_hex rest false -> suffix rest ty k ->
  tok_integer (mkChan (sign neg ++ [char_of "0"; x] ++ ds ++ rest) false) =
    Ok (mkInt (Z.of_nat (length (sign neg) + 2 + length ds + k)) neg (number 16 hex_digit ds mod 2 ^ 64) ty).
Proof. intros. apply tok_integer_hex_gen; auto. destruct ds; [congruence|discriminate]. Qed.

(* C43 fails for 0x without digits: anything else after 0x gives the number 0 *)
Theorem hex_without_digits_refuted c rest ty k : ~ is_hex c -> suffix (c :: rest) ty k ->
  tok_integer (mkChan (chars "0x" ++ c :: rest) false) = Ok (mkInt (Z.of_nat (2 + k)) false 0 ty).
Proof.
  intros N SU. apply (tok_integer_hex_gen false [] (c :: rest) ty k) with (x := char_of "x"); auto. discriminate.
Qed.

(* C43: the number in the Lisp value.  [width] and [signed] describe the types. *)
Inductive int_type (w : Z) : Z -> Z -> bool -> Prop :=
| ty_byte : int_type w TOKTYPEBYTE 8 false
| ty_i : int_type w TOKTYPEI w true
| ty_u : int_type w TOKTYPEU w false
| ty_i32 : int_type w TOKTYPEI32 32 true
| ty_u32 : int_type w TOKTYPEU32 32 false
| ty_i64 : int_type w TOKTYPEI64 64 true
| ty_u64 : int_type w TOKTYPEU64 64 false.
Definition in_range (bits : Z) (signed : bool) (x : Z) : Prop :=
  if signed then - 2 ^ (bits - 1) <= x < 2 ^ (bits - 1) else 0 <= x < 2 ^ bits.

Lemma mod_mod_pow a b x : 0 <= a <= b -> (x mod 2 ^ b) mod 2 ^ a = x mod 2 ^ a.
Proof.
  intros H. replace (2 ^ b) with (2 ^ a * 2 ^ (b - a)) by (rewrite <- Z.pow_add_r by lia; f_equal; lia).
  assert (0 < 2 ^ a) by (apply Z.pow_pos_nonneg; lia). assert (0 < 2 ^ (b - a)) by (apply Z.pow_pos_nonneg; lia).
  rewrite Z.rem_mul_r by lia. rewrite Z.mul_comm, Z_mod_plus_full. apply Z.mod_mod. lia.
Qed.

Theorem int_literal_value w ty bits sgd (neg : bool) n x : 1 <= w <= 64 -> int_type w ty bits sgd ->
  x = (if neg then - n else n) -> in_range bits sgd x -> int_literal w neg (n mod 2 ^ 64) ty = Some x.
Proof.
  intros Hw T X R.
  assert (V : forall b, 1 <= b <= 64 -> (if neg then wrap 64 (- (n mod 2 ^ 64)) else n mod 2 ^ 64) mod 2 ^ b = x mod 2 ^ b).
  { intros b Hb. subst x. destruct neg; unfold wrap; rewrite mod_mod_pow by lia; auto.
    replace (- (n mod 2 ^ 64)) with (0 - n mod 2 ^ 64) by lia. rewrite <- Zminus_mod_idemp_r, mod_mod_pow, Zminus_mod_idemp_r by lia. reflexivity. }
  set (v := if neg then wrap 64 (- (n mod 2 ^ 64)) else n mod 2 ^ 64) in *.
  assert (UN : forall b, 1 <= b <= 64 -> 0 <= x < 2 ^ b -> wrap b v = x) by (intros b Hb Hx; unfold wrap; rewrite V by auto; apply Z.mod_small; auto).
  assert (SG : forall b, 1 <= b <= 64 -> - 2 ^ (b - 1) <= x < 2 ^ (b - 1) -> sgn b v = x).
  { intros b Hb Hx. unfold sgn. rewrite V by auto.
    assert (E2 : 2 ^ b = 2 * 2 ^ (b - 1)) by (rewrite <- Z.pow_succ_r by lia; f_equal; lia).
    destruct (Z.leb_spec 0 x) as [P|P].
    - rewrite Z.mod_small by lia. destruct (Z.ltb_spec x (2 ^ (b - 1))); lia.
    - replace (x mod 2 ^ b) with (x + 2 ^ b). 2:{ rewrite <- (Z_mod_plus_full x 1 (2 ^ b)), Z.mod_small; lia. }
      destruct (Z.ltb_spec (x + 2 ^ b) (2 ^ (b - 1))); lia. }
  unfold int_literal. fold v. inversion T; subst ty bits sgd; simpl in R; cbn; f_equal; try (apply UN; auto; lia); try (apply SG; auto; lia).
Qed.

(* ---- strings and symbols ---- *)

Lemma app_snoc {T} (a : list T) x b : a ++ x :: b = (a ++ [x]) ++ b.
Proof. rewrite <- app_assoc. reflexivity. Qed.
Lemma len_snoc {T} (a : list T) x : Datatypes.S (length a) = length (a ++ [x]).
Proof. rewrite app_length. simpl. lia. Qed.

Lemma push_ok cap buf x : (length buf < cap)%nat -> push cap buf x = Ok (buf ++ [x]).
Proof. intros H. unfold push. destruct (Nat.ltb_spec (length buf) cap); auto. lia. Qed.

Lemma escape_cases x : (escape x = [x] /\ x <> 34 /\ x <> 92) \/ exists y, escape x = [92; y] /\ translate_escape_char y = x.
Proof.
  unfold escape.
  repeat match goal with |- context [x =? ?k] => destruct (Z.eqb_spec x k) as [->|]; [right; eexists; split; reflexivity|] end. auto.
Qed.

Lemma str_loop_ok s : forall pre rest m c0 buf fuel, (length buf + length s <= MAXLEN)%nat -> (length (flat_map escape s) <= fuel)%nat ->
  let ch := mkChan (pre ++ flat_map escape s ++ 34 :: rest) m in
  let p := peek ch (length pre) c0 in
  str_loop fuel ch (length pre) (fst p) (snd p) false buf = Ok (Z.of_nat (length pre + length (flat_map escape s) + 1), buf ++ s).
Proof.
  induction s as [|x s IH]; intros pre rest m c0 buf fuel L FU ch p; unfold p, ch; cbn [flat_map app].
  - rewrite peek_app. cbn [fst snd]. rewrite app_nil_r. assert (E : Z.of_nat (Datatypes.S (length pre)) = Z.of_nat (length pre + length (@nil Z) + 1)) by (simpl; lia).
    destruct fuel; cbn [str_loop]; rewrite E; reflexivity.
  - rewrite <- !app_assoc. cbn [flat_map] in FU. rewrite app_length in FU. simpl in L.
    assert (LB : (length buf <? MAXLEN)%nat = true) by (unfold MAXLEN in *; lia).
    destruct (escape_cases x) as [(E&N1&N2)|(y&E&T)]; rewrite E in *; cbn [app length] in *.
    + rewrite peek_app. cbn [fst snd]. destruct fuel as [|fuel]; [lia|]. cbn [str_loop].
      destruct (Z.eqb_spec x 34); [congruence|]. destruct (Z.eqb_spec x 92); [congruence|]. rewrite LB. cbn [negb orb andb bind].
      rewrite push_ok by (unfold MAXLEN in *; lia). cbn [bind]. rewrite app_snoc, (len_snoc pre x).
      specialize (IH (pre ++ [x]) rest m x (buf ++ [x]) fuel). cbn zeta in IH.
      destruct (peek _ (length (pre ++ [x])) x) as [r c]. cbn [fst snd] in IH. rewrite IH.
      * f_equal. f_equal; [rewrite app_length; simpl; lia|rewrite <- app_assoc; auto].
      * rewrite app_length; unfold MAXLEN in *; simpl; lia.
      * lia.
    + rewrite peek_app. cbn [fst snd]. destruct fuel as [|[|fuel]]; [lia|lia|]. cbn [str_loop].
      rewrite LB. change (92 =? 34) with false. change (92 =? 92) with true. cbn [negb orb andb bind].
      rewrite app_snoc, (len_snoc pre 92), peek_app. rewrite LB, orb_true_r, andb_false_r. cbn [andb bind].
      rewrite push_ok by (unfold MAXLEN in *; lia). cbn [bind]. rewrite T, app_snoc, (len_snoc (pre ++ [92]) y).
      specialize (IH ((pre ++ [92]) ++ [y]) rest m y (buf ++ [x]) fuel). cbn zeta in IH.
      destruct (peek _ (length ((pre ++ [92]) ++ [y])) y) as [r c]. cbn [fst snd] in IH. rewrite IH.
      * f_equal. f_equal; [rewrite !app_length; simpl; lia|rewrite <- app_assoc; auto].
      * rewrite app_length; unfold MAXLEN in *; simpl; lia.
      * lia.
Qed.

(* C57.  A string of at most 256 characters, written between quotes with the
   special characters escaped, is read back, whatever follows. *)
Theorem tok_string_quoted s rest m : (length s <= 256)%nat ->
  tok_string (mkChan (quoted s ++ rest) m) = Ok (Z.of_nat (length (quoted s)), s) /\
  next_token (mkChan (quoted s ++ rest) m) = Ok (NTok (KString s) (Z.of_nat (length (quoted s)))).
Proof.
  intros L.
  assert (E : tok_string (mkChan (quoted s ++ rest) m) = Ok (Z.of_nat (length (quoted s)), s)).
  { assert (D : quoted s ++ rest = [34] ++ flat_map escape s ++ 34 :: rest) by (unfold quoted; rewrite <- !app_assoc; reflexivity).
    rewrite D. unfold tok_string. set (k := Datatypes.S (length (ch_data _))).
    pose proof (str_loop_ok s [34] rest m 34 [] k) as H. cbn zeta in H. change (length [34]) with 1%nat in H.
    unfold peek at 1. cbn [app ch_data nth_error]. change (34 =? 34) with true. cbn [negb]. cbn [app] in H.
    destruct (peek _ 1 34) as [r c]. cbn [fst snd] in H. rewrite H.
    - unfold quoted. rewrite !app_length. reflexivity.
    - unfold MAXLEN in *. simpl. lia.
    - unfold k. simpl. rewrite app_length. lia. }
  split; auto. unfold next_token. replace (tok_syntax (mkChan (quoted s ++ rest) m)) with (0, 0) by reflexivity. cbn [Z.gtb Z.ltb Z.compare].
  rewrite E. cbn [bind]. assert (N : Z.of_nat (length (quoted s)) >=? 2 = true) by (unfold quoted; rewrite !app_length; simpl; lia). rewrite N. reflexivity.
Qed.

Definition sym_start (c : Z) : Prop := symchar0 c = true.
Definition sym_part (c : Z) : Prop := symchar c = true.

Lemma sym_loop_ok cs : forall pre rest m c0 fuel buf, Forall sym_part cs -> stops sym_part rest m -> length buf = length pre ->
  (length pre + length cs <= 255)%nat -> (length cs <= fuel)%nat ->
  let ch := mkChan (pre ++ cs ++ rest) m in
  let p := peek ch (length pre) c0 in
  sym_loop fuel ch (length pre) (fst p) (snd p) buf = Ok (Z.of_nat (length pre + length cs), buf ++ List.map tolower cs).
Proof.
  induction cs as [|x cs IH]; intros pre rest m c0 fuel buf F ST LB L FU ch p; unfold p, ch; cbn [app List.map length].
  - rewrite app_nil_r, Nat.add_0_r. destruct rest as [|y rest].
    + rewrite app_nil_r, peek_end. simpl in ST. subst m. cbn [fst snd]. destruct fuel; cbn [sym_loop]; rewrite push_ok by (unfold MAXLEN; simpl in *; lia); reflexivity.
    + rewrite peek_app. cbn [fst snd]. simpl in ST. unfold sym_part in ST. destruct fuel; cbn [sym_loop]; (destruct (symchar y); [congruence|]); rewrite push_ok by (unfold MAXLEN; simpl in *; lia); reflexivity.
  - rewrite peek_app. cbn [fst snd]. cbn [length] in *. destruct fuel as [|fuel]; [lia|]. cbn [sym_loop].
    inversion F as [|? ? SX F']; subst. unfold sym_part in SX. rewrite SX.
    destruct (Nat.leb_spec 255 (length pre)); [lia|]. destruct (Nat.ltb_spec (length pre) MAXLEN); [|unfold MAXLEN in *; lia].
    rewrite push_ok by (unfold MAXLEN in *; lia). cbn [bind]. rewrite app_snoc, (len_snoc pre x).
    specialize (IH (pre ++ [x]) rest m (tolower x) fuel (buf ++ [tolower x])). cbn zeta in IH.
    destruct (peek _ (length (pre ++ [x])) (tolower x)) as [r c]. cbn [fst snd] in IH. rewrite IH; auto.
    + f_equal. f_equal; [rewrite app_length; simpl; lia|rewrite <- app_assoc; auto].
    + rewrite !app_length; simpl; lia.
    + rewrite app_length; simpl; lia.
    + lia.
Qed.

(* C57.  A symbol of at most 255 characters is read as its characters in lower case. *)
Theorem tok_symbol_name c cs rest m : sym_start c -> Forall sym_part cs -> stops sym_part rest m -> (length (c :: cs) <= 255)%nat ->
  tok_symbol (mkChan ((c :: cs) ++ rest) m) = Ok (Z.of_nat (length (c :: cs)), List.map tolower (c :: cs)).
Proof.
  intros S F ST L. unfold tok_symbol. unfold peek at 1. cbn [app ch_data nth_error]. rewrite S. cbn [negb].
  rewrite push_ok by (unfold MAXLEN in *; simpl; lia). cbn [bind app].
  pose proof (sym_loop_ok cs [c] rest m c (Datatypes.S (length (c :: cs ++ rest))) [tolower c] F ST eq_refl) as H. cbn zeta in H. cbn [app length] in H.
  destruct (peek _ 1 c) as [r y]. cbn [fst snd] in H. simpl in L. cbn [ch_data length]. rewrite H.
  - reflexivity.
  - lia.
  - rewrite app_length. lia.
Qed.

(* ---- staying inside the buffers and the input ---- *)

Lemma peek_succ ch n c x : peek ch n c = (PSucc, x) -> (n < length (ch_data ch))%nat.
Proof. unfold peek. destruct (nth_error (ch_data ch) n) eqn:E; [|destruct (ch_more ch); discriminate]. intros _. apply nth_error_Some. congruence. Qed.

Lemma match_str_len ch s : forall n, match_str ch n s = MFull -> (length s = 0 \/ n + length s <= length (ch_data ch))%nat.
Proof.
  induction s as [|x s IH]; intros n; cbn [match_str]; auto.
  destruct (peek ch n 0) as [[] c] eqn:P; try discriminate. destruct (c =? x); [|discriminate]. intros M.
  apply peek_succ in P. apply IH in M. simpl. lia.
Qed.

Lemma match_tokens_len ch n t : let '(k, _) := match_tokens ch n t in k = -1 \/ k = 0 \/ (0 < k /\ Z.of_nat n + k <= Z.of_nat (length (ch_data ch))).
Proof.
  induction t as [|[s tok] t IH]; cbn [match_tokens]; auto. destruct (match_str ch n s) eqn:M; auto. apply match_str_len in M. lia.
Qed.

Lemma int_loop_total ok val base ch : forall fuel n c acc, (length (ch_data ch) < n + fuel)%nat -> (ok c = true -> (n < length (ch_data ch))%nat) ->
  exists o, int_loop fuel ok val base ch n c acc = Ok o /\ forall k a, o = Some (k, a) -> (n <= k /\ (k = n \/ k <= length (ch_data ch)))%nat.
Proof.
  induction fuel as [|f IH]; intros n c acc L N; cbn [int_loop]; destruct (ok c) eqn:O.
  - specialize (N eq_refl). lia.
  - eexists; split; [reflexivity|]. intros k a [= <- <-]. lia.
  - specialize (N eq_refl). destruct (peek ch (Datatypes.S n) c) as [[] c'] eqn:P.
    + apply peek_succ in P. destruct (IH (Datatypes.S n) c' (wrap 64 (acc * base + val c))) as (o&E&H); [lia|auto|].
      exists o. split; auto. intros k a ->. specialize (H _ _ eq_refl). lia.
    + eexists; split; [reflexivity|]. discriminate.
    + eexists; split; [reflexivity|]. intros k a [= <- <-]. lia.
  - eexists; split; [reflexivity|]. intros k a [= <- <-]. lia.
Qed.

Lemma tok_integer_total ch : exists t, tok_integer ch = Ok t /\ (ti_len t <= 0 \/ ti_len t <= Z.of_nat (length (ch_data ch))).
Proof.
  unfold tok_integer. destruct (peek ch 0 0) as [[] c] eqn:P0; try (eexists; split; [reflexivity|simpl; unfold NEED_MORE, NO_TOKEN; lia]; fail).
  apply peek_succ in P0. set (n := if c =? 45 then 1%nat else 0%nat). assert (NL : (n <= length (ch_data ch))%nat) by (unfold n; destruct (c =? 45); lia).
  match goal with |- context [let '(hex, c) := ?e in _] => destruct e as [hex c1] eqn:H1 end.
  destruct hex as [hex|]; [|eexists; split; [reflexivity|simpl; unfold NEED_MORE, NO_TOKEN; lia]].
  assert (FIN : forall d : res (Z + nat * Z), (exists v, d = Ok v /\ match v with inl c => c <= 0 | inr (k, _) => (k <= length (ch_data ch))%nat end) ->
    exists t, bind d (fun d => match d with
      | inl code => Ok (mkInt code false 0 0)
      | inr (n, acc) =>
        if (n =? 0)%nat then Ok (mkInt NO_TOKEN false 0 0) else
        let '(type_len, tok) := match_tokens ch n type_qual_table in
        if type_len =? NEED_MORE then Ok (mkInt NEED_MORE false 0 0) else
        let type := if type_len =? NO_TOKEN then TOKTYPEI else tok in
        if negb (c =? 45) || (1 <? n)%nat then Ok (mkInt (Z.of_nat n + type_len) (c =? 45) acc type)
        else Ok (mkInt NO_TOKEN false 0 0)
      end) = Ok t /\ (ti_len t <= 0 \/ ti_len t <= Z.of_nat (length (ch_data ch)))).
  { intros d (v&->&H). cbn [bind]. destruct v as [code|[k acc]]; [eexists; split; [reflexivity|simpl; lia]|].
    destruct (k =? 0)%nat; [eexists; split; [reflexivity|simpl; unfold NO_TOKEN; lia]|].
    pose proof (match_tokens_len ch k type_qual_table) as ML. destruct (match_tokens ch k type_qual_table) as [tl tk].
    destruct (Z.eqb_spec tl NEED_MORE); [eexists; split; [reflexivity|simpl; unfold NEED_MORE; lia]|].
    destruct (negb _ || _); eexists; (split; [reflexivity|]); simpl; unfold NO_TOKEN, NEED_MORE in *; lia. }
  apply FIN. destruct hex.
  - destruct (peek ch (Datatypes.S (Datatypes.S n)) c1) as [[] c2] eqn:P2; try (eexists; split; [reflexivity|simpl; unfold NEED_MORE, NO_TOKEN; lia]).
    apply peek_succ in P2. destruct (int_loop_total hex_char hex_val 16 ch (Datatypes.S (length (ch_data ch))) (Datatypes.S (Datatypes.S n)) c2 0) as (o&E&H); [lia|auto|].
    rewrite E. cbn [bind]. eexists; split; [reflexivity|]. destruct o as [[k a]|]; [|unfold NEED_MORE; lia]. specialize (H _ _ eq_refl). lia.
  - destruct (peek ch n c1) as [[] c2] eqn:P2; try (eexists; split; [reflexivity|simpl; unfold NEED_MORE, NO_TOKEN; lia]).
    all: destruct (int_loop_total num_char (fun c => c - 48) 10 ch (Datatypes.S (length (ch_data ch))) n c2 0) as (o&E&H); [lia| |].
    2, 4: rewrite E; cbn [bind]; eexists; split; [reflexivity|]; destruct o as [[k a]|]; [|unfold NEED_MORE; lia]; specialize (H _ _ eq_refl); lia.
    + apply peek_succ in P2. auto.
    + intros NC. exfalso. unfold peek in P2, H1. destruct (nth_error (ch_data ch) n) eqn:E; [discriminate|]. apply nth_error_None in E.
      destruct (ch_more ch); [discriminate|]. injection P2 as <-. injection H1 as <-.
      unfold n in E. destruct (Z.eqb_spec c 45) as [->|]; [discriminate NC|lia].
Qed.

(* what a computation may do: end in [P], or be undefined when [B] *)
Definition safe {T} (B : Prop) (m : res T) (P : T -> Prop) : Prop := match m with Ok x => P x | UB => B | Fuel => False end.
Lemma safe_bind {T U} B (m : res T) (k : T -> res U) P Q : safe B m P -> (forall x, P x -> safe B (k x) Q) -> safe B (bind m k) Q.
Proof. destruct m; simpl; auto. Qed.
Lemma safe_weaken {T} B (m : res T) (P Q : T -> Prop) : safe B m P -> (forall x, P x -> Q x) -> safe B m Q.
Proof. destruct m; simpl; auto. Qed.

Section Safe.
  Variable ch : chan.
  Local Notation len := (length (ch_data ch)).

  Lemma push_safe cap buf x : safe (cap <= length buf)%nat (push cap buf x) (fun b => length b = Datatypes.S (length buf)).
  Proof. unfold push. destruct (Nat.ltb_spec (length buf) cap); simpl; auto. rewrite app_length. simpl. lia. Qed.

  Lemma push_dbl buf x n : length buf = n -> (n < len)%nat -> safe (128 < len)%nat (push 128 buf x) (fun b => length b = Datatypes.S n).
  Proof. intros <- H. pose proof (push_safe 128 buf x) as P. destruct (push 128 buf x); simpl in *; auto. lia. Qed.

  Lemma dbl_loop_safe ok : forall fuel n c buf, (len < n + fuel)%nat -> length buf = n -> (n < len)%nat ->
    safe (128 < len)%nat (dbl_loop fuel ok ch n c buf)
      (fun o => match o with None => True | Some (n', c', b') => length b' = n' /\ (n <= n' <= len)%nat /\ (ok c' = true \/ (n' < len)%nat) end).
  Proof.
    induction fuel as [|f IH]; intros n c buf L LB N; cbn [dbl_loop]; destruct (ok c) eqn:OC.
    { exfalso; clear -L N; lia. }
    { cbn [safe]. repeat split; auto; clear -L N; lia. }
    2: { cbn [safe]. repeat split; auto; clear -L N; lia. }
    eapply safe_bind; [apply (push_dbl buf c n); auto|]. intros b Lb. destruct (peek ch (Datatypes.S n) c) as [[] c'] eqn:P; simpl; auto.
    - apply peek_succ in P. eapply safe_weaken; [apply IH; auto; lia|]. intros [[[n' c''] b']|]; auto. intros (A&C&D). repeat split; auto; lia.
    - assert (c' = c) as -> by (revert P; unfold peek; destruct (nth_error _ _); [discriminate|]; destruct (ch_more ch); congruence).
      repeat split; auto; lia.
  Qed.

  Lemma tok_double_safe : safe (128 < len)%nat (tok_double ch) (fun r => let '(k, _, _) := r in k <= 0 \/ k <= Z.of_nat len).
  Proof.
    unfold tok_double. destruct (peek ch 0 0) as [[] c] eqn:P0; try (simpl; unfold NEED_MORE, NO_TOKEN; lia). apply peek_succ in P0.
    set (n := if c =? 45 then 1%nat else 0%nat). cbv zeta.
    eapply (safe_bind _ _ _ (fun b => length b = n)).
    { unfold n. destruct (c =? 45); [|reflexivity]. apply (push_dbl [] 45 0); auto. }
    intros b Lb. destruct (peek ch n c) as [[] c1] eqn:P1; try (simpl; unfold NEED_MORE, NO_TOKEN; lia). apply peek_succ in P1.
    eapply safe_bind; [apply dbl_loop_safe; auto; lia|]. intros [[[n1 c2] b1]|] H; [|simpl; unfold NEED_MORE; lia]. destruct H as (L1&N1&D1).
    destruct (Z.eqb_spec c2 46) as [->|]; [|simpl; unfold NO_TOKEN; lia]. cbn [negb]. destruct D1 as [D1|D1]; [discriminate D1|].
    eapply safe_bind; [apply (push_dbl b1 46 n1); auto|]. intros b2 L2.
    destruct (peek ch (Datatypes.S n1) 46) as [[] c3] eqn:P2; try (simpl; unfold NEED_MORE, NO_TOKEN; lia). apply peek_succ in P2.
    destruct (num_char c3); [|simpl; unfold NO_TOKEN; lia]. cbn [negb].
    eapply safe_bind; [apply dbl_loop_safe; auto; lia|]. intros [[[n2 c4] b3]|] H; [|simpl; unfold NEED_MORE; lia]. destruct H as (L3&N2&D2).
    eapply (safe_bind _ _ _ (fun x => match x with inl k => k <= 0 | inr (n, _, _) => (n <= len)%nat end)).
    { destruct (Z.eqb_spec c4 101) as [->|]; [|simpl; lia]. destruct D2 as [D2|D2]; [discriminate D2|].
      eapply safe_bind; [apply (push_dbl b3 101 n2); auto|]. intros b4 L4.
      destruct (peek ch (Datatypes.S n2) 101) as [[] c5] eqn:P3; try (simpl; unfold NEED_MORE, NO_TOKEN; lia). apply peek_succ in P3.
      destruct (num_char c5 || (c5 =? 45)); [|simpl; unfold NO_TOKEN; lia]. cbn [negb].
      eapply safe_bind; [apply dbl_loop_safe; auto; lia|]. intros [[[n3 c6] b5]|] H; [|simpl; unfold NEED_MORE; lia]. simpl. lia. }
    intros [k|[[n3 c6] b5]] H; [simpl; lia|].
    pose proof (match_tokens_len ch n3 type_qual_table) as ML. destruct (match_tokens ch n3 type_qual_table) as [tl tk].
    destruct (Z.eqb_spec tl NEED_MORE); [simpl; unfold NEED_MORE; lia|].
    destruct (127 <? n3)%nat; [simpl; unfold NO_TOKEN; lia|]. destruct (c =? 45); [destruct (1 <? n3)%nat|destruct (0 <? n3)%nat]; cbn in H |- *; unfold NO_TOKEN, NEED_MORE in *; lia.
  Qed.

  Lemma peek_more n c c' : peek ch n c = (PEnd, c') -> ch_more ch = false.
  Proof. unfold peek. destruct (nth_error _ _); [discriminate|]. destruct (ch_more ch); congruence. Qed.

  Definition str_res (o : Z * list Z) : Prop :=
    fst o <= Z.of_nat len + 1 /\ (ch_more ch = true -> fst o <= Z.of_nat len) /\ (0 < fst o -> 2 <= fst o) /\ (length (snd o) <= MAXLEN)%nat.

  Lemma str_loop_safe : forall fuel n r c en buf, (len < n + fuel)%nat -> (r = PSucc -> (n < len)%nat) -> (r = PEnd -> ch_more ch = false) ->
    (1 <= n)%nat -> (n <= len)%nat -> (length buf <= MAXLEN)%nat -> safe False (str_loop fuel ch n r c en buf) str_res.
  Proof.
    intros fuel n r c en buf. revert fuel n r c en buf.
    assert (FIN : forall n r c buf, (r = PSucc -> (n < len)%nat) -> (r = PEnd -> ch_more ch = false) -> (1 <= n)%nat -> (n <= len)%nat -> (length buf <= MAXLEN)%nat ->
      safe False (match r with PMore => Ok (NEED_MORE, buf) | _ => if c =? 34 then Ok (Z.of_nat (Datatypes.S n), buf) else Ok (STRING_ERROR, buf) end) str_res).
    { intros n r c buf N M N1 NL LB. unfold str_res, NEED_MORE, STRING_ERROR. destruct r; [specialize (N eq_refl)|clear N M|specialize (M eq_refl)]; try destruct (c =? 34); cbn [safe fst snd]; repeat split; auto; try lia; congruence. }
    induction fuel as [|f IH]; intros n r c en buf L N M N1 NL LB.
    - specialize (FIN n r c buf N M N1 NL LB). destruct r; [specialize (N eq_refl); lia| |]; exact FIN.
    - specialize (FIN n r c buf N M N1 NL LB). cbn [str_loop]. destruct r; [|exact FIN|exact FIN]. specialize (N eq_refl).
      destruct (negb (c =? 34) || en); [|exact FIN]. destruct (Nat.ltb_spec (length buf) MAXLEN); [|exact FIN]. cbn [andb].
      eapply (safe_bind _ _ _ (fun x => (length (fst x) <= MAXLEN)%nat)).
      { destruct ((c =? 92) && negb en); [simpl; lia|]. rewrite push_ok by lia. cbn [bind safe fst]. rewrite app_length. simpl. lia. }
      intros [b e] Lb. destruct (peek ch (Datatypes.S n) c) as [r' c'] eqn:P. apply IH; auto; try lia.
      + intros ->. apply peek_succ in P. auto.
      + intros ->. apply peek_more in P. auto.
  Qed.

  Lemma tok_string_safe : safe False (tok_string ch) str_res.
  Proof.
    assert (T : forall k, k <= 0 -> str_res (k, [])).
    { intros k K. unfold str_res. cbn [fst snd length]. repeat split; try lia. }
    unfold tok_string. destruct (peek ch 0 0) as [[] c] eqn:P0; try (apply T; unfold NEED_MORE, NO_TOKEN; lia).
    destruct (negb (c =? 34)); [apply T; unfold NO_TOKEN; lia|]. apply peek_succ in P0. destruct (peek ch 1 c) as [r c1] eqn:P1.
    apply str_loop_safe; auto; try (lia); try (simpl; lia).
    - intros ->. apply peek_succ in P1. auto.
    - intros ->. apply peek_more in P1. auto.
  Qed.

  Lemma sym_loop_safe : forall fuel n r c buf, (len < n + fuel)%nat -> (r = PSucc -> (n < len)%nat) -> (n <= len)%nat -> length buf = n -> (n <= 255)%nat ->
    safe False (sym_loop fuel ch n r c buf) (fun o => fst o <= Z.of_nat len).
  Proof.
    intros fuel n r c buf L N NL LB NB. assert (FIN : safe False (let! b := push (MAXLEN + 1) buf 0 in Ok (Z.of_nat n, buf)) (fun o => fst o <= Z.of_nat len)).
    { rewrite push_ok by (unfold MAXLEN; lia). simpl. lia. }
    revert n r c buf L N NL LB NB FIN. induction fuel as [|f IH]; intros n r c buf L N NL LB NB FIN; (destruct r; [specialize (N eq_refl)| |]); cbn [sym_loop]; try exact FIN; try (exfalso; clear -L N; lia); try (simpl; unfold NEED_MORE; lia).
    destruct (symchar c); [|exact FIN].
    destruct (Nat.leb_spec 255 n); [simpl; unfold SYMBOL_ERROR; lia|]. destruct (Nat.ltb_spec n MAXLEN); [|unfold MAXLEN in *; lia].
    rewrite push_ok by (unfold MAXLEN; lia). cbn [bind]. destruct (peek ch (Datatypes.S n) (tolower c)) as [r' c'] eqn:P.
    assert (LB' : length (buf ++ [tolower c]) = Datatypes.S n) by (rewrite app_length; simpl; lia).
    apply IH; auto; try lia; [intros ->; apply peek_succ in P; auto|]. rewrite push_ok by (unfold MAXLEN; lia). cbn [bind safe fst]. clear -N. lia.
  Qed.

  Lemma tok_symbol_safe : safe False (tok_symbol ch) (fun o => fst o <= 0 \/ fst o <= Z.of_nat len).
  Proof.
    unfold tok_symbol. destruct (peek ch 0 0) as [[] c] eqn:P0; try (simpl; unfold NEED_MORE, NO_TOKEN; lia).
    destruct (negb (symchar0 c)); [simpl; unfold NO_TOKEN; lia|]. apply peek_succ in P0. rewrite push_ok by (unfold MAXLEN; simpl; lia). cbn [bind].
    destruct (peek ch 1 c) as [r c1] eqn:P1. eapply safe_weaken; [apply sym_loop_safe; auto; try (lia); try (simpl; lia)|auto].
    intros ->. apply peek_succ in P1. auto.
  Qed.

  Lemma tok_char_len : fst (tok_char ch) <= 0 \/ fst (tok_char ch) <= Z.of_nat len.
  Proof.
    unfold tok_char.
    repeat match goal with
    | |- context [peek ch ?n ?c] => let P := fresh "P" in destruct (peek ch n c) as [[] ?] eqn:P; [apply peek_succ in P; fold len in P| |]
    | |- context [if ?b then _ else _] => destruct b
    | |- context [find ?f ?l] => destruct (find f l)
    end; cbn [fst]; unfold NEED_MORE, NO_TOKEN, CHAR_ERROR in *; lia.
  Qed.
End Safe.

(* C56.  Whatever the input, reading a token ends.  Nothing is stored outside
   the buffers when at most 128 characters are there, and every part but
   tok_double stays in its buffer for any input. *)
Theorem next_token_safe ch : safe (128 < length (ch_data ch))%nat (next_token ch) (fun _ => True).
Proof.
  unfold next_token. pose proof (tok_string_safe ch) as SS. pose proof (tok_double_safe ch) as SD. pose proof (tok_symbol_safe ch) as SY. destruct (tok_integer_total ch) as (t&TI&_).
  destruct (tok_syntax ch) as [n tok]. destruct (n >? 0); [exact I|]. destruct (n <? 0); [exact I|].
  destruct (tok_string ch) as [[n1 str]| |]; try contradiction. cbn [bind]. destruct (n1 >=? 2); [exact I|]. destruct (n1 <? 0); [exact I|].
  eapply safe_bind; [exact SD|]. intros [[n2 text] type] _. destruct (n2 >? 0); [exact I|]. destruct (n2 <? 0); [exact I|].
  rewrite TI. cbn [bind]. destruct (ti_len t >? 0); [exact I|]. destruct (ti_len t <? 0); [exact I|].
  destruct (tok_symbol ch) as [[n3 name]| |]; try contradiction. cbn [bind]. destruct (n3 >? 0); [exact I|]. destruct (n3 <? 0); [exact I|].
  destruct (tok_char ch) as [n4 c]. destruct (n4 >? 0); [exact I|]. destruct (n4 <? 0); exact I.
Qed.

Theorem parts_safe ch :
  (exists n s, tok_string ch = Ok (n, s) /\ (length s <= 256)%nat) /\ (exists n s, tok_symbol ch = Ok (n, s)) /\ (exists t, tok_integer ch = Ok t).
Proof.
  pose proof (tok_string_safe ch) as SS. pose proof (tok_symbol_safe ch) as SY. destruct (tok_integer_total ch) as (t&TI&_).
  destruct (tok_string ch) as [[n s]| |]; try contradiction. destruct (tok_symbol ch) as [[m u]| |]; try contradiction.
  split; [exists n, s; split; auto; apply SS|]. split; eauto.
Qed.

(* C56.  A token takes at least one character and no more than there are,
   except for a string at the end of the input, which may take one too many. *)
Theorem next_token_consumes ch t k : next_token ch = Ok (NTok t k) ->
  0 < k /\ (k <= Z.of_nat (length (ch_data ch)) \/
            (exists s, t = KString s) /\ ch_more ch = false /\ k = Z.of_nat (length (ch_data ch)) + 1).
Proof.
  unfold next_token. pose proof (tok_string_safe ch) as SS. pose proof (tok_double_safe ch) as SD. pose proof (tok_symbol_safe ch) as SY. destruct (tok_integer_total ch) as (ti&TI&TL).
  pose proof (match_tokens_len ch 0 fixed_size_tokens) as SL. fold (tok_syntax ch) in SL. pose proof (tok_char_len ch) as CL.
  assert (R : forall n, (Ok (retry_token n) : res next) = Ok (NTok t k) -> False) by (intros n; unfold retry_token; destruct (n =? NEED_MORE); discriminate).
  destruct (tok_syntax ch) as [n tok]. destruct (Z.gtb_spec n 0).
  { intros [= <- <-]. split; auto. left. lia. }
  destruct (n <? 0); [intros H'; destruct (R _ H')|].
  destruct (tok_string ch) as [[n1 str]| |]; try contradiction. cbn [bind]. unfold str_res in SS. cbn [safe fst snd] in SS. destruct SS as (S1&S2&S3&_).
  destruct (Z.geb_spec n1 2).
  { intros [= <- <-]. split; [lia|]. destruct (ch_more ch); [left; auto|]. destruct (Z.leb_spec n1 (Z.of_nat (length (ch_data ch)))); [auto|].
    right. repeat split; eauto. lia. }
  destruct (n1 <? 0); [intros H'; destruct (R _ H')|].
  destruct (tok_double ch) as [[[n2 text] type]| |]; try discriminate. cbn [bind safe] in *. destruct (Z.gtb_spec n2 0).
  { destruct (_ || _); [|discriminate]. intros [= <- <-]. split; auto. left. lia. }
  destruct (n2 <? 0); [intros H'; destruct (R _ H')|].
  rewrite TI. cbn [bind]. destruct (Z.gtb_spec (ti_len ti) 0).
  { destruct (_ && _); [|discriminate]. intros [= <- <-]. split; auto. left. lia. }
  destruct (ti_len ti <? 0); [intros H'; destruct (R _ H')|].
  destruct (tok_symbol ch) as [[n3 name]| |]; try contradiction. cbn [bind safe fst] in *. destruct (Z.gtb_spec n3 0).
  { intros [= <- <-]. split; auto. left. lia. }
  destruct (n3 <? 0); [intros H'; destruct (R _ H')|].
  destruct (tok_char ch) as [n4 c]. cbn [fst] in CL. destruct (Z.gtb_spec n4 0).
  { intros [= <- <-]. split; auto. left. lia. }
  destruct (n4 <? 0); [intros H'; destruct (R _ H')|]. discriminate.
Qed.

(* C56 is false without the bound: any 129 digits overrun tok_double's buffer *)
Lemma dbl_loop_ub ds : forall pre rest m c buf fuel, Forall is_dec (c :: ds) -> length buf = length pre -> (128 < length pre + length (c :: ds))%nat ->
  (length ds < fuel)%nat -> dbl_loop fuel num_char (mkChan (pre ++ (c :: ds) ++ rest) m) (length pre) c buf = UB.
Proof.
  induction ds as [|x ds IH]; intros pre rest m c buf fuel F LB L FU; (destruct fuel as [|fuel]; [simpl in FU; lia|]); cbn [dbl_loop];
    inversion F as [|? ? D F']; subst; apply num_char_iff in D; rewrite D; unfold push; destruct (Nat.ltb_spec (length buf) 128); auto; cbn [length] in *; [lia|].
  cbn [bind app]. rewrite app_snoc, (len_snoc pre c), peek_app. specialize (IH (pre ++ [c]) rest m x (buf ++ [c]) fuel F'). cbn [app] in IH. apply IH.
  - rewrite !app_length. simpl. lia.
  - rewrite app_length. cbn [length]. lia.
  - lia.
Qed.

Lemma tok_syntax_no c rest m : is_dec c -> tok_syntax (mkChan (c :: rest) m) = (0, 0).
Proof.
  unfold is_dec. change (char_of "0") with 48. change (char_of "9") with 57. intros D.
  assert (C : c = 48 \/ c = 49 \/ c = 50 \/ c = 51 \/ c = 52 \/ c = 53 \/ c = 54 \/ c = 55 \/ c = 56 \/ c = 57) by lia.
  repeat (destruct C as [->|C]; [reflexivity|]). subst. reflexivity.
Qed.

Theorem long_number_refuted ds rest m : Forall is_dec ds -> (128 < length ds)%nat -> next_token (mkChan (ds ++ rest) m) = UB.
Proof.
  intros F L. destruct ds as [|c ds]; [simpl in L; lia|]. inversion F as [|? ? D F']; subst. unfold next_token. cbn [app]. rewrite tok_syntax_no by auto. cbn [Z.gtb Z.ltb Z.compare].
  assert (C34 : c =? 34 = false /\ c =? 45 = false) by (unfold is_dec in D; change (char_of "0") with 48 in D; change (char_of "9") with 57 in D; lia). destruct C34 as [C34 C45].
  unfold tok_string at 1, peek at 1. cbn [ch_data nth_error]. rewrite C34. cbn [negb bind Z.geb Z.ltb Z.compare]. change (NO_TOKEN >=? 2) with false. change (NO_TOKEN <? 0) with false. cbv iota.
  unfold tok_double. unfold peek at 1. cbn [ch_data nth_error]. rewrite C45. cbv zeta. cbn [bind]. unfold peek at 1. cbn [ch_data nth_error].
  pose proof (dbl_loop_ub ds [] rest m c [] (Datatypes.S (length (c :: ds ++ rest))) F eq_refl) as H. cbn [app] in H. change (length (@nil Z)) with 0%nat in H. rewrite H; auto.
  cbn [length]. rewrite app_length. lia.
Qed.

(* C56 is false for strings at the end of the input: a lone quote is taken for
   an empty string of two characters, an escaped quote for the closing one *)
Theorem lone_quote_refuted : next_token (mkChan (chars """") false) = Ok (NTok (KString []) 2).
Proof. reflexivity. Qed.
Theorem escaped_end_refuted : next_token (mkChan (chars """ab\""") false) = Ok (NTok (KString (chars "ab""")) 6).
Proof. reflexivity. Qed.

(* A hundred and twenty eight characters is enough for everything but numbers:
   of a string too long only the first 256 characters are looked at, a symbol
   too long is an error. *)
Theorem long_symbol_error c cs rest m : sym_start c -> Forall sym_part cs -> (255 < length (c :: cs))%nat ->
  exists b, tok_symbol (mkChan ((c :: cs) ++ rest) m) = Ok (SYMBOL_ERROR, b).
Proof.
  intros S F L. unfold tok_symbol. unfold peek at 1. cbn [app ch_data nth_error]. rewrite S. cbn [negb]. rewrite push_ok by (unfold MAXLEN; simpl; lia). cbn [bind app].
  assert (G : forall cs pre fuel c0 buf, Forall sym_part cs -> length buf = length pre -> (length pre <= 255 < length pre + length cs)%nat -> (length cs <= fuel)%nat ->
    let p := peek (mkChan (pre ++ cs ++ rest) m) (length pre) c0 in
    exists b, sym_loop fuel (mkChan (pre ++ cs ++ rest) m) (length pre) (fst p) (snd p) buf = Ok (SYMBOL_ERROR, b)).
  { clear. induction cs as [|x cs IH]; intros pre fuel c0 buf F LB L FU; [simpl in L; lia|]. cbn [app]. rewrite peek_app. cbn [fst snd length] in *. destruct fuel as [|fuel]; [lia|]. cbn [sym_loop].
    inversion F as [|? ? SX F']; subst. unfold sym_part in SX. rewrite SX. destruct (Nat.leb_spec 255 (length pre)); [eauto|].
    destruct (Nat.ltb_spec (length pre) MAXLEN); [|unfold MAXLEN in *; lia]. rewrite push_ok by (unfold MAXLEN; lia). cbn [bind]. rewrite app_snoc, (len_snoc pre x).
    specialize (IH (pre ++ [x]) fuel (tolower x) (buf ++ [tolower x]) F'). cbn zeta in IH. destruct (peek _ (length (pre ++ [x])) (tolower x)) as [r y]. cbn [fst snd] in IH.
    apply IH; rewrite ?app_length; simpl; lia. }
  specialize (G cs [c] (Datatypes.S (length (c :: cs ++ rest))) c [tolower c] F eq_refl). cbn zeta in G. cbn [app length] in G. cbn [ch_data length].
  destruct (peek _ 1 c) as [r y]. cbn [fst snd] in G. cbn [length] in L. apply G; [lia|rewrite app_length; lia].
Qed.

(* ---- the hypotheses can be met ---- *)

Example ex_string : tok_string (mkChan (chars """a\n\""b"" c") true) = Ok (8, [97; 10; 34; 98]) /\ quoted [97; 10; 34; 98] = chars """a\n\""b""".
Proof. split; reflexivity. Qed.
Example ex_symbol : tok_symbol (mkChan (chars "Foo-1 x") true) = Ok (5, chars "foo-1").
Proof. reflexivity. Qed.
Example ex_symbol_stops : sym_start 70 /\ Forall sym_part (chars "oo-1") /\ stops sym_part (chars " x") true.
Proof. repeat split; try (repeat constructor; fail); try (intros H; discriminate H). Qed.
Example ex_int : next_token (mkChan (chars "-123u32)") true) = Ok (NTok (KInt true 123 TOKTYPEU32) 7) /\ next_token (mkChan (chars "0xFF ") true) = Ok (NTok (KInt false 255 TOKTYPEI) 4).
Proof. split; reflexivity. Qed.
Example ex_streaming : next_token (mkChan (chars "0x1") true) = Ok NMore /\ next_token (mkChan (chars "0x1f ") true) = Ok (NTok (KInt false 31 TOKTYPEI) 4).
Proof. split; reflexivity. Qed.
Example ex_long : Forall is_dec (repeat 48 129) /\ (128 < length (repeat 48 129))%nat.
Proof. split; [|rewrite repeat_length; lia]. apply Forall_forall. intros x H. apply repeat_spec in H. subst. unfold is_dec. vm_compute. split; discriminate. Qed.

Print Assumptions tokenizer_streaming.
Print Assumptions whitespace_streaming.
Print Assumptions whitespace_dropped.
Print Assumptions tok_integer_decimal.
Print Assumptions tok_integer_hex.
Print Assumptions int_literal_value.
Print Assumptions hex_without_digits_refuted.
Print Assumptions tok_string_quoted.
Print Assumptions tok_symbol_name.
Print Assumptions next_token_safe.
Print Assumptions parts_safe.
Print Assumptions next_token_consumes.
Print Assumptions long_number_refuted.
Print Assumptions lone_quote_refuted.
Print Assumptions escaped_end_refuted.
Print Assumptions long_symbol_error.
