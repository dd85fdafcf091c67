(* C12: unflattening what was flattened gives the value back.
   C13: the size computed beforehand is the size written.
   C14: unflattening arbitrary bytes.
   C58: failing to flatten. *)
From Coq Require Import String.
From Verif Require Import Base Value_Model Value_Proofs2 Value_Props Heap_Model Heap_Spec Heap_Proofs Heap_Proofs2 List_Proofs Env_Proofs GC_Model Eq_Model Eq_Spec Eq_Props
  Set_Props Sym_Model Sym_Props Flat_Model Flat_Spec Flat_Proofs Flat_Proofs2 Flat_Proofs3 Flat_Safe.
Local Open Scope Z_scope.

Section Arch.
Context {A : Arch}.

(* ---- Specification ---- *)
(* the symbols of the table, and their names *)
Definition symbol_in (s : syms) (n : Z) : Prop := exists m, name_ok m /\ symbol_of s m = Some n.
Definition names (s : syms) (n : Z) : name := match name_of s n with Some m => m | None => [] end.

(* The trees lispBM can flatten in a state: numbers in range, symbols of the
   table, no empty array, nested at most [maxd] deep, under 2 GB as bytes. *)
Definition flattenable (s : syms) (maxd : Z) (t : tree) : Prop :=
  flat_ok (symbol_in s) t /\ Z.of_nat (depth t) <= maxd + 1 /\ Z.of_nat (length (ser (names s) t)) < 2 ^ 31.

(* the addresses the next calls of malloc return: not NULL, not in use *)
Definition fresh (h : heap) (l : list Z) : Prop := NoDup l /\ Forall (fun a => a <> 0 /\ mem h a = None) l.

(* ---- Proofs ---- *)
Lemma symbol_known max hist s n : reachable max hist s -> symbol_in s n -> named_in s (names s) n /\ interned s (names s) n.
Proof.
  intros R (m&NO&E). destruct (symbol_name max hist s m n R NO E) as (m'&NO'&N&S&_).
  unfold names, named_in, interned. rewrite N. unfold name_of in N. unfold symbol_of in S.
  destruct (get_name_by_symbol s n) as [r| |]; try discriminate. destruct (get_symbol_by_name s m') as [r'| |]; try discriminate. subst. auto.
Qed.

Lemma flat_ok_impl (P Q : Z -> Prop) t : (forall n, P n -> Q n) -> flat_ok P t -> flat_ok Q t.
Proof.
  intros PQ. induction t as [k n|a d IHa IHd|bs|ts IH] using tree_rec_depth; intros F; inversion F as [? ? R N|? ? F1 F2|? NE B|? NE B]; subst; constructor; auto.
  rewrite Forall_forall in *. auto.
Qed.

(* ---- C13 ---- *)

(* The size is exactly the number of bytes the writer writes, and with a
   buffer of that size the writer fills it with the bytes of the value. *)
Theorem flat_size_exact : forall max hist s h fl v t maxd fuel, reachable max hist s -> no_null h ->
  den fl h v t -> flattenable s maxd t -> (depth t <= fuel)%nat ->
  let bs := ser (names s) t in
  value_size maxd s h v = Ok (Z.of_nat (length bs)) /\ (0 < length bs)%nat /\
  flatten_c fuel s h (mkF (repeat 0 (length bs)) 0) v = Ok (F_OK, mkF bs (Z.of_nat (length bs))).
Proof.
  intros max hist s h fl v t maxd fuel R N0 D (FO&DM&B) DF bs.
  assert (FO1 : flat_ok (named_in s (names s)) t) by (eapply flat_ok_impl; [|exact FO]; intros n X; eapply symbol_known; eauto).
  split; [eapply value_size_ok; eauto|]. split; [apply ser_pos|]. rewrite repeat_at.
  erewrite flatten_ok; eauto; [|apply repeat_length]. unfold at_pos. cbn [app]. rewrite app_nil_r. reflexivity.
Qed.

(* A writer that stops never wrote past the end: the writer's buffer keeps its
   length and the position stays inside, whatever the value. *)
Lemma put_inside f bs r f' : put f bs = Ok (r, f') -> 0 <= pos f <= blen f -> blen f' = blen f /\ 0 <= pos f' <= blen f'.
Proof.
  unfold put. destruct (Z.geb_spec (blen f) (pos f + Z.of_nat (length bs))) as [G|]; [|intros [= _ <-]; auto].
  assert (K : forall bs b p b', store_bytes b p bs = Ok b' -> length b' = length b).
  { clear. induction bs as [|x bs IH]; intros b p b' E; cbn [store_bytes] in E; [congruence|].
    unfold wr in E. destruct (p <? 0); try discriminate. destruct (_ <? _)%nat; try discriminate. cbn [bind] in E. apply IH in E. rewrite E, length_upd. reflexivity. }
  destruct (store_bytes (buf f) (pos f) bs) as [b| |] eqn:E; try discriminate. cbn [bind]. intros [= _ <-]. unfold blen in *. cbn [buf pos].
  apply K in E. rewrite E. lia.
Qed.
Lemma tag_inside f tag bs r f' : f_tag f tag bs = Ok (r, f') -> 0 <= pos f <= blen f -> blen f' = blen f /\ 0 <= pos f' <= blen f'.
Proof.
  unfold f_tag. destruct (put f [tag]) as [[r1 f1]| |] eqn:E; try discriminate. cbn [bind]. intros X P. destruct (put_inside _ _ _ _ E P) as (B1&P1).
  destruct r1; [|injection X as _ <-; auto]. destruct (put_inside _ _ _ _ X P1). split; auto; congruence.
Qed.

Theorem flat_writer_inside : forall s h fuel f v c f', flatten_c fuel s h f v = Ok (c, f') -> 0 <= pos f <= blen f ->
  blen f' = blen f /\ 0 <= pos f' <= blen f'.
Proof.
  intros s h. induction fuel as [|n IH]; intros f v c f' E P; cbn [flatten_c] in E; [discriminate|]. cbv zeta in E.
  assert (CODE : forall m : res (bool * fv), (let! r := m in Ok (code r)) = Ok (c, f') -> exists r, m = Ok (r, f')).
  { intros [[r f1]| |]; cbn; try discriminate. intros [= _ <-]. eauto. }
  assert (TAG : forall tag bs, (let! r := f_tag f tag bs in Ok (code r)) = Ok (c, f') -> blen f' = blen f /\ 0 <= pos f' <= blen f').
  { intros tag bs X. apply CODE in X. destruct X as (r&X). eapply tag_inside; eauto. }
  assert (ID : forall c0, Ok (c0, f) = Ok (c, f') -> blen f' = blen f /\ 0 <= pos f' <= blen f') by (intros ? [= _ <-]; auto).
  destruct (_ =? TYPE_CONS).
  { unfold f_cons in E. destruct (put f [S_CONS]) as [[r1 f1]| |] eqn:E1; try discriminate. cbn [bind] in E. destruct (put_inside _ _ _ _ E1 P) as (B1&P1).
    destruct r1; [|injection E as _ <-; auto]. destruct (car h v) as [a| |]; try discriminate. cbn [bind] in E.
    destruct (flatten_c n s h f1 a) as [[c1 f2]| |] eqn:E2; try discriminate. cbn [bind] in E. destruct (IH _ _ _ _ E2 P1) as (B2&P2).
    destruct (c1 =? F_OK); [|injection E as _ <-; split; auto; congruence]. destruct (cdr h v) as [d| |]; try discriminate. cbn [bind] in E.
    destruct (IH _ _ _ _ E P2). split; auto. congruence. }
  destruct (_ =? TYPE_LISPARRAY).
  { destruct (car h v) as [a| |]; try discriminate. cbn [bind] in E. destruct (mem h a) as [[d size elts ix| | | | ]|]; try discriminate.
    destruct (f_lisp_array f (size / WB)) as [[r1 f1]| |] eqn:E1; try discriminate. cbn [bind] in E. destruct (tag_inside _ _ _ _ _ E1 P) as (B1&P1).
    destruct r1; [|injection E as _ <-; auto]. rewrite <- B1. clear E1 B1 P TAG ID CODE.
    assert (X : forall k i f1, 0 <= pos f1 <= blen f1 -> flatten_elts (flatten_c n s h) k i elts f1 = Ok (c, f') -> blen f' = blen f1 /\ 0 <= pos f' <= blen f');
      [|eapply X; eauto]. clear f1 P1 E.
    induction k as [|k IHk]; intros i f1 P1 E; cbn [flatten_elts] in E; [injection E as _ <-; auto|].
    destruct (rd elts i) as [x| |]; try discriminate. cbn [bind] in E. destruct (flatten_c n s h f1 x) as [[c1 f2]| |] eqn:E2; try discriminate. cbn [bind] in E.
    destruct (IH _ _ _ _ E2 P1) as (B2&P2). destruct (c1 =? F_OK); [|injection E as _ <-; auto].
    rewrite <- B2. eapply IHk; eauto. }
  destruct (_ =? TYPE_CHAR); [eapply TAG; eauto|].
  destruct (_ =? TYPE_U). { unfold f_u in E. destruct b64; eapply TAG; eauto. }
  destruct (_ =? TYPE_I). { unfold f_i in E. destruct b64; eapply TAG; eauto. }
  destruct (_ =? TYPE_U32). { destruct (payload32 h v); try discriminate. eapply TAG; eauto. }
  destruct (_ =? TYPE_I32). { destruct (payload32 h v); try discriminate. eapply TAG; eauto. }
  destruct (_ =? TYPE_U64). { destruct (payload64 h v); try discriminate. eapply TAG; eauto. }
  destruct (_ =? TYPE_I64). { destruct (payload64 h v); try discriminate. eapply TAG; eauto. }
  destruct (_ =? TYPE_FLOAT). { destruct (payload32 h v); try discriminate. eapply TAG; eauto. }
  destruct (_ =? TYPE_DOUBLE). { destruct (payload64 h v); try discriminate. eapply TAG; eauto. }
  destruct (_ =? TYPE_SYMBOL).
  { destruct (get_name_by_symbol s (dec_sym v)) as [o| |]; try discriminate. cbn [bind] in E. destruct o as [nm|]; cbn [f_sym_string bind] in E; [eapply TAG; eauto|].
    injection E as _ <-. auto. }
  destruct (_ =? TYPE_ARRAY); [|eapply ID; eauto].
  destruct (byte_array h v) as [o| |]; try discriminate. cbn [bind] in E. destruct o as [bs|]; [|eapply ID; eauto].
  destruct (_ >? 0); [|eapply ID; eauto]. apply CODE in E. destruct E as (r&E). unfold f_lbm_array in E.
  destruct (put f [S_LBM_ARRAY]) as [[r1 f1]| |] eqn:E1; try discriminate. cbn [bind] in E. destruct (put_inside _ _ _ _ E1 P) as (B1&P1).
  destruct r1; [|injection E as _ <-; auto].
  match type of E with context [put f1 ?w] => destruct (put f1 w) as [[r2 f2]| |] eqn:E2 end; try discriminate. cbn [bind] in E. destruct (put_inside _ _ _ _ E2 P1) as (B2&P2).
  destruct r2; [|injection E as _ <-; split; auto; congruence]. destruct (put_inside _ _ _ _ E P2). split; auto. congruence.
Qed.

(* ---- C12 ---- *)

(* With [1 + cells_of t] free cells and blocks for the array and for [t],
   flattening gives a byte array holding the bytes of [t]; unflattening these
   gives a value of the same tree, the original still being there, and no
   live cell or block is changed. *)
Theorem flat_round_trip : forall max hist u v t fl a b ads rest maxd fuel gc, reachable max hist (us u) ->
  heap_ok (uh u) fl -> no_null (uh u) -> den fl (uh u) v t -> flattenable (us u) maxd t -> (depth t <= fuel)%nat ->
  (1 + cells_of t <= length fl)%nat -> up u = a :: b :: ads ++ rest -> length ads = blocks_of t -> fresh (uh u) (a :: b :: ads) ->
  exists u1 arr fl1 bs, flatten_value fuel maxd u v = Ok (u1, arr) /\ heap_ok (uh u1) fl1 /\ den fl1 (uh u1) arr (Bytes bs) /\ bs = ser (names (us u)) t /\
  exists u2 v2 fl2, unflatten_value fuel gc u1 (mkF bs 0) = Ok (u2, true, v2) /\ heap_ok (uh u2) fl2 /\
    den fl2 (uh u2) v2 t /\ den fl2 (uh u2) v t /\ (no_nan t -> struct_eq fuel (uh u2) v v2 = Ok true) /\
    up u2 = rest /\ us u2 = us u /\ length fl = (1 + cells_of t + length fl2)%nat /\ same_but fl (uh u) (uh u2) /\
    (forall x o, mem (uh u) x = Some o -> mem (uh u2) x = Some o).
Proof.
  intros max hist u v t fl a b ads rest maxd fuel gc R OK N0 D (FO&DM&B) DF CL U LA (ND&FR).
  inversion FR as [|? ? (NA&FA) FR']; subst. inversion FR' as [|? ? (NB&FB) FRs]; subst. inversion ND as [|? ? NIa ND']; subst. inversion ND' as [|? ? NIb NDs]; subst.
  assert (FO1 : flat_ok (named_in (us u) (names (us u))) t) by (eapply flat_ok_impl; [|exact FO]; intros n X; eapply symbol_known; eauto).
  assert (FO2 : flat_ok (interned (us u) (names (us u))) t) by (eapply flat_ok_impl; [|exact FO]; intros n X; eapply symbol_known; eauto).
  destruct fl as [|i fl]; [simpl in CL; lia|].
  destruct (flatten_value_ok (names (us u)) u v t i fl a b (ads ++ rest) fuel maxd OK N0 D FO1 DF DM B U NA NB) as (u1&w&E1&OK1&S1&C1&M1&Us1&P1&_&D1).
  exists u1, w, fl. eexists. split; [exact E1|]. split; auto. split; [exact D1|]. split; [reflexivity|].
  assert (FO3 : flat_ok (interned (us u1) (names (us u))) t) by (rewrite Us1; exact FO2).
  destruct (unflatten_value_ok (names (us u)) u1 t fl ads rest fuel gc OK1 FO3 DF ltac:(simpl in CL; lia) P1 LA) as (u2&v2&fl2&E2&G&D2); auto.
  { eapply Forall_impl; [|exact FRs]. intros x (?&_). auto. }
  exists u2, v2, fl2. split; [exact E2|]. pose proof (g_ok _ _ _ _ _ _ _ _ G) as OK2. split; auto. split; auto.
  assert (KEEP : forall x o, mem (uh u) x = Some o -> mem (uh u2) x = Some o).
  { intros x o X. rewrite (g_mem _ _ _ _ _ _ _ _ G). { rewrite M1; auto. intros ->. congruence. }
    intros Y. rewrite Forall_forall in FRs. destruct (FRs _ Y). congruence. }
  assert (SB : same_but (i :: fl) (uh u) (uh u2)).
  { intros j J. rewrite (g_cells _ _ _ _ _ _ _ _ G) by (intros X; apply J; right; auto). apply S1. auto. }
  assert (DV : den fl2 (uh u2) v t).
  { eapply den_grows; [split; [exact SB|split; [rewrite (g_cc _ _ _ _ _ _ _ _ G); auto|exact KEEP]]| |exact D].
    intros x X. right. apply (g_incl _ _ _ _ _ _ _ _ G). auto. }
  split; auto. split.
  { intros NN. destruct (struct_eq_correct fl2 (uh u2) fuel v v2 t t DV D2 DF) as (r&Er&Q). rewrite Er. f_equal. apply Q, same_refl, NN. }
  split; [apply (g_pool _ _ _ _ _ _ _ _ G)|]. split; [rewrite (g_syms _ _ _ _ _ _ _ _ G); auto|].
  split; [pose proof (g_len _ _ _ _ _ _ _ _ G); simpl; lia|]. auto.
Qed.

(* An attempt that fails for want of memory keeps the buffer. *)
Lemma extract_buf f k o f' : extract f k = Ok (o, f') -> buf f' = buf f.
Proof.
  unfold extract. destruct (blen f >=? pos f + k); [|intros E; injection E as _ <-; auto].
  intros E. apply bind_ok in E as (x&_&E). injection E as _ <-. reflexivity.
Qed.

Lemma elts_buf rec fuel : (forall u f u' f' r, rec u f = Ok (u', f', r) -> buf f' = buf f) ->
  forall i size hd u f r u' f' r', unflatten_elts rec fuel i size hd u f r = Ok (u', f', r') -> buf f' = buf f.
Proof.
  intros R. induction fuel as [|k IH]; intros i size hd u f r u' f' r'; cbn [unflatten_elts];
    destruct (i <? size); try discriminate; try (intros E; injection E as _ <- _; reflexivity).
  intros E. apply bind_ok in E as ([[u1 f1] r1]&E1&E). apply R in E1. destruct r1.
  - destruct (mem (uh u1) hd) as [[]|]; try discriminate. apply bind_ok in E as (es&_&E). apply IH in E. congruence.
  - injection E as _ <- _. auto.
  - injection E as _ <- _. auto.
Qed.

Lemma unflatten_buf fuel : forall u f u' f' r, unflatten fuel u f = Ok (u', f', r) -> buf f' = buf f.
Proof.
  induction fuel as [|n IH]; intros u f u' f' r; cbn [unflatten]; [discriminate|].
  destruct (blen f =? pos f); [intros E; injection E as _ <- _; auto|].
  intros E. apply bind_ok in E as (c&_&E).
  Ltac num_case E := let o := fresh "o" in let f1 := fresh "f1" in let E1 := fresh "E1" in
    apply bind_ok in E as ([o f1]&E1&E); apply extract_buf in E1; cbn [buf] in E1; destruct o;
    [apply bind_ok in E as (?&_&E); unfold checked in E|]; injection E as _ <- _; exact E1.
  destruct (c =? S_CONS).
  { apply bind_ok in E as ([[u1 f1] r1]&E1&E). apply IH in E1. cbn [buf] in E1. destruct r1; [|injection E as _ <- _; auto..].
    apply bind_ok in E as ([[u2 f2] r2]&E2&E). apply IH in E2. destruct r2; [|injection E as _ <- _; congruence..].
    apply bind_ok in E as ([h c2]&_&E). unfold checked in E. injection E as _ <- _. congruence. }
  destruct (c =? S_LBM_LISP_ARRAY).
  { apply bind_ok in E as ([o f1]&E1&E). apply extract_buf in E1. cbn [buf] in E1. destruct o; [|injection E as _ <- _; auto].
    apply bind_ok in E as ([u1 a]&_&E). apply bind_ok in E as (hd&_&E). destruct (mem (uh u1) hd) as [[]|]; try discriminate.
    destruct (a =? MERROR); [injection E as _ <- _; auto|]. apply bind_ok in E as ([[u2 f2] r2]&E2&E).
    apply elts_buf in E2; auto. injection E as _ <- _. congruence. }
  do 12 (match type of E with (if ?b then _ else _) = _ => destruct b; [num_case E|] end).
  destruct (c =? S_LBM_ARRAY).
  { apply bind_ok in E as ([o f1]&E1&E). apply extract_buf in E1. cbn [buf] in E1. destruct o; [|injection E as _ <- _; auto].
    apply bind_ok in E as ([u1 a]&_&E). destruct (a =? MERROR); [injection E as _ <- _; auto|].
    apply bind_ok in E as (c1&_&E). destruct (mem (uh u1) c1) as [[]|]; try discriminate.
    apply bind_ok in E as (bs&_&E). injection E as _ <- _. auto. }
  destruct (c =? S_SYM_STRING).
  { apply bind_ok in E as (nm&_&E). apply bind_ok in E as ([s1 o]&_&E). destruct o; injection E as _ <- _; auto. }
  injection E as _ <- _. auto.
Qed.

(* C12.  When the first attempt runs out of memory and the collection makes
   enough of it available, unflattening starts anew and gives the value. *)
Theorem flat_retry : forall max hist u u1 f1 u2 t fl ads rest maxd fuel gc, reachable max hist (us u2) ->
  let bs := ser (names (us u2)) t in
  unflatten fuel u (mkF bs 0) = Ok (u1, f1, URetry) -> gc u1 = Ok u2 ->
  heap_ok (uh u2) fl -> flattenable (us u2) maxd t -> (depth t <= fuel)%nat -> (cells_of t <= length fl)%nat ->
  up u2 = ads ++ rest -> length ads = blocks_of t -> fresh (uh u2) ads ->
  exists u3 v fl3, unflatten_value fuel gc u (mkF bs 0) = Ok (u3, true, v) /\ heap_ok (uh u3) fl3 /\
    den fl3 (uh u3) v t /\ up u3 = rest /\ us u3 = us u2 /\ length fl = (cells_of t + length fl3)%nat /\ same_but fl (uh u2) (uh u3).
Proof.
  intros max hist u u1 f1 u2 t fl ads rest maxd fuel gc R bs E1 EG OK (FO&DM&B) DF CL U LA (ND&FR).
  assert (FO2 : flat_ok (interned (us u2) (names (us u2))) t) by (eapply flat_ok_impl; [|exact FO]; intros n X; eapply symbol_known; eauto).
  assert (NZ : Forall (fun a => a <> 0) ads) by (eapply Forall_impl; [|exact FR]; intros x (?&_); auto).
  destruct (un_ok (us u2) (names (us u2)) t fuel FO2 DF u2 [] [] fl ads rest eq_refl OK CL U LA NZ ND B) as (u3&v&fl3&E&G).
  exists u3, v, fl3. split.
  { unfold unflatten_value. rewrite E1. cbn [bind]. rewrite EG. cbn [bind].
    rewrite (unflatten_buf _ _ _ _ _ _ E1). cbn [buf]. unfold bs.
    replace (mkF (ser (names (us u2)) t) 0) with (at_pos [] (ser (names (us u2)) t ++ [])) by (unfold at_pos; rewrite app_nil_r; reflexivity).
    rewrite E. cbn [bind]. reflexivity. }
  split; [apply (g_ok _ _ _ _ _ _ _ _ G)|]. split; [apply hide_none, (g_den _ _ _ _ _ _ _ _ G); auto|].
  split; [apply (g_pool _ _ _ _ _ _ _ _ G)|]. split; [apply (g_syms _ _ _ _ _ _ _ _ G)|].
  split; [apply (g_len _ _ _ _ _ _ _ _ G)|]. intros j J. apply (g_cells _ _ _ _ _ _ _ _ G); auto.
Qed.

(* ---- C14 ---- *)

(* When counts and strings stay inside the buffer and there is room for its
   lisp arrays, any bytes are decoded without going wrong: there is an answer,
   the position stays inside, and no memory but newly allocated blocks is
   written. *)
Theorem unflatten_inside : forall max hist u bs fl, Forall (fun b => 0 <= b < 256) bs -> contained bs ->
  heap_ok (uh u) fl -> reachable max hist (us u) -> Z.of_nat (length hist) + Z.of_nat (length bs) < 2 ^ 27 ->
  (In 31 bs -> room (Z.of_nat (length bs)) fl (up u)) ->
  exists u' p r, unflatten (S (length bs)) u (mkF bs 0) = Ok (u', mkF bs p, r) /\ 0 <= p <= Z.of_nat (length bs) /\
    (exists fl', heap_ok (uh u') fl') /\ (exists used, up u = used ++ up u' /\ forall x, ~ In x used -> mem (uh u') x = mem (uh u) x).
Proof.
  intros max hist u bs fl F CT OK R HB RM.
  destruct (unflatten_fine max bs F CT (S (length bs)) u 0 fl hist ltac:(lia) OK R ltac:(lia)) as ([[u' f'] r]&E&B&P&_&hist'&fl'&H1&_&_&_&used&U1&_&U3).
  { rewrite Z.sub_0_r. auto. }
  destruct f' as [b p]. cbn in B, P. subst b. exists u', p, r. split; auto. split; auto. split; [eauto|]. exists used. split; auto.
Qed.

(* Out of bounds reads: every buffer that starts with a byte array longer than
   the rest of the buffer, once memory for it is found, and every buffer that
   starts with a symbol without terminator. *)
Theorem byte_array_overread_refuted : forall u b1 b2 b3 b4 rest i fl a d pool fuel,
  Forall (fun b => 0 <= b < 256) [b1; b2; b3; b4] -> heap_ok (uh u) (i :: fl) -> up u = a :: d :: pool -> a <> 0 -> d <> 0 ->
  b1 * 2 ^ 24 + b2 * 2 ^ 16 + b3 * 2 ^ 8 + b4 > Z.of_nat (length rest) ->
  unflatten (S fuel) u (mkF (13 :: b1 :: b2 :: b3 :: b4 :: rest) 0) = UB.
Proof.
  intros u b1 b2 b3 b4 rest i fl a d pool fuel F OK U NA ND GT. set (bs := 13 :: b1 :: b2 :: b3 :: b4 :: rest).
  assert (FB : forall x, In x [b1; b2; b3; b4] -> 0 <= x < 256) by (apply Forall_forall; auto).
  pose proof (FB b1 ltac:(simpl; auto)). pose proof (FB b2 ltac:(simpl; auto)). pose proof (FB b3 ltac:(simpl; auto)). pose proof (FB b4 ltac:(simpl; auto)).
  assert (L : Z.of_nat (length bs) = 5 + Z.of_nat (length rest)) by (cbn [bs length]; lia).
  assert (EX : be bs 1 4 0 = Ok (b1 * 2 ^ 24 + b2 * 2 ^ 16 + b3 * 2 ^ 8 + b4)).
  { cbn [be]. change (rd bs 1) with (Ok b1). change (rd bs (1 + 1)) with (Ok b2). change (rd bs (1 + 1 + 1)) with (Ok b3). change (rd bs (1 + 1 + 1 + 1)) with (Ok b4). cbn [bind].
    rewrite !Z.shiftl_mul_pow2 by lia. rewrite !(Value_Proofs.lor_add _ _ 8) by (change (2 ^ 8) with 256; lia). f_equal.
    change (2 ^ 24) with (2 ^ 8 * 2 ^ 8 * 2 ^ 8). change (2 ^ 16) with (2 ^ 8 * 2 ^ 8). lia. }
  set (num := b1 * 2 ^ 24 + b2 * 2 ^ 16 + b3 * 2 ^ 8 + b4) in *.
  destruct (alloc_array_ok u true num i fl a d pool OK U NA ND ltac:(lia) ltac:(discriminate)) as (h1&q&E&OK1&C&S&Cc&M&R8).
  cbv zeta in E. destruct (tagged_facts i (array_ty true) R8 (good_array_ty true)) as (P&I&K&T&NM). set (w := set_ptr_type _ _) in *.
  cbn [unflatten]. unfold blen. cbn [buf pos]. destruct (Z.eqb_spec (Z.of_nat (length bs)) 0); [lia|]. change (rd bs 0) with (Ok 13). cbn [bind].
  repeat match goal with |- context [13 =? ?b] => let r := eval vm_compute in (13 =? b) in change (13 =? b) with r end. cbv iota zeta.
  unfold extract, blen. cbn [buf pos]. destruct (Z.geb_spec (Z.of_nat (length bs)) (0 + 1 + 4)); [|lia]. change (Z.to_nat 4) with 4%nat. change (0 + 1) with 1. rewrite EX. cbn [bind].
  rewrite E. cbn [bind]. rewrite merror_neq by auto. cbn [uh].
  rewrite (car_ptr _ _ a q P). 2:{ rewrite ref_cell_rw, I by auto. change (cell (set_obj h1 a ?o) i) with (cell h1 i). rewrite C. reflexivity. }
  cbn [bind]. cbn [mem set_obj set_mem]. rewrite Z.eqb_refl. cbn [uh buf pos]. unfold slice.
  destruct (Z.leb_spec (1 + 4 + num) (Z.of_nat (length bs))); [lia|]. rewrite andb_false_r. reflexivity.
Qed.

Theorem symbol_overread_refuted : forall u rest fuel, ~ In 0 rest -> unflatten (S fuel) u (mkF (3 :: rest) 0) = UB.
Proof.
  intros u rest fuel N. cbn [unflatten]. unfold blen. cbn [buf pos]. destruct (Z.eqb_spec (Z.of_nat (length (3 :: rest))) 0); [cbn [length] in *; lia|].
  change (rd (3 :: rest) 0) with (Ok 3). cbn [bind].
  repeat match goal with |- context [3 =? ?b] => let r := eval vm_compute in (3 =? b) in change (3 =? b) with r end. cbv iota zeta. cbn [buf pos].
  change (skipn (Z.to_nat (0 + 1)) (3 :: rest)) with rest.
  assert (E : c_string rest = UB).
  { revert N. clear. induction rest as [|x rest IH]; cbn [c_string]; auto. intros N. destruct (Z.eqb_spec x 0) as [->|]; [exfalso; apply N; left; auto|].
    rewrite IH; [reflexivity|]. intros X. apply N. right; auto. }
  rewrite E. reflexivity.
Qed.

(* When memory for a lisp array is not found, the header is read through the
   symbol lbm_car answers with. *)
Theorem lisp_array_no_memory_refuted : forall u b1 b2 b3 b4 rest fuel, up u = [] -> mem (uh u) TERROR = None ->
  Forall (fun b => 0 <= b < 256) [b1; b2; b3; b4] ->
  unflatten (S fuel) u (mkF (31 :: b1 :: b2 :: b3 :: b4 :: rest) 0) = UB.
Proof.
  intros u b1 b2 b3 b4 rest fuel U M F. set (bs := 31 :: b1 :: b2 :: b3 :: b4 :: rest).
  assert (L : Z.of_nat (length bs) = 5 + Z.of_nat (length rest)) by (cbn [bs length]; lia).
  cbn [unflatten]. unfold blen. cbn [buf pos]. destruct (Z.eqb_spec (Z.of_nat (length bs)) 0); [lia|]. change (rd bs 0) with (Ok 31). cbn [bind].
  repeat match goal with |- context [31 =? ?b] => let r := eval vm_compute in (31 =? b) in change (31 =? b) with r end. cbv iota zeta.
  unfold extract, blen. cbn [buf pos]. destruct (Z.geb_spec (Z.of_nat (length bs)) (0 + 1 + 4)); [|lia]. change (Z.to_nat 4) with 4%nat. change (0 + 1) with 1.
  cbn [be]. change (rd bs 1) with (Ok b1). change (rd bs (1 + 1)) with (Ok b2). change (rd bs (1 + 1 + 1)) with (Ok b3). change (rd bs (1 + 1 + 1 + 1)) with (Ok b4). cbn [bind].
  unfold alloc_array, malloc. rewrite U. cbn [Z.eqb bind]. unfold car. rewrite MERROR_not_ptr.
  replace (is_symbol_nil MERROR) with false by (destruct A; vm_compute; reflexivity). cbn [bind]. rewrite M. reflexivity.
Qed.

(* ---- C58 ---- *)

(* When the size is positive but writing fails, nil is the answer and the
   header and the buffer stay allocated: nothing was freed and the result does
   not refer to them. *)
Theorem flatten_failure_leaks : forall u v i fl a b rest maxd fuel n c f, heap_ok (uh u) (i :: fl) ->
  up u = a :: b :: rest -> a <> 0 -> b <> 0 ->
  (forall h, (forall w, w <> i -> cell h w = cell (uh u) w) -> mem h = mem (uh u) -> 
     value_size maxd (us u) h v = Ok n /\ flatten_c fuel (us u) h (mkF (repeat 0 (Z.to_nat n)) 0) v = Ok (c, f)) ->
  0 < n -> c <> F_OK ->
  exists u', flatten_value fuel maxd u v = Ok (u', NIL) /\ up u' = rest /\ freed (uh u') = freed (uh u) /\ mem (uh u') = mem (uh u).
Proof.
  intros u v i fl a b rest maxd fuel n c f OK U NA NB H N0 NC.
  destruct (alloc_cell_ok (uh u) i fl TYPE_CONS NIL (enc_sym SYM_ARRAY_TYPE) OK tag_cons) as (h1&E&OK1&C&S&Sz&Cc&M&Fr&I&R&_).
  assert (R8 : 0 <= i < 2 ^ (W - 8)) by (pose proof (ok_size _ _ OK); lia). rewrite cons_enc in E by auto.
  destruct (tagged_facts i TYPE_CONS R8 good_cons) as (_&_&_&_&NM). rewrite cons_enc in NM by auto.
  destruct (H h1) as (E1&E2); auto. { intros w W. apply S. intros [->|[]]; congruence. }
  unfold flatten_value. rewrite E. cbn [bind]. rewrite merror_neq by auto. cbv zeta. rewrite E1. cbn [bind].
  destruct (Z.gtb_spec n 0); [|lia]. unfold malloc. cbn [up set_h]. rewrite U. cbn [up].
  destruct (Z.eqb_spec a 0); [congruence|]. destruct (Z.eqb_spec b 0); [congruence|]. cbn [uh set_h us uk]. rewrite E2. cbn [bind].
  destruct (Z.eqb_spec c F_OK); [congruence|]. unfold set_car_and_cdr. rewrite enc_rw by auto.
  rewrite ref_cell_rw, enc_ix, C by auto using enc_not_const. cbn [bind].
  rewrite put_cell_rw, enc_ix, C by auto using enc_not_const. cbn [bind].
  assert (HE : handle_flatten_error n = NIL).
  { unfold handle_flatten_error. repeat match goal with |- context [n =? ?x] => destruct (Z.eqb_spec n x) as [?Q|_]; [unfold F_CANNOT, F_TOO_SMALL, F_FATAL, F_CIRCULAR, F_DEPTH, F_ARRAY, F_NO_MEM in Q; lia|] end. reflexivity. }
  rewrite HE. eexists. split; [reflexivity|]. split; [reflexivity|]. split; [exact Fr|exact M].
Qed.

End Arch.

(* ---- Cases ---- *)
Definition table0 {A : Arch} : syms := fst (after 4 [OSym Memory (chars "foo") true]).
Definition start {A : Arch} (pool : list Z) : res ust := let! h := heap_init 32 8 in Ok (mkU h pool table0 []).
Definition blocks (from n : nat) : list Z := map (fun k => 16 * Z.of_nat k) (seq from n).

(* -5, three bytes, an array of a double and foo, in a list *)
Definition tree0 : tree := Pair (Leaf KI (-5)) (Pair (Bytes [1; 0; 255]) (Pair (Arr [Leaf KDouble 7; Leaf KSym 0x40002]) (Leaf KSym 0))).

Lemma table0_reachable {A : Arch} : exists hist, reachable 4 hist table0.
Proof.
  exists (combine [OSym Memory (chars "foo") true] (snd (after 4 [OSym Memory (chars "foo") true]))).
  apply after_reachable; destruct A; vm_compute; try reflexivity; try congruence; repeat constructor; discriminate.
Qed.
Lemma start_ok {A : Arch} pool : exists u, start pool = Ok u /\ heap_ok (uh u) (zseq 32) /\ up u = pool /\ us u = table0 /\ (forall a, mem (uh u) a = None).
Proof.
  destruct (heap_init_ok 32 8) as (h&E&OK&_). { destruct A; vm_compute; split; discriminate. }
  unfold start. rewrite E. cbn [bind]. eexists. split; [reflexivity|]. split; [exact OK|]. split; auto. split; auto.
  cbn [uh]. clear OK. revert E. destruct A; vm_compute; intros [= <-]; auto.
Qed.

Lemma tree0_flattenable {A : Arch} : flattenable table0 100 tree0.
Proof.
  split; [|destruct A; vm_compute; split; congruence].
  assert (S0 : symbol_in table0 0) by (exists (chars "nil"); split; [repeat constructor; discriminate|destruct A; vm_compute; reflexivity]).
  assert (S1 : symbol_in table0 0x40002) by (exists (chars "foo"); split; [repeat constructor; discriminate|destruct A; vm_compute; reflexivity]).
  repeat constructor; try (destruct A; vm_compute; congruence); try discriminate; auto.
Qed.

(* the hypotheses of flat_round_trip and flat_size_exact are met *)
Example flat_case {A : Arch} : exists hist u v fl ads rest, reachable 4 hist (us u) /\ heap_ok (uh u) fl /\ no_null (uh u) /\
  den fl (uh u) v tree0 /\ flattenable (us u) 100 tree0 /\ (1 + cells_of tree0 <= length fl)%nat /\
  up u = 320 :: 336 :: ads ++ rest /\ length ads = blocks_of tree0 /\ fresh (uh u) (320 :: 336 :: ads) /\ no_nan tree0.
Proof.
  destruct table0_reachable as (hist&R).
  set (k := blocks_of (A := A) tree0). destruct (start_ok (blocks 1 k ++ blocks 20 (3 + k))) as (u&_&OK&U&Us&M).
  assert (FL : flattenable (us u) 100 tree0) by (rewrite Us; apply tree0_flattenable).
  assert (FO : flat_ok (interned (us u) (names (us u))) tree0).
  { destruct FL as (FO&_). eapply flat_ok_impl; [|exact FO]. intros n X. rewrite Us in *. eapply symbol_known; eauto. }
  destruct (unflatten_value_ok (names (us u)) u tree0 (zseq 32) (blocks 1 k) (blocks 20 (3 + k)) 100 (fun u => Ok u) OK FO) as (u1&v&fl1&_&G&D); auto.
  { vm_compute. lia. } { destruct A; vm_compute; lia. } { unfold blocks. rewrite map_length, seq_length. reflexivity. }
  { apply Forall_forall. intros x X. unfold blocks in X. apply in_map_iff in X. destruct X as (j&<-&J). apply in_seq in J. lia. }
  { unfold blocks. apply FinFun.Injective_map_NoDup; [intros x y; lia|apply seq_NoDup]. }
  { apply FL. }
  exists hist, u1, v, fl1, (blocks 22 k), (blocks (22 + k) 1). rewrite (g_syms _ _ _ _ _ _ _ _ G). rewrite Us in *. split; auto.
  split; [apply (g_ok _ _ _ _ _ _ _ _ G)|].
  assert (M1 : forall x, ~ In x (blocks 1 k) -> mem (uh u1) x = None) by (intros x X; rewrite (g_mem _ _ _ _ _ _ _ _ G); auto).
  assert (NB : forall x j n, In x (blocks j n) -> 16 * Z.of_nat j <= x < 16 * Z.of_nat (j + n)).
  { intros x j n X. unfold blocks in X. apply in_map_iff in X. destruct X as (y&<-&Y). apply in_seq in Y. lia. }
  assert (K : (k < 15)%nat) by (destruct A; vm_compute; lia).
  split; [apply M1; intros X; apply NB in X; lia|]. split; auto. split; auto.
  split. { pose proof (g_len _ _ _ _ _ _ _ _ G) as L. assert (length (zseq 32) = 32%nat) by reflexivity. assert (cells_of (A := A) tree0 <= 10)%nat by (destruct A; vm_compute; lia). lia. }
  split. { rewrite (g_pool _ _ _ _ _ _ _ _ G). unfold blocks. replace (3 + k)%nat with (2 + k + 1)%nat by lia. cbn [Nat.add seq map app]. rewrite seq_app, map_app. reflexivity. }
  split. { unfold blocks. rewrite map_length, seq_length. reflexivity. }
  change (320 :: 336 :: blocks 22 k) with (blocks 20 (2 + k)). split.
  { split; [unfold blocks; apply FinFun.Injective_map_NoDup; [intros x y; lia|apply seq_NoDup]|].
    apply Forall_forall. intros x X. apply NB in X. split; [lia|]. apply M1. intros Y. apply NB in Y. lia. }
  unfold tree0. repeat constructor; cbn; auto; vm_compute; congruence.
Qed.

(* the hypotheses of flat_retry are met: without a block for the byte array the
   first attempt gives up in the middle of the buffer *)
Example retry_case {A : Arch} : exists hist u2 u1 f1 ads rest, reachable 4 hist (us u2) /\
  unflatten 100 (mkU (uh u2) [] (us u2) (uk u2)) (mkF (ser (names (us u2)) tree0) 0) = Ok (u1, f1, URetry) /\ 0 < pos f1 /\
  heap_ok (uh u2) (zseq 32) /\ flattenable (us u2) 100 tree0 /\ (depth tree0 <= 100)%nat /\ (cells_of tree0 <= length (zseq 32))%nat /\
  up u2 = ads ++ rest /\ length ads = blocks_of tree0 /\ fresh (uh u2) ads.
Proof.
  destruct table0_reachable as (hist&R). set (k := blocks_of (A := A) tree0).
  destruct (start_ok (blocks 1 k ++ blocks 20 3)) as (u&E&OK&U&Us&M).
  assert (X : exists u1 f1, unflatten 100 (mkU (uh u) [] (us u) (uk u)) (mkF (ser (names (us u)) tree0) 0) = Ok (u1, f1, URetry) /\ 0 < pos f1).
  { unfold start in E. apply bind_ok in E as (h&E1&E2). injection E2 as <-. cbn [uh us uk]. clear - E1.
    destruct A; vm_compute in E1; injection E1 as <-; eexists _, _; (split; [vm_compute; reflexivity|reflexivity]). }
  destruct X as (u1&f1&X&P). exists hist, u, u1, f1, (blocks 1 k), (blocks 20 3).
  split; [rewrite Us; auto|]. split; auto. split; auto. split; auto. split; [rewrite Us; apply tree0_flattenable|].
  split; [vm_compute; lia|]. split; [destruct A; vm_compute; lia|]. split; auto.
  split; [unfold blocks; rewrite map_length, seq_length; reflexivity|]. split.
  - unfold blocks. apply FinFun.Injective_map_NoDup; [intros x y; lia|apply seq_NoDup].
  - apply Forall_forall. intros x J. unfold blocks in J. apply in_map_iff in J. destruct J as (j&<-&J). apply in_seq in J. split; [lia|auto].
Qed.

(* the bytes of a list of 7 and 8 on a 32 bit build *)
Example flat_bytes : ser (A := A32) (fun _ => chars "nil") (Pair (Leaf KI 7) (Pair (Leaf KI (-8)) (Leaf KSym 0))) =
  [1; 5; 0; 0; 0; 7; 1; 5; 255; 255; 255; 248; 3; 110; 105; 108; 0].
Proof. vm_compute. reflexivity. Qed.

(* C13 is false of values with a part that cannot be flattened inside a lisp
   array, such as [| c |] with a channel c: the size is 4, and the writer runs
   out of buffer; flatten_value answers with nil, and leaks.  Likewise an
   empty byte array has size 1. *)
Definition with_array {A : Arch} (o : obj) (b : bool) : res (ust * Z) :=
  let! u := start (blocks 1 8) in
  let! (u1, w) := alloc_array u b 1 in
  let! c := car (uh u1) w in
  Ok (set_h u1 (set_obj (uh u1) c (Some o)), w).

Theorem flat_size_refuted : forall A : Arch, exists u v c f u',
  with_array (OLisp 32 WB [set_ptr_type (enc_cons_ptr 5) TYPE_CHANNEL] 0) false = Ok (u, v) /\
  value_size 100 (us u) (uh u) v = Ok 4 /\ flatten_c 10 (us u) (uh u) (mkF (repeat 0 4) 0) v = Ok (c, f) /\ c <> F_OK /\
  flatten_value 10 100 u v = Ok (u', NIL) /\ (length (up u') + 2 = length (up u))%nat /\ freed (uh u') = freed (uh u).
Proof. intros [|]; do 5 eexists; repeat (split; [vm_compute; reflexivity|]); (split; [discriminate|]); repeat (split; [vm_compute; reflexivity|]); vm_compute; reflexivity. Qed.

Theorem flat_size_empty_refuted : forall A : Arch, exists u v c f u',
  with_array (OByte 32 []) true = Ok (u, v) /\ den [] (uh u) v (Bytes []) /\
  value_size 100 (us u) (uh u) v = Ok 1 /\ flatten_c 10 (us u) (uh u) (mkF (repeat 0 1) 0) v = Ok (c, f) /\ c <> F_OK /\
  flatten_value 10 100 u v = Ok (u', NIL) /\ (length (up u') + 2 = length (up u))%nat /\ freed (uh u') = freed (uh u).
Proof.
  intros [|]; do 5 eexists; (split; [vm_compute; reflexivity|]);
  (split; [eapply den_bytes; [vm_compute; reflexivity|intros _ _ []|vm_compute; reflexivity|vm_compute; reflexivity|vm_compute; reflexivity]|]);
  repeat (split; [vm_compute; reflexivity|]); (split; [discriminate|]); repeat (split; [vm_compute; reflexivity|]); vm_compute; reflexivity.
Qed.

(* A list with a part that cannot be flattened: nil and no error. *)
Definition with_list {A : Arch} (x : Z) : res (ust * Z) :=
  let! u := start (blocks 1 8) in
  let! (h, v) := cons (uh u) x NIL in
  Ok (set_h u h, v).

Theorem flat_list_nil_refuted : forall A : Arch, exists u v u',
  with_list (set_ptr_type (enc_cons_ptr 5) TYPE_CHANNEL) = Ok (u, v) /\ value_size 100 (us u) (uh u) v = Ok 0 /\
  flatten_value 10 100 u v = Ok (u', NIL).
Proof. intros [|]; do 3 eexists; repeat (split; [vm_compute; reflexivity|]); vm_compute; reflexivity. Qed.

(* On a 32 bit build the size in bytes of 2^30 + 1 elements wraps to one
   word, and the second element is written past the block. *)
Theorem lisp_array_overflow_refuted : exists u, start (A := A32) (blocks 1 8) = Ok u /\
  unflatten (A := A32) 20 u (mkF [31; 64; 0; 0; 1; 4; 1; 4; 2] 0) = UB.
Proof. eexists. split; [vm_compute; reflexivity|]. vm_compute. reflexivity. Qed.

(* the hypotheses of unflatten_inside are met by some malformed bytes: a pair
   whose second part has an unknown tag *)
Example inside_case : exists u hist, start (A := A32) (blocks 1 30) = Ok u /\ reachable (A := A32) 4 hist (us u) /\
  heap_ok (A := A32) (uh u) (zseq 32) /\ contained (A := A32) [1; 31; 0; 0; 0; 1; 4; 7; 99] /\
  room (Z.of_nat (length [1; 31; 0; 0; 0; 1; 4; 7; 99])) (zseq 32) (up u).
Proof.
  destruct (start_ok (A := A32) (blocks 1 30)) as (u&E&OK&U&Us&_). destruct (table0_reachable (A := A32)) as (hist&R). exists u, hist.
  split; auto. rewrite Us, U. split; auto. split; auto. split.
  - clear. intros p P. cbn [length] in P. assert (PP : p = 0 \/ p = 1 \/ p = 2 \/ p = 3 \/ p = 4 \/ p = 5 \/ p = 6 \/ p = 7 \/ p = 8) by lia.
    repeat (destruct PP as [->|PP]); [..|subst p]; (split; [|split]); vm_compute; try discriminate; intros; discriminate || reflexivity.
  - split; [vm_compute; discriminate|]. split; [vm_compute; discriminate|]. split.
    + apply Forall_forall. intros x X. unfold blocks in X. apply in_map_iff in X. destruct X as (j&<-&J). apply in_seq in J. lia.
    + unfold blocks. apply FinFun.Injective_map_NoDup; [intros x y; lia|apply seq_NoDup].
Qed.
(* and those of byte_array_overread_refuted: nine bytes promised, one there *)
Example overread_case : exists u, start (A := A64) (blocks 1 30) = Ok u /\ unflatten (A := A64) 20 u (mkF [13; 0; 0; 0; 9; 1] 0) = UB.
Proof. eexists. split; [vm_compute; reflexivity|]. vm_compute. reflexivity. Qed.

Print Assumptions flat_size_exact.
Print Assumptions flat_writer_inside.
Print Assumptions flat_round_trip.
Print Assumptions flat_retry.
Print Assumptions unflatten_inside.
Print Assumptions byte_array_overread_refuted.
Print Assumptions symbol_overread_refuted.
Print Assumptions lisp_array_no_memory_refuted.
Print Assumptions lisp_array_overflow_refuted.
Print Assumptions flatten_failure_leaks.
Print Assumptions flat_size_refuted.
Print Assumptions flat_size_empty_refuted.
Print Assumptions flat_list_nil_refuted.
