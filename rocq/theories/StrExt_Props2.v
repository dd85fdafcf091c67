(* Cutting a string into pieces. *)
From Verif Require Sort_Props ArrExt_Props.
From Verif Require Import Base Value_Model Heap_Model Value_Proofs Value_Proofs2 Value_Props Heap_Spec Heap_Proofs List_Proofs GC_Model Eq_Model Eq_Spec
  Flat_Model Flat_Spec Flat_Proofs Flat_Proofs2 Read_Model Read_Proofs2 Read_Proofs3 Match_Props Eval_Proofs ArrExt_Model ArrExt_Spec ArrExt_Proofs
  StrExt_Model StrExt_Spec StrExt_Proofs StrExt_Proofs2 StrExt_Props.
Import List.
Local Open Scope Z_scope.

Section Arch.
Context {A : Arch} {L : Libc} {C : Conv} {Ch : Char}.

(* ---- pieces of the same size ---- *)
Definition chunk (t : list Z) (n i : nat) : list (list Z) := if (length t <=? i * n)%nat then [] else [firstn n (skipn (i * n) t)].
Fixpoint chunks (t : list Z) (n i : nat) : list (list Z) := (match i with O => [] | S k => chunks t n k end) ++ chunk t n i.
Lemma cut_nil n ss : cut n [] ss -> ss = [].
Proof. intros H. inversion H; subst; auto; try congruence. exfalso. destruct p; [cbn in *; congruence|discriminate]. Qed.
Lemma cut_chunks t n : (0 < n)%nat -> forall i ss, cut n (skipn ((i + 1) * n) t) ss -> cut n t (chunks t n i ++ ss).
Proof.
  intros Pn. assert (One : forall i ss, cut n (skipn ((i + 1) * n) t) ss -> cut n (skipn (i * n) t) (chunk t n i ++ ss)).
  { intros i ss H. unfold chunk. destruct (Nat.leb_spec (length t) (i * n)).
    - rewrite (skipn_all2 t) in H by lia. rewrite (skipn_all2 t) by lia. exact H.
    - replace ((i + 1) * n)%nat with (i * n + n)%nat in H by lia. rewrite <- Sort_Props.skipn_skipn' in H. set (q := skipn (i * n) t) in *.
      assert (Lq : (0 < length q)%nat) by (unfold q; rewrite skipn_length; lia). destruct (skipn n q) as [|c q'] eqn:E.
      + apply cut_nil in H. subst ss. assert (length q <= n)%nat by (rewrite <- (firstn_skipn n q), E, app_nil_r, firstn_length; lia).
        rewrite firstn_all2 by auto. apply cut_last; auto. destruct q; [cbn in Lq; lia|discriminate].
      + rewrite <- (firstn_skipn n q) at 1. rewrite E. apply cut_more; auto; [|discriminate]. apply firstn_length_le.
        assert (length (skipn n q) <> 0)%nat by (rewrite E; discriminate). rewrite skipn_length in H1. lia. }
  induction i as [|i IH]; intros ss H.
  - cbn [chunks app]. specialize (One 0%nat ss H). exact One.
  - cbn [chunks]. rewrite <- app_assoc. apply IH. replace (i + 1)%nat with (S i) by lia. apply One. exact H.
Qed.


Lemma ind_small i n len : Z.of_nat len <= 2 ^ 30 -> 0 < Z.of_nat n < 2 ^ 31 -> (i * n < len)%nat -> Z.of_nat (i * n) + Z.of_nat n < 2 ^ 31.
Proof. intros H1 H2 H3. destruct i as [|i]; [lia|]. assert (n <= S i * n)%nat by (cbn; lia). lia. Qed.
Lemma split_stuck s n i : Z.of_nat (length (text s)) <= 2 ^ 30 -> 0 < Z.of_nat n < 2 ^ 31 -> forall u, heap_ok (uh u) [] ->
  exists u', split_size i u s (Z.of_nat n) (Z.of_nat (length (text s))) MERROR = Ok (u', MERROR) /\ heap_ok (uh u') [] /\ grows [] (uh u) (uh u').
Proof.
  intros Ls Rn. induction i as [|i IH]; intros u OK; cbn [split_size]; rewrite <- Nat2Z.inj_mul;
    match goal with |- context [Z.of_nat ?a >=? Z.of_nat ?b] => destruct (Z.geb_spec (Z.of_nat a) (Z.of_nat b)) as [G|G] end.
  - exists u. split; [reflexivity|]. split; [auto|apply grows_refl].
  - pose proof (ind_small 0 n (length (text s)) Ls Rn ltac:(lia)) as Sm. destruct (Z.geb_spec (Z.of_nat (0 * n) + Z.of_nat n) (2 ^ 31)); [lia|].
    edestruct (create_full u) as (u'&E&OK'&Gr); [exact OK|]. rewrite E. cbn [bind]. rewrite Z.eqb_refl. eauto.
  - apply IH. auto.
  - pose proof (ind_small (S i) n (length (text s)) Ls Rn ltac:(lia)) as Sm. destruct (Z.geb_spec (Z.of_nat (S i * n) + Z.of_nat n) (2 ^ 31)); [lia|].
    edestruct (create_full u) as (u'&E&OK'&Gr); [exact OK|]. rewrite E. cbn [bind]. rewrite Z.eqb_refl. eauto.
Qed.

Lemma split_step u0 fl0 s n i : Z.of_nat (length (text s)) <= 2 ^ 30 -> 0 < Z.of_nat n < 2 ^ 31 ->
  forall u fl r ss, ready u fl -> acc u0 fl0 u fl r ss ->
  exists u' r', split_size i u s (Z.of_nat n) (Z.of_nat (length (text s))) r = Ok (u', r') /\
    final u0 fl0 u fl (length (chunks (text s) n i)) (chunks (text s) n i ++ ss) u' r'.
Proof.
  intros Ls Rn. pose proof (text_length s) as TL.
  assert (Piece : forall i, (i * n < length (text s))%nat ->
    let now := (if Z.of_nat (i * n) + Z.of_nat n >? Z.of_nat (length (text s)) then Z.of_nat (length (text s)) - Z.of_nat (i * n) else Z.of_nat n) in
    0 < wrap W (now + 1) /\ copy_str s (Z.of_nat (i * n)) now (repeat 0 (Z.to_nat (wrap W (now + 1)))) = Ok (firstn n (skipn (i * n) (text s)) ++ [0])).
  { intros j Lj now. set (m := Nat.min n (length (text s) - j * n)). assert (Em : now = Z.of_nat m).
    { unfold now, m. match goal with |- context [Z.gtb ?a ?b] => rewrite (Z.gtb_ltb a b); destruct (Z.ltb_spec b a) end; lia. }
    rewrite Em, wrap_W by lia. split; [lia|]. replace (Z.to_nat (Z.of_nat m + 1)) with (S m) by lia. rewrite copy_spec by lia. rewrite slice_text by lia.
    unfold m. rewrite <- (firstn_min n). rewrite skipn_length. reflexivity. }
  assert (Base : forall i u fl r ss next, ready u fl -> acc u0 fl0 u fl r ss ->
    (forall u fl r ss, ready u fl -> acc u0 fl0 u fl r ss -> exists u' r', next u r = Ok (u', r') /\
       final u0 fl0 u fl (length (match i with O => [] | S k => chunks (text s) n k end)) ((match i with O => [] | S k => chunks (text s) n k end) ++ ss) u' r') ->
    (forall u, heap_ok (uh u) [] -> exists u', next u MERROR = Ok (u', MERROR) /\ heap_ok (uh u') [] /\ grows [] (uh u) (uh u')) ->
    exists u' r', (if Z.of_nat (i * n) >=? Z.of_nat (length (text s)) then next u r else
      if Z.of_nat (i * n) + Z.of_nat n >=? 2 ^ 31 then UB else
      let now := (if Z.of_nat (i * n) + Z.of_nat n >? Z.of_nat (length (text s)) then Z.of_nat (length (text s)) - Z.of_nat (i * n) else Z.of_nat n) in
      let! (u, tok) := create_str u (wrap W (now + 1)) (copy_str s (Z.of_nat (i * n)) now) in
      if tok =? MERROR then Ok (u, MERROR) else
      let! (h, r) := Heap_Model.cons (uh u) tok r in
      next (set_h u h) r) = Ok (u', r') /\ final u0 fl0 u fl (length (chunks (text s) n i)) (chunks (text s) n i ++ ss) u' r').
  { intros j u fl r ss next R Ac Next Stuck.
    assert (Ec : chunks (text s) n j = (match j with O => [] | S k => chunks (text s) n k end) ++ chunk (text s) n j) by (destruct j; reflexivity).
    set (before := match j with O => [] | S k => chunks (text s) n k end) in *. rewrite Ec. clear Ec.
    destruct (Z.geb_spec (Z.of_nat (j * n)) (Z.of_nat (length (text s)))) as [G|G].
    - unfold chunk. destruct (Nat.leb_spec (length (text s)) (j * n)); [|lia]. rewrite app_nil_r. apply Next; auto.
    - unfold chunk. destruct (Nat.leb_spec (length (text s)) (j * n)); [lia|].
      pose proof (ind_small j n (length (text s)) Ls Rn ltac:(lia)) as Sm. destruct (Z.geb_spec (Z.of_nat (j * n) + Z.of_nat n) (2 ^ 31)); [lia|].
      destruct (Piece j ltac:(lia)) as (Pw&Pc). set (now := if _ >? _ then _ else _) in *. cbv zeta. rewrite app_length. cbn [length]. rewrite <- app_assoc. cbn [app].
      destruct (push_ok u0 fl0 u fl r ss _ _ _ R Ac Pw Pc) as (u1&tok&E&[(->&No&OK&I0&G1)|(NM&h&r'&E2&[(->&L1&OK&G1)|(fl'&L2&Av&R'&Ac')])]); rewrite E; cbn [bind].
      + rewrite Z.eqb_refl. do 2 eexists. split; [reflexivity|]. right. split; [lia|]. split; [auto|]. exists fl. auto.
      + rewrite (proj2 (Z.eqb_neq tok MERROR) NM), E2. cbn [bind]. destruct (Stuck (set_h u1 h) OK) as (u'&E3&OK3&G3). rewrite E3. do 2 eexists. split; [reflexivity|]. right.
        split; [lia|]. split; [auto|]. exists []. split; [intros x []|]. split; [auto|]. eapply grows_trans; [exact G1|]. eapply grows_incl; [|exact G3]. intros x [].
      + rewrite (proj2 (Z.eqb_neq tok MERROR) NM), E2. cbn [bind]. destruct (Next (set_h u1 h) fl' r' _ R' Ac') as (u'&r''&E3&F). rewrite E3. do 2 eexists. split; [reflexivity|].
        cbn [up set_h] in F. destruct F as [(F1&F2&F3)|(F1&F2&F3)]; [left|right]; cbn [up set_h] in *; (split; [lia|]); [split; [lia|]; exact F3|auto]. }
  induction i as [|i IH]; intros u fl r ss R Ac; cbn [split_size]; rewrite <- Nat2Z.inj_mul.
  - apply (Base 0%nat u fl r ss (fun u r => Ok (u, r))); auto.
    + intros u1 fl1 r1 ss1 R1 Ac1. do 2 eexists. split; [reflexivity|]. left. cbn [length app]. split; [lia|]. split; [lia|]. exists fl1. auto.
    + intros u1 OK1. exists u1. split; [reflexivity|]. split; [auto|apply grows_refl].
  - apply (Base (S i) u fl r ss (fun u r => split_size i u s (Z.of_nat n) (Z.of_nat (length (text s))) r)); auto.
    intros u1 OK1. apply split_stuck; auto.
Qed.

(* C75 pieces of [n] characters: at least one; the empty string has none *)
Theorem str_split_size u fl a bs nv n : ready u fl -> den fl (uh u) a (Bytes bs) -> Z.of_nat (length bs) <= 2 ^ 30 ->
  integer fl (uh u) nv n -> - 2 ^ 31 <= n < 2 ^ 31 -> forall fuel,
  exists ps u' r, str_split fuel u [a; nv] = Ok (u', r) /\ cut (Z.to_nat (Z.max 1 n)) (text bs) ps /\
    outcome (2 * length ps) (2 * length ps) u fl (tlist (map str ps)) u' r.
Proof.
  intros R D B I Rn fuel. destruct (integer_arg _ _ _ _ I) as (Nm&_&Di). pose proof (text_length bs) as TL.
  set (m := Z.to_nat (Z.max 1 n)). assert (Rm : 0 < Z.of_nat m < 2 ^ 31) by lia.
  assert (No : dec_str (uh u) nv = Ok None).
  { unfold dec_str. replace (is_array_r (uh u) nv) with (Ok false); [reflexivity|]. destruct I as (k&IK&Dk). symmetry. apply (ArrExt_Props.not_array fl _ _ _ Dk). discriminate. }
  destruct (split_step u fl bs m (length (text bs) / m) ltac:(lia) Rm u fl NIL [] R (acc_nil u fl)) as (u'&r&E&F).
  rewrite app_nil_r in F. exists (chunks (text bs) m (length (text bs) / m)), u', r. split; [|split].
  - unfold str_split. count. args. rewrite (dec_size_ok fl _ _ _ (r_null _ _ R) D). cbn [bind]. rewrite No. cbn [bind]. rewrite Nm, Di. cbn [bind].
    assert (Sn : sgn 32 n = n).
    { unfold sgn. destruct (Z_lt_dec n 0).
      - replace (n mod 2 ^ 32) with (n + 2 ^ 32) by (apply Z.mod_unique with (q := -1); lia). destruct (Z.ltb_spec (n + 2 ^ 32) (2 ^ (32 - 1))); lia.
      - rewrite Z.mod_small by lia. destruct (Z.ltb_spec n (2 ^ (32 - 1))); lia. }
    rewrite Sn, strlen_text, sgn_small by lia. replace (if n >? 1 then n else 1) with (Z.of_nat m) by (rewrite Z.gtb_ltb; destruct (Z.ltb_spec 1 n); lia).
    rewrite <- Nat2Z.inj_div, Nat2Z.id. exact E.
  - rewrite <- (app_nil_r (chunks _ _ _)). apply cut_chunks; [lia|]. rewrite skipn_all2; [constructor|].
    pose proof (Nat.div_mod (length (text bs)) m ltac:(lia)). pose proof (Nat.mod_upper_bound (length (text bs)) m ltac:(lia)). lia.
  - apply final_outcome. exact F.
Qed.

(* ---- pieces between characters ---- *)
Lemma mem_set c set : existsb (Z.eqb c) set = true <-> In c set.
Proof. rewrite existsb_exists. split; [intros (x&X&E); apply Z.eqb_eq in E; subst; auto|]. intros X. exists c. rewrite Z.eqb_refl. auto. Qed.
Definition inside (b : bool) (set : list Z) (c : Z) : Prop := if b then In c set else ~ In c set.
Lemma inside_eqb b set c : Bool.eqb (existsb (Z.eqb c) set) b = true <-> inside b set c.
Proof. rewrite Bool.eqb_true_iff. unfold inside. destruct b; rewrite <- mem_set; [tauto|]. destruct (existsb (Z.eqb c) set); split; intros; congruence. Qed.
(* the span: the rest does not start with such a character *)
Lemma span_ok b set s : In 0 s -> exists p q, s = p ++ q /\ strspn b set s = Ok (Z.of_nat (length p)) /\ Forall (fun c => c <> 0 /\ inside b set c) p /\ In 0 q /\
  (forall c t, q = c :: t -> c = 0 \/ ~ inside b set c).
Proof.
  induction s as [|x t IH]; [intros []|]. intros I. cbn [strspn]. destruct (Z.eqb_spec x 0) as [->|N0].
  { exists [], (0 :: t). split; [auto|]. split; [auto|]. split; [auto|]. split; [auto|]. intros c t' [= <- _]. auto. }
  destruct (Bool.eqb _ b) eqn:E.
  - destruct IH as (p&q&->&Es&F&Iq&Q); [destruct I; [congruence|auto]|]. exists (x :: p), q. rewrite Es. cbn [bind]. split; [auto|]. split; [f_equal; cbn [length]; lia|].
    split; [constructor; auto; split; auto; apply inside_eqb; auto|auto].
  - exists [], (x :: t). split; [auto|]. split; [auto|]. split; [auto|]. split; [auto|]. intros c t' [= <- _]. right. rewrite <- inside_eqb. congruence.
Qed.
Lemma text_app p q : Forall (fun c => c <> 0) p -> text (p ++ q) = p ++ text q.
Proof. induction 1 as [|c p N F IH]; [reflexivity|]. cbn [app text]. rewrite (proj2 (Z.eqb_neq c 0) N), IH. reflexivity. Qed.
Lemma skip_pieces set p s ps : Forall (fun c => In c set) p -> pieces set s ps -> pieces set (p ++ s) ps.
Proof. induction 1; intros H1; auto. cbn [app]. apply pc_skip; auto. Qed.
Lemma pieces_exist set n : forall s, (length s <= n)%nat -> exists ps, pieces set s ps.
Proof.
  induction n as [|n IH]; intros s Ls; [destruct s; [|cbn in Ls; lia]; exists []; constructor|].
  destruct s as [|c s]; [exists []; constructor|]. cbn in Ls. destruct (in_dec Z.eq_dec c set) as [I|N].
  { destruct (IH s ltac:(lia)) as (ps&P). exists ps. apply pc_skip; auto. }
  assert (Sp : exists p q, s = p ++ q /\ Forall (fun c => ~ In c set) p /\ (q = [] \/ exists d t, q = d :: t /\ In d set)).
  { clear. induction s as [|d s (p&q&->&F&Q)]; [exists [], []; auto|]. destruct (in_dec Z.eq_dec d set).
    - exists [], (d :: p ++ q). split; [auto|]. split; [auto|]. right. eauto.
    - exists (d :: p), q. auto. }
  destruct Sp as (p&q&->&F&[->|(d&t&->&Id)]).
  - exists [c :: p]. rewrite app_nil_r. apply pc_last; [discriminate|]. constructor; auto.
  - rewrite app_length in Ls. cbn in Ls. destruct (IH t ltac:(lia)) as (ps&P). exists ((c :: p) :: ps). apply (pc_more set (c :: p) d t ps); auto. discriminate.
Qed.

Lemma pieces_nil set ps : pieces set [] ps -> ps = [].
Proof. intros P. inversion P; subst; auto; try congruence. exfalso. eapply app_cons_not_nil; eauto. Qed.
Lemma pieces_head set d s ps : In d set -> pieces set (d :: s) ps -> pieces set s ps.
Proof.
  intros I P. inversion P as [| |p X F E|p c t qs X F Ic Pt E]; subst; auto.
  - inversion F; subst; contradiction.
  - exfalso. destruct p as [|y p]; [congruence|]. injection E as -> _. inversion F; subst; contradiction.
Qed.
Lemma chars_stuck set fuel : forall s u, In 0 s -> (length s < fuel)%nat -> Z.of_nat (length s) < 2 ^ 31 -> heap_ok (uh u) [] ->
  exists u', split_chars fuel u set s MERROR = Ok (u', MERROR) /\ heap_ok (uh u') [] /\ grows [] (uh u) (uh u').
Proof.
  intros s u I Lf B OK. destruct fuel as [|fuel]; [lia|]. cbn [split_chars]. destruct (span_ok true set s I) as (p&q&->&E&F&Iq&Q). rewrite E. cbn [bind].
  rewrite Nat2Z.id, skipn_app, Nat.sub_diag, skipn_all2 by lia. cbn [app skipn]. destruct q as [|c q]; [destruct Iq|]. unfold rd. cbn [Z.ltb Z.compare Z.to_nat nth_error bind].
  destruct (Z.eqb_spec c 0) as [->|N0].
  { exists u. split; [reflexivity|]. split; [auto|apply grows_refl]. }
  destruct (span_ok false set (c :: q) Iq) as (p2&q2&E2&S2&_). rewrite S2. cbn [bind].
  edestruct (create_full u) as (u'&E3&OK'&Gr); [exact OK|]. rewrite E3. cbn [bind]. rewrite Z.eqb_refl. eauto.
Qed.

Lemma chars_step u0 fl0 set : forall fuel s u fl r ss, In 0 s -> (length s < fuel)%nat -> Z.of_nat (length s) < 2 ^ 31 -> ready u fl -> acc u0 fl0 u fl r ss ->
  exists ps u' r', split_chars fuel u set s r = Ok (u', r') /\ pieces set (text s) ps /\ (length ps < fuel)%nat /\ final u0 fl0 u fl (length ps) (rev ps ++ ss) u' r'.
Proof.
  induction fuel as [|fuel IH]; intros s u fl r ss I Lf B R Ac; [lia|]. cbn [split_chars]. destruct (span_ok true set s I) as (p&q&->&E&F&Iq&Q). rewrite E. cbn [bind].
  rewrite Nat2Z.id, skipn_app, Nat.sub_diag, skipn_all2 by lia. cbn [app skipn]. destruct q as [|c q]; [destruct Iq|]. unfold rd. cbn [Z.ltb Z.compare Z.to_nat nth_error bind].
  rewrite text_app by (eapply Forall_impl; [|exact F]; cbn; tauto).
  assert (Skip : forall ps, pieces set (text (c :: q)) ps -> pieces set (p ++ text (c :: q)) ps).
  { intros ps P. apply skip_pieces; auto. eapply Forall_impl; [|exact F]. cbn. tauto. }
  destruct (Z.eqb_spec c 0) as [->|N0].
  { exists [], u, r. split; [reflexivity|]. split; [apply Skip; constructor|]. split; [cbn; lia|]. left. cbn [length rev app]. split; [lia|]. split; [lia|]. exists fl. auto. }
  destruct (span_ok false set (c :: q) Iq) as (p2&q2&E2&S2&F2&Iq2&Q2). rewrite S2. cbn [bind].
  assert (Ne : p2 <> []).
  { intros ->. cbn in E2. destruct (Q2 c q (eq_sym E2)) as [X|X]; [congruence|]. destruct (Q c q eq_refl) as [Y|Y]; [congruence|]. apply X. exact Y. }
  rewrite E2 in *. rewrite app_length in Lf, B. rewrite app_length in Lf, B.
  assert (Tx : text (p2 ++ q2) = p2 ++ text q2) by (apply text_app; eapply Forall_impl; [|exact F2]; cbn; tauto).
  assert (F2' : Forall (fun c => ~ In c set) p2) by (eapply Forall_impl; [|exact F2]; cbn; tauto).
  assert (Lp : (0 < length p2)%nat) by (destruct p2; [congruence|cbn; lia]).
  assert (More : forall ps, pieces set (text q2) ps -> pieces set (p2 ++ text q2) (p2 :: ps)).
  { intros ps P. destruct q2 as [|d q2]; [destruct Iq2|]. destruct (Q2 d q2 eq_refl) as [->|X].
    - cbn [text] in P |- *. apply pieces_nil in P. subst ps. rewrite app_nil_r. apply pc_last; auto.
    - cbn [text] in P |- *. destruct (Z.eqb_spec d 0) as [->|Nd].
      + apply pieces_nil in P. subst ps. rewrite app_nil_r. apply pc_last; auto.
      + cbn in X. assert (Id : In d set) by (destruct (in_dec Z.eq_dec d set); [auto|exfalso; apply X; auto]).
        apply pc_more; auto. eapply pieces_head; eauto. }
  assert (Pw : 0 < wrap W (Z.of_nat (length p2) + 1)) by (rewrite wrap_W by lia; lia).
  assert (Pc : copy_str (p2 ++ q2) 0 (Z.of_nat (length p2)) (repeat 0 (Z.to_nat (wrap W (Z.of_nat (length p2) + 1)))) = Ok (p2 ++ [0])).
  { rewrite wrap_W by lia. replace (Z.to_nat (Z.of_nat (length p2) + 1)) with (S (length p2)) by lia. change 0 with (Z.of_nat 0) at 1. rewrite copy_spec by (rewrite app_length; lia).
    unfold slice. cbn [skipn]. rewrite firstn_app, Nat.sub_diag, firstn_all. cbn [firstn]. rewrite app_nil_r. reflexivity. }
  destruct (pieces_exist set _ (text q2) (le_n _)) as (rest&Prest).
  assert (Lr : forall ps t, pieces set t ps -> (length ps <= length t)%nat).
  { clear. intros ps t P. induction P; cbn [length]; rewrite ?app_length; cbn [length]; try lia; destruct p; try congruence; cbn [length]; lia. }
  pose proof (Lr _ _ Prest) as Lrest. pose proof (text_length q2) as Tq.
  destruct (push_ok u0 fl0 u fl r ss _ _ _ R Ac Pw Pc) as (u1&tok&Ek&[(->&No&OK&I0&G1)|(NM&h&r'&Ec&[(->&L1&OK&G1)|(fl'&L2&Av&R'&Ac')])]); rewrite Ek; cbn [bind].
  - rewrite Z.eqb_refl. exists (p2 :: rest), u1, MERROR. split; [reflexivity|]. split; [apply Skip; rewrite Tx; apply More; auto|]. split; [cbn [length]; lia|]. right.
    cbn [length]. split; [lia|]. split; [auto|]. exists fl. auto.
  - rewrite (proj2 (Z.eqb_neq tok MERROR) NM), Ec. cbn [bind]. rewrite Nat2Z.id, skipn_app, Nat.sub_diag, skipn_all2 by lia. cbn [app skipn].
    destruct (chars_stuck set fuel q2 (set_h u1 h) Iq2 ltac:(lia) ltac:(lia) OK) as (u'&E3&OK3&G3).
    exists (p2 :: rest), u', MERROR. split; [exact E3|]. split; [apply Skip; rewrite Tx; apply More; auto|]. split; [cbn [length]; lia|]. right.
    cbn [length]. split; [lia|]. split; [auto|]. exists []. split; [intros x []|]. split; [auto|]. eapply grows_trans; [exact G1|]. eapply grows_incl; [|exact G3]. intros x [].
  - rewrite (proj2 (Z.eqb_neq tok MERROR) NM), Ec. cbn [bind]. rewrite Nat2Z.id, skipn_app, Nat.sub_diag, skipn_all2 by lia. cbn [app skipn].
    destruct (IH q2 (set_h u1 h) fl' r' _ Iq2 ltac:(lia) ltac:(lia) R' Ac') as (ps&u'&r''&E3&P3&L3&F3).
    exists (p2 :: ps), u', r''. split; [exact E3|]. split; [apply Skip; rewrite Tx; apply More; auto|]. split; [cbn [length]; lia|].
    cbn [rev]. rewrite <- app_assoc. cbn [app length up set_h] in *.
    destruct F3 as [(X1&X2&X3)|(X1&X2&X3)]; [left|right]; cbn [up set_h] in *; (split; [lia|]); [split; [lia|]; exact X3|auto].
Qed.

(* C75 the pieces between the characters of the second string *)
Theorem str_split_chars u fl a bs d ds fuel : ready u fl -> data_ok (uh u) -> den fl (uh u) a (Bytes bs) -> den fl (uh u) d (Bytes ds) -> In 0 bs -> In 0 ds ->
  Z.of_nat (length bs) < 2 ^ 31 -> (length bs < fuel)%nat ->
  exists ps u' r, str_split fuel u [a; d] = Ok (u', r) /\ pieces (text ds) (text bs) ps /\
    outcome (2 * length ps) (2 * length ps) u fl (tlist (map str ps)) u' r.
Proof.
  intros R DO D Dd Ib Id B Lf. destruct (chars_step u fl (text ds) fuel bs u fl NIL [] Ib Lf B R (acc_nil u fl)) as (ps&u1&r1&E&P&Lp&F).
  rewrite app_nil_r in F. exists ps. unfold str_split. count. args. rewrite (dec_size_ok fl _ _ _ (r_null _ _ R) D). cbn [bind].
  assert (Ne : ds <> []) by (intros ->; destruct Id).
  rewrite (dec_str_ok fl _ _ _ (r_null _ _ R) Dd (fun p x M => DO p x ds M Ne)). cbn [bind]. rewrite (c_string_text ds Id). cbn [bind]. rewrite E. cbn [bind].
  destruct F as [(H1&H2&fl'&R'&Ac)|(No&->&fl'&I&OK&G)].
  - destruct (acc_ok _ _ _ _ _ _ Ac) as (NM&_&_). rewrite (proj2 (Z.eqb_neq r1 MERROR) NM).
    destruct (acc_reverse _ _ _ _ _ _ fuel R' Ac) as (h&r'&E2&R2&Ac2); [rewrite rev_length; lia|]. rewrite E2. cbn [bind]. rewrite rev_involutive in Ac2.
    do 2 eexists. split; [reflexivity|]. split; [exact P|]. apply final_outcome. left. split; [auto|]. split; [auto|]. exists fl'. auto.
  - rewrite Z.eqb_refl. do 2 eexists. split; [reflexivity|]. split; [exact P|]. apply final_outcome. right. split; [auto|]. split; [auto|]. exists fl'. auto.
Qed.
End Arch.
