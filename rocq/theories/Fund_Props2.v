(* C81: length, range, take and drop. *)
From Verif Require Import Base Value_Model Heap_Model Value_Proofs Value_Proofs2 Value_Props Heap_Spec Heap_Proofs Heap_Proofs2 List_Proofs List_Props GC_Model.
From Verif Require Import Eq_Model Eq_Spec Eval_Proofs Flat_Model Flat_Spec Flat_Proofs Flat_Proofs2 Read_Model ArrExt_Model ArrExt_Spec ArrExt_Proofs Fund_Model Fund_Spec Fund_Proofs Fund_Props.
Local Open Scope Z_scope.

Section Arch.
Context {A : Arch} {L : Libc} {C : Conv}.

Lemma int_small n : -2 ^ 27 <= n < 2 ^ 27 -> int_value (enc_i n) n.
Proof.
  intros R. assert (P27 : 2 ^ 27 <= 2 ^ (payload A - 1)) by (pose proof payload_big; apply Z.pow_le_mono_r; lia).
  pose proof (enc_kinds n) as (T1&_). split; auto. apply enc_i_roundtrip. lia.
Qed.

(* ---- length ---- *)
Lemma length_path h v xs ps w : path h v xs ps w -> is_cons w = false -> forall fuel n, (length xs <= fuel)%nat ->
  0 <= n -> n + Z.of_nat (length xs) < 2 ^ W -> list_length_loop fuel h v n = Ok (n + Z.of_nat (length xs)).
Proof.
  induction 1 as [w|p x q xs ps w Wp K Pl R P IH]; intros T fuel n F N B.
  - destruct fuel; cbn [list_length_loop]; rewrite T; f_equal; simpl; lia.
  - destruct fuel as [|fuel]; [simpl in F; lia|]. cbn [list_length_loop length] in *. rewrite K.
    rewrite (cdr_ptr h p x q) by auto using cons_is_ptr. cbn [bind]. rewrite wrap_small by lia. rewrite IH by (auto; lia). f_equal. lia.
Qed.
(* C81: the number of elements of a list, which may end in any word *)
Theorem length_list fuel h fl v xs : items fl h v xs -> (length xs <= fuel)%nat -> Z.of_nat (length xs) < 2 ^ 27 ->
  exists r, length_fun fuel h [v] = Ok r /\ int_value r (Z.of_nat (length xs)).
Proof.
  intros I F B. unfold length_fun. rewrite (items_is_list _ _ _ _ I). destruct I as (ps&w&P&U&N&T&Z).
  pose proof W_32 as W32. assert (P31 : 2 ^ 32 <= 2 ^ W) by (apply Z.pow_le_mono_r; lia).
  unfold list_length. rewrite (length_path _ _ _ _ _ P N) by lia. cbn [bind]. eexists. split; [reflexivity|].
  rewrite sgn_small by lia. apply int_small. lia.
Qed.
(* C81: of an array *)
Theorem length_bytes fuel fl h v bs : no_null h -> den fl h v (Bytes bs) -> is_list v = false -> Z.of_nat (length bs) < 2 ^ 27 ->
  exists r, length_fun fuel h [v] = Ok r /\ int_value r (Z.of_nat (length bs)).
Proof.
  intros NN D NL B. destruct (array_facts fl h v bs NN D) as (p&d&q&_&_&R&E&_). unfold length_fun. rewrite NL, R. cbn [bind]. rewrite E. cbn [bind].
  eexists. split; [reflexivity|]. rewrite sgn_small by lia. apply int_small. lia.
Qed.
Theorem length_array fuel h v elts : lisp_array h v elts -> Z.of_nat (length elts) < 2 ^ 27 ->
  exists r, length_fun fuel h [v] = Ok r /\ int_value r (Z.of_nat (length elts)).
Proof.
  intros LA B. destruct (array_is_lisp _ _ _ LA) as (NL&_&R&_&p&q&d&x&_&_&E). unfold length_fun. rewrite NL.
  assert (NA : is_array_r h v = Ok false).
  { unfold is_array_r. unfold is_lisp_array_r in R. apply Z.eqb_eq in R. rewrite R. replace (TYPE_LISPARRAY =? TYPE_ARRAY) with false by (clear; arch; reflexivity). auto. }
  rewrite NA. cbn [bind]. rewrite R, E. cbn [bind]. rewrite elts_size. eexists. split; [reflexivity|].
  rewrite sgn_small by lia. apply int_small. lia.
Qed.

(* ---- take and drop ---- *)
(* C81: take copies the first n elements; of a number out of range, all of them *)
Theorem take_correct fuel h fl v xs i n : heap_ok h fl -> proper fl h v xs -> integer fl h i n -> - 2 ^ 31 <= n < 2 ^ 31 -> (length xs <= fuel)%nat ->
  let k := if n <? 0 then length xs else Nat.min (Z.to_nat n) (length xs) in
  exists h' r, take fuel h [v; i] = Ok (h', r) /\ (forall i, ~ In i fl -> cell h' i = cell h i) /\ ccells h' = ccells h /\
    if (k <=? length fl)%nat
    then heap_ok h' (skipn k fl) /\ list_on h' r (firstn k xs) (map enc_cons_ptr (firstn k fl))
    else r = MERROR /\ h' = h.
Proof.
  intros OK P I R F k. destruct (integer_arg fl h i n I) as (N&_&D). unfold take. rewrite N, (proper_is_list _ _ _ _ P), D. cbn [andb bind].
  rewrite sgn_small by lia. destruct P as (ps&P&U). pose proof (path_list _ _ _ _ P) as LO.
  destruct (list_copy_correct h fl v xs ps n fuel OK LO U F) as (h'&r&m'&E&S&Cc&_&H). rewrite E. cbn [bind fst snd].
  exists h', r. split; auto. split; auto. split; auto.
  assert (Ek : (if (0 <=? n) && (n <? Z.of_nat (length xs)) then Z.to_nat n else length xs) = k).
  { unfold k. destruct (Z.leb_spec 0 n); destruct (Z.ltb_spec n 0); try lia; cbn [andb]; auto. destruct (Z.ltb_spec n (Z.of_nat (length xs))); lia. }
  rewrite Ek in H. auto.
Qed.
(* C81: drop is the rest of the same list; the number is taken modulo 2^32 *)
Theorem drop_correct fuel h fl v xs ps i n : path h v xs ps 0 -> integer fl h i n -> (length xs <= fuel)%nat ->
  let k := Z.to_nat (n mod 2 ^ 32) in
  exists r, drop fuel h [v; i] = Ok r /\ list_on h r (skipn k xs) (skipn k ps).
Proof.
  intros P I F k. destruct (integer_arg fl h i n I) as (N&D&_). unfold drop.
  assert (IL : is_list v = true) by (eapply (proper_is_list []); exists ps; split; [exact P|intros ? ? ? []]).
  rewrite N, IL, D. cbn [andb bind]. unfold wrap. assert (0 <= n mod 2 ^ 32) by (apply Z.mod_pos_bound; lia).
  replace (n mod 2 ^ 32) with (Z.of_nat k) by (unfold k; lia).
  apply list_drop_correct; auto using path_list. eapply path_plain; eauto.
Qed.

(* ---- range ---- *)
Lemma upto_length a b : length (upto a b) = Z.to_nat (b - a).
Proof. unfold upto. rewrite map_length, seq_length. auto. Qed.
Lemma upto_S a n : upto a (a + Z.of_nat (S n)) = upto a (a + Z.of_nat n) ++ [a + Z.of_nat n].
Proof.
  unfold upto. replace (Z.to_nat (a + Z.of_nat (S n) - a)) with (n + 1)%nat by lia. replace (Z.to_nat (a + Z.of_nat n - a)) with n by lia.
  rewrite seq_app, map_app. auto.
Qed.
Lemma range_loop_ok lo n : forall fuel h fl r, heap_ok h fl -> (n <= length fl)%nat -> (n <= fuel)%nat -> - 2 ^ 31 <= lo - 1 -> lo + Z.of_nat n <= 2 ^ 31 ->
  exists h' r', range_loop fuel h (lo + Z.of_nat n - 1) lo r = Ok (h', r') /\ built fl h (map enc_i (upto lo (lo + Z.of_nat n))) r h' r'.
Proof.
  induction n as [|n IH]; intros fuel h fl r OK LE F B1 B2.
  - exists h, r. replace (lo + Z.of_nat 0 - 1) with (lo - 1) by lia. split.
    + destruct fuel; cbn [range_loop]; (destruct (Z.leb_spec lo (lo - 1)); [lia|auto]).
    + replace (lo + Z.of_nat 0) with lo by lia. unfold upto. rewrite Z.sub_diag. cbn. split; [apply kept_refl|]. cbn. split; auto. constructor.
  - destruct fuel as [|fuel]; [lia|]. cbn [range_loop]. destruct (Z.leb_spec lo (lo + Z.of_nat (S n) - 1)); [|lia].
    destruct fl as [|i fl]; [simpl in LE; lia|].
    destruct (cons_step h (i :: fl) (enc_i (lo + Z.of_nat (S n) - 1)) r OK) as (h1&r1&E&K&->&OK1&Ce&R). rewrite E. cbn [bind].
    unfold int32. destruct (Z.leb_spec (- 2 ^ 31) (lo + Z.of_nat (S n) - 1 - 1)); [|lia].
    destruct (Z.ltb_spec (lo + Z.of_nat (S n) - 1 - 1) (2 ^ 31)); [|lia]. cbn [andb bind].
    replace (lo + Z.of_nat (S n) - 1 - 1) with (lo + Z.of_nat n - 1) by lia.
    destruct (IH fuel h1 fl (enc_cons_ptr i) OK1) as (h'&r'&E'&B'); [simpl in LE; lia|lia|lia|lia|].
    exists h', r'. split; auto. rewrite upto_S, map_app. cbn [map]. replace (lo + Z.of_nat (S n) - 1) with (lo + Z.of_nat n) in Ce by lia.
    eapply built_step; eauto.
Qed.

Lemma ints_values ns : Forall (fun n => -2 ^ 27 <= n < 2 ^ 27) ns -> Forall2 int_value (map enc_i ns) ns.
Proof. induction 1; constructor; auto using int_small. Qed.
Lemma enc_firstn_rw h fl n : heap_ok h fl -> Forall (fun p => is_cons_rw p = true) (rev (map enc_cons_ptr (firstn n fl))).
Proof.
  intros OK. rewrite Forall_forall. intros p I. apply in_rev in I. apply in_map_iff in I as (i&<-&I).
  pose proof (chain_range _ _ _ (ok_chain _ _ OK)) as FR. rewrite Forall_forall in FR. pose proof (ok_size _ _ OK) as SZ.
  specialize (FR i (In_firstn _ _ _ I)). apply enc_rw. lia.
Qed.
Lemma enc_firstn_ix h fl n p : heap_ok h fl -> In p (rev (map enc_cons_ptr (firstn n fl))) -> In (f_ix p) (firstn n fl) /\ plain p.
Proof.
  intros OK I. apply in_rev in I. apply in_map_iff in I as (i&<-&I).
  pose proof (chain_range _ _ _ (ok_chain _ _ OK)) as FR. rewrite Forall_forall in FR. pose proof (ok_size _ _ OK) as SZ.
  specialize (FR i (In_firstn _ _ _ I)). rewrite enc_ix by lia. split; auto. apply enc_plain. lia.
Qed.

Lemma path_head h v xs ps w : path h v xs ps w -> xs <> [] -> exists ps', ps = v :: ps'.
Proof. inversion 1; subst; [congruence|eauto]. Qed.
Lemma range_from_ok fuel h fl m n : heap_ok h fl -> - 2 ^ 27 <= Z.min m n -> Z.max m n <= 2 ^ 27 -> (Z.abs_nat (m - n) <= fuel)%nat ->
  let ns := if m <=? n then upto m n else rev (upto n m) in
  exists h' r, range_from fuel h m n = Ok (h', r) /\ kept fl h h' /\
    if (length ns <=? length fl)%nat
    then heap_ok h' (skipn (length ns) fl) /\ exists vs, proper (skipn (length ns) fl) h' r vs /\ Forall2 int_value vs ns
    else r = MERROR /\ h' = h.
Proof.
  intros OK B1 B2 F ns. unfold range_from. destruct (Z.eqb_spec n m) as [->|NE].
  - exists h, NIL. split; auto. split; [apply kept_refl|]. unfold ns. rewrite Z.leb_refl. unfold upto. rewrite Z.sub_diag. cbn.
    split; auto. exists []. split; [|constructor]. exists []. split; [rewrite NIL_0; constructor|intros ? []].
  - set (lo := Z.min m n). set (hi := Z.max m n).
    assert (E0 : (if n <? m then (n, m, true) else (m, n, false)) = (lo, hi, n <? m)).
    { unfold lo, hi. destruct (Z.ltb_spec n m); do 2 f_equal; lia. }
    rewrite E0. clear E0. assert (LN : length ns = Z.to_nat (hi - lo)).
    { unfold ns, lo, hi. destruct (Z.leb_spec m n); rewrite ?rev_length, upto_length; lia. }
    unfold int32. destruct (Z.leb_spec (- 2 ^ 31) (hi - lo)); [|lia]. destruct (Z.ltb_spec (hi - lo) (2 ^ 31)); [|lia]. cbn [andb bind].
    rewrite wrap_small by lia. rewrite (num_free_ok _ _ OK). rewrite LN.
    destruct (Z.gtb_spec (hi - lo) (Z.of_nat (length fl))).
    + exists h, MERROR. split; auto. split; [apply kept_refl|]. destruct (Nat.leb_spec (Z.to_nat (hi - lo)) (length fl)); [lia|]. auto.
    + destruct (Nat.leb_spec (Z.to_nat (hi - lo)) (length fl)) as [LE|]; [|lia].
      destruct (Z.leb_spec (- 2 ^ 31) (hi - 1)); [|lia]. destruct (Z.ltb_spec (hi - 1) (2 ^ 31)); [|lia]. cbn [andb bind].
      destruct (range_loop_ok lo (Z.to_nat (hi - lo)) fuel h fl NIL OK LE) as (h1&r1&E&K&Bu); try lia.
      replace (lo + Z.of_nat (Z.to_nat (hi - lo))) with hi in * by lia. rewrite E. cbn [bind].
      rewrite map_length, upto_length in Bu. rewrite (proj2 (Nat.leb_le _ _) LE) in Bu. destruct Bu as (O1&P1). rewrite NIL_0 in P1.
      set (k := Z.to_nat (hi - lo)) in *.
      assert (VS : Forall2 int_value (map enc_i (upto lo hi)) (upto lo hi)).
      { apply ints_values. unfold upto. rewrite Forall_forall. intros x I. apply in_map_iff in I as (j&<-&I). apply in_seq in I. lia. }
      destruct (Z.ltb_spec n m).
      * (* reversed *)
        assert (En : ns = rev (upto lo hi)). { unfold ns, lo, hi. destruct (Z.leb_spec m n); [lia|]. rewrite Z.min_r, Z.max_l by lia. auto. }
        unfold list_destructive_reverse. pose proof (path_list _ _ _ _ P1) as LO.
        assert (Ty : (type_of r1 =? TYPE_SYMBOL) = false).
        { destruct (path_head _ _ _ _ _ P1) as (ps'&Eps).
          - intros Em. apply (f_equal (@length Z)) in Em. rewrite map_length, upto_length in Em. cbn in Em. lia.
          - pose proof (enc_firstn_rw h fl k OK) as RW. rewrite Eps in RW. inversion RW as [|? ? RWp _]; subst. unfold is_cons_rw in RWp. apply Z.eqb_eq in RWp. rewrite RWp. clear. arch; reflexivity. }
        rewrite Ty, NIL_0.
        destruct (drev_loop_ok (map enc_i (upto lo hi)) r1 (rev (map enc_cons_ptr (firstn k fl))) h1 0 [] [] fuel) as (h2&r2&E2&L2&S2&Sz2&St2);
          [rewrite map_length, upto_length; lia|exact LO|constructor|eapply enc_firstn_rw; eauto|intros p q _ []|].
        rewrite E2. exists h2, r2. split; auto. rewrite !app_nil_r in L2.
        assert (SI : incl (map f_ix (rev (map enc_cons_ptr (firstn k fl)))) (firstn k fl)).
        { intros x I. apply in_map_iff in I as (p&<-&I). apply (enc_firstn_ix h fl k p OK I). }
        assert (K2 : kept (firstn k fl) h1 h2).
        { split; [|split; rewrite St2; reflexivity]. intros i I. apply S2. intros J. apply I, SI, J. }
        split. { eapply kept_trans; [exact K|]. eapply kept_incl; [|exact K2]. intros x. apply In_firstn. }
        split.
        -- destruct O1 as [o1 o2 o3 o4]. constructor; auto.
           ++ rewrite Sz2; auto.
           ++ rewrite St2. cbn [freelist set_cells]. rewrite <- St2. eapply chain_frame; eauto. intros i I. apply K2.
              intros J. exact (NoDup_split fl k i (ok_nodup _ _ OK) J I).
           ++ rewrite Sz2, <- o4. rewrite St2. reflexivity.
        -- exists (rev (map enc_i (upto lo hi))). split; [|rewrite En; rewrite <- map_rev; apply ints_values; rewrite Forall_forall; intros x I; apply in_rev in I; unfold upto in I; apply in_map_iff in I as (j&<-&I); apply in_seq in I; lia].
           eexists. split; [apply list_path; [exact L2|]|].
           ++ rewrite Forall_forall. intros p I. apply in_rev in I. apply (enc_firstn_ix h fl k p OK I).
           ++ intros p I Kp J. apply in_rev in I. exact (enc_used_firstn h fl k OK p I Kp J).
      * exists h1, r1. split; auto. split; auto. split; auto. exists (map enc_i (upto lo hi)).
        assert (En : ns = upto lo hi). { unfold ns, lo, hi. destruct (Z.leb_spec m n); [|lia]. rewrite Z.min_l, Z.max_r by lia. auto. }
        rewrite En. split; auto. eexists. split; [exact P1|]. exact (enc_used_firstn h fl k OK).
Qed.

(* C81: range: the whole numbers from m up to but not including n, downwards when
   n < m; for numbers of 28 bits *)
Theorem range_correct fuel h fl a b m n : heap_ok h fl -> integer fl h a m -> integer fl h b n -> - 2 ^ 27 <= Z.min m n -> Z.max m n <= 2 ^ 27 ->
  (Z.abs_nat (m - n) <= fuel)%nat ->
  let ns := if m <=? n then upto m n else rev (upto n m) in
  exists h' r, range fuel h [a; b] = Ok (h', r) /\ kept fl h h' /\
    if (length ns <=? length fl)%nat
    then heap_ok h' (skipn (length ns) fl) /\ exists vs, proper (skipn (length ns) fl) h' r vs /\ Forall2 int_value vs ns
    else r = MERROR /\ h' = h.
Proof.
  intros OK Ia Ib B1 B2 F. destruct (integer_arg fl h a m Ia) as (N1&_&D1). destruct (integer_arg fl h b n Ib) as (N2&_&D2).
  unfold range. rewrite N1, N2, D1. cbn [andb bind]. rewrite D2. cbn [bind]. rewrite !sgn_small by lia. apply range_from_ok; auto.
Qed.
Theorem range_one fuel h fl a n : heap_ok h fl -> integer fl h a n -> - 2 ^ 27 <= n <= 2 ^ 27 -> (Z.abs_nat n <= fuel)%nat ->
  let ns := if 0 <=? n then upto 0 n else rev (upto n 0) in
  exists h' r, range fuel h [a] = Ok (h', r) /\ kept fl h h' /\
    if (length ns <=? length fl)%nat
    then heap_ok h' (skipn (length ns) fl) /\ exists vs, proper (skipn (length ns) fl) h' r vs /\ Forall2 int_value vs ns
    else r = MERROR /\ h' = h.
Proof.
  intros OK Ia B F. destruct (integer_arg fl h a n Ia) as (N1&_&D1).
  unfold range. rewrite N1, D1. cbn [bind]. rewrite sgn_small by lia. apply range_from_ok; auto; lia.
Qed.
End Arch.
