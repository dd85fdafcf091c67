(* C79: list and append; C80: ix and setix. *)
From Verif Require Import Base Value_Model Heap_Model Value_Proofs Value_Proofs2 Value_Props Heap_Spec Heap_Proofs Heap_Proofs2 List_Proofs List_Props GC_Model.
From Verif Require Import Eq_Model Eq_Spec Eval_Proofs Flat_Model Flat_Proofs Flat_Proofs2 Read_Model ArrExt_Model ArrExt_Spec ArrExt_Proofs Fund_Model Fund_Spec Fund_Proofs.
Local Open Scope Z_scope.

Section Arch.
Context {A : Arch} {L : Libc} {C : Conv}.

(* C79: list *)
Theorem list_correct h fl args : heap_ok h fl -> exists h' r, list_fun h args = Ok (h', r) /\ built fl h args 0 h' r.
Proof.
  intros OK. unfold list_fun. rewrite NIL_0. destruct (list_loop_ok (rev args) h fl 0 OK) as (h'&r&E&B).
  rewrite rev_involutive in B. eauto.
Qed.

(* C79: append copies the elements of all the lists but the last, in this order, in
   front of the last argument, which is used as it is *)
Theorem append_correct fuel h fl vs xss w : heap_ok h fl -> vs <> [] -> Forall2 (items fl h) vs xss ->
  Forall (fun xs => (length xs <= fuel)%nat /\ Z.of_nat (length xs) < 2 ^ 31) xss ->
  exists h' r, append fuel h (vs ++ [w]) = Ok (h', r) /\ built fl h (concat xss) w h' r.
Proof.
  intros OK NE F B. unfold append. rewrite rev_unit.
  assert (F' : Forall2 (items fl h) (rev vs) (rev xss)).
  { clear - F. induction F; simpl; [constructor|]. apply Forall2_app; auto. }
  assert (B' : Forall (fun xs => (length xs <= fuel)%nat /\ Z.of_nat (length xs) < 2 ^ 31) (rev xss)).
  { rewrite Forall_forall in *. intros x I. apply B. apply in_rev. auto. }
  destruct (append_loop_ok fuel (rev vs) (rev xss) h fl w OK F' B') as (h'&r&E&Bu). rewrite rev_involutive in Bu.
  destruct (rev vs) eqn:Er. { exfalso. apply NE. rewrite <- (rev_involutive vs), Er. auto. }
  exists h', r. auto.
Qed.
(* C79: when the last argument is a list, so is the result *)
Theorem append_list fuel h fl vs xss w ys : heap_ok h fl -> vs <> [] -> Forall2 (items fl h) vs xss ->
  Forall (fun xs => (length xs <= fuel)%nat /\ Z.of_nat (length xs) < 2 ^ 31) xss ->
  proper fl h w ys -> (length (concat xss) <= length fl)%nat ->
  exists h' r, append fuel h (vs ++ [w]) = Ok (h', r) /\ kept fl h h' /\
    heap_ok h' (skipn (length (concat xss)) fl) /\ proper (skipn (length (concat xss)) fl) h' r (concat xss ++ ys).
Proof.
  intros OK NE F B (ps&P&U) LE. destruct (append_correct fuel h fl vs xss w OK NE F B) as (h'&r&E&K&Bu).
  rewrite (proj2 (Nat.leb_le _ _) LE) in Bu. destruct Bu as (O&Q). exists h', r. split; auto. split; auto. split; auto.
  eexists. split; [eapply path_app; [exact Q|eapply path_kept; eauto]|].
  intros p I Kp J. apply in_app_or in I as [I|I].
  - exact (enc_used_firstn h fl _ OK p I Kp J).
  - apply (U p I Kp). eapply incl_skipn; eauto.
Qed.
(* C79: of one list the result is that list; other words are a type error *)
Theorem append_one_arg fuel h v : append fuel h [v] = Ok (h, if is_list v then v else TERROR) /\ append fuel h [] = Ok (h, 0).
Proof. unfold append. simpl. rewrite <- NIL_0. destruct (is_list v); auto. Qed.
Theorem append_not_list fuel h fl vs w : heap_ok h fl ->
  Forall (fun v => is_list v = false \/ exists xs, items fl h v xs /\ (length xs <= fuel)%nat /\ Z.of_nat (length xs) < 2 ^ 31) vs ->
  Exists (fun v => is_list v = false) vs -> exists h', append fuel h (vs ++ [w]) = Ok (h', TERROR) /\ kept fl h h'.
Proof.
  intros OK F X. unfold append. rewrite rev_unit.
  assert (F' : Forall (fun v => is_list v = false \/ exists xs, items fl h v xs /\ (length xs <= fuel)%nat /\ Z.of_nat (length xs) < 2 ^ 31) (rev vs)).
  { rewrite Forall_forall in *. intros x I. apply F. apply in_rev. auto. }
  assert (X' : Exists (fun v => is_list v = false) (rev vs)).
  { rewrite Exists_exists in *. destruct X as (x&I&N). exists x. split; auto. apply in_rev. rewrite rev_involutive. auto. }
  destruct (append_loop_err fuel (rev vs) h fl w OK F' X') as (h'&E&K). destruct (rev vs); [inversion X'|]. eauto.
Qed.

(* ---- C80 ---- *)
Lemma sgn_small w x : 0 < w -> - 2 ^ (w - 1) <= x < 2 ^ (w - 1) -> sgn w x = x.
Proof.
  intros P R. unfold sgn. assert (E : 2 ^ w = 2 * 2 ^ (w - 1)) by (rewrite <- Z.pow_succ_r by lia; f_equal; lia).
  rewrite E. destruct (Z.ltb_spec x 0).
  - replace (x mod (2 * 2 ^ (w - 1))) with (x + 2 * 2 ^ (w - 1)) by (apply Z.mod_unique with (-1); lia).
    destruct (Z.ltb_spec (x + 2 * 2 ^ (w - 1)) (2 ^ (w - 1))); lia.
  - rewrite Z.mod_small by lia. destruct (Z.ltb_spec x (2 ^ (w - 1))); lia.
Qed.
Lemma proper_list fl h v xs : proper fl h v xs -> list_at h v xs.
Proof. intros (ps&P&U). exists ps. apply path_list. auto. Qed.
Lemma proper_is_list fl h v xs : proper fl h v xs -> is_list v = true.
Proof. intros P. eapply items_is_list, proper_items; eauto. Qed.

(* the position meant by the index [n] in [len] elements: from the back when negative *)
Definition position (len : nat) (n : Z) : Z := if n <? 0 then Z.of_nat len + n else n.

(* C80: the element of a list, nil outside *)
Theorem ix_list fuel h fl v xs i n : proper fl h v xs -> integer fl h i n -> - 2 ^ 31 <= n < 2 ^ 31 ->
  (length xs <= fuel)%nat -> Z.of_nat (length xs) < 2 ^ 31 ->
  ix fuel h [v; i] = Ok (if position (length xs) n <? 0 then 0 else nth (Z.to_nat (position (length xs) n)) xs 0).
Proof.
  intros P I R F B. destruct (integer_arg fl h i n I) as (N&_&D). unfold ix. rewrite N, (proper_is_list _ _ _ _ P), D. cbn [bind].
  rewrite sgn_small by lia. pose proof (proper_list _ _ _ _ P) as LA. unfold position.
  destruct (Z.ltb_spec n 0).
  - replace n with (- (- n)) at 1 by lia. rewrite (index_list_back h v xs (- n)), NIL_0 by (auto; lia).
    destruct (Z.leb_spec (- n) (Z.of_nat (length xs))); destruct (Z.ltb_spec (Z.of_nat (length xs) + n) 0); try lia; auto.
    do 2 f_equal. lia.
  - destruct (Z.ltb_spec n 0); [lia|]. rewrite <- (Z2Nat.id n) at 1 by lia. rewrite (index_list_front h v xs), NIL_0; auto.
Qed.

Lemma array_is_lisp h v elts : lisp_array h v elts -> is_list v = false /\ is_list_rw v = false /\ is_lisp_array_r v = true /\
  (is_const_ptr v = false -> is_lisp_array_rw v = true) /\
  exists p q d x, ref_cell h v = Ok (p, q) /\ mem h p = Some (OLisp d (Z.of_nat (length elts) * WB) elts x) /\
    lisp_array_of h v = Ok (p, (d, Z.of_nat (length elts) * WB, elts, x)).
Proof.
  intros (P&T&p&q&d&x&R&M).
  assert (T' := T). rewrite functional_ptr in T' by auto.
  assert (NC : is_cons v = false).
  { destruct (is_cons v) eqn:K; auto. exfalso. unfold is_cons in K. rewrite P in K. cbn [andb] in K. apply Z.eqb_eq in K. revert T' K. unfold type_of.
    unfold is_ptr in P. destruct (Z.land v PTR_BIT =? 0); [discriminate|]. intros T' K.
    assert (K2 : Z.land (Z.land (Z.land v PTR_TYPE_MASK) (wnot PTR_TO_CONSTANT_BIT)) CONS_TYPE_MASK = Z.land (Z.land v CONS_TYPE_MASK) (Z.land PTR_TYPE_MASK (wnot PTR_TO_CONSTANT_BIT))).
    { rewrite <- !Z.land_assoc. f_equal. rewrite Z.land_assoc, Z.land_comm. auto. }
    rewrite T', K in K2. revert K2. clear. arch; discriminate. }
  assert (NZ : is_symbol_nil v = false).
  { unfold is_symbol_nil. destruct (Z.eqb_spec v 0) as [->|]; auto. }
  assert (NR : is_cons_rw v = false).
  { unfold is_cons_rw. destruct (Z.eqb_spec (type_of v) TYPE_CONS) as [E|]; auto. exfalso. rewrite E in T'. revert T'. clear. arch; discriminate. }
  split; [unfold is_list; rewrite NC, NZ; auto|]. split; [unfold is_list_rw; rewrite NR, NZ; auto|].
  split; [unfold is_lisp_array_r; rewrite T', Z.eqb_refl; auto|].
  split.
  - intros K. unfold is_lisp_array_rw. rewrite K, andb_true_r. apply Z.eqb_eq. rewrite <- T'.
    unfold is_const_ptr in K. apply negb_false_iff, Z.eqb_eq in K. revert P K. unfold is_ptr, type_of. destruct (Z.land v PTR_BIT =? 0); [discriminate|]. intros _ K.
    replace PTR_TYPE_MASK with (Z.lor (Z.land PTR_TYPE_MASK (wnot PTR_TO_CONSTANT_BIT)) PTR_TO_CONSTANT_BIT) at 1 by (clear; arch; reflexivity).
    rewrite Z.land_lor_distr_r, K, Z.lor_0_r. apply Z.land_assoc.
  - exists p, q, d, x. split; auto. split; auto. unfold lisp_array_of, car. rewrite P, R. cbn [bind fst]. rewrite M. auto.
Qed.
Lemma elts_size {T} (elts : list T) : Z.of_nat (length elts) * WB / WB = Z.of_nat (length elts).
Proof. apply Z.div_mul. pose proof WB_pos. lia. Qed.

(* C80: the element of an array, an error outside; the index is taken modulo 2^32 *)
Theorem ix_array fuel h fl v elts i n : lisp_array h v elts -> integer fl h i n ->
  ix fuel h [v; i] = Ok (match nth_error elts (Z.to_nat (n mod 2 ^ 32)) with Some x => x | None => EERROR end).
Proof.
  intros LA I. destruct (integer_arg fl h i n I) as (N&D&_). destruct (array_is_lisp _ _ _ LA) as (NL&_&R&_&p&q&d&x&_&_&E).
  unfold ix. rewrite N, NL, R, E. cbn [bind]. rewrite D. cbn [bind]. rewrite elts_size. fold (wrap 32 n).
  assert (B : 0 <= wrap 32 n) by (unfold wrap; apply Z.mod_pos_bound; lia).
  destruct (Z.ltb_spec (wrap 32 n) (Z.of_nat (length elts))).
  - unfold rd. destruct (Z.ltb_spec (wrap 32 n) 0); [lia|]. destruct (nth_error elts (Z.to_nat (wrap 32 n))) eqn:Ne; auto.
    apply nth_error_None in Ne. lia.
  - destruct (nth_error elts (Z.to_nat (wrap 32 n))) eqn:Ne; auto. apply nth_error_Some_lt in Ne || (assert (Z.to_nat (wrap 32 n) < length elts)%nat by (apply nth_error_Some; congruence)); lia.
Qed.

(* ---- setix ---- *)
Lemma set_ix_loop_ok v l : forall xs p ps h fuel i k, list_on h p xs ps -> Forall (fun p => is_cons_rw p = true) ps ->
  (length xs <= fuel)%nat -> 0 <= i -> i + Z.of_nat (length xs) < 2 ^ W -> (k < length xs)%nat ->
  exists h', set_ix_loop fuel h p i (i + Z.of_nat k) v l = Ok (h', l) /\ list_on h' p (replace_nth k v xs) ps /\
    same_but [f_ix (nth k ps 0)] h h' /\ h' = set_cells h (cells h') /\ hsize h' = hsize h.
Proof.
  induction xs as [|x xs IH]; intros p ps h fuel i k LO RW F I B K; [simpl in K; lia|].
  inversion LO as [|p' x' q xs' ps' Wp Cp R LO']; subst. inversion RW as [|? ? RWp RW']; subst.
  destruct fuel as [|fuel]; [simpl in F; lia|]. cbn [set_ix_loop length] in *. rewrite RWp.
  rewrite (cdr_ptr h p x q) by auto using cons_is_ptr. cbn [bind].
  assert (NC : is_const_ptr p = false) by (apply rw_not_const; auto).
  assert (NCs : Forall (fun p => is_const_ptr p = false) (p :: ps')).
  { rewrite Forall_forall in *. intros p0 [<-|J]; auto. apply rw_not_const; auto. exact (proj1 (list_on_in _ _ _ _ p0 LO' J)). }
  pose proof (list_on_ix _ _ _ _ LO NCs) as ND. simpl in ND. inversion ND as [|? ? NI ND']; subst.
  destruct k as [|k].
  - rewrite Z.add_0_r, Z.eqb_refl. unfold set_car. rewrite type_cons_rw, RWp, R. cbn [bind fst snd]. rewrite put_cell_rw by auto.
    rewrite ref_cell_rw in R by auto. destruct (cell h (f_ix p)) as [c|] eqn:Ce; [|discriminate]. injection R as ->. cbn [bind].
    pose proof (cell_range _ _ _ Ce) as Rg. set (h1 := hput h (f_ix p) (v, q)).
    assert (S1 : same_but [f_ix p] h h1) by (apply hput_same; lia).
    exists h1. split; auto. split; [|split; [exact S1|split; [destruct h; reflexivity|apply hput_size]]].
    unfold replace_nth. cbn [firstn skipn app]. econstructor; eauto.
    + rewrite ref_cell_rw by auto. unfold h1. erewrite cell_hput_eq; eauto.
    + eapply list_on_frame; eauto. intros p0 P _. apply S1. intros [E|[]]. apply NI. rewrite E. apply in_map_iff; eauto.
  - destruct (Z.eqb_spec i (i + Z.of_nat (S k))); [lia|].
    assert (NZ : is_symbol_nil q = false).
    { destruct xs as [|y ys]; [simpl in K; lia|]. inversion LO' as [|q' ? ? ? ? ? Cq]; subst. unfold is_symbol_nil. destruct (Z.eqb_spec q 0) as [->|]; auto. }
    rewrite NZ. rewrite wrap_small by lia. replace (i + Z.of_nat (S k)) with ((i + 1) + Z.of_nat k) by lia.
    destruct (IH q ps' h fuel (i + 1) k) as (h'&E&L'&S'&St'&Sz'); auto; try lia.
    exists h'. split; auto. cbn [nth]. split; [|auto]. unfold replace_nth in *. cbn [firstn skipn app]. econstructor; eauto.
    rewrite ref_cell_rw in R |- * by auto. rewrite S'; auto. intros [E'|[]]. apply NI. rewrite <- E'. apply in_map. apply nth_In.
    rewrite (list_on_len _ _ _ _ LO'). lia.
Qed.
Lemma set_ix_loop_out v l n : forall xs p ps h fuel i, list_on h p xs ps -> Forall (fun p => is_cons_rw p = true) ps ->
  (length xs <= fuel)%nat -> 0 <= i -> i + Z.of_nat (length xs) < 2 ^ W -> (n < i \/ i + Z.of_nat (length xs) <= n) ->
  set_ix_loop fuel h p i n v l = Ok (h, match xs with [] => TERROR | _ => NIL end).
Proof.
  induction xs as [|x xs IH]; intros p ps h fuel i LO RW F I B K; inversion LO as [|p' x' q xs' ps' Wp Cp R LO']; subst.
  - destruct fuel; cbn [set_ix_loop]; rewrite zero_not_rw; auto.
  - inversion RW as [|? ? RWp RW']; subst. destruct fuel as [|fuel]; [simpl in F; lia|]. cbn [set_ix_loop length] in *. rewrite RWp.
    rewrite (cdr_ptr h p x q) by auto using cons_is_ptr. cbn [bind]. destruct (Z.eqb_spec i n); [lia|].
    destruct xs as [|y ys].
    + inversion LO'; subst. reflexivity.
    + assert (NZ : is_symbol_nil q = false).
      { inversion LO' as [|q' ? ? ? ? ? Cq]; subst. unfold is_symbol_nil. destruct (Z.eqb_spec q 0) as [->|]; auto. }
      rewrite NZ. rewrite wrap_small by (cbn [length] in *; lia). rewrite (IH q ps') by (auto; cbn [length] in *; lia). reflexivity.
Qed.

Lemma rw_list h v xs ps : list_on h v xs ps -> Forall (fun p => is_cons_rw p = true) ps -> is_list_rw v = true.
Proof. intros LO F. unfold is_list_rw. inversion LO; subst; [apply orb_true_r|]. inversion F as [|? ? E _]; subst. rewrite E. auto. Qed.
Lemma W_32 : 32 <= W.
Proof. arch; vm_compute; discriminate. Qed.

(* C80: setix on a list of RAM cells replaces the element in place and returns the
   list; outside of the list nothing changes, the result is nil, of the empty list a
   type error *)
Theorem set_ix_list fuel h fl v xs ps i n w : list_on h v xs ps -> Forall (fun p => is_cons_rw p = true) ps ->
  integer fl h i n -> - 2 ^ 31 <= n < 2 ^ 31 -> (length xs <= fuel)%nat -> Z.of_nat (length xs) < 2 ^ 31 ->
  let k := position (length xs) n in
  exists h' r, set_ix fuel h [v; i; w] = Ok (h', r) /\
    if (0 <=? k) && (k <? Z.of_nat (length xs))
    then r = v /\ list_on h' v (replace_nth (Z.to_nat k) w xs) ps /\ same_but [f_ix (nth (Z.to_nat k) ps 0)] h h' /\ ccells h' = ccells h /\ mem h' = mem h
    else h' = h /\ r = match xs with [] => TERROR | _ => 0 end.
Proof.
  intros LO RW I R F B k. destruct (integer_arg fl h i n I) as (N&_&D). unfold set_ix. rewrite N, (rw_list _ _ _ _ LO RW), D. cbn [bind].
  rewrite sgn_small by lia. pose proof W_32 as W32.
  assert (P31 : 2 ^ 32 <= 2 ^ W) by (apply Z.pow_le_mono_r; lia).
  assert (P32 : 2 ^ 31 <= 2 ^ (W - 1)) by (apply Z.pow_le_mono_r; lia).
  assert (E : (if n <? 0 then (let! len := list_length fuel h v in Ok (sgn W len + n)) else Ok n) = Ok k).
  { unfold k, position. destruct (n <? 0); auto. rewrite (list_length_ok _ _ _ _ _ LO F). cbn [bind]. rewrite sgn_small by lia. auto. }
  rewrite E. cbn [bind]. clear E.
  assert (KR : - 2 ^ 31 <= k < 2 ^ 31) by (unfold k, position; destruct (Z.ltb_spec n 0); lia).
  destruct (Z.leb_spec 0 k); cbn [andb]; [destruct (Z.ltb_spec k (Z.of_nat (length xs)))|].
  - rewrite wrap_small by lia. destruct (set_ix_loop_ok w v xs v ps h fuel 0 (Z.to_nat k) LO RW F) as (h'&E&L'&S'&St'&Sz'); try lia.
    rewrite Z.add_0_l, Z2Nat.id in E by lia. exists h', v. split; auto. split; auto. split; auto. split; auto. split; rewrite St'; reflexivity.
  - rewrite (set_ix_loop_out w v (wrap W k) xs v ps) by (auto; try lia; rewrite wrap_small by lia; lia).
    exists h. eexists. split; [reflexivity|]. split; auto. destruct xs; auto using NIL_0.
  - rewrite (set_ix_loop_out w v (wrap W k) xs v ps).
    + exists h. eexists. split; [reflexivity|]. split; auto. destruct xs; auto using NIL_0.
    + auto.
    + auto.
    + auto.
    + lia.
    + lia.
    + right. unfold wrap. replace (k mod 2 ^ W) with (k + 2 ^ W) by (apply Z.mod_unique with (-1); lia). lia.
Qed.
(* C80: what setix stored, ix reads; the other elements are unchanged *)
Theorem set_ix_ix fuel h fl v xs ps i n w m : list_on h v xs ps -> Forall (fun p => is_cons_rw p = true) ps -> Forall plain ps -> used fl ps ->
  integer fl h i n -> - 2 ^ 31 <= n < 2 ^ 31 -> - 2 ^ 27 <= m < 2 ^ 27 ->
  (length xs <= fuel)%nat -> Z.of_nat (length xs) < 2 ^ 31 -> 0 <= position (length xs) n < Z.of_nat (length xs) ->
  exists h', set_ix fuel h [v; i; w] = Ok (h', v) /\
    ix fuel h' [v; enc_i m] = if position (length xs) m =? position (length xs) n then Ok w else ix fuel h [v; enc_i m].
Proof.
  intros LO RW PL U I R Rm F B K. destruct (set_ix_list fuel h fl v xs ps i n w LO RW I R F B) as (h'&r&E&H).
  set (k := position (length xs) n) in *. destruct (Z.leb_spec 0 k); [|lia]. destruct (Z.ltb_spec k (Z.of_nat (length xs))); [|lia].
  cbn [andb] in H. destruct H as (->&L'&_). exists h'. split; auto.
  assert (IM : forall h, integer fl h (enc_i m) m).
  { intros h0. exists KI. split; [repeat split; discriminate|]. apply den_int. pose proof payload_big. assert (P27 : 2 ^ 27 <= 2 ^ (payload A - 1)) by (apply Z.pow_le_mono_r; lia). lia. }
  assert (P1 : proper fl h v xs) by (exists ps; split; auto using list_path).
  assert (P2 : proper fl h' v (replace_nth (Z.to_nat k) w xs)) by (exists ps; split; auto using list_path).
  assert (LR : length (replace_nth (Z.to_nat k) w xs) = length xs).
  { unfold replace_nth. rewrite app_length, firstn_length. cbn [length]. rewrite skipn_length. lia. }
  rewrite (ix_list fuel h fl v xs (enc_i m) m) by (auto; lia).
  rewrite (ix_list fuel h' fl v (replace_nth (Z.to_nat k) w xs) (enc_i m) m) by (rewrite ?LR; auto; lia). rewrite LR.
  set (j := position (length xs) m). destruct (Z.eqb_spec j k) as [->|NE].
  - destruct (Z.ltb_spec k 0); [lia|]. f_equal. unfold replace_nth. rewrite app_nth2; rewrite firstn_length_le by lia; auto.
    rewrite Nat.sub_diag. auto.
  - destruct (Z.ltb_spec j 0); auto. f_equal. unfold replace_nth. rewrite <- (firstn_skipn (Z.to_nat k) xs) at 3.
    assert (SK : skipn (Z.to_nat k) xs = nth (Z.to_nat k) xs 0 :: skipn (S (Z.to_nat k)) xs).
    { assert (KL : (Z.to_nat k < length xs)%nat) by lia. clear -KL. revert KL. generalize (Z.to_nat k). induction xs as [|x xs IH]; intros k0 KL; [simpl in KL; lia|]. destruct k0; auto. simpl in *. apply IH. lia. }
    rewrite SK. destruct (Nat.lt_ge_cases (Z.to_nat j) (Z.to_nat k)).
    + rewrite !app_nth1 by (rewrite firstn_length_le; lia). auto.
    + rewrite !app_nth2 by (rewrite firstn_length_le; lia). rewrite firstn_length_le by lia.
      replace (Z.to_nat j - Z.to_nat k)%nat with (S (Z.to_nat j - Z.to_nat k - 1)) by lia. auto.
Qed.

Lemma upd_replace (l : list Z) : forall k w, (k < length l)%nat -> upd l k w = replace_nth k w l.
Proof.
  unfold replace_nth. induction l as [|y ys IH]; intros k w K; [simpl in K; lia|]. destruct k; auto.
  cbn [upd firstn app]. rewrite (IH k w) by (simpl in K; lia). reflexivity.
Qed.
Lemma replace_other (l : list Z) w : forall k j, (k < length l)%nat -> j <> k -> nth_error (replace_nth k w l) j = nth_error l j.
Proof.
  unfold replace_nth. induction l as [|y ys IH]; intros k j K NK; [simpl in K; lia|].
  destruct k, j; try congruence; auto. apply (IH k j); simpl in K; lia.
Qed.
(* C80: setix on an array *)
Theorem set_ix_array fuel h fl v elts i n w : lisp_array h v elts -> is_const_ptr v = false -> integer fl h i n ->
  let k := Z.to_nat (n mod 2 ^ 32) in
  exists h' r, set_ix fuel h [v; i; w] = Ok (h', r) /\
    if (k <? length elts)%nat
    then r = v /\ lisp_array h' v (replace_nth k w elts) /\ cells h' = cells h /\ ccells h' = ccells h /\
         (forall p, (forall q, ref_cell h v <> Ok (p, q)) -> mem h' p = mem h p)
    else h' = h /\ r = TERROR.
Proof.
  intros LA NC I k. destruct (integer_arg fl h i n I) as (N&D&_). destruct (array_is_lisp _ _ _ LA) as (_&NL&_&R&p&q&d&x&Rc&M&E).
  unfold set_ix. rewrite N, NL, R, D by auto. cbn [bind]. rewrite E. cbn [bind]. rewrite elts_size.
  assert (Bw : 0 <= wrap 32 n) by (unfold wrap; apply Z.mod_pos_bound; lia).
  assert (Ek : wrap 32 n = Z.of_nat k) by (unfold k, wrap in *; lia). rewrite Ek.
  destruct (Z.ltb_spec (Z.of_nat k) (Z.of_nat (length elts))); destruct (Nat.ltb_spec k (length elts)); try lia.
  - rewrite wr_ok by lia. cbn [bind]. eexists _, v. split; [reflexivity|]. split; auto. split; [|split; [|split]]; auto.
    + destruct LA as (P&T&_). split; auto. split; auto. exists p, q, d, x. split; [exact Rc|].
      assert (EU : upd elts (Z.to_nat (Z.of_nat k)) w = replace_nth k w elts).
      { rewrite Nat2Z.id. apply upd_replace. auto. }
      assert (LR : length (replace_nth k w elts) = length elts).
      { unfold replace_nth. rewrite app_length, firstn_length. cbn [length]. rewrite skipn_length. lia. }
      rewrite LR, <- EU. cbn [mem set_obj set_mem]. rewrite Z.eqb_refl. auto.
    + intros p' NP. cbn [mem set_obj set_mem]. destruct (Z.eqb_spec p' p) as [->|]; auto. exfalso. eapply NP; eauto.
  - exists h, TERROR. auto.
Qed.
(* C80: what setix stored in an array, ix reads; the others are unchanged *)
Theorem set_ix_ix_array fuel h fl v elts i n w m : lisp_array h v elts -> is_const_ptr v = false -> integer fl h i n ->
  n mod 2 ^ 32 < Z.of_nat (length elts) -> 0 <= m < 2 ^ 27 ->
  exists h', set_ix fuel h [v; i; w] = Ok (h', v) /\ ix fuel h' [v; enc_i m] = if m =? n mod 2 ^ 32 then Ok w else ix fuel h [v; enc_i m].
Proof.
  intros LA NC I K Rm. destruct (set_ix_array fuel h fl v elts i n w LA NC I) as (h'&r&E&H).
  assert (Bn : 0 <= n mod 2 ^ 32) by (apply Z.mod_pos_bound; lia).
  destruct (Nat.ltb_spec (Z.to_nat (n mod 2 ^ 32)) (length elts)); [|lia]. destruct H as (->&L'&_). exists h'. split; auto.
  assert (IM : forall h, integer fl h (enc_i m) m).
  { intros h0. exists KI. split; [repeat split; discriminate|]. apply den_int. pose proof payload_big. assert (P27 : 2 ^ 27 <= 2 ^ (payload A - 1)) by (apply Z.pow_le_mono_r; lia). lia. }
  rewrite (ix_array fuel h' fl v _ (enc_i m) m L') by auto. rewrite (ix_array fuel h fl v _ (enc_i m) m LA) by auto.
  set (k := Z.to_nat (n mod 2 ^ 32)) in *. rewrite (Z.mod_small m) by lia.
  destruct (Z.eqb_spec m (n mod 2 ^ 32)) as [Em|NE].
  - replace (Z.to_nat m) with k by (unfold k; congruence). unfold replace_nth. rewrite nth_error_app2; rewrite firstn_length_le by lia; auto.
    rewrite Nat.sub_diag. auto.
  - assert (NK : Z.to_nat m <> k) by lia. f_equal. revert NK. generalize (Z.to_nat m). intros j NK.
    assert (EQ : nth_error (replace_nth k w elts) j = nth_error elts j); [|rewrite EQ; auto].
    apply replace_other; auto.
Qed.
End Arch.
