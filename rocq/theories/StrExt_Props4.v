(* Searching for strings in a string. *)
From Verif Require Import Base Value_Model Heap_Model Value_Proofs Value_Proofs2 Value_Props Heap_Spec Heap_Proofs List_Proofs GC_Model Eq_Model Eq_Spec
  Flat_Model Flat_Spec Flat_Proofs Flat_Proofs2 Read_Model Read_Proofs2 Read_Proofs3 Match_Props Eval_Proofs ArrExt_Model ArrExt_Spec ArrExt_Proofs
  StrExt_Model StrExt_Spec StrExt_Proofs StrExt_Proofs2 StrExt_Props StrExt_Props3.
From Verif Require ArrExt_Props.
Import List.
Local Open Scope Z_scope.

Section Arch.
Context {A : Arch} {L : Libc} {C : Conv} {Ch : Char}.

(* ---- comparing ---- *)
Definition plain (x : Z) : Prop := 0 <= x < 128 \/ x = 255.
Lemma ci_ok : forall n a b, (n <= length a)%nat -> (n <= length b)%nat -> (char_signed = true -> Forall plain a /\ Forall plain b) ->
  ci_strncmp n a b = Ok (if list_eq_dec Z.eq_dec (map lower (firstn n a)) (map lower (firstn n b)) then true else false).
Proof.
  induction n as [|n IH]; intros a b La Lb P; [reflexivity|]. destruct a as [|x a]; [cbn in La; lia|]. destruct b as [|y b]; [cbn in Lb; lia|]. cbn [ci_strncmp].
  rewrite (ctype_ok false x), (ctype_ok false y) by (intros Cs; destruct (P Cs) as (P1&P2); inversion P1; inversion P2; auto). cbn [bind firstn map].
  change (convert false x) with (lower x). change (convert false y) with (lower y). cbn [length] in La, Lb.
  assert (E : ci_strncmp n a b = Ok (if list_eq_dec Z.eq_dec (map lower (firstn n a)) (map lower (firstn n b)) then true else false)).
  { apply IH; try lia. intros Cs. destruct (P Cs) as (P1&P2). split; eapply Forall_inv_tail; eauto. }
  destruct (Z.eqb_spec (lower x) (lower y)) as [Q|Q].
  - rewrite E, Q. destruct (list_eq_dec Z.eq_dec (map lower (firstn n a)) (map lower (firstn n b))) as [Q1|Q1];
      destruct (list_eq_dec Z.eq_dec (lower y :: _) _) as [Q2|Q2]; auto; [rewrite Q1 in Q2; congruence|injection Q2; congruence].
  - clear E IH. destruct (list_eq_dec Z.eq_dec _ _) as [Q2|Q2]; auto. apply (f_equal (hd 0)) in Q2. cbn [hd] in Q2. congruence.
Qed.
Lemma removelast_len (s : list Z) : length (removelast s) = (length s - 1)%nat.
Proof. rewrite removelast_firstn_len, firstn_length. lia. Qed.
Lemma needles_cons s bss : needles (s :: bss) = match s with [] => needles bss | _ => removelast s :: needles bss end.
Proof. destruct s; reflexivity. Qed.

Lemma find_at_ok fl h str cs i : mem h 0 = None -> 0 <= i ->
  forall bss cur occ fuel, den fl h cur (tlist (map Bytes bss)) -> (length bss <= fuel)%nat -> 0 <= occ < 2 ^ 32 ->
  (cs = false -> char_signed = true -> Forall plain str /\ Forall (Forall plain) bss) ->
  let k := Z.of_nat (length (filter (occurs cs str i) (needles bss))) in
  find_at fuel h str cs i cur occ = Ok (if occ <? k then None else Some (occ - k)).
Proof.
  intros NN I0. induction bss as [|s bss IH]; intros cur occ fuel D Lf Oc P.
  - destruct (nil_facts _ _ _ D) as (_&E). cbn. destruct (Z.ltb_spec occ 0); [lia|]. rewrite Z.sub_0_r. destruct fuel; cbn [find_at]; rewrite E; reflexivity.
  - destruct (pair_facts _ _ _ _ _ D) as (x&y&Cc&Ca&Cd&Dx&Dy). destruct fuel as [|fuel]; [cbn in Lf; lia|]. cbn [find_at]. rewrite Cc, Ca. cbn [bind].
    destruct (array_facts fl h x s NN Dx) as (p&dd&q&_&_&_&Ea&_). rewrite Ea, Cd. cbn [bind]. cbn [length] in Lf.
    assert (P' : cs = false -> char_signed = true -> Forall plain str /\ Forall (Forall plain) bss).
    { intros X Y. destruct (P X Y) as (P1&P2). split; auto. eapply Forall_inv_tail; eauto. }
    pose proof (fun occ Oc => IH y occ fuel Dy ltac:(lia) Oc P') as IHn. clear IH. cbv zeta in IHn. cbv zeta. rewrite needles_cons. destruct s as [|b s'].
    { cbn [length]. change (Z.of_nat 0 - 1) with (-1). change (-1 <? 0) with true. rewrite orb_true_r. auto. }
    set (s := b :: s') in *. assert (Ls : (0 < length s)%nat) by (cbn; lia). pose proof (removelast_len s) as Lr.
    replace (Z.of_nat (length s) - 1) with (Z.of_nat (length (removelast s))) by lia.
    destruct (Z.ltb_spec (Z.of_nat (length (removelast s))) 0); [lia|]. rewrite orb_false_r. cbn [filter].
    destruct (Z.gtb_spec i (Z.of_nat (length str) - Z.of_nat (length (removelast s)))) as [G|G].
    { assert (E : occurs cs str i (removelast s) = false) by (unfold occurs; destruct (Z.leb_spec (i + Z.of_nat (length (removelast s))) (Z.of_nat (length str))); [lia|]; rewrite andb_false_r; reflexivity).
      rewrite E. auto. }
    destruct (Z.ltb_spec i 0); [lia|].
    assert (Eb : (if cs then memcmp (skipn (Z.to_nat i) str) s (Z.of_nat (length (removelast s))) else ci_strncmp (Z.to_nat (Z.of_nat (length (removelast s)))) (skipn (Z.to_nat i) str) s) =
      Ok (occurs cs str i (removelast s))).
    { assert (Lh : (length (removelast s) <= length (skipn (Z.to_nat i) str))%nat) by (rewrite skipn_length; lia).
      assert (Rs : firstn (length (removelast s)) s = removelast s) by (rewrite Lr, removelast_firstn_len; f_equal; lia).
      unfold occurs. replace (0 <=? i) with true by lia. replace (i + Z.of_nat (length (removelast s)) <=? Z.of_nat (length str)) with true by lia. cbn [andb]. rewrite Nat2Z.id.
      destruct cs.
      - unfold memcmp. replace (_ && _) with true by lia. rewrite Nat2Z.id, Rs. reflexivity.
      - rewrite ci_ok by (try lia; intros Cs; destruct (P eq_refl Cs) as (P1&P2); inversion P2; subst; split; auto; rewrite <- (firstn_skipn (Z.to_nat i) str) in P1; apply Forall_app in P1; tauto).
        rewrite Rs. reflexivity. }
    rewrite Eb. cbn [bind]. destruct (occurs cs str i (removelast s)); [|auto]. cbn [length]. destruct (Z.eqb_spec occ 0) as [->|Ne].
    + destruct (Z.ltb_spec 0 (Z.of_nat (S (length (filter (occurs cs str i) (needles bss)))))); [reflexivity|lia].
    + rewrite wrap_small by lia. rewrite IHn by lia. f_equal. set (k := length (filter (occurs cs str i) (needles bss))).
      destruct (Z.ltb_spec (occ - 1) (Z.of_nat k)), (Z.ltb_spec occ (Z.of_nat (S k))); try lia; auto. f_equal. lia.
Qed.

(* ---- the positions ---- *)
Lemma interval_first a b : a <= b -> interval a b = a :: interval (a + 1) b.
Proof.
  intros H. unfold interval. replace (Z.to_nat (b - a + 1)) with (S (Z.to_nat (b - (a + 1) + 1))) by lia. cbn [seq map]. f_equal; [lia|].
  rewrite <- seq_shift, map_map. apply map_ext. intros k. lia.
Qed.
Lemma interval_empty a b : b < a -> interval a b = [].
Proof. intros H. unfold interval. replace (Z.to_nat (b - a + 1)) with 0%nat by lia. reflexivity. Qed.
Lemma interval_last a b : a <= b -> interval a b = interval a (b - 1) ++ [b].
Proof.
  intros H. unfold interval. replace (Z.to_nat (b - a + 1)) with (Z.to_nat (b - 1 - a + 1) + 1)%nat by lia. rewrite seq_app, map_app. cbn [seq map Nat.add]. do 2 f_equal. lia.
Qed.
Lemma hits_cons cs str ns i ps : hits cs str ns (i :: ps) = map (fun _ => i) (filter (occurs cs str i) ns) ++ hits cs str ns ps.
Proof. reflexivity. Qed.
Lemma none_beyond cs str ns m i : Forall (fun s => m <= Z.of_nat (length s)) ns -> Z.of_nat (length str) - m < i -> filter (occurs cs str i) ns = [].
Proof.
  intros F H. induction F as [|s ns Fs F IH]; [reflexivity|]. cbn [filter]. rewrite IH. unfold occurs.
  destruct (Z.leb_spec (i + Z.of_nat (length s)) (Z.of_nat (length str))); [lia|]. rewrite andb_false_r. reflexivity.
Qed.
Lemma hits_beyond cs str ns m ps : Forall (fun s => m <= Z.of_nat (length s)) ns -> Forall (fun i => Z.of_nat (length str) - m < i) ps -> hits cs str ns ps = [].
Proof. intros F H. induction H as [|i ps Hi H IH]; [reflexivity|]. rewrite hits_cons, (none_beyond _ _ _ m) by auto. exact IH. Qed.
Lemma interval_above a b : Forall (fun i => a <= i) (interval a b).
Proof. apply Forall_forall. intros x X. unfold interval in X. apply in_map_iff in X. destruct X as (k&<-&_). lia. Qed.
Lemma nth_const {T} (l : list T) (i d : Z) rest n : nth n (map (fun _ => i) l ++ rest) d = if (n <? length l)%nat then i else nth (n - length l) rest d.
Proof.
  destruct (Nat.ltb_spec n (length l)).
  - rewrite app_nth1 by (rewrite map_length; lia). revert n H. induction l as [|x l IH]; intros [|n] H; cbn in *; try lia; auto. apply IH. lia.
  - rewrite app_nth2 by (rewrite map_length; lia). rewrite map_length. reflexivity.
Qed.
Lemma hits_range cs str ns ps i : In i (hits cs str ns ps) -> 0 <= i <= Z.of_nat (length str).
Proof.
  intros H. unfold hits in H. apply in_flat_map in H. destruct H as (j&_&H). apply in_map_iff in H. destruct H as (s&->&H). apply filter_In in H. destruct H as (_&H).
  unfold occurs in H. apply andb_true_iff in H. destruct H as (H&_). apply andb_true_iff in H. lia.
Qed.

Section Loop.
Variables (fl : list Z) (h : heap) (str : list Z) (cs : bool) (m : Z) (bss : list (list Z)) (subs : Z) (lfuel : nat).
Hypotheses (NN : mem h 0 = None) (M0 : 0 <= m) (Ms : Forall (fun s => m <= Z.of_nat (length s)) (needles bss)) (D : den fl h subs (tlist (map Bytes bss))) (Lf : (length bss <= lfuel)%nat)
  (P : cs = false -> char_signed = true -> Forall plain str /\ Forall (Forall plain) bss).
Let size := Z.of_nat (length str).

Lemma step_ok i occ rest (go : Z -> res Z) : 0 <= i -> 0 <= occ < 2 ^ 32 ->
  (forall o, 0 <= o < 2 ^ 32 -> go o = Ok (nth (Z.to_nat o) rest (-1))) ->
  (let! o := find_at lfuel h str cs i subs occ in match o with None => Ok i | Some occ => go occ end) =
  Ok (nth (Z.to_nat occ) (map (fun _ => i) (filter (occurs cs str i) (needles bss)) ++ rest) (-1)).
Proof.
  intros I0 Oc Go. rewrite (find_at_ok fl) with (bss := bss) by auto. cbn [bind]. rewrite nth_const. set (k := length (filter (occurs cs str i) (needles bss))).
  destruct (Z.ltb_spec occ (Z.of_nat k)), (Nat.ltb_spec (Z.to_nat occ) k); try lia; auto. rewrite Go by lia. do 2 f_equal. lia.
Qed.
Lemma loop_right : forall fuel i occ, 0 <= i -> 0 <= occ < 2 ^ 32 -> size - m - i + 1 <= Z.of_nat fuel ->
  find_loop fuel lfuel h str true cs m subs i occ = Ok (nth (Z.to_nat occ) (hits cs str (needles bss) (interval i size)) (-1)).
Proof.
  induction fuel as [|fuel IH]; intros i occ I0 Oc Hf; cbn [find_loop]; fold size; destruct (Z.leb_spec i (size - m)) as [G|G]; try lia.
  1,3: rewrite (hits_beyond _ _ _ m) by (exact Ms || (eapply Forall_impl; [|apply interval_above]; intros; cbn beta in *; fold size; lia)); destruct (Z.to_nat occ); reflexivity.
  rewrite (interval_first i size) by lia. rewrite hits_cons. apply step_ok; auto. intros o Oo. apply IH; lia.
Qed.
Lemma loop_left : forall fuel i occ, i <= size - m -> 0 <= occ < 2 ^ 32 -> i + 1 <= Z.of_nat fuel ->
  find_loop fuel lfuel h str false cs m subs i occ = Ok (nth (Z.to_nat occ) (hits cs str (needles bss) (rev (interval 0 i))) (-1)).
Proof.
  induction fuel as [|fuel IH]; intros i occ I0 Oc Hf; cbn [find_loop]; destruct (Z.leb_spec 0 i) as [G|G]; try lia.
  1,3: rewrite interval_empty by lia; destruct (Z.to_nat occ); reflexivity.
  rewrite (interval_last 0 i) by lia. rewrite rev_app_distr. cbn [rev app]. rewrite hits_cons. apply step_ok; auto. intros o Oo. apply IH; lia.
Qed.
Lemma clip o : hits cs str (needles bss) (rev (interval 0 (Z.min o size))) = hits cs str (needles bss) (rev (interval 0 (Z.min o (size - m)))).
Proof.
  destruct (Z_le_dec o (size - m)) as [Q|Q]; [rewrite !Z.min_l by lia; reflexivity|]. rewrite (Z.min_r o (size - m)) by lia.
  assert (X : size - m <= Z.min o size) by lia. remember (Z.to_nat (Z.min o size - (size - m))) as n eqn:En. revert En X. generalize (Z.min o size) as b. clear o Q.
  induction n as [|n IH]; intros b En X; [replace b with (size - m) by lia; reflexivity|]. rewrite <- (IH (b - 1)) by lia.
  destruct (Z_lt_dec b 0); [rewrite !interval_empty by lia; reflexivity|]. rewrite (interval_last 0 b) by lia. rewrite rev_app_distr. cbn [rev app].
  rewrite hits_cons, (none_beyond _ _ _ m) by (auto; fold size; lia). reflexivity.
Qed.
End Loop.

(* ---- the shortest string ---- *)
Lemma min_ok fl h : mem h 0 = None -> forall bss cur m fuel, den fl h cur (tlist (map Bytes bss)) -> (length bss <= fuel)%nat -> 0 <= m ->
  exists m', find_min fuel h cur m = Ok (Some m') /\ 0 <= m' <= m /\ Forall (fun s => m' <= Z.of_nat (length s)) (needles bss).
Proof.
  intros NN. induction bss as [|s bss IH]; intros cur m fuel D Lf M0.
  - destruct (nil_facts _ _ _ D) as (_&E). exists m. split; [destruct fuel; cbn [find_min]; rewrite E; reflexivity|]. split; [lia|constructor].
  - destruct (pair_facts _ _ _ _ _ D) as (x&y&Cc&Ca&Cd&Dx&Dy). destruct fuel as [|fuel]; [cbn in Lf; lia|]. cbn [find_min]. rewrite Cc, Ca. cbn [bind].
    destruct (array_facts fl h x s NN Dx) as (p&dd&q&_&_&Ir&Ea&_). rewrite Ir. cbn [bind negb]. rewrite Ea, Cd. cbn [bind]. cbn [length] in Lf.
    match goal with |- exists m', find_min fuel h y ?k = _ /\ _ => set (m1 := k); assert (M1 : 0 <= m1 <= m /\ (s <> [] -> m1 <= Z.of_nat (length s) - 1)) end.
    { unfold m1. destruct s as [|b s]; [cbn; split; [lia|congruence]|]. cbn [length]. destruct (Z.ltb_spec (Z.of_nat (S (length s)) - 1) m); [|rewrite andb_false_r; lia].
      destruct (Z.leb_spec 0 (Z.of_nat (S (length s)) - 1)); cbn [andb]; lia. }
    destruct (IH y m1 fuel Dy ltac:(lia) ltac:(lia)) as (m'&E&Rm&F). exists m'. split; [exact E|]. split; [lia|]. rewrite needles_cons. destruct s as [|b s]; auto.
    constructor; auto. rewrite removelast_len. destruct M1 as (_&M1). specialize (M1 ltac:(discriminate)). lia.
Qed.

(* ---- the other arguments ---- *)
Lemma pointer_opt v T : is_ptr v = true -> type_of_functional v = T -> (Z.land T NUMBER_MASK =? NUMBER_MASK) = false -> is_number v = false /\ is_symbol v = false.
Proof.
  intros P Ty N. split.
  - unfold is_number. unfold is_ptr in P. apply negb_true_iff in P. rewrite P. unfold type_of_functional in Ty. rewrite P in Ty. rewrite <- N. f_equal. rewrite <- Ty, <- Z.land_assoc. f_equal. arch; reflexivity.
  - destruct (is_symbol v) eqn:S; auto. unfold is_symbol in S. apply Z.eqb_eq in S. unfold is_ptr in P. apply negb_true_iff in P. apply Z.eqb_neq in P. destruct P.
    replace (Z.land v PTR_BIT) with (Z.land (Z.land v LOW_RESERVED_BITS) PTR_BIT) by (rewrite <- Z.land_assoc; f_equal; arch; reflexivity). rewrite S. reflexivity.
Qed.
Lemma array_opt fl h v bs : den fl h v (Bytes bs) -> is_number v = false /\ is_symbol v = false.
Proof. intros D. inversion D; subst. eapply pointer_opt; eauto. arch; reflexivity. Qed.
Lemma list_opt fl h v ts : den fl h v (tlist ts) -> is_number v = false /\ (is_symbol v = true -> dec_sym v = 0).
Proof.
  intros D. destruct ts as [|t ts].
  - destruct (nil_facts _ _ _ D) as (->&_). split; [|intros _]; arch; reflexivity.
  - cbn [tlist fold_right] in D. inversion D; subst. destruct (pointer_opt v TYPE_CONS) as (N&S); auto; [arch; reflexivity|]. split; auto. congruence.
Qed.
Lemma integer_not_symbol fl h v n : integer fl h v n -> is_symbol v = false.
Proof.
  intros (k&(K1&_)&D). destruct (is_symbol v) eqn:S; auto. destruct (symbol_den _ _ _ _ D S) as (n'&E&_). congruence.
Qed.
Lemma symbol_opt fl h v s : den fl h v (Leaf KSym s) -> is_number v = false /\ is_symbol v = true /\ dec_sym v = s.
Proof.
  intros D. inversion D as [v' k' n' Hd Sy T R| | |]; subst. cbn in R. specialize (Sy eq_refl). split; [|auto].
  unfold is_symbol in Sy. apply Z.eqb_eq in Sy. unfold is_number.
  replace (Z.land v PTR_BIT) with (Z.land (Z.land v LOW_RESERVED_BITS) PTR_BIT) by (rewrite <- Z.land_assoc; f_equal; arch; reflexivity).
  replace (Z.land v VAL_TYPE_MASK) with (Z.land (Z.land v LOW_RESERVED_BITS) VAL_TYPE_MASK) by (rewrite <- Z.land_assoc; f_equal; arch; reflexivity).
  rewrite Sy. reflexivity.
Qed.
Lemma sgn_int n : -2 ^ 31 < n < 2 ^ 31 -> sgn 32 n = n.
Proof.
  intros R. destruct (Z_lt_dec n 0) as [G|G]; [|apply sgn_small; lia]. unfold sgn. replace (n mod 2 ^ 32) with (n + 2 ^ 32) by (apply Z.mod_unique with (q := -1); lia).
  destruct (Z.ltb_spec (n + 2 ^ 32) (2 ^ (32 - 1))); lia.
Qed.
Lemma opts_ok left nocase fl h : left <> nocase -> forall opts ts, options fl h opts ts -> forall nums right cs, (length nums <= 2)%nat ->
  find_opts left nocase h opts nums right cs = Ok (firstn 2 (nums ++ numbers ts), right && negb (chosen left ts), cs && negb (chosen nocase ts)).
Proof.
  intros Ne opts ts F. induction F as [|v t opts ts X F IH]; intros nums right cs Ln.
  - cbn [find_opts numbers flat_map chosen existsb negb]. rewrite app_nil_r, firstn_all2, !andb_true_r by lia. reflexivity.
  - cbn [find_opts numbers flat_map chosen existsb]. fold (numbers ts). fold (chosen left ts). fold (chosen nocase ts). destruct t as [n|s].
    + destruct X as (I&Rn). destruct (integer_arg _ _ _ _ I) as (Nm&_&Di). rewrite Nm, (integer_not_symbol _ _ _ _ I). cbn [andb orb app].
      destruct (Z.ltb_spec (Z.of_nat (length nums)) 2) as [G|G].
      * rewrite Di. cbn [bind]. rewrite sgn_int by lia. rewrite IH by (rewrite app_length; cbn; lia). rewrite <- app_assoc. reflexivity.
      * cbn [bind]. rewrite IH by auto. do 3 f_equal. destruct nums as [|a [|b [|]]]; cbn in *; try lia. reflexivity.
    + destruct (symbol_opt _ _ _ _ X) as (Nm&Sy&Ds). rewrite Nm, Sy, Ds. cbn [andb bind app].
      destruct (Z.eqb_spec s left) as [->|N1]; cbn [orb].
      * rewrite IH by auto. destruct (Z.eqb_spec left nocase); [congruence|]. cbn [orb negb andb]. rewrite andb_false_r. reflexivity.
      * destruct (Z.eqb_spec s nocase) as [->|N2]; cbn [orb].
        -- rewrite IH by auto. cbn [negb]. rewrite andb_false_r. reflexivity.
        -- rewrite IH by auto. reflexivity.
Qed.
Lemma skip_opt left nocase h v t nums right cs : is_number v = false -> (is_symbol v = true -> dec_sym v = 0) -> left <> 0 -> nocase <> 0 ->
  find_opts left nocase h (v :: t) nums right cs = find_opts left nocase h t nums right cs.
Proof.
  intros N S L0 N0. cbn [find_opts]. rewrite N. cbn [andb bind]. destruct (is_symbol v); [|reflexivity]. rewrite (S eq_refl).
  destruct (Z.eqb_spec 0 left); [congruence|]. destruct (Z.eqb_spec 0 nocase); [congruence|]. reflexivity.
Qed.

(* C77 the result of a search: the position of the occurrence asked for, or -1 *)
Theorem str_find_correct left nocase u fl a str b bss c opts ts fuel : ready u fl -> den fl (uh u) a (Bytes str) -> Z.of_nat (length str) < 2 ^ 27 ->
  (exists s, bss = [s] /\ den fl (uh u) b (Bytes s) /\ c = 1%nat) \/ (den fl (uh u) b (tlist (map Bytes bss)) /\ c = 0%nat) ->
  Forall (fun s => Z.of_nat (length s) < 2 ^ 31) bss ->
  options fl (uh u) opts ts -> (length opts <= 4)%nat -> left <> 0 -> nocase <> 0 -> left <> nocase -> (length bss <= fuel)%nat ->
  let right := negb (chosen left ts) in let cs := negb (chosen nocase ts) in let size := Z.of_nat (length str) in
  let skip := nth 1 (numbers ts) 0 in
  0 <= skip -> (cs = false -> char_signed = true -> Forall plain str /\ Forall (Forall plain) bss) ->
  exists u' r, str_find left nocase fuel u (a :: b :: opts) = Ok (u', r) /\
    outcome c 0 u fl (Leaf KI (nth (Z.to_nat skip) (hits cs str (needles bss) (positions right size (origin right size (hd_error (numbers ts))))) (-1))) u' r.
Proof.
  intros R D B Db Bs O Lo L0 N0 Ne Lf right cs size skip K0 P. pose proof (r_null _ _ R) as NN. subst skip.
  set (t := Leaf KI _).
  (* the search *)
  assert (Go : forall u1 fl1 subs m, mem (uh u1) 0 = None -> (forall w t, den fl (uh u) w t -> den fl1 (uh u1) w t) -> den fl1 (uh u1) subs (tlist (map Bytes bss)) ->
    0 <= m <= INT_MAX -> Forall (fun s => m <= Z.of_nat (length s)) (needles bss) ->
    (let! (o, cs) := find_opts left nocase (uh u1) (a :: b :: opts) [] true true in
     let nums := fst o in let right := snd o in
     let start := (match nums with x :: _ => x | [] => if right then 0 else size - m end) in
     let occ := (match nums with _ :: y :: _ => wrap 32 y | _ => 0 end) in
     let! start := (if start <? 0 then sint (size - 1 + start) else Ok start) in
     let start := (if negb right && (start >? size - m) then size - m else if right && (start <? 0) then 0 else start) in
     let! i := find_loop (S (S (length str))) fuel (uh u1) str right cs m subs start occ in
     Ok (u1, enc_i i)) = Ok (u1, enc_i (nth (Z.to_nat (nth 1 (numbers ts) 0)) (hits cs str (needles bss) (positions right size (origin right size (hd_error (numbers ts))))) (-1)))).
  { intros u1 fl1 subs m NN1 K Ds M0 Ms.
    assert (S1 : is_number b = false /\ (is_symbol b = true -> dec_sym b = 0)).
    { destruct Db as [(s&_&Db&_)|(Db&_)]; [destruct (array_opt _ _ _ _ Db) as (X&Y); split; auto; congruence|eapply list_opt; eauto]. }
    destruct (array_opt _ _ _ _ D) as (A1&A2). rewrite skip_opt by (auto; congruence). rewrite skip_opt by tauto.
    assert (O1 : options fl1 (uh u1) opts ts).
    { eapply Forall2_impl; [|exact O]. intros v [n|s]; [intros ((k&Ik&Dk)&Rn); split; auto; exists k; auto|auto]. }
    rewrite (opts_ok left nocase fl1 (uh u1) Ne opts ts O1) by (cbn; lia). cbn [bind fst snd andb app]. fold right cs.
    assert (Occ : match firstn 2 (numbers ts) with _ :: y :: _ => wrap 32 y | _ => 0 end = nth 1 (numbers ts) 0 /\ nth 1 (numbers ts) 0 < 2 ^ 32 /\ (forall x, hd_error (numbers ts) = Some x -> -2 ^ 31 < x < 2 ^ 31)).
    { assert (Rn : Forall (fun x => -2 ^ 31 < x < 2 ^ 31) (numbers ts)).
      { clear - O. induction O as [|v [n|s] opts ts X O IH]; cbn [numbers flat_map app]; [constructor| |auto]. constructor; [tauto|auto]. }
      destruct (numbers ts) as [|x [|y l]]; cbn [firstn nth] in *; [split; [reflexivity|]; split; [cbn; lia|]; discriminate| |].
      - inversion Rn; subst. (split; [reflexivity|]; split; [cbn; lia|]; intros ? [= <-]; lia).
      - inversion Rn as [|? ? R1 R2]; subst. inversion R2; subst. rewrite wrap_small by lia. (split; [reflexivity|]; split; [cbn; lia|]; intros ? [= <-]; lia). }
    destruct Occ as (Eo&Bo&Bx). rewrite Eo. assert (Oc : 0 <= nth 1 (numbers ts) 0 < 2 ^ 32) by (auto; lia).
    assert (IM : INT_MAX <= 2 ^ (W - 1) - 1 /\ 2 ^ 31 <= 2 ^ (W - 1)) by (clear; arch; unfold INT_MAX; cbn; lia). assert (S0 : 0 <= size) by (unfold size; lia).
    assert (Sz : forall x, x < 0 -> - 2 ^ (W - 1) <= size - 1 + x -> sint (size - 1 + x) = Ok (size - 1 + x)).
    { intros x X Y. unfold sint. replace (_ && _) with true; [reflexivity|]. unfold INT_MAX in *. destruct IM as (_&I2). destruct (Z.leb_spec (- 2 ^ (W - 1)) (size - 1 + x)); [|lia].
      destruct (Z.leb_spec (size - 1 + x) (2 ^ (W - 1) - 1)); [reflexivity|]. unfold size in *. lia. }
    unfold positions, origin. destruct right.
    - assert (St : exists st, (let start := match firstn 2 (numbers ts) with x :: _ => x | [] => 0 end in if start <? 0 then sint (size - 1 + start) else Ok start) = Ok st /\
        st = match hd_error (numbers ts) with None => 0 | Some x => if x <? 0 then size - 1 + x else x end).
      { destruct (numbers ts) as [|x l]; cbn [firstn hd_error] in *; [exists 0; auto|]. specialize (Bx x eq_refl). cbv zeta. destruct (Z.ltb_spec x 0); [|eauto]. rewrite Sz by lia. eauto. }
      destruct St as (st&E&Es). cbv zeta in E. cbv zeta. rewrite E. cbn [bind negb andb]. rewrite <- Es.
      rewrite (loop_right fl1 (uh u1) str cs m bss subs fuel) by (auto; try lia; destruct (Z.ltb_spec st 0); unfold size in *; lia). cbn [bind]. do 4 f_equal. fold size. f_equal.
      destruct (Z.ltb_spec st 0); f_equal; lia.
    - assert (St : exists st, (let start := match firstn 2 (numbers ts) with x :: _ => x | [] => size - m end in if start <? 0 then sint (size - 1 + start) else Ok start) = Ok st /\
        (st = match hd_error (numbers ts) with None => size | Some x => if x <? 0 then size - 1 + x else x end \/ hd_error (numbers ts) = None /\ (st = size - m \/ size - m < 0 /\ st = size - 1 + (size - m)))).
      { destruct (numbers ts) as [|x l]; cbn [firstn hd_error] in *; cbv zeta.
        - destruct (Z.ltb_spec (size - m) 0); [rewrite Sz by lia; eexists; split; [reflexivity|]; right; auto|eexists; split; [reflexivity|]; right; auto].
        - specialize (Bx x eq_refl). destruct (Z.ltb_spec x 0); [|eauto]. rewrite Sz by lia. eauto. }
      destruct St as (st&E&Es). cbv zeta in E. cbv zeta. rewrite E. cbn [bind negb andb]. rewrite (clip str cs m bss fuel) by (auto; lia). fold size.
      replace (if st >? size - m then size - m else st) with (Z.min st (size - m)) by (destruct (Z.gtb_spec st (size - m)); lia).
      rewrite (loop_left fl1 (uh u1) str cs m bss subs fuel) by (auto; unfold size in *; lia). cbn [bind]. do 4 f_equal.
      destruct Es as [<-|(->&Es)]; [reflexivity|]. destruct (Z_lt_dec (size - m) 0) as [G|G]; [rewrite !interval_empty by lia; reflexivity|]. do 3 f_equal. lia. }
  assert (Dt : forall fl1 h1, den fl1 h1 (enc_i (nth (Z.to_nat (nth 1 (numbers ts) 0)) (hits cs str (needles bss) (positions right size (origin right size (hd_error (numbers ts))))) (-1))) t).
  { intros fl1 h1. apply den_int. match goal with |- _ <= nth ?n ?l _ < _ => destruct (nth_in_or_default n l (-1)) as [X|X] end;
      [apply hits_range in X; unfold size in *; clear - X B; arch; cbn; lia|rewrite X; clear; arch; cbn; lia]. }
  assert (Lg : (Z.of_nat (length (a :: b :: opts)) <? 2) || (6 <? Z.of_nat (length (a :: b :: opts))) = false) by (cbn [length]; lia).
  unfold str_find. rewrite Lg. args.
  destruct (array_facts fl _ _ _ NN D) as (p&dd&q&_&_&Ir&Ea&_). rewrite Ir. cbn [bind negb]. rewrite Ea. cbn [bind]. fold size.
  destruct Db as [(s&->&Db&->)|(Db&->)].
  - destruct (array_facts fl _ _ _ NN Db) as (p1&dd1&q1&_&_&Ir1&_&_). rewrite Ir1. cbn [bind]. destruct fl as [|j fl2].
    + assert (Ec : Heap_Model.cons (uh u) b NIL = Ok (uh u, MERROR)) by (apply cons_fail, R). rewrite Ec. cbn [bind]. rewrite Z.eqb_refl. do 2 eexists. split; [reflexivity|].
      exists []. split; [apply incl_refl|]. split; [apply R|]. split; [auto|]. right. split; [|reflexivity]. cbn. lia.
    + destruct (cons_ok (uh u) j fl2 b NIL (r_heap _ _ R)) as (h&Ec&OK&Ce&Sb&Sz&Cc&Mm&_&Rj). rewrite Ec. cbn [bind].
      assert (Gr : grows (j :: fl2) (uh u) h).
      { split; [eapply same_but_incl; [|exact Sb]; intros x [->|[]]; left; auto|]. split; [auto|]. intros x o X. rewrite Mm. auto. }
      assert (K : forall w t, den (j :: fl2) (uh u) w t -> den fl2 h w t) by (intros w t0 Dw; apply (den_grows (j :: fl2) (uh u)); auto; intros x X; right; auto).
      assert (NJ : ~ In j fl2) by (pose proof (ok_nodup _ _ (r_heap _ _ R)) as X; inversion X; auto).
      assert (Lon : list_on h (enc_cons_ptr j) [b] [enc_cons_ptr j]) by (apply (list_on_cons_cell h j b NIL); [exact Rj|exact Ce|rewrite NIL_0; constructor]).
      assert (Ds : den fl2 h (enc_cons_ptr j) (tlist (map Bytes [s]))).
      { eapply (list_on_den h fl2 [b] [enc_cons_ptr j]); [exact Lon|constructor; [apply K, Db|constructor]|constructor; [apply enc_rw; auto|constructor]|].
        cbn [nums map]. rewrite enc_ix by auto. intros x [<-|[]] Y. auto. }
      assert (NM : (enc_cons_ptr j =? MERROR) = false) by (apply Z.eqb_neq; eapply list_head_ok; eauto). rewrite NM.
      assert (NN' : mem h 0 = None) by (rewrite Mm; auto).
      destruct (array_facts fl2 h b s NN' (K _ _ Db)) as (p2&dd2&q2&_&_&_&Ea2&_). cbn [uh set_h]. rewrite Ea2. cbn [bind].
      assert (Res : outcome 1 0 u (j :: fl2) t (set_h u h) (enc_i (nth (Z.to_nat (nth 1 (numbers ts) 0)) (hits cs str (needles [s]) (positions right size (origin right size (hd_error (numbers ts))))) (-1)))).
      { exists fl2. split; [intros x X; right; auto|]. split; [exact OK|]. split; [exact K|]. left. split; [cbn; lia|]. split; [lia|]. split; [|apply Dt].
        destruct R as [_ R12 R13]. constructor; cbn [uh up set_h]; auto; rewrite Mm; auto. }
      destruct (Z.ltb_spec (Z.of_nat (length s) - 1) 0) as [G|G].
      * do 2 eexists. split; [reflexivity|]. assert (s = []) as -> by (destruct s; auto; cbn [length] in G; lia).
        replace (enc_i (-1)) with (enc_i (nth (Z.to_nat (nth 1 (numbers ts) 0)) (hits cs str (needles [[]]) (positions right size (origin right size (hd_error (numbers ts))))) (-1))); [exact Res|].
        f_equal. change (needles [[]]) with (@nil (list Z)). replace (hits cs str [] _) with (@nil Z); [destruct (Z.to_nat _); reflexivity|].
        generalize (positions right size (origin right size (hd_error (numbers ts)))). intros l. induction l as [|x l IH]; [reflexivity|exact IH].
      * do 2 eexists. split; [|exact Res]. apply (Go (set_h u h) fl2); auto.
        -- apply Forall_inv in Bs. clear - G Bs. unfold INT_MAX. assert (2 ^ 31 <= 2 ^ (W - 1)) by (arch; cbn; lia). lia.
        -- rewrite needles_cons. destruct s; [cbn [length] in G; lia|]. constructor; [rewrite removelast_len; lia|constructor].
  - assert (Nb : is_array_r (uh u) b = Ok false).
    { apply (ArrExt_Props.not_array fl _ _ _ Db). intros bs. destruct bss; discriminate. }
    rewrite Nb. cbn [bind]. rewrite (tlist_is_list _ _ _ _ Db).
    destruct (min_ok fl (uh u) NN bss b INT_MAX fuel Db Lf ltac:(clear; unfold INT_MAX; arch; cbn; lia)) as (m&Em&Rm&Fm). rewrite Em. cbn [bind].
    do 2 eexists. split; [apply (Go u fl b m); auto|]. exists fl. split; [apply incl_refl|]. split; [apply R|]. split; [auto|]. left. split; [lia|]. split; [lia|]. split; [exact R|apply Dt].
Qed.

(* C77 without options: the first occurrence of a string *)
Theorem str_find_first left nocase u fl a str b s fuel : ready u fl -> den fl (uh u) a (Bytes str) -> Z.of_nat (length str) < 2 ^ 27 -> den fl (uh u) b (Bytes s) -> s <> [] ->
  Z.of_nat (length s) < 2 ^ 31 -> left <> 0 -> nocase <> 0 -> left <> nocase -> (1 <= fuel)%nat ->
  let at_ i := 0 <= i /\ exists p q, str = p ++ removelast s ++ q /\ i = Z.of_nat (length p) in
  exists i u' r, str_find left nocase fuel u [a; b] = Ok (u', r) /\ outcome 1 0 u fl (Leaf KI i) u' r /\
    (at_ i /\ (forall j, at_ j -> i <= j) \/ i = -1 /\ forall j, ~ at_ j).
Proof.
  intros R D B Db Ns Bs L0 N0 Ne Lf at_.
  assert (O0 : options fl (uh u) [] []) by constructor. assert (F1 : Forall (fun s => Z.of_nat (length s) < 2 ^ 31) [s]) by (constructor; auto).
  assert (X1 : (exists s0, [s] = [s0] /\ den fl (uh u) b (Bytes s0) /\ 1%nat = 1%nat) \/ (den fl (uh u) b (tlist (map Bytes [s])) /\ 1%nat = 0%nat)) by (left; exists s; auto).
  destruct (str_find_correct left nocase u fl a str b [s] 1%nat [] [] fuel) as (u'&r&E&O); auto; try (cbn; lia); try discriminate.
  eexists _, u', r. split; [exact E|]. split; [exact O|]. cbn [numbers flat_map nth hd_error chosen existsb negb origin]. change (Z.to_nat 0) with 0%nat.
  replace (needles [s]) with [removelast s] by (destruct s; [congruence|reflexivity]). set (nd := removelast s). unfold positions. rewrite Z.max_id.
  assert (Oc : forall i, occurs true str i nd = true <-> at_ i).
  { intros i. unfold occurs, at_. fold nd. rewrite !andb_true_iff, !Z.leb_le. split.
    - intros ((H1&H2)&H3). destruct (list_eq_dec Z.eq_dec _ _) as [Q|]; [|discriminate]. split; [auto|]. exists (firstn (Z.to_nat i) str), (skipn (length nd) (skipn (Z.to_nat i) str)).
      split; [rewrite <- Q at 1; rewrite firstn_skipn, firstn_skipn; reflexivity|]. rewrite firstn_length. lia.
    - intros (H1&p&q&->&->). rewrite !app_length. split; [lia|]. rewrite Nat2Z.id, skipn_app, skipn_all, Nat.sub_diag. cbn [skipn app].
      rewrite firstn_app, Nat.sub_diag, firstn_all. cbn [firstn]. rewrite app_nil_r. destruct (list_eq_dec Z.eq_dec nd nd); congruence. }
  assert (Gen : forall n a0, Z.to_nat (Z.of_nat (length str) - a0 + 1) = n -> 0 <= a0 -> let i := nth 0 (hits true str [nd] (interval a0 (Z.of_nat (length str)))) (-1) in
    at_ i /\ (forall j, a0 <= j -> at_ j -> i <= j) \/ i = -1 /\ forall j, a0 <= j -> ~ at_ j).
  { induction n as [|n IH]; intros a0 En A0 i; unfold i.
    - rewrite interval_empty by lia. right. split; [reflexivity|]. intros j J (J0&p&q&->&->). rewrite !app_length in *. lia.
    - rewrite interval_first by lia. rewrite hits_cons. cbn [filter]. destruct (occurs true str a0 nd) eqn:Q.
      + left. cbn [map app nth]. split; [apply Oc; auto|]. auto.
      + cbn [map app]. destruct (IH (a0 + 1) ltac:(lia) ltac:(lia)) as [(H1&H2)|(H1&H2)].
        * left. split; [exact H1|]. intros j J Aj. apply H2; auto. assert (j <> a0) by (intros ->; apply Oc in Aj; congruence). lia.
        * right. split; [exact H1|]. intros j J Aj. apply (H2 j); auto. assert (j <> a0) by (intros ->; apply Oc in Aj; congruence). lia. }
  destruct (Gen _ 0 eq_refl ltac:(lia)) as [(H1&H2)|(H1&H2)]; [left|right].
  - split; [exact H1|]. intros j Aj. apply H2; auto. apply Aj.
  - split; [exact H1|]. intros j Aj. apply (H2 j); auto. apply Aj.
Qed.
End Arch.
