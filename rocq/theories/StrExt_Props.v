(* The functions on one string: length, part, case, order, repetition. *)
From Verif Require Import Base Value_Model Heap_Model Value_Proofs Value_Proofs2 Value_Props Heap_Spec Heap_Proofs List_Proofs GC_Model Eq_Model Eq_Spec
  Flat_Model Flat_Spec Flat_Proofs Flat_Proofs2 Read_Model Read_Proofs2 Read_Proofs3 ArrExt_Model ArrExt_Spec ArrExt_Proofs StrExt_Model StrExt_Spec StrExt_Proofs.
Import List.
Local Open Scope Z_scope.

Section Arch.
Context {A : Arch} {L : Libc} {C : Conv} {Ch : Char}.

Lemma sgn_small x : 0 <= x < 2 ^ 31 -> sgn 32 x = x.
Proof. intros H. unfold sgn. rewrite Z.mod_small by lia. destruct (Z.ltb_spec x (2 ^ (32 - 1))); lia. Qed.
Lemma wrap_W x : 0 <= x < 2 ^ 32 -> wrap W x = x.
Proof. intros H. apply wrap_small. destruct A; cbn; lia. Qed.
Lemma slice_text bs i n : (i + n <= length (text bs))%nat -> slice i n bs = firstn n (skipn i (text bs)).
Proof.
  intros H. destruct (text_prefix bs) as (r&E&_). unfold slice. rewrite E at 1. rewrite skipn_app, firstn_app, skipn_length.
  replace (n - (length (text bs) - i))%nat with 0%nat by lia. cbn. apply app_nil_r.
Qed.
Lemma firstn_min {T} n (l : list T) : firstn (Nat.min n (length l)) l = firstn n l.
Proof. rewrite <- firstn_firstn, firstn_all. reflexivity. Qed.

(* C74 the length of a string is the number of bytes before the first 0 *)
Theorem str_len_correct u fl a bs : mem (uh u) 0 = None -> den fl (uh u) a (Bytes bs) -> Z.of_nat (length bs) < 2 ^ 27 ->
  exists v, str_len u [a] = Ok (u, v) /\ den fl (uh u) v (Leaf KI (Z.of_nat (length (text bs)))).
Proof.
  intros NN D B. unfold str_len. count. args. rewrite (dec_size_ok fl _ _ _ NN D). cbn [bind]. rewrite strlen_text.
  pose proof (text_length bs). eexists. split; [reflexivity|]. rewrite sgn_small by lia. apply den_int. destruct A; cbn; lia.
Qed.

(* C74 the part of a string *)
Theorem str_part_correct u fl a bs iv i opt n : ready u fl -> den fl (uh u) a (Bytes bs) -> Z.of_nat (length bs) < 2 ^ 31 ->
  integer fl (uh u) iv i -> 0 <= i < Z.of_nat (length (text bs)) ->
  opt = [] /\ n = length (text bs) \/ (exists nv k, opt = [nv] /\ integer fl (uh u) nv k /\ 0 <= k < 2 ^ 32 /\ n = Z.to_nat k) ->
  exists u' r, str_part u (a :: iv :: opt) = Ok (u', r) /\ outcome 1 2 u fl (str (firstn n (skipn (Z.to_nat i) (text bs)))) u' r.
Proof.
  intros R D B I Ri O. destruct (integer_arg _ _ _ _ I) as (Nm&Du&_). pose proof (text_length bs) as TL.
  assert (Go : forall m, (m <= length (text bs) - Z.to_nat i)%nat -> firstn m (skipn (Z.to_nat i) (text bs)) = firstn n (skipn (Z.to_nat i) (text bs)) ->
    exists u' r, create_str u (wrap 32 (Z.of_nat m + 1)) (copy_str bs i (Z.of_nat m)) = Ok (u', r) /\ outcome 1 2 u fl (str (firstn n (skipn (Z.to_nat i) (text bs)))) u' r).
  { intros m Lm Em. rewrite wrap_small by lia. destruct (create_made u fl (Z.of_nat m + 1) (copy_str bs i (Z.of_nat m)) (slice (Z.to_nat i) m bs ++ [0])) as (u'&r&E&M); auto; [lia| |].
    - replace (Z.to_nat (Z.of_nat m + 1)) with (S m) by lia. rewrite <- (Z2Nat.id i) at 1 by lia. apply copy_spec. lia.
    - exists u', r. split; [exact E|]. rewrite slice_text, Em in M by lia. apply made_outcome. auto. }
  assert (Sk : length (skipn (Z.to_nat i) (text bs)) = (length (text bs) - Z.to_nat i)%nat) by apply skipn_length.
  unfold str_part. destruct O as [(->&->)|(nv&k&->&In&Rk&->)]; count; args; rewrite Nm; cbn [negb]; rewrite (dec_size_ok fl _ _ _ (r_null _ _ R) D); cbn [bind];
    rewrite strlen_text, Du; cbn [bind]; rewrite (wrap_small 32 (Z.of_nat _)), (wrap_small 32 i) by lia; (destruct (Z.geb_spec i (Z.of_nat (length (text bs)))); [lia|]);
    cbv zeta beta; rewrite (wrap_small 32 (Z.of_nat (length (text bs)) - i)) by lia.
  - replace (Z.of_nat (length (text bs)) - i) with (Z.of_nat (length (text bs) - Z.to_nat i)) by lia. apply Go; [lia|]. rewrite <- Sk, firstn_all. symmetry. apply firstn_all2. lia.
  - destruct (integer_arg _ _ _ _ In) as (Nk&Dk&_). rewrite Nk. cbn [negb]. rewrite Dk. cbn [bind]. rewrite (wrap_small 32 k) by lia.
    replace (if k <? _ then k else _) with (Z.of_nat (Nat.min (Z.to_nat k) (length (skipn (Z.to_nat i) (text bs))))).
    + apply Go; [lia|]. apply firstn_min.
    + rewrite Sk. destruct (Z.ltb_spec k (Z.of_nat (length (text bs)) - i)); lia.
Qed.
(* no such part *)
Theorem str_part_outside u fl a bs iv i opt : mem (uh u) 0 = None -> den fl (uh u) a (Bytes bs) -> Z.of_nat (length bs) < 2 ^ 31 ->
  integer fl (uh u) iv i -> - 2 ^ 31 <= i < 2 ^ 32 -> ~ 0 <= i < Z.of_nat (length (text bs)) -> (length opt <= 1)%nat ->
  str_part u (a :: iv :: opt) = Ok (u, EERROR).
Proof.
  intros NN D B I Ri No Lo. destruct (integer_arg _ _ _ _ I) as (Nm&Du&_). pose proof (text_length bs) as TL.
  assert (G : (wrap 32 i >=? wrap 32 (Z.of_nat (length (text bs)))) = true).
  { rewrite (wrap_small 32 (Z.of_nat _)) by lia. destruct (Z_lt_dec i 0).
    - replace (wrap 32 i) with (i + 2 ^ 32); [|unfold wrap; apply Z.mod_unique with (q := -1); lia]. lia.
    - rewrite wrap_small by lia. lia. }
  unfold str_part. destruct opt as [|nv [|]]; [| |cbn in Lo; lia]; count; args; rewrite Nm; cbn [negb]; rewrite (dec_size_ok fl _ _ _ NN D); cbn [bind];
    rewrite strlen_text, Du; cbn [bind]; rewrite G; reflexivity.
Qed.

(* C74 upper and lower case *)
Lemma ctype_ok up x : (char_signed = true -> 0 <= x < 128 \/ x = 255) -> ctype up x = Ok (convert up x).
Proof. intros H. unfold ctype. destruct char_signed; [|reflexivity]. specialize (H eq_refl). replace (true && (128 <=? x) && (x <? 255)) with false by lia. reflexivity. Qed.
Lemma case_loop_ok up s rest : forall done todo, s = done ++ todo -> Forall (fun x => ctype up x = Ok (convert up x)) todo ->
  case_loop up (length todo) (s ++ rest) (Z.of_nat (length done)) (map (convert up) done ++ repeat 0 (S (length todo))) = Ok (map (convert up) s ++ [0]).
Proof.
  intros done todo. revert done. induction todo as [|x t IH]; intros done -> F.
  - cbn [length case_loop repeat]. rewrite app_nil_r. rewrite <- (map_length (convert up) done) at 1. apply wr_end.
  - cbn [length case_loop]. inversion F as [|? ? Fx Ft]; subst.
    unfold rd. destruct (Z.ltb_spec (Z.of_nat (length done)) 0); [lia|]. rewrite Nat2Z.id, nth_error_app1 by (rewrite app_length; cbn; lia).
    rewrite nth_error_app2, Nat.sub_diag by lia. cbn [nth_error bind]. rewrite Fx. cbn [bind repeat].
    rewrite wr_ok by (rewrite app_length, map_length; cbn; lia). rewrite Nat2Z.id.
    replace (upd _ (length done) (convert up x)) with (map (convert up) done ++ convert up x :: 0 :: repeat 0 (length t)) by (rewrite <- (map_length (convert up) done); symmetry; apply upd_mid). cbn [bind].
    replace (Z.of_nat (length done) + 1) with (Z.of_nat (length (done ++ [x]))) by (rewrite app_length; cbn; lia).
    replace (map (convert up) done ++ convert up x :: 0 :: repeat 0 (length t)) with (map (convert up) (done ++ [x]) ++ repeat 0 (S (length t)))
      by (rewrite map_app, <- app_assoc; reflexivity).
    apply IH; auto. rewrite <- app_assoc. reflexivity.
Qed.
Theorem str_case_correct up u fl a bs : ready u fl -> den fl (uh u) a (Bytes bs) -> Z.of_nat (length bs) < 2 ^ 31 ->
  (char_signed = true -> Forall (fun x => 0 <= x < 128 \/ x = 255) (text bs)) ->
  exists u' r, change_case up u [a] = Ok (u', r) /\ outcome 1 2 u fl (str (map (if up then upper else lower) (text bs))) u' r.
Proof.
  intros R D B S. pose proof (text_length bs) as TL. unfold change_case. count. args. rewrite (dec_size_ok fl _ _ _ (r_null _ _ R) D). cbn [bind]. rewrite strlen_text, wrap_W by lia.
  destruct (create_made u fl (Z.of_nat (length (text bs)) + 1) (case_loop up (Z.to_nat (Z.of_nat (length (text bs)))) bs 0) (map (convert up) (text bs) ++ [0])) as (u'&r&E&M); auto; [lia| |].
  - rewrite Nat2Z.id. replace (Z.to_nat (Z.of_nat (length (text bs)) + 1)) with (Datatypes.S (length (text bs))) by lia.
    destruct (text_prefix bs) as (rest&Eb&_). rewrite Eb at 2. apply (case_loop_ok up (text bs) rest []); auto.
    apply Forall_forall. intros x X. apply ctype_ok. intros Cs. specialize (S Cs). rewrite Forall_forall in S. auto.
  - exists u', r. split; [exact E|]. apply made_outcome. replace (map (if up then upper else lower) (text bs)) with (map (convert up) (text bs)); auto.
    apply map_ext. intros c. destruct up; reflexivity.
Qed.

(* C74 repetition of a character *)
Theorem str_replicate_correct u fl nv n cv c : ready u fl -> integer fl (uh u) nv n -> integer fl (uh u) cv c -> 0 <= n < 2 ^ 32 - 1 ->
  exists u' r, str_replicate u [nv; cv] = Ok (u', r) /\ outcome 1 2 u fl (str (repeat (c mod 256) (Z.to_nat n))) u' r.
Proof.
  intros R In Ic Rn. destruct (integer_arg _ _ _ _ In) as (Nm&Du&_). destruct (integer_arg _ _ _ _ Ic) as (Nc&Dc&_).
  unfold str_replicate. count. args. rewrite Nm, Nc. cbn [andb]. rewrite Du. cbn [bind]. rewrite Dc. cbn [bind]. rewrite (wrap_small 32 n), (wrap_small 32 (n + 1)) by lia.
  match goal with |- exists _ _, create_str _ _ ?f = _ /\ _ => destruct (create_made u fl (n + 1) f (repeat (c mod 256) (Z.to_nat n) ++ [0])) as (u'&r&E&M) end; auto; [lia| |].
  - unfold memset. rewrite repeat_length. replace ((0 <=? 0) && (0 <=? n) && (0 + n <=? Z.of_nat (Z.to_nat (n + 1)))) with true by lia. cbn [bind firstn Z.to_nat app].
    replace (Z.to_nat (n + 1)) with (Z.to_nat n + 1)%nat by lia. rewrite repeat_app, skipn_app, repeat_length.
    replace (0 + n) with n by lia. rewrite Nat.sub_diag, skipn_all2 by (rewrite repeat_length; lia). cbn [app skipn repeat].
    replace (wrap 8 (wrap 32 c)) with (c mod 256).
    + replace n with (Z.of_nat (length (repeat (c mod 256) (Z.to_nat n)))) at 2 by (rewrite repeat_length; lia). apply wr_end.
    + unfold wrap. change (2 ^ 8) with 256. replace (2 ^ 32) with (256 * 2 ^ 24) by reflexivity. rewrite Z.rem_mul_r by lia. rewrite Z.mul_comm, Z.mod_add, Z.mod_mod by lia. reflexivity.
  - exists u', r. split; [exact E|]. apply made_outcome; auto.
Qed.

(* C78 comparison *)
Lemma before_cons x a b : before a b -> before (x :: a) (x :: b).
Proof.
  intros (p&[(->&y&t&->)|(c&d&s&t&->&->&H)]).
  - exists (x :: p). left. split; auto. exists y, t. reflexivity.
  - exists (x :: p). right. exists c, d, s, t. auto.
Qed.
Definition sign_order (x : Z) (a b : list Z) : Prop := x = 0 /\ a = b \/ x < 0 /\ before a b \/ 0 < x /\ before b a.
Lemma strncmp_ok n : forall a b, (In 0 a \/ (n <= length a)%nat) -> (In 0 b \/ (n <= length b)%nat) -> Forall (fun x => 0 <= x) a -> Forall (fun x => 0 <= x) b ->
  exists x, strncmp n a b = Ok x /\ -1 <= x <= 1 /\ sign_order x (firstn n (text a)) (firstn n (text b)).
Proof.
  induction n as [|n IH]; intros a b Ha Hb Fa Fb; [exists 0; split; [reflexivity|]; split; [lia|]; left; auto|].
  destruct a as [|x a]; [destruct Ha as [[]|X]; cbn in X; lia|]. destruct b as [|y b]; [destruct Hb as [[]|X]; cbn in X; lia|].
  cbn [strncmp text]. inversion Fa; inversion Fb; subst. destruct (Z.eqb_spec x y) as [<-|N].
  - destruct (Z.eqb_spec x 0) as [->|N0]; [exists 0; split; [reflexivity|]; split; [lia|]; left; auto|].
    destruct (IH a b) as (r&E&Rr&S); auto.
    { destruct Ha as [[X|X]|X]; [congruence|auto|right; cbn in X; lia]. }
    { destruct Hb as [[X|X]|X]; [congruence|auto|right; cbn in X; lia]. }
    exists r. split; [auto|]. split; [auto|]. cbn [firstn]. destruct S as [(->&->)|[(Hr&S)|(Hr&S)]]; [left; auto|right; left|right; right]; split; auto using before_cons.
  - exists (if x <? y then -1 else 1). split; [reflexivity|]. split; [destruct (x <? y); lia|]. right.
    destruct (Z.ltb_spec x y); [left|right]; (split; [lia|]); exists [].
    + destruct (Z.eqb_spec y 0); [lia|]. destruct (x =? 0); cbn [firstn]; [left; split; [reflexivity|]; do 2 eexists; reflexivity|]. right. exists x, y. do 2 eexists. split; [reflexivity|]. split; [reflexivity|]. lia.
    + destruct (Z.eqb_spec x 0); [lia|]. destruct (y =? 0); cbn [firstn]; [left; split; [reflexivity|]; do 2 eexists; reflexivity|]. right. exists y, x. do 2 eexists. split; [reflexivity|]. split; [reflexivity|]. lia.
Qed.
Lemma dec_str_ok fl h v bs : mem h 0 = None -> den fl h v (Bytes bs) -> (forall p d, mem h p = Some (OByte d bs) -> d <> 0) -> dec_str h v = Ok (Some bs).
Proof.
  intros NN D Nz. destruct (array_facts fl h v bs NN D) as (p&d&q&R&M&I&E&_). unfold dec_str. rewrite I. cbn [bind]. rewrite E. cbn [bind snd].
  rewrite (proj2 (Z.eqb_neq d 0)) by (eapply Nz; eauto). reflexivity.
Qed.
Lemma cmp_result fl h x : -1 <= x <= 1 -> den fl h (enc_i x) (Leaf KI x).
Proof. intros H. apply den_int. destruct A; cbn; lia. Qed.
(* the whole strings, or at most [n] characters of each *)
Theorem str_cmp_correct u fl v1 v2 bs1 bs2 opt (lim : list Z -> list Z) : mem (uh u) 0 = None -> den fl (uh u) v1 (Bytes bs1) -> den fl (uh u) v2 (Bytes bs2) ->
  data_ok (uh u) -> Forall (fun x => 0 <= x) bs1 -> Forall (fun x => 0 <= x) bs2 ->
  (opt = [] /\ In 0 bs1 /\ In 0 bs2 /\ lim = (fun s => s)) \/
  (exists nv n, opt = [nv] /\ integer fl (uh u) nv n /\ 0 < n < 2 ^ 31 /\ lim = firstn (Z.to_nat n) /\
     forall bs, bs = bs1 \/ bs = bs2 -> In 0 bs \/ n <= Z.of_nat (length bs)) ->
  exists v x, str_cmp u (v1 :: v2 :: opt) = Ok (u, v) /\ den fl (uh u) v (Leaf KI x) /\
    (x = 0 <-> lim (text bs1) = lim (text bs2)) /\ (x < 0 <-> before (lim (text bs1)) (lim (text bs2))) /\ (0 < x <-> before (lim (text bs2)) (lim (text bs1))).
Proof.
  intros NN D1 D2 Nz F1 F2 O.
  assert (Ne : bs1 <> [] /\ bs2 <> []).
  { destruct O as [(_&I1&I2&_)|(nv&n&_&_&Rn&_&X)]; [split; intros ->; auto|]. split; intros ->.
    - destruct (X [] (or_introl eq_refl)) as [[]|Y]; cbn in Y; lia.
    - destruct (X [] (or_intror eq_refl)) as [[]|Y]; cbn in Y; lia. }
  pose proof (dec_str_ok fl _ _ _ NN D1 (fun p d M => Nz p d bs1 M (proj1 Ne))) as E1. pose proof (dec_str_ok fl _ _ _ NN D2 (fun p d M => Nz p d bs2 M (proj2 Ne))) as E2.
  assert (Irr : forall a, ~ before a a).
  { intros a (p&[(->&y&t&E)|(x&y&s&t&E1'&E2'&H)]).
    - apply (f_equal (@length Z)) in E. rewrite app_length in E. cbn in E. lia.
    - rewrite E1' in E2'. apply app_inv_head in E2'. injection E2' as -> _. lia. }
  assert (Asym : forall a b, before a b -> ~ before b a).
  { intros a b (p&[(->&y&t&->)|(x&y&s&t&->&->&H)]).
    - intros (p'&[(E&y'&t'&E')|(x'&y'&s'&t'&E&E'&H')]).
      + subst p'. apply (f_equal (@length Z)) in E'. rewrite !app_length in E'. cbn in E'. lia.
      + rewrite E', <- app_assoc in E. apply app_inv_head in E. injection E as E _. lia.
    - intros (p'&[(E&y'&t'&E')|(x'&y'&s'&t'&E&E'&H')]).
      + rewrite <- E, <- app_assoc in E'. apply app_inv_head in E'. injection E' as E' _. lia.
      + clear - E E' H H'. revert p' E E'. induction p as [|c p IH]; intros [|c' p'] E E'; cbn in E, E'.
        * injection E as -> _. injection E' as -> _. lia.
        * injection E as -> _. injection E' as -> _. lia.
        * injection E as -> _. injection E' as -> _. lia.
        * injection E as _ E. injection E' as _ E'. eauto. }
  assert (Fin : forall v x, -1 <= x <= 1 -> sign_order x (lim (text bs1)) (lim (text bs2)) -> str_cmp u (v1 :: v2 :: opt) = Ok (u, enc_i x) -> v = enc_i x ->
    exists v x, str_cmp u (v1 :: v2 :: opt) = Ok (u, v) /\ den fl (uh u) v (Leaf KI x) /\
    (x = 0 <-> lim (text bs1) = lim (text bs2)) /\ (x < 0 <-> before (lim (text bs1)) (lim (text bs2))) /\ (0 < x <-> before (lim (text bs2)) (lim (text bs1)))).
  { intros v x Rx S E _. exists (enc_i x), x. split; [auto|]. split; [apply cmp_result; auto|].
    destruct S as [(->&Q)|[(H&Q)|(H&Q)]].
    - rewrite Q. repeat split; intros; try lia; try reflexivity; exfalso; eapply Irr; eauto.
    - repeat split; intros X; try lia; auto; exfalso; [rewrite X in Q; eapply Irr; eauto|eapply Asym; eauto].
    - repeat split; intros X; try lia; auto; exfalso; [rewrite X in Q; eapply Irr; eauto|eapply Asym; eauto]. }
  unfold str_cmp in *. destruct O as [(->&I1&I2&El)|(nv&n&->&In&Rn&El&X)]; revert Fin; count; args; rewrite E1; cbn [bind]; rewrite E2; cbn [bind]; intros Fin.
  - destruct (strncmp_ok (length bs1 + length bs2 + 1) bs1 bs2) as (x&E&Rx&S); auto.
    assert (Em : forall n m a b, (n <= m)%nat -> In 0 a -> (length a <= n)%nat -> strncmp n a b = strncmp m a b).
    { clear. induction n as [|n IH]; intros m a b H Ia La; [destruct a; [destruct Ia|cbn in La; lia]|]. destruct m as [|m]; [lia|]. destruct a as [|p a]; [destruct Ia|]. cbn [strncmp].
      destruct b as [|q b]; auto. destruct (p =? q); auto. destruct (Z.eqb_spec p 0); auto. apply IH; [lia| |cbn in La; lia]. destruct Ia; [congruence|auto]. }
    apply (Fin (enc_i x) x); auto.
    + subst lim. pose proof (text_length bs1). pose proof (text_length bs2). rewrite !firstn_all2 in S by lia. auto.
    + change (-1 >? 0) with false. cbv iota. unfold strcmp. rewrite (Em _ (length bs1 + length bs2 + 1)%nat) by (auto; lia). rewrite E. reflexivity.
  - destruct (integer_arg _ _ _ _ In) as (Nm&_&Di). revert Fin. rewrite Nm. cbn [negb]. rewrite Di. cbn [bind]. rewrite sgn_small by lia. intros Fin.
    destruct (strncmp_ok (Z.to_nat n) bs1 bs2) as (x&E&Rx&S); auto.
    { destruct (X bs1 (or_introl eq_refl)); [auto|right; lia]. }
    { destruct (X bs2 (or_intror eq_refl)); [auto|right; lia]. }
    apply (Fin (enc_i x) x); auto.
    + subst lim. auto.
    + replace (n >? 0) with true by lia. rewrite E. reflexivity.
Qed.
End Arch.
