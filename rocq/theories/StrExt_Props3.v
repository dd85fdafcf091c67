(* Joining strings and replacing parts of them. *)
From Verif Require Import Base Value_Model Heap_Model Value_Proofs Value_Proofs2 Value_Props Heap_Spec Heap_Proofs List_Proofs GC_Model Eq_Model Eq_Spec
  Flat_Model Flat_Spec Flat_Proofs Flat_Proofs2 Read_Model Read_Proofs2 Read_Proofs3 Match_Props Eval_Proofs ArrExt_Model ArrExt_Spec ArrExt_Proofs
  StrExt_Model StrExt_Spec StrExt_Proofs StrExt_Proofs2 StrExt_Props.
Import List.
Local Open Scope Z_scope.

Section Arch.
Context {A : Arch} {L : Libc} {C : Conv} {Ch : Char}.

Lemma nil_facts fl h v : den fl h v (Leaf KSym 0) -> v = 0 /\ is_cons v = false.
Proof.
  intros D. assert (E : v = 0) by (apply Z.eqb_eq; apply (proj2 (zero_word _ _ _ _ D)); reflexivity). split; auto. subst v. arch; reflexivity.
Qed.
Lemma pair_facts fl h v a d : den fl h v (Pair a d) -> exists x y, is_cons v = true /\ car h v = Ok x /\ cdr h v = Ok y /\ den fl h x a /\ den fl h y d.
Proof.
  intros D. destruct (den_cons _ _ _ _ _ D) as (x&y&Cv&R&Dx&Dy). exists x, y. assert (P : is_ptr v = true) by (unfold is_cons in Cv; apply andb_true_iff in Cv; tauto).
  split; [auto|]. split; [eapply car_ptr; eauto|]. split; [eapply cdr_ptr; eauto|auto].
Qed.
Lemma tlist_is_list fl h v ts : den fl h v (tlist ts) -> is_list v = true.
Proof.
  intros D. unfold is_list. destruct ts as [|t ts].
  - destruct (nil_facts _ _ _ D) as (->&_). arch; reflexivity.
  - destruct (pair_facts _ _ _ _ _ D) as (x&y&->&_). reflexivity.
Qed.

(* ---- joining ---- *)
Lemma join_count_ok fl h : mem h 0 = None -> forall bss cur len count fuel, den fl h cur (tlist (map Bytes bss)) -> (length bss <= fuel)%nat ->
  0 <= len -> len + Z.of_nat (length (concat (map text bss))) < 2 ^ W -> 0 <= count -> count + Z.of_nat (length bss) < 2 ^ W ->
  join_count fuel h cur len count = Ok (Some (len + Z.of_nat (length (concat (map text bss))), count + Z.of_nat (length bss))).
Proof.
  intros NN. induction bss as [|bs bss IH]; intros cur len count fuel D Lf L1 L2 C1 C2.
  - destruct (nil_facts _ _ _ D) as (_&E). destruct fuel; cbn [join_count]; rewrite E; cbn; repeat f_equal; lia.
  - destruct (pair_facts _ _ _ _ _ D) as (x&y&Cc&Ca&Cd&Dx&Dy). destruct fuel as [|fuel]; [cbn in Lf; lia|]. cbn [join_count]. rewrite Cc, Ca. cbn [bind].
    rewrite (dec_size_ok fl _ _ _ NN Dx). cbn [bind]. rewrite Cd. cbn [bind]. cbn [map concat length] in *. rewrite app_length in L2 |- *. rewrite strlen_text.
    rewrite (wrap_small W (len + _)) by lia. rewrite (wrap_small W (count + 1)) by lia. rewrite (IH y) by (exact Dy || lia). do 2 f_equal; f_equal; lia.
Qed.
Lemma put_end (done s : list Z) m : (length s <= m)%nat -> put_at (length done) s (done ++ repeat 0 m) = done ++ s ++ repeat 0 (m - length s).
Proof.
  intros H. unfold put_at. rewrite firstn_app, Nat.sub_diag, firstn_all. cbn [firstn]. rewrite app_nil_r. do 2 f_equal.
  rewrite skipn_app, skipn_all2 by lia. replace (length done + length s - length done)%nat with (length s) by lia. cbn [app].
  replace m with (length s + (m - length s))%nat at 1 by lia. rewrite repeat_app, skipn_app, repeat_length, Nat.sub_diag, skipn_all2 by (rewrite repeat_length; lia). reflexivity.
Qed.
Lemma memcpy_end done src n m : (n <= m)%nat -> (n <= length src)%nat ->
  memcpy false (done ++ repeat 0 m) (Z.of_nat (length done)) src 0 (Z.of_nat n) = Ok ((done ++ firstn n src) ++ repeat 0 (m - n)).
Proof.
  intros H1 H2. change 0 with (Z.of_nat 0) at 2. rewrite memcpy_spec by (rewrite ?app_length, ?repeat_length; lia). f_equal.
  assert (Ls : length (slice 0 n src) = n) by (unfold slice; cbn [skipn]; rewrite firstn_length; lia).
  rewrite put_end by lia. rewrite Ls, <- app_assoc. reflexivity.
Qed.
Lemma join_length d s ss : length (join d (s :: ss)) = (length (concat (s :: ss)) + length ss * length d)%nat.
Proof.
  revert s. induction ss as [|s' ss IH]; intros s; [cbn; rewrite app_nil_r; lia|].
  change (join d (s :: s' :: ss)) with (s ++ d ++ join d (s' :: ss)). rewrite !app_length, IH. cbn [concat length]. rewrite !app_length. lia.
Qed.
Lemma join_copy_ok fl h delim : mem h 0 = None -> forall bss cur i done fuel, den fl h cur (tlist (map Bytes bss)) -> (length bss <= fuel)%nat ->
  Z.of_nat (length done + length (join delim (map text bss))) < 2 ^ W -> 0 <= i -> i + Z.of_nat (length bss) < 2 ^ W ->
  forall m, join_copy fuel h cur i (i + Z.of_nat (length bss)) (Z.of_nat (length done)) delim (done ++ repeat 0 (length (join delim (map text bss)) + m)) =
    Ok (done ++ join delim (map text bss) ++ repeat 0 m).
Proof.
  intros NN. induction bss as [|bs bss IH]; intros cur i done fuel D Lf L1 I1 I2 m.
  - destruct (nil_facts _ _ _ D) as (_&E). destruct fuel; cbn [join_copy]; rewrite E; reflexivity.
  - destruct (pair_facts _ _ _ _ _ D) as (x&y&Cc&Ca&Cd&Dx&Dy). destruct fuel as [|fuel]; [cbn in Lf; lia|]. cbn [join_copy]. rewrite Cc, Ca. cbn [bind].
    destruct (array_facts fl h x bs NN Dx) as (p&dd&q&_&_&_&Ea&_). rewrite Ea. cbn [bind]. rewrite strlen_text. cbn [map length] in *.
    pose proof (text_length bs) as TL.
    assert (Jl : (length (text bs) <= length (join delim (text bs :: map text bss)))%nat) by (rewrite join_length; cbn [concat]; rewrite app_length; lia).
    rewrite memcpy_end by lia. cbn [bind]. rewrite text_firstn.
    assert (Lo : Z.of_nat (length done) + Z.of_nat (length (text bs)) = Z.of_nat (length (done ++ text bs))) by (rewrite app_length; lia).
    rewrite Lo, (wrap_small W (Z.of_nat (length (done ++ text bs)))) by (rewrite app_length; lia). rewrite (wrap_small W (i + 1)) by lia. rewrite (wrap_small W (i + _ - 1)) by lia.
    destruct bss as [|bs' bss].
    + cbn [length]. replace (i =? i + Z.of_nat 1 - 1) with true by lia. cbn [bind]. rewrite Cd. cbn [bind]. destruct (nil_facts _ _ _ Dy) as (_&E).
      cbn [map join]. replace (length (text bs) + m - length (text bs))%nat with m by lia. rewrite <- app_assoc. destruct fuel; cbn [join_copy]; rewrite E; reflexivity.
    + replace (i =? i + Z.of_nat (S (length (bs' :: bss))) - 1) with false by (cbn [length]; lia).
      change (join delim (text bs :: map text (bs' :: bss))) with (text bs ++ delim ++ join delim (map text (bs' :: bss))) in *.
      assert (LJ : length (text bs ++ delim ++ join delim (map text (bs' :: bss))) = (length (text bs) + (length delim + length (join delim (map text (bs' :: bss)))))%nat) by (rewrite !app_length; reflexivity).
      rewrite LJ in *. replace (length (text bs) + (length delim + length (join delim (map text (bs' :: bss)))) + m - length (text bs))%nat
        with (length delim + length (join delim (map text (bs' :: bss))) + m)%nat by lia.
      rewrite memcpy_end by lia. cbn [bind]. rewrite firstn_all, Cd. cbn [bind].
      replace (Z.of_nat (length (done ++ text bs)) + Z.of_nat (length delim)) with (Z.of_nat (length ((done ++ text bs) ++ delim))) by (rewrite app_length; lia).
      rewrite wrap_small by (rewrite !app_length; lia).
      replace (length delim + length (join delim (map text (bs' :: bss))) + m - length delim)%nat with (length (join delim (map text (bs' :: bss))) + m)%nat by lia.
      replace (i + Z.of_nat (S (length (bs' :: bss)))) with (i + 1 + Z.of_nat (length (bs' :: bss))) by (cbn [length]; lia).
      rewrite (IH y (i + 1)); [rewrite <- !app_assoc; reflexivity|exact Dy|cbn [length] in *; lia|rewrite !app_length; lia|lia|cbn [length] in *; lia].
Qed.

(* C74 joining a list of strings *)
Theorem str_join_correct u fl a bss opt d fuel : ready u fl -> data_ok (uh u) -> den fl (uh u) a (tlist (map Bytes bss)) -> (length bss <= fuel)%nat ->
  opt = [] /\ d = [] \/ (exists dv ds, opt = [dv] /\ den fl (uh u) dv (Bytes ds) /\ In 0 ds /\ d = text ds) ->
  Z.of_nat (length bss) < 2 ^ W -> Z.of_nat (length (join d (map text bss))) + 1 < 2 ^ W ->
  exists u' r, str_join fuel u (a :: opt) = Ok (u', r) /\ outcome 1 2 u fl (str (join d (map text bss))) u' r.
Proof.
  intros R DO D Lf O B1 B2. pose proof (r_null _ _ R) as NN.
  assert (Tot : match bss with [] => True | _ :: t => length (join d (map text bss)) = (length (concat (map text bss)) + length t * length d)%nat end).
  { destruct bss as [|b t]; auto. cbn [map]. rewrite join_length, map_length. reflexivity. }
  assert (Cl : (length (concat (map text bss)) <= length (join d (map text bss)))%nat) by (destruct bss; [cbn; lia|lia]).
  pose proof (join_count_ok fl (uh u) NN bss a 0 0 fuel D Lf ltac:(lia) ltac:(lia) ltac:(lia) ltac:(lia)) as Cnt. rewrite !Z.add_0_l in Cnt.
  set (total := Z.of_nat (length (join d (map text bss)))) in *.
  assert (Size : (if 0 <? Z.of_nat (length bss) then wrap W (Z.of_nat (length (concat (map text bss))) + wrap W (wrap W (Z.of_nat (length bss) - 1) * Z.of_nat (length d)))
                  else Z.of_nat (length (concat (map text bss)))) = total).
  { destruct bss as [|b t]; [reflexivity|]. destruct (Z.ltb_spec 0 (Z.of_nat (length (b :: t)))); [|cbn in *; lia]. cbn [length] in *.
    replace (Z.of_nat (S (length t)) - 1) with (Z.of_nat (length t)) by lia. rewrite (wrap_small W (Z.of_nat (length t))) by lia. rewrite <- Nat2Z.inj_mul.
    rewrite (wrap_small W (Z.of_nat (length t * length d))) by (unfold total in *; lia). rewrite wrap_small by (unfold total in *; lia). unfold total. lia. }
  assert (Go : exists u' r, create_str u (wrap W (total + 1)) (fun bs => let! bs := join_copy fuel (uh u) a 0 (Z.of_nat (length bss)) 0 d bs in wr bs total 0) = Ok (u', r) /\
    outcome 1 2 u fl (str (join d (map text bss))) u' r).
  { rewrite wrap_small by lia.
    match goal with |- exists _ _, create_str _ _ ?f = _ /\ _ => destruct (create_made u fl (total + 1) f (join d (map text bss) ++ [0])) as (u'&r&E&M) end; auto; [lia| |].
    - replace (Z.to_nat (total + 1)) with (length (join d (map text bss)) + 1)%nat by lia.
      pose proof (join_copy_ok fl (uh u) d NN bss a 0 [] fuel D Lf ltac:(cbn [length]; lia) ltac:(lia) ltac:(lia) 1%nat) as J.
      cbn [length app] in J. change (Z.of_nat 0) with 0 in J. rewrite Z.add_0_l in J. rewrite J. cbn [bind repeat]. apply wr_end.
    - exists u', r. split; [exact E|]. apply made_outcome. auto. }
  unfold str_join. destruct O as [(->&->)|(dv&ds&->&Dd&Id&->)]; count; args; rewrite (tlist_is_list _ _ _ _ D); cbn [negb]; rewrite Cnt; cbn [bind].
  - cbn [c_string Z.eqb bind]. rewrite Size. exact Go.
  - assert (Ne : ds <> []) by (intros ->; destruct Id). rewrite (dec_str_ok fl _ _ _ NN Dd (fun p x M => DO p x ds M Ne)). cbn [bind]. rewrite (c_string_text ds Id). cbn [bind]. rewrite Size. exact Go.
Qed.

(* ---- replacing ---- *)
Lemma prefix_ok r s : prefix r s = true <-> exists b, s = r ++ b.
Proof.
  revert s. induction r as [|x r IH]; intros s; [cbn; split; eauto|]. destruct s as [|y s]; cbn [prefix].
  - split; [discriminate|]. intros (b&E). discriminate.
  - rewrite andb_true_iff, Z.eqb_eq, IH. split; [intros (->&b&->); exists b; reflexivity|]. intros (b&[= -> ->]). eauto.
Qed.
Lemma strstr_ok r s : match strstr r s with
  | Some n => exists a b, s = a ++ r ++ b /\ n = Z.of_nat (length a) /\ forall a' b', s = a' ++ r ++ b' -> (length a <= length a')%nat
  | None => forall a b, s <> a ++ r ++ b
  end.
Proof.
  induction s as [|x s IH]; cbn [strstr]; destruct (prefix r _) eqn:P.
  - apply prefix_ok in P. destruct P as (b&P). exists [], b. split; [auto|]. split; [auto|]. cbn. lia.
  - intros a b E. assert (X : prefix r [] = true); [|congruence]. apply prefix_ok. symmetry in E. apply app_eq_nil in E. destruct E as (_&E). apply app_eq_nil in E. destruct E as (->&_). exists []. reflexivity.
  - apply prefix_ok in P. destruct P as (b&P). exists [], b. split; [auto|]. split; [auto|]. cbn. lia.
  - assert (Tl : forall a b, x :: s = a ++ r ++ b -> exists a', a = x :: a' /\ s = a' ++ r ++ b).
    { intros [|y a] b E; [exfalso; assert (X : prefix r (x :: s) = true); [apply prefix_ok; exists b; exact E|congruence]|]. injection E as -> E. eauto. }
    destruct (strstr r s) as [n|].
    + destruct IH as (a&b&->&->&Mi). exists (x :: a), b. split; [reflexivity|]. split; [cbn [length]; lia|]. intros a' b' E. destruct (Tl _ _ E) as (a1&->&E1). cbn [length]. specialize (Mi _ _ E1). lia.
    + intros a b E. destruct (Tl _ _ E) as (a1&->&E1). exact (IH _ _ E1).
Qed.
Lemma replace_ok r w : r <> [] -> forall fuel s, (length s < fuel)%nat ->
  exists c t, count_subs fuel r s = Ok (Z.of_nat c) /\ replaced r w s t /\ (length t + c * length r = length s + c * length w)%nat /\
    forall done, replace_loop c r w s (done ++ repeat 0 (length t + 1)) (Z.of_nat (length done)) = Ok (done ++ t ++ [0]).
Proof.
  intros Nr. assert (Lr : (0 < length r)%nat) by (destruct r; [congruence|cbn; lia]).
  induction fuel as [|fuel IH]; intros s Ls; [lia|]. cbn [count_subs]. pose proof (strstr_ok r s) as St. destruct (strstr r s) as [n|] eqn:E.
  - destruct St as (a&b&Es&->&Mi). assert (Sk : skipn (Z.to_nat (Z.of_nat (length a)) + length r) s = b).
    { rewrite Es, Nat2Z.id, app_assoc, skipn_app, skipn_all2 by (rewrite app_length; lia). rewrite app_length, Nat.sub_diag. reflexivity. }
    rewrite Sk. assert (Lb : (length b < fuel)%nat) by (apply (f_equal (@length Z)) in Es; rewrite !app_length in Es; lia).
    destruct (IH b Lb) as (c&t&Ec&Rp&Ln&Lp). exists (S c), (a ++ w ++ t). rewrite Ec. cbn [bind].
    split; [f_equal; lia|]. split; [rewrite Es; apply rp_first; [rewrite <- Es; exact Mi|exact Rp]|]. split; [rewrite Es, !app_length; cbn [Nat.mul]; lia|].
    intros done. cbn [replace_loop]. rewrite E. rewrite !app_length. rewrite memcpy_end by (try (rewrite Es, !app_length); lia). cbn [bind].
    assert (Fa : firstn (length a) s = a) by (rewrite Es, firstn_app, Nat.sub_diag, firstn_all; cbn; apply app_nil_r). rewrite Fa.
    replace (Z.of_nat (length done) + Z.of_nat (length a)) with (Z.of_nat (length (done ++ a))) by (rewrite app_length; lia).
    rewrite memcpy_end by lia. cbn [bind]. rewrite firstn_all.
    replace (Z.of_nat (length (done ++ a)) + Z.of_nat (length w)) with (Z.of_nat (length ((done ++ a) ++ w))) by (rewrite (app_length (done ++ a)); lia).
    replace (length a + (length w + length t) + 1 - length a - length w)%nat with (length t + 1)%nat by lia. rewrite Sk, Lp, <- !app_assoc. reflexivity.
  - exists 0%nat, s. split; [reflexivity|]. split; [apply rp_none; auto|]. split; [lia|]. intros done. cbn [replace_loop].
    replace (Z.of_nat (length s) + 1) with (Z.of_nat (length s + 1)) by lia. rewrite memcpy_end by (rewrite ?app_length; cbn; lia).
    rewrite Nat.sub_diag. cbn [repeat]. rewrite app_nil_r, firstn_all2 by (rewrite app_length; cbn; lia). reflexivity.
Qed.

(* C76 replacing every occurrence of a string, from the left; nothing is replaced
   by the empty string *)
Theorem str_replace_correct u fl a bs b rs opt w : ready u fl -> den fl (uh u) a (Bytes bs) -> den fl (uh u) b (Bytes rs) -> In 0 bs -> In 0 rs ->
  opt = [] /\ w = [] \/ (exists c ws, opt = [c] /\ den fl (uh u) c (Bytes ws) /\ w = text ws) ->
  text rs <> [] -> exists t, replaced (text rs) w (text bs) t /\
  (Z.of_nat (length t) + 1 < 2 ^ W ->
   exists u' r, str_replace u (a :: b :: opt) = Ok (u', r) /\ outcome 1 2 u fl (str t) u' r).
Proof.
  intros R D Db Ib Ir O Nr. pose proof (r_null _ _ R) as NN. destruct (replace_ok (text rs) w Nr (S (length (text bs))) (text bs) ltac:(lia)) as (c&t&Ec&Rp&Ln&Lp).
  exists t. split; [exact Rp|]. intros B.
  assert (Lr : (0 < length (text rs))%nat) by (destruct (text rs); [congruence|cbn; lia]).
  assert (Go : exists u' r, create_str u (wrap W (Z.of_nat (length (text bs)) + wrap W (Z.of_nat (length w) - Z.of_nat (length (text rs))) * Z.of_nat c + 1))
      (fun bs0 => replace_loop (Z.to_nat (Z.of_nat c)) (text rs) w (text bs) bs0 0) = Ok (u', r) /\ outcome 1 2 u fl (str t) u' r).
  { assert (Sz : wrap W (Z.of_nat (length (text bs)) + wrap W (Z.of_nat (length w) - Z.of_nat (length (text rs))) * Z.of_nat c + 1) = Z.of_nat (length t) + 1).
    { rewrite <- (wrap_small W (Z.of_nat (length t) + 1)) by lia. unfold wrap.
      rewrite <- Z.add_mod_idemp_l by (arch; discriminate). rewrite <- (Z.add_mod_idemp_r (Z.of_nat (length (text bs)))) by (arch; discriminate).
      rewrite Z.mul_mod_idemp_l by (arch; discriminate). rewrite Z.add_mod_idemp_r by (arch; discriminate). rewrite Z.add_mod_idemp_l by (arch; discriminate). f_equal. nia. }
    rewrite Sz. match goal with |- exists _ _, create_str _ _ ?f = _ /\ _ => destruct (create_made u fl (Z.of_nat (length t) + 1) f (t ++ [0])) as (u'&r&E&M) end; auto; [lia| |].
    - rewrite Nat2Z.id. replace (Z.to_nat (Z.of_nat (length t) + 1)) with (length t + 1)%nat by lia. exact (Lp []).
    - exists u', r. split; [exact E|]. apply made_outcome. auto. }
  unfold str_replace. destruct O as [(->&->)|(cv&ws&->&Dw&->)]; count; args; rewrite (dec_size_ok fl _ _ _ NN D); cbn [bind]; rewrite (dec_size_ok fl _ _ _ NN Db); cbn [bind].
  - rewrite !strlen_text. destruct (Z.eqb_spec (Z.of_nat (length (text rs))) 0); [lia|]. rewrite (c_string_text bs Ib). cbn [bind]. rewrite (c_string_text rs Ir). cbn [bind]. rewrite Ec. cbn [bind].
    exact Go.
  - rewrite (dec_size_ok fl _ _ _ NN Dw). cbn [bind]. rewrite !strlen_text. destruct (Z.eqb_spec (Z.of_nat (length (text rs))) 0); [lia|].
    rewrite (c_string_text bs Ib). cbn [bind]. rewrite (c_string_text rs Ir). cbn [bind]. rewrite Ec. cbn [bind]. rewrite Nat2Z.id, text_firstn. exact Go.
Qed.
Theorem str_replace_empty u fl a bs b rs opt : mem (uh u) 0 = None -> den fl (uh u) a (Bytes bs) -> den fl (uh u) b (Bytes rs) -> text rs = [] ->
  opt = [] \/ (exists c ws, opt = [c] /\ den fl (uh u) c (Bytes ws)) -> str_replace u (a :: b :: opt) = Ok (u, a).
Proof.
  intros NN D Db E O. unfold str_replace. destruct O as [->|(cv&ws&->&Dw)]; count; args; rewrite (dec_size_ok fl _ _ _ NN D); cbn [bind]; rewrite (dec_size_ok fl _ _ _ NN Db); cbn [bind].
  - rewrite !strlen_text, E. reflexivity.
  - rewrite (dec_size_ok fl _ _ _ NN Dw). cbn [bind]. rewrite !strlen_text, E. reflexivity.
Qed.
End Arch.
