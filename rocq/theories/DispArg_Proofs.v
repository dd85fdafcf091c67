(* Decoding attributes. *)
From Verif Require Import Base Value_Model Heap_Model Value_Proofs Value_Proofs2 Heap_Spec Heap_Proofs Fund_Spec Eval_Proofs DispArg_Model DispArg_Spec.
Local Open Scope Z_scope.

Definition attr_is (a : attr) (o : option (list Z)) : Prop :=
  match o with
  | None => a_valid a = false
  | Some vs => a_valid a = true /\ a_num a = Z.of_nat (length vs) /\ firstn (length vs) (a_args a) = vs
  end.
(* 7 attributes with room for 3 numbers each *)
Definition shape (l : list attr) : Prop := length l = 7%nat /\ Forall (fun a => length (a_args a) = 3%nat) l.

Lemma get_upd l i a : (i < length l)%nat -> get_attr (upd l i a) i = a.
Proof. apply nth_upd_eq. Qed.
Lemma get_upd_neq l i j a : i <> j -> get_attr (upd l i a) j = get_attr l j.
Proof. apply nth_upd_neq. Qed.
Lemma upd_upd {T} (l : list T) i x y : upd (upd l i x) i y = upd l i y.
Proof. revert i. induction l as [|z l IH]; intros [|i]; cbn; auto. f_equal. auto. Qed.
Lemma get_len l i : shape l -> (i < 7)%nat -> length (a_args (get_attr l i)) = 3%nat.
Proof. intros (L&F) I. rewrite Forall_forall in F. apply F, nth_In. lia. Qed.
Lemma shape_upd l i a : shape l -> length (a_args a) = 3%nat -> shape (upd l i a).
Proof.
  intros (L&F) LA. split; [rewrite length_upd; auto|]. clear L. revert i. induction F as [|x l X F IH]; intros [|i]; cbn; constructor; auto.
Qed.

Section Arch.
Context {A : Arch} (symbols : list Z).

Lemma find_at s : forall l i k, NoDup l -> nth_error l i = Some s -> find_sym l s k = Some (k + i)%nat.
Proof.
  induction l as [|x l IH]; intros [|i] k ND E; cbn in E |- *; try discriminate.
  - injection E as ->. rewrite Z.eqb_refl. f_equal. lia.
  - inversion ND as [|? ? NI ND']; subst. destruct (Z.eqb_spec x s) as [->|]; [exfalso; apply NI; eapply nth_error_In; eauto|]. rewrite (IH i) by auto. f_equal. lia.
Qed.
Lemma find_none s : forall l k, ~ In s l -> find_sym l s k = None.
Proof. induction l as [|x l IH]; intros k NI; cbn; [auto|]. destruct (Z.eqb_spec x s) as [->|]; [exfalso; apply NI; left; auto|]. apply IH. intros I. apply NI. right. auto. Qed.

Lemma car_path h p x q : is_cons p = true -> ref_cell h p = Ok (x, q) -> car h p = Ok x /\ cdr h p = Ok q.
Proof. intros K R. unfold car, cdr. rewrite (cons_is_ptr _ K), R. auto. Qed.

Lemma nums_loop h i : (i < 7)%nat -> forall vs curr ps w fuel ind l, path h curr vs ps w -> is_cons w = false -> Forall (fun v => is_number v = true) vs ->
  shape l -> 5 - ind <= Z.of_nat fuel -> 1 <= ind <= 4 ->
  if ind - 1 + Z.of_nat (length vs) <=? 3 then
    exists as', length as' = 3%nat /\ firstn (Z.to_nat (ind - 1) + length vs) as' = firstn (Z.to_nat (ind - 1)) (a_args (get_attr l i)) ++ vs /\
    attr_loop symbols fuel h curr ind (Some i) l = Ok (Some (ind + Z.of_nat (length vs), Some i, upd l i (mkAttr (a_valid (get_attr l i)) (a_num (get_attr l i)) as')))
  else attr_loop symbols fuel h curr ind (Some i) l = UB.
Proof.
  intros I7. induction vs as [|v vs IH]; intros curr ps w fuel ind l P K F SH FU RI; (destruct fuel as [|fuel]; [lia|]); inversion P as [|? ? q ? ps' ? Wp Kp Pl R P']; subst.
  - cbn [length]. destruct (Z.leb_spec (ind - 1 + Z.of_nat 0) 3); [|lia]. exists (a_args (get_attr l i)). split; [apply get_len; auto|]. split; [rewrite app_nil_r; f_equal; lia|].
    cbn [attr_loop]. rewrite K. do 4 f_equal; [lia|]. destruct (get_attr l i) as [a b c] eqn:G. cbn. rewrite <- G.
    destruct SH as (L&_). clear - L I7. revert i I7. unfold get_attr. rewrite <- L. clear L. induction l as [|x l IH]; intros [|i] I7; cbn in *; try lia; auto. f_equal. apply IH. lia.
  - cbn [attr_loop]. rewrite Kp. destruct (car_path _ _ _ _ Kp R) as (->&->). cbn [bind]. inversion F as [|? ? Fv F']; subst.
    destruct (Z.eqb_spec ind 0); [lia|]. rewrite Fv. cbn [negb]. pose proof (get_len l i SH I7) as GL.
    unfold wr. destruct (Z.ltb_spec (ind - 1) 0); [lia|]. rewrite GL. cbn [length]. destruct (Nat.ltb_spec (Z.to_nat (ind - 1)) 3) as [LT|GE].
    + cbn [bind]. destruct (Z.gtb_spec (ind + 1) (3 + 1)); [lia|].
      set (as1 := upd (a_args (get_attr l i)) (Z.to_nat (ind - 1)) v). set (l1 := upd l i (mkAttr (a_valid (get_attr l i)) (a_num (get_attr l i)) as1)).
      assert (GL1 : get_attr l1 i = mkAttr (a_valid (get_attr l i)) (a_num (get_attr l i)) as1) by (apply get_upd; destruct SH; lia).
      specialize (IH q ps' w fuel (ind + 1) l1 P' K F'). rewrite GL1 in IH. cbn [a_valid a_num a_args] in IH.
      specialize (IH ltac:(apply shape_upd; [auto|cbn; unfold as1; rewrite length_upd; auto]) ltac:(lia) ltac:(lia)).
      replace (ind - 1 + Z.of_nat (S (length vs))) with (ind + 1 - 1 + Z.of_nat (length vs)) by lia.
      destruct (_ <=? 3); [|exact IH]. destruct IH as (as'&LA&FA&E). exists as'. split; [auto|]. split.
      * replace (Z.to_nat (ind - 1) + S (length vs))%nat with (Z.to_nat (ind + 1 - 1) + length vs)%nat by lia. rewrite FA. unfold as1.
        replace (Z.to_nat (ind + 1 - 1)) with (S (Z.to_nat (ind - 1))) by lia. revert LT. rewrite <- GL. generalize (Z.to_nat (ind - 1)) (a_args (get_attr l i)). clear.
        intros n m. revert n. induction m as [|y m IH]; intros [|n] LT; cbn in *; try lia; auto. f_equal. apply IH. lia.
      * rewrite E. unfold l1. rewrite upd_upd. do 4 f_equal. lia.
    + destruct (Z.leb_spec (ind - 1 + Z.of_nat (S (length vs))) 3); [lia|]. reflexivity.
Qed.

Lemma nth_takes i n : (i < 7)%nat -> (n <= 3)%nat -> (Z.of_nat n =? (if (i =? 2)%nat && (Z.of_nat n + 1 =? 1) then 0 else nth i arg_nums 0)) = true <-> takes i n.
Proof.
  intros I N. assert (X : n = 0%nat \/ n = 1%nat \/ n = 2%nat \/ n = 3%nat) by lia.
  do 7 (destruct i as [|i]; [destruct X as [-> |[-> |[-> | ->]]]; cbn; split; intros; try discriminate; try lia; auto|]). lia.
Qed.

Lemma given_attr h a i vs l : NoDup symbols -> length symbols = 7%nat -> Forall (fun s => 0 <= s < 2 ^ 28) symbols -> is_given symbols h a (Att i vs) -> shape l ->
  (i < 7)%nat /\ is_number a = false /\ is_cons a = true /\
  ((length vs <= 3)%nat -> takes i (length vs) -> exists l', attr_arg symbols h a l = Ok (Some l') /\ shape l' /\ attr_is (get_attr l' i) (Some vs) /\ forall j, j <> i -> get_attr l' j = get_attr l j) /\
  ((length vs <= 3)%nat -> ~ takes i (length vs) -> attr_arg symbols h a l = Ok None) /\
  ((4 <= length vs)%nat -> attr_arg symbols h a l = UB).
Proof.
  intros ND L7 RG G SH. inversion G as [|? s ? ps w E NN P K F]; subst. assert (I7 : (i < 7)%nat) by (rewrite <- L7; apply nth_error_Some; congruence).
  inversion P as [|? ? q ? ps' ? Wp Kp Pl R P']; subst. split; [auto|]. split; [auto|]. split; [auto|].
  assert (RS : 0 <= s < 2 ^ 28) by (rewrite Forall_forall in RG; apply RG; eapply nth_error_In; eauto).
  set (l1 := upd l i (mkAttr (a_valid (get_attr l i)) (nth i arg_nums 0) (a_args (get_attr l i)))).
  assert (E1 : attr_loop symbols 6 h a 0 None l = attr_loop symbols 5 h q 1 (Some i) l1).
  { cbn [attr_loop]. rewrite Kp. destruct (car_path _ _ _ _ Kp R) as (->&->). cbn [bind]. cbn [Z.eqb]. rewrite sym_is_symbol, sym_dec by auto. cbn [negb].
    rewrite (find_at s symbols i 0 ND E). cbn [Nat.add bind]. reflexivity. }
  assert (SH1 : shape l1) by (apply shape_upd; [auto|cbn; apply get_len; auto]).
  assert (GL1 : get_attr l1 i = mkAttr (a_valid (get_attr l i)) (nth i arg_nums 0) (a_args (get_attr l i))) by (apply get_upd; destruct SH; lia).
  unfold attr_arg. rewrite E1.
  pose proof (nums_loop h i I7 vs q ps' w 5 1 l1 P' K F SH1 ltac:(lia) ltac:(lia)) as X.
  assert (Y : (length vs <= 3)%nat -> exists as', length as' = 3%nat /\ firstn (length vs) as' = vs /\
    attr_loop symbols 5 h q 1 (Some i) l1 = Ok (Some (1 + Z.of_nat (length vs), Some i, upd l i (mkAttr (a_valid (get_attr l i)) (nth i arg_nums 0) as')))).
  { intros LV. destruct (Z.leb_spec (1 - 1 + Z.of_nat (length vs)) 3); [|lia]. destruct X as (as'&LA&FA&EL). exists as'. split; [auto|]. split; [exact FA|].
    rewrite EL, GL1. cbn [a_valid a_num]. unfold l1. rewrite upd_upd. reflexivity. }
  repeat split.
  - intros LV T. destruct (Y LV) as (as'&LA&FA&EL). rewrite EL. cbn [bind]. rewrite get_upd by (destruct SH; lia). cbn [a_num a_args].
    apply nth_takes in T; [|auto|auto]. replace (1 + Z.of_nat (length vs) - 1) with (Z.of_nat (length vs)) by lia. rewrite (Z.add_comm 1).
    pose proof T as T'. apply Z.eqb_eq in T'. rewrite T. eexists. split; [reflexivity|]. rewrite upd_upd. split; [apply shape_upd; auto|]. split.
    + rewrite get_upd by (destruct SH; lia). cbn. auto.
    + intros j NE. apply get_upd_neq. auto.
  - intros LV T. destruct (Y LV) as (as'&LA&FA&EL). rewrite EL. cbn [bind]. rewrite get_upd by (destruct SH; lia). cbn [a_num a_args].
    replace (1 + Z.of_nat (length vs) - 1) with (Z.of_nat (length vs)) by lia. rewrite (Z.add_comm 1).
    destruct (_ =? _) eqn:Q; [|reflexivity]. exfalso. apply T. apply nth_takes; auto.
  - intros LV. destruct (Z.leb_spec (1 - 1 + Z.of_nat (length vs)) 3); [lia|]. rewrite X. reflexivity.
Qed.
End Arch.
