(* C96: the arguments of the drawing functions. *)
From Verif Require Import Base Value_Model Heap_Model Value_Proofs Value_Proofs2 Heap_Spec Heap_Proofs Fund_Spec Eval_Proofs DispArg_Model DispArg_Spec DispArg_Proofs.
Local Open Scope Z_scope.

Section Arch.
Context {A : Arch} (symbols : list Z).
(* the symbols of the seven attributes are different ones *)
Definition seven_symbols : Prop := NoDup symbols /\ length symbols = 7%nat /\ Forall (fun s => 0 <= s < 2 ^ 28) symbols.

Definition inv (d : dargs) (ns : list Z) (o : nat -> option (list Z)) : Prop :=
  length (d_args d) = 8%nat /\ firstn (length ns) (d_args d) = ns /\ shape (d_attrs d) /\ forall i, (i < 7)%nat -> attr_is (get_attr (d_attrs d) i) (o i).

Lemma firstn_snoc (l : list Z) n v : (n < length l)%nat -> firstn (n + 1) (upd l n v) = firstn n l ++ [v].
Proof. revert n. induction l as [|x l IH]; intros [|n] L; cbn in *; try lia; auto. f_equal. apply IH. lia. Qed.
Lemma last_of_ext i : forall gs o o', o = o' -> last_of i o gs = last_of i o' gs.
Proof. intros gs o o' ->. reflexivity. Qed.

(* some of the arguments, all of them fine *)
Lemma fine_loop h rest : seven_symbols -> forall args gs, Forall2 (is_given symbols h) args gs -> Forall fine gs -> forall ns d o, inv d ns o ->
  if (length ns + length (numbers gs) <=? 8)%nat
  then exists d', inv d' (ns ++ numbers gs) (fun i => last_of i (o i) gs) /\
    args_loop symbols h (args ++ rest) (Z.of_nat (length ns)) d = args_loop symbols h rest (Z.of_nat (length (ns ++ numbers gs))) d'
  else (length ns <= 8)%nat -> args_loop symbols h (args ++ rest) (Z.of_nat (length ns)) d = UB.
Proof.
  intros (ND&L7&RG) args gs F2. induction F2 as [|a g args gs G _ IH]; intros FI ns d o I.
  - cbn [numbers length]. rewrite app_nil_r. destruct (Nat.leb_spec (length ns + 0) 8); [|lia]. exists d. auto.
  - inversion FI as [|? ? Fg FI']; subst. pose proof I as (I1&I2&I3&I4). destruct g as [v|i vs].
    + inversion G as [NU|]; subst. cbn [numbers length app args_loop]. rewrite NU. cbn [negb andb]. unfold wr. rewrite I1.
      destruct (Z.ltb_spec (Z.of_nat (length ns)) 0); [lia|]. rewrite Nat2Z.id. destruct (Nat.ltb_spec (length ns) 8) as [LT|GE].
      * cbn [bind]. destruct (Z.gtb_spec (Z.of_nat (length ns) + 1) 8); [lia|].
        assert (J : inv (mkD (upd (d_args d) (length ns) v) (d_attrs d)) (ns ++ [v]) o).
        { split; [cbn; rewrite length_upd; auto|]. split; [|auto]. rewrite app_length. cbn [length d_args]. rewrite firstn_snoc by lia. rewrite I2. reflexivity. }
        specialize (IH FI' _ _ _ J). rewrite <- app_assoc in IH. cbn [app] in IH. rewrite app_length in IH. cbn [length] in IH.
        replace (length ns + S (length (numbers gs)))%nat with (length ns + 1 + length (numbers gs))%nat by lia.
        replace (Z.of_nat (length ns) + 1) with (Z.of_nat (length ns + 1)) by lia.
        destruct (_ <=? 8)%nat; [exact IH|]. intros _. apply IH. lia.
      * destruct (Nat.leb_spec (length ns + S (length (numbers gs))) 8); [lia|]. reflexivity.
    + destruct (given_attr symbols h a i vs (d_attrs d) ND L7 RG G I3) as (I7&NN&KK&OKA&_). cbn [numbers app args_loop]. rewrite NN, KK. cbn [negb andb].
      assert (LV : (length vs <= 3)%nat). { cbn in Fg. clear - Fg. do 7 (destruct i as [|i]; [cbn in Fg; lia|]). destruct Fg. }
      destruct (OKA LV Fg) as (l'&E&SH'&AI&OT). rewrite E. cbn [bind].
      assert (J : inv (mkD (d_args d) l') ns (fun j => if (j =? i)%nat then Some vs else o j)).
      { split; [auto|]. split; [auto|]. split; [auto|]. intros j J7. cbn [d_attrs]. destruct (Nat.eqb_spec j i) as [->|NE]; [exact AI|]. rewrite OT by auto. auto. }
      specialize (IH FI' _ _ _ J). exact IH.
Qed.

Lemma cleared_inv : inv cleared [] (fun _ => None).
Proof.
  split; [reflexivity|]. split; [reflexivity|]. split; [split; [reflexivity|repeat constructor]|]. intros i I. do 7 (destruct i as [|i]; [reflexivity|]). lia.
Qed.

(* As many numbers as expected, at most eight, and any attributes with their numbers, in
   any order: the numbers come in their order, and each attribute has the numbers given for it last. *)
Theorem decode_accepts h args gs n : seven_symbols -> Forall2 (is_given symbols h) args gs -> Forall fine gs ->
  length (numbers gs) = n -> (n <= 8)%nat ->
  exists d, decode_args symbols h args (Z.of_nat n) = Ok (Some d) /\ firstn n (d_args d) = numbers gs /\
    forall i, (i < 7)%nat ->
      let a := nth i (d_attrs d) (mkAttr false 0 []) in
      match last_of i None gs with
      | None => a_valid a = false
      | Some vs => a_valid a = true /\ a_num a = Z.of_nat (length vs) /\ firstn (length vs) (a_args a) = vs
      end.
Proof.
  intros SS F2 FI EN N8. pose proof (fine_loop h [] SS args gs F2 FI [] cleared _ cleared_inv) as H. cbn [length Nat.add app] in H. rewrite EN in H.
  destruct (Nat.leb_spec n 8); [|lia]. destruct H as (d&(_&D2&_&D4)&E). rewrite app_nil_r in E. exists d. unfold decode_args. change 0 with (Z.of_nat 0). rewrite E. cbn [args_loop bind].
  rewrite Z.eqb_refl. split; [reflexivity|]. rewrite EN in D2. split; [exact D2|]. exact D4.
Qed.

(* what is refused at once: after arguments [args] that are fine *)
Inductive refused (h : heap) (a : Z) : Prop :=
| no_arg : is_number a = false -> is_cons a = false -> refused h a
| no_symbol x q : is_number a = false -> is_cons a = true -> ref_cell h a = Ok (x, q) -> is_symbol x = false \/ ~ In (dec_sym x) symbols -> refused h a
| no_fit i vs : is_given symbols h a (Att i vs) -> (length vs <= 3)%nat -> ~ takes i (length vs) -> refused h a.
Theorem decode_refuses h args gs n : seven_symbols -> Forall2 (is_given symbols h) args gs -> Forall fine gs -> (length (numbers gs) <= 8)%nat ->
  (Z.of_nat (length (numbers gs)) <> n -> decode_args symbols h args n = Ok None) /\
  (forall a rest, refused h a -> decode_args symbols h (args ++ a :: rest) n = Ok None).
Proof.
  intros SS F2 FI N8. split.
  - intros NE. pose proof (fine_loop h [] SS args gs F2 FI [] cleared _ cleared_inv) as H. cbn [length Nat.add app] in H.
    destruct (Nat.leb_spec (length (numbers gs)) 8); [|lia]. destruct H as (d&_&E). rewrite app_nil_r in E. unfold decode_args. change 0 with (Z.of_nat 0). rewrite E. cbn [args_loop bind].
    destruct (Z.eqb_spec (Z.of_nat (length (numbers gs))) n); [congruence|reflexivity].
  - intros a rest RF. pose proof (fine_loop h (a :: rest) SS args gs F2 FI [] cleared _ cleared_inv) as H. cbn [length Nat.add app] in H.
    destruct (Nat.leb_spec (length (numbers gs)) 8); [|lia]. destruct H as (d&(_&_&SH&_)&E). unfold decode_args. change 0 with (Z.of_nat 0). rewrite E. cbn [args_loop].
    destruct RF as [NN KK|x q NN KK R X|i vs G LV NT].
    + rewrite NN, KK. reflexivity.
    + rewrite NN, KK. cbn [negb andb]. unfold attr_arg. cbn [attr_loop]. rewrite KK. destruct (car_path _ _ _ _ KK R) as (->&_). cbn [bind Z.eqb].
      destruct (is_symbol x) eqn:SY; [|reflexivity]. cbn [negb]. destruct X as [X|X]; [discriminate|]. rewrite find_none by auto. reflexivity.
    + destruct SS as (ND&L7&RG). destruct (given_attr symbols h a i vs (d_attrs d) ND L7 RG G SH) as (_&NN&KK&_&RE&_). rewrite NN, KK. cbn [negb andb]. rewrite (RE LV NT). reflexivity.
Qed.

(* The claim that all other arguments are refused is false: the ninth number is
   written behind the array of eight, because the test comes after it ... *)
Theorem decode_nine_numbers_refuted h args gs n : seven_symbols -> Forall2 (is_given symbols h) args gs -> Forall fine gs ->
  (9 <= length (numbers gs))%nat -> decode_args symbols h args n = UB.
Proof.
  intros SS F2 FI N9. pose proof (fine_loop h [] SS args gs F2 FI [] cleared _ cleared_inv) as H. cbn [length Nat.add app] in H.
  destruct (Nat.leb_spec (length (numbers gs)) 8); [lia|]. rewrite app_nil_r in H. unfold decode_args. change 0 with (Z.of_nat 0). rewrite H by lia. reflexivity.
Qed.
(* ... and the fourth number of an attribute behind its array of three; that of
   (resolution 1 2 3 4) is the end of the structure on the C stack *)
Theorem decode_four_numbers_refuted h args gs n a i vs rest : seven_symbols -> Forall2 (is_given symbols h) args gs -> Forall fine gs -> (length (numbers gs) <= 8)%nat ->
  is_given symbols h a (Att i vs) -> (4 <= length vs)%nat -> decode_args symbols h (args ++ a :: rest) n = UB.
Proof.
  intros SS F2 FI N8 G L4. pose proof (fine_loop h (a :: rest) SS args gs F2 FI [] cleared _ cleared_inv) as H. cbn [length Nat.add app] in H.
  destruct (Nat.leb_spec (length (numbers gs)) 8); [|lia]. destruct H as (d&(_&_&SH&_)&E). unfold decode_args. change 0 with (Z.of_nat 0). rewrite E. cbn [args_loop].
  destruct SS as (ND&L7&RG). destruct (given_attr symbols h a i vs (d_attrs d) ND L7 RG G SH) as (_&NN&KK&_&_&UE). rewrite NN, KK. cbn [negb andb]. rewrite (UE L4). reflexivity.
Qed.
End Arch.
