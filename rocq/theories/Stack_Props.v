(* C45: the evaluation stack is a bounded LIFO. *)
From Verif Require Import Base Value_Model Stack_Model.
Local Open Scope Z_scope.

(* ---- Specification: a list, top first, of at most [cap] words ---- *)
Inductive sop :=
| OPush (v : Z) | OPop | OPop2 | OPop3 | ODrop (n : nat) | OClear
| OReserve (vs : list Z)               (* push a frame, lowest word first *)
| OPopFrame (n : nat)
| ORead (n i : nat)                    (* i-th word of the topmost n *)
| OWrite (n i : nat) (v : Z).
Inductive sans := Done | Flag (b : bool) | Words (vs : list Z) | StackError.

(* [None]: the operation may not be used in this state (popping from a stack
   that holds too little; a frame access outside the frame). *)
Definition spec (cap : nat) (l : list Z) (o : sop) : option (list Z * sans) :=
  match o with
  | OPush v => if (length l <? cap)%nat then Some (v :: l, Flag true) else Some (l, Flag false)
  | OPop => match l with a :: t => Some (t, Words [a]) | _ => None end
  | OPop2 => match l with a :: b :: t => Some (t, Words [a; b]) | _ => None end
  | OPop3 => match l with a :: b :: c :: t => Some (t, Words [a; b; c]) | _ => None end
  | ODrop n => if (n <=? length l)%nat then Some (skipn n l, Flag true) else Some (l, Flag false)
  | OClear => Some ([], Done)
  | OReserve vs =>
    if (length l + length vs <? cap)%nat then Some (rev vs ++ l, Flag true) else Some (l, StackError)
  | OPopFrame n =>
    if (n <=? length l)%nat then Some (skipn n l, Words (rev (firstn n l))) else Some (l, StackError)
  | ORead n i =>
    if (i <? n)%nat then
      if (n <=? length l)%nat then Some (l, Words (firstn 1 (skipn (n - 1 - i) l))) else Some (l, StackError)
    else None
  | OWrite n i v =>
    if (i <? n)%nat then
      if (n <=? length l)%nat then Some (upd l (n - 1 - i) v, Flag true) else Some (l, StackError)
    else None
  end.

Fixpoint spec_run (cap : nat) (l : list Z) (os : list sop) : option (list Z * list sans) :=
  match os with
  | [] => Some (l, [])
  | o :: t =>
    match spec cap l o with
    | Some (l1, a) => match spec_run cap l1 t with Some (l2, r) => Some (l2, a :: r) | None => None end
    | None => None
    end
  end.

(* deepest the stack has been *)
Fixpoint depth (cap : nat) (l : list Z) (os : list sop) : nat :=
  Nat.max (length l)
    match os with
    | [] => 0
    | o :: t => match spec cap l o with Some (l1, _) => depth cap l1 t | None => 0 end
    end.

Section Arch.
Context {A : Arch}.

(* ---- The same operations on the model ---- *)
Definition run1 (s : stack) (o : sop) : res (stack * sans) :=
  match o with
  | OPush v => let! (s1, b) := push s v in Ok (s1, Flag b)
  | OPop => let! (s1, a) := pop s in Ok (s1, Words [a])
  | OPop2 => let! (s1, (a, b)) := pop_2 s in Ok (s1, Words [a; b])
  | OPop3 => let! (s1, (a, b, c)) := pop_3 s in Ok (s1, Words [a; b; c])
  | ODrop n => let (s1, b) := stack_drop s (Z.of_nat n) in Ok (s1, Flag b)
  | OClear => Ok (stack_clear s, Done)
  | OReserve vs => let! (s1, b) := frame_push s vs in Ok (s1, if b then Flag true else StackError)
  | OPopFrame n => let! (s1, r) := frame_pop s n in
                   Ok (s1, match r with Some vs => Words vs | None => StackError end)
  | ORead n i => let! r := frame_read s (Z.of_nat n) (Z.of_nat i) in
                 Ok (s, match r with Some v => Words [v] | None => StackError end)
  | OWrite n i v => let! (s1, b) := frame_write s (Z.of_nat n) (Z.of_nat i) v in
                    Ok (s1, if b then Flag true else StackError)
  end.

Fixpoint run (s : stack) (os : list sop) : res (stack * list sans) :=
  match os with
  | [] => Ok (s, [])
  | o :: t => let! (s1, a) := run1 s o in let! (s2, r) := run s1 t in Ok (s2, a :: r)
  end.

Definition contents (s : stack) : list Z := rev (firstn (Z.to_nat (s_sp s)) (s_data s)).

(* ---- Proofs ---- *)
(* the array is the contents followed by a rest *)
Record rep (cap : nat) (s : stack) (l : list Z) (rest : list Z) : Prop := {
  r_data : s_data s = rev l ++ rest;
  r_sp : s_sp s = Z.of_nat (length l);
  r_size : s_size s = Z.of_nat cap;
  r_cap : (length l + length rest = cap)%nat }.

Lemma W_big : 2 ^ 32 <= 2 ^ W.
Proof. unfold W, sel. destruct A; cbn; lia. Qed.

Lemma load_ok l1 vs l2 : forall base, base = Z.of_nat (length l1) ->
  load_at (l1 ++ vs ++ l2) base (length vs) = Ok vs.
Proof.
  revert l1. induction vs as [|v t IH]; intros l1 base E; [reflexivity|].
  cbn [load_at length]. rewrite (rd_nth _ _ v); [|lia|].
  - cbn [bind]. replace (l1 ++ (v :: t) ++ l2) with ((l1 ++ [v]) ++ t ++ l2) by (rewrite <- app_assoc; reflexivity).
    rewrite IH; [reflexivity|]. rewrite app_length. simpl. lia.
  - subst base. rewrite Nat2Z.id, nth_error_app2, Nat.sub_diag by lia. reflexivity.
Qed.

Lemma store_ok vs : forall l1 old l2 base, base = Z.of_nat (length l1) -> length old = length vs ->
  store_at (l1 ++ old ++ l2) base vs = Ok (l1 ++ vs ++ l2).
Proof.
  induction vs as [|v t IH]; intros l1 old l2 base E L; destruct old as [|o old]; try discriminate.
  - reflexivity.
  - cbn [store_at]. rewrite wr_ok.
    + cbn [bind]. subst base. rewrite Nat2Z.id. cbn [app]. rewrite upd_mid.
      replace (l1 ++ v :: old ++ l2) with ((l1 ++ [v]) ++ old ++ l2) by (rewrite <- app_assoc; reflexivity).
      rewrite IH; [rewrite <- app_assoc; reflexivity| |simpl in L; lia].
      rewrite app_length; simpl; lia.
    + subst base. rewrite !app_length. simpl. lia.
Qed.

Ltac wr_small := rewrite wrap_small by (pose proof W_big; lia).

Lemma rep_pop cap s a t rest : (Z.of_nat cap < 2 ^ 31) -> rep cap s (a :: t) rest ->
  let sp := wrap W (s_sp s - 1) in
  sp = Z.of_nat (length t) /\ rd (s_data s) sp = Ok a /\
  rep cap (mkst (s_data s) sp (s_size s)) t (a :: rest).
Proof.
  intros C [D SP Z1 P] sp. subst sp. cbn [length rev] in *. rewrite <- app_assoc in D. cbn [app] in D.
  rewrite SP. wr_small.
  replace (Z.of_nat (S (length t)) - 1) with (Z.of_nat (length t)) by lia. split; [auto|split].
  - rewrite D. apply rd_nth; [lia|].
    rewrite Nat2Z.id, nth_error_app2, rev_length, Nat.sub_diag by (rewrite rev_length; lia). reflexivity.
  - constructor; cbn; auto. lia.
Qed.

Lemma rep_skip cap s l rest n : rep cap s l rest -> (n <= length l)%nat ->
  rep cap (mkst (s_data s) (s_sp s - Z.of_nat n) (s_size s)) (skipn n l) (rev (firstn n l) ++ rest).
Proof.
  intros [D SP Z1 P] Q. constructor; cbn; auto.
  - rewrite D, app_assoc, <- rev_app_distr, firstn_skipn. reflexivity.
  - rewrite SP, skipn_length. lia.
  - rewrite app_length, rev_length, firstn_length, skipn_length. lia.
Qed.

Lemma rev_upd (l : list Z) i v : (i < length l)%nat -> rev (upd l i v) = upd (rev l) (length l - 1 - i) v.
Proof.
  revert i. induction l as [|h t IH]; intros [|i] H; cbn [length rev upd] in *; try lia.
  - rewrite upd_app_r by (rewrite rev_length; lia). rewrite rev_length.
    replace (S (length t) - 1 - 0 - length t)%nat with 0%nat by lia. reflexivity.
  - rewrite IH by lia. rewrite upd_app_l by (rewrite rev_length; lia). f_equal. f_equal. lia.
Qed.

Lemma run1_ok cap s l rest o l' a : (Z.of_nat cap < 2 ^ 31) -> rep cap s l rest ->
  (match o with OReserve vs => Z.of_nat (length vs) < 2 ^ 31 | _ => True end) ->
  spec cap l o = Some (l', a) ->
  exists s' rest', run1 s o = Ok (s', a) /\ rep cap s' l' rest'.
Proof.
  intros C R FB H. pose proof R as [D SP Z1 P]. pose proof W_big as WB.
  destruct o as [v| | | |n| |vs|n|n i|n i v]; cbn [spec run1] in *.
  - unfold push. rewrite SP, Z1.
    destruct (Nat.ltb_spec (length l) cap); injection H as <- <-.
    + destruct (Z.eqb_spec (Z.of_nat (length l)) (Z.of_nat cap)); [lia|].
      destruct rest as [|x rest]; [simpl in P; lia|].
      rewrite wr_ok by (rewrite D, app_length, rev_length; simpl; lia). cbn [bind].
      rewrite Nat2Z.id, D, <- (rev_length l), upd_mid, rev_length. wr_small.
      eexists _, rest. split; [reflexivity|]. constructor; cbn [s_data s_sp s_size length rev].
      * rewrite <- app_assoc. reflexivity.
      * lia.
      * auto.
      * simpl in P; lia.
    + destruct (Z.eqb_spec (Z.of_nat (length l)) (Z.of_nat cap)); [|lia].
      cbn [bind]. eexists _, _. split; [reflexivity|exact R].
  - destruct l as [|x t]; [discriminate|]. injection H as <- <-. unfold pop. cbv zeta.
    destruct (rep_pop cap s x t rest C R) as (E&E1&R1). rewrite E1. cbn [bind].
    eexists _, _. split; [reflexivity|exact R1].
  - destruct l as [|x [|y t]]; try discriminate. injection H as <- <-. unfold pop_2. cbv zeta.
    destruct (rep_pop cap s x (y :: t) rest C R) as (E&E1&R1). rewrite E1. cbn [bind].
    destruct (rep_pop cap _ y t _ C R1) as (E2&E3&R2). cbn [s_data s_sp s_size] in E2, E3, R2.
    rewrite E3. cbn [bind]. eexists _, _. split; [reflexivity|exact R2].
  - destruct l as [|x [|y [|z t]]]; try discriminate. injection H as <- <-. unfold pop_3. cbv zeta.
    destruct (rep_pop cap s x (y :: z :: t) rest C R) as (E&E1&R1). rewrite E1. cbn [bind].
    destruct (rep_pop cap _ y (z :: t) _ C R1) as (E2&E3&R2). cbn [s_data s_sp s_size] in E2, E3, R2.
    rewrite E3. cbn [bind].
    destruct (rep_pop cap _ z t _ C R2) as (E4&E5&R3). cbn [s_data s_sp s_size] in E4, E5, R3.
    rewrite E5. cbn [bind]. eexists _, _. split; [reflexivity|exact R3].
  - unfold stack_drop. rewrite SP. rewrite Z.gtb_ltb.
    destruct (Nat.leb_spec n (length l)); injection H as <- <-.
    + destruct (Z.ltb_spec (Z.of_nat (length l)) (Z.of_nat n)); [lia|]. rewrite <- SP.
      eexists _, _. split; [reflexivity|]. apply (rep_skip cap s l rest); auto.
    + destruct (Z.ltb_spec (Z.of_nat (length l)) (Z.of_nat n)); [|lia].
      eexists _, _. split; [reflexivity|exact R].
  - injection H as <- <-. eexists _, (s_data s). split; [reflexivity|].
    constructor; cbn; auto. rewrite D, app_length, rev_length. auto.
  - unfold frame_push. cbv zeta. rewrite SP, Z1.
    rewrite wrap_small by lia.
    destruct (Nat.ltb_spec (length l + length vs) cap); injection H as <- <-.
    + destruct (Z.ltb_spec (Z.of_nat (length l) + Z.of_nat (length vs)) (Z.of_nat cap)); [|lia].
      rewrite D, <- (firstn_skipn (length vs) rest), store_ok.
      * cbn [bind]. eexists _, (skipn (length vs) rest). split; [reflexivity|].
        constructor; cbn [s_data s_sp s_size]; auto.
        -- rewrite rev_app_distr, rev_involutive, <- app_assoc. reflexivity.
        -- rewrite app_length, rev_length. lia.
        -- rewrite app_length, rev_length, skipn_length. lia.
      * rewrite rev_length. reflexivity.
      * rewrite firstn_length. lia.
    + destruct (Z.ltb_spec (Z.of_nat (length l) + Z.of_nat (length vs)) (Z.of_nat cap)); [lia|].
      cbn [bind]. eexists _, _. split; [reflexivity|exact R].
  - unfold frame_pop. cbv zeta. rewrite SP.
    destruct (Nat.leb_spec n (length l)); injection H as <- <-.
    + destruct (Z.leb_spec (Z.of_nat n) (Z.of_nat (length l))); [|lia].
      assert (LN : length (rev (firstn n l)) = n) by (rewrite rev_length, firstn_length; lia).
      assert (LO : load_at (s_data s) (Z.of_nat (length l) - Z.of_nat n) n = Ok (rev (firstn n l))).
      { rewrite D. rewrite <- (firstn_skipn n l) at 1. rewrite rev_app_distr, <- app_assoc.
        replace n with (length (rev (firstn n l))) at 4 by exact LN. apply load_ok. rewrite rev_length, skipn_length. lia. }
      rewrite LO. cbn [bind]. rewrite <- SP. eexists _, _. split; [reflexivity|]. apply (rep_skip cap s l rest); auto.
    + destruct (Z.leb_spec (Z.of_nat n) (Z.of_nat (length l))); [lia|].
      cbn [bind]. eexists _, _. split; [reflexivity|exact R].
  - destruct (Nat.ltb_spec i n); [|discriminate]. unfold frame_read. rewrite SP.
    destruct (Nat.leb_spec n (length l)); injection H as <- <-.
    + destruct (Z.leb_spec (Z.of_nat n) (Z.of_nat (length l))); [|lia].
      destruct (nth_error l (n - 1 - i)) as [v|] eqn:E; [|apply nth_error_None in E; lia].
      rewrite (rd_nth _ _ v); [|lia|].
      * cbn [bind]. destruct (nth_error_split l _ E) as (l1&l2&EL&LL).
        rewrite EL, <- LL, skipn_app, skipn_all, Nat.sub_diag. cbn.
        rewrite <- EL. eexists _, _. split; [reflexivity|exact R].
      * rewrite D. replace (Z.to_nat (Z.of_nat (length l) - Z.of_nat n + Z.of_nat i)) with (length l - n + i)%nat by lia.
        rewrite nth_error_app1 by (rewrite rev_length; lia).
        rewrite (nth_error_nth' _ 0) by (rewrite rev_length; lia).
        rewrite rev_nth by lia. apply nth_error_nth with (d := 0) in E. rewrite <- E. do 2 f_equal. lia.
    + destruct (Z.leb_spec (Z.of_nat n) (Z.of_nat (length l))); [lia|].
      cbn [bind]. eexists _, _. split; [reflexivity|exact R].
  - destruct (Nat.ltb_spec i n); [|discriminate]. unfold frame_write. rewrite SP.
    destruct (Nat.leb_spec n (length l)); injection H as <- <-.
    + destruct (Z.leb_spec (Z.of_nat n) (Z.of_nat (length l))); [|lia].
      rewrite wr_ok by (rewrite D, app_length, rev_length; lia). cbn [bind].
      eexists _, rest. split; [reflexivity|]. constructor; cbn [s_data s_sp s_size]; rewrite ?length_upd; auto.
      rewrite rev_upd by lia. rewrite D.
      rewrite upd_app_l by (rewrite rev_length; lia). do 2 f_equal. lia.
    + destruct (Z.leb_spec (Z.of_nat n) (Z.of_nat (length l))); [lia|].
      cbn [bind]. eexists _, _. split; [reflexivity|exact R].
Qed.

(* frames are of sensible size, so that sp + n does not wrap *)
Definition sane (o : sop) : Prop :=
  match o with OReserve vs => Z.of_nat (length vs) < 2 ^ 31 | _ => True end.

Lemma rep_create n : rep n (stack_create n) [] (repeat UNUSED_WORD n).
Proof. constructor; cbn; auto. rewrite repeat_length; lia. Qed.

Lemma rep_contents cap s l rest : rep cap s l rest -> contents s = l.
Proof.
  intros [D SP Z1 P]. unfold contents. rewrite SP, D, Nat2Z.id.
  rewrite <- (rev_length l), firstn_app, firstn_all, Nat.sub_diag, firstn_O, app_nil_r. apply rev_involutive.
Qed.

Lemma run_ok cap os : (Z.of_nat cap < 2 ^ 31) -> Forall sane os -> forall s l rest l' r,
  rep cap s l rest -> spec_run cap l os = Some (l', r) ->
  exists s' rest', run s os = Ok (s', r) /\ rep cap s' l' rest'.
Proof.
  intros C F. induction F as [|o t FO F IH]; intros s l rest l' r R H; cbn [spec_run run] in *.
  - injection H as <- <-. eauto.
  - destruct (spec cap l o) as [[l1 a]|] eqn:E; [|discriminate].
    destruct (spec_run cap l1 t) as [[l2 r2]|] eqn:E2; [|discriminate]. injection H as <- <-.
    destruct (run1_ok cap s l rest o l1 a C R FO E) as (s1&rest1&E3&R1). rewrite E3. cbn [bind].
    destruct (IH s1 l1 rest1 l2 r2 R1 E2) as (s2&rest2&E4&R2). rewrite E4. cbn [bind]. eauto.
Qed.

(* Every sequence of stack operations gives the answers of the bounded LIFO
   list and leaves its contents, on a stack of any size. *)
Theorem stack_is_lifo : forall cap os l answers,
  Z.of_nat cap < 2 ^ 31 -> Forall sane os -> spec_run cap [] os = Some (l, answers) ->
  exists s, run (stack_create cap) os = Ok (s, answers) /\ contents s = l.
Proof.
  intros cap os l r C F H. destruct (run_ok cap os C F _ _ _ l r (rep_create cap) H) as (s&rest&E&R).
  exists s. split; auto. apply rep_contents with cap rest. auto.
Qed.

(* Popping more than the stack holds is undefined behaviour in C: lbm_pop does
   not check. *)
Theorem pop_needs_element : forall cap os l answers s,
  Z.of_nat cap < 2 ^ 31 -> Forall sane os -> spec_run cap [] os = Some (l, answers) ->
  run (stack_create cap) os = Ok (s, answers) ->
  ((length l < 1)%nat -> pop s = UB) /\ ((length l < 2)%nat -> pop_2 s = UB) /\
  ((length l < 3)%nat -> pop_3 s = UB).
Proof.
  intros cap os l r s C F H E0. destruct (run_ok cap os C F _ _ _ l r (rep_create cap) H) as (s'&rest&E&R).
  assert (s' = s) by congruence. subst s'. clear E E0 H. pose proof W_big as WB.
  assert (E0 : forall s' rest, rep cap s' [] rest -> rd (s_data s') (wrap W (s_sp s' - 1)) = UB).
  { intros s1 rest1 [D SP Z1 P]. rewrite SP. cbn [length Z.of_nat]. unfold wrap.
    replace ((0 - 1) mod 2 ^ W) with (2 ^ W - 1) by (apply Z.mod_unique with (-1); lia).
    unfold rd. destruct (Z.ltb_spec (2 ^ W - 1) 0); auto.
    replace (nth_error _ _) with (@None Z); auto. symmetry. apply nth_error_None.
    rewrite D. cbn [rev app]. cbn [length] in P. lia. }
  split; [|split]; intros L.
  - destruct l as [|a l]; [|simpl in L; lia]. unfold pop. cbv zeta. rewrite (E0 _ _ R). reflexivity.
  - unfold pop_2. cbv zeta. destruct l as [|a l]; [rewrite (E0 _ _ R); reflexivity|].
    destruct l as [|b l]; [|simpl in L; lia].
    destruct (rep_pop cap s a [] rest C R) as (E&E1&R1). rewrite E1. cbn [bind].
    specialize (E0 _ _ R1). cbn [s_data s_sp] in E0. rewrite E0. reflexivity.
  - unfold pop_3. cbv zeta. destruct l as [|a l]; [rewrite (E0 _ _ R); reflexivity|].
    destruct (rep_pop cap s a l rest C R) as (E&E1&R1). rewrite E1. cbn [bind].
    destruct l as [|b l]; [specialize (E0 _ _ R1); cbn [s_data s_sp] in E0; rewrite E0; reflexivity|].
    destruct l as [|c l]; [|simpl in L; lia].
    destruct (rep_pop cap _ b [] _ C R1) as (E2&E3&R2). cbn [s_data s_sp s_size] in E2, E3, R2.
    rewrite E3. cbn [bind]. specialize (E0 _ _ R2). cbn [s_data s_sp] in E0. rewrite E0. reflexivity.
Qed.

(* ---- The high-water mark ---- *)
Definition values (o : sop) : list Z :=
  match o with OPush v => [v] | OReserve vs => vs | OWrite _ _ v => [v] | _ => [] end.

(* words at and above [hw] are unused, those below are not the fill word *)
Definition marked (s : stack) (hw : nat) : Prop :=
  (hw <= length (s_data s))%nat /\
  (forall i v, nth_error (s_data s) i = Some v -> (v = UNUSED_WORD <-> (hw <= i)%nat)).

Lemma marked_upd d sp size hw i v :
  marked (mkst d sp size) hw -> v <> UNUSED_WORD -> (i <= hw)%nat -> (i < length d)%nat -> forall sp',
  marked (mkst (upd d i v) sp' size) (Nat.max hw (S i)).
Proof.
  intros [M1 M2] N L LD sp'. cbn [s_data] in *. split; cbn [s_data]; [rewrite length_upd; lia|].
  intros j x E. destruct (Nat.eq_dec i j) as [<-|NE].
  - rewrite nth_error_upd_eq in E by auto. injection E as ->. split; [tauto|lia].
  - rewrite nth_error_upd_neq in E by auto. rewrite (M2 _ _ E). lia.
Qed.

Lemma store_marked vs : Forall (fun v => v <> UNUSED_WORD) vs -> forall d base d' hw sp size,
  store_at d (Z.of_nat base) vs = Ok d' -> marked (mkst d sp size) hw -> (base <= hw)%nat ->
  forall sp', marked (mkst d' sp' size) (Nat.max hw (base + length vs)).
Proof.
  induction 1 as [|v t NV F IH]; intros d base d' hw sp size E M L sp'; cbn [store_at length] in *.
  - injection E as <-. replace (Nat.max hw (base + 0)) with hw by lia. exact M.
  - apply bind_ok in E. destruct E as (d1&E1&E2). apply wr_inv in E1. destruct E1 as [B ->].
    rewrite Nat2Z.id in E2. replace (Z.of_nat base + 1) with (Z.of_nat (S base)) in E2 by lia.
    replace (Nat.max hw (base + S (length t))) with (Nat.max (Nat.max hw (S base)) (S base + length t)) by lia.
    apply IH with (1 := E2) (sp := sp). apply marked_upd with sp; auto; lia. lia.
Qed.

Lemma marked_data s s' hw : marked s hw -> s_data s' = s_data s -> marked s' hw.
Proof. intros [M1 M2] E. split; rewrite E; auto. Qed.

Lemma run1_marked cap s l rest o l' a hw s' : (Z.of_nat cap < 2 ^ 31) -> rep cap s l rest -> sane o ->
  Forall (fun v => v <> UNUSED_WORD) (values o) ->
  spec cap l o = Some (l', a) -> run1 s o = Ok (s', a) -> marked s hw -> (length l <= hw)%nat ->
  marked s' (Nat.max hw (length l')) .
Proof.
  intros C R SA FV H E M L. pose proof R as [D SP Z1 P]. pose proof W_big as WB.
  destruct o as [v| | | |n| |vs|n|n i|n i v]; cbn [spec run1 values] in *.
  - unfold push in E. rewrite SP, Z1 in E. assert (NV : v <> UNUSED_WORD) by (inversion FV; auto).
    destruct (Nat.ltb_spec (length l) cap); injection H as <- <-.
    + destruct (Z.eqb_spec (Z.of_nat (length l)) (Z.of_nat cap)); [lia|].
      rewrite wr_ok in E by (rewrite D, app_length, rev_length; simpl; lia). cbn [bind] in E. injection E as <-.
      rewrite Nat2Z.id. cbn [length]. apply marked_upd with (s_sp s); auto.
      rewrite D, app_length, rev_length. lia.
    + destruct (Z.eqb_spec (Z.of_nat (length l)) (Z.of_nat cap)); [|lia].
      cbn [bind] in E. injection E as <-. rewrite Nat.max_l by lia. exact M.
  - destruct l as [|x t]; [discriminate|]. injection H as <- <-. unfold pop in E. cbv zeta in E.
    rewrite Nat.max_l by (cbn [length] in L; lia).
    destruct (rd _ _); try discriminate. cbn [bind] in E. injection E as <- _. eapply marked_data; eauto.
  - destruct l as [|x [|y t]]; try discriminate. injection H as <- <-. unfold pop_2 in E. cbv zeta in E.
    rewrite Nat.max_l by (cbn [length] in L; lia).
    repeat (destruct (rd _ _); try discriminate; cbn [bind] in E). injection E as <- _ _. eapply marked_data; eauto.
  - destruct l as [|x [|y [|z t]]]; try discriminate. injection H as <- <-. unfold pop_3 in E. cbv zeta in E.
    rewrite Nat.max_l by (cbn [length] in L; lia).
    repeat (destruct (rd _ _); try discriminate; cbn [bind] in E). injection E as <- _ _ _. eapply marked_data; eauto.
  - unfold stack_drop in E. assert (length l' <= length l)%nat.
    { destruct (n <=? length l)%nat; injection H as <- _; rewrite ?skipn_length; lia. }
    rewrite Nat.max_l by lia. destruct (Z.of_nat n >? s_sp s); injection E as <- _; auto.
  - injection H as <- _. injection E as <- _. rewrite Nat.max_l by (simpl; lia). eapply marked_data; eauto.
  - unfold frame_push in E. cbv zeta in E. rewrite SP, Z1 in E. cbn [sane] in SA. rewrite wrap_small in E by lia.
    destruct (Nat.ltb_spec (length l + length vs) cap); injection H as <- <-.
    + destruct (Z.ltb_spec (Z.of_nat (length l) + Z.of_nat (length vs)) (Z.of_nat cap)); [|lia].
      destruct (store_at _ _ _) as [d| |] eqn:ST; try discriminate. cbn [bind] in E. injection E as <-.
      rewrite app_length, rev_length, (Nat.add_comm (length vs)). rewrite <- Z1. apply store_marked with (1 := FV) (2 := ST) (sp := s_sp s); auto.
    + destruct (Z.ltb_spec (Z.of_nat (length l) + Z.of_nat (length vs)) (Z.of_nat cap)); [lia|].
      cbn [bind] in E. injection E as <-. rewrite Nat.max_l by lia. exact M.
  - unfold frame_pop in E. cbv zeta in E. assert (length l' <= length l)%nat.
    { destruct (n <=? length l)%nat; injection H as <- _; rewrite ?skipn_length; lia. }
    rewrite Nat.max_l by lia. destruct (_ <=? _).
    + destruct (load_at _ _ _); try discriminate. cbn [bind] in E. injection E as <- _. eapply marked_data; eauto.
    + cbn [bind] in E. injection E as <- _. auto.
  - assert (l' = l). { destruct (i <? n)%nat; [|discriminate]. destruct (n <=? length l)%nat; congruence. } subst l'.
    rewrite Nat.max_l by lia. destruct (frame_read _ _ _); try discriminate. cbn [bind] in E. injection E as <- _. auto.
  - assert (NV : v <> UNUSED_WORD) by (inversion FV; auto).
    destruct (Nat.ltb_spec i n); [|discriminate]. unfold frame_write in E. rewrite SP in E.
    destruct (Nat.leb_spec n (length l)); injection H as <- <-.
    + destruct (Z.leb_spec (Z.of_nat n) (Z.of_nat (length l))); [|lia].
      rewrite wr_ok in E by (rewrite D, app_length, rev_length; lia). cbn [bind] in E. injection E as <-.
      rewrite length_upd.
      assert (Q : forall k, (S k <= length l)%nat -> marked (mkst (upd (s_data s) k v) (Z.of_nat (length l)) (s_size s)) (Nat.max hw (length l))).
      { intros k Hk. replace (Nat.max hw (length l)) with (Nat.max hw (S k)) by lia.
        apply marked_upd with (s_sp s); auto; try lia.
        rewrite D, app_length, rev_length. lia. }
      rewrite <- SP in Q. rewrite <- SP. apply Q. lia.
    + destruct (Z.leb_spec (Z.of_nat n) (Z.of_nat (length l))); [lia|].
      cbn [bind] in E. injection E as <-. rewrite Nat.max_l by lia. exact M.
Qed.

Lemma unused_count d hw : forall i u, (hw <= i <= length d)%nat ->
  (forall j v, nth_error d j = Some v -> (v = UNUSED_WORD <-> (hw <= j)%nat)) ->
  unused_from d i u = Ok (u + Z.of_nat (i - hw)).
Proof.
  induction i as [|j IH]; intros u B M; cbn [unused_from].
  - f_equal. lia.
  - destruct (nth_error d j) as [v|] eqn:E; [|apply nth_error_None in E; lia].
    rewrite (rd_nth _ _ v) by (rewrite ?Nat2Z.id; auto; lia). cbn [bind].
    pose proof (M _ _ E) as Q. destruct (Z.eqb_spec v UNUSED_WORD).
    + rewrite IH by (auto; apply Q in e; lia). f_equal. apply Q in e. lia.
    + assert (hw = S j) by (destruct (Nat.le_gt_cases hw j) as [X|X]; [apply Q in X; congruence|lia]).
      f_equal. lia.
Qed.

Lemma run_marked cap os : (Z.of_nat cap < 2 ^ 31) -> Forall sane os ->
  Forall (fun o => Forall (fun v => v <> UNUSED_WORD) (values o)) os -> forall s l rest hw l' r s',
  rep cap s l rest -> marked s hw -> (length l <= hw)%nat -> spec_run cap l os = Some (l', r) ->
  run s os = Ok (s', r) -> marked s' (Nat.max hw (depth cap l os)).
Proof.
  intros C F. induction F as [|o t FO F IH]; intros FV s l rest hw l' r s' R M L H E;
    cbn [spec_run run depth] in *.
  - injection E as <- _. rewrite Nat.max_l by lia. auto.
  - inversion FV as [|x y V1 V2]; subst.
    destruct (spec cap l o) as [[l1 a]|] eqn:E1; [|discriminate].
    destruct (spec_run cap l1 t) as [[l2 r2]|] eqn:E2; [|discriminate]. injection H as <- <-.
    destruct (run1_ok cap s l rest o l1 a C R FO E1) as (s1&rest1&E3&R1). rewrite E3 in E. cbn [bind] in E.
    apply bind_ok in E. destruct E as ([s2 r3]&E4&E5). injection E5 as <- ->.
    assert (M1 := run1_marked cap s l rest o l1 a hw s1 C R FO V1 E1 E3 M L).
    specialize (IH V2 s1 l1 rest1 (Nat.max hw (length l1)) l2 r2 s2 R1 M1 ltac:(lia) E2 E4).
    replace (Nat.max hw (Nat.max (length l) (depth cap l1 t)))
      with (Nat.max (Nat.max hw (length l1)) (depth cap l1 t)); auto.
    assert (length l1 <= depth cap l1 t)%nat by (destruct t; cbn [depth]; lia). lia.
Qed.

(* lbm_get_max_stack reports the greatest depth the stack has had, provided
   none of the words stored equals the fill word. *)
Theorem max_stack_exact : forall cap os l answers s,
  Z.of_nat cap < 2 ^ 31 -> Forall sane os ->
  Forall (fun o => Forall (fun v => v <> UNUSED_WORD) (values o)) os ->
  spec_run cap [] os = Some (l, answers) -> run (stack_create cap) os = Ok (s, answers) ->
  get_max_stack s = Ok (Z.of_nat (depth cap [] os)).
Proof.
  intros cap os l r s C F FV H E.
  assert (M0 : marked (stack_create cap) 0).
  { split; [simpl; lia|]. intros i v N. cbn in N. apply nth_error_In, repeat_spec in N. split; [lia|auto]. }
  assert (M := run_marked cap os C F FV _ _ _ 0%nat l r s (rep_create cap) M0 ltac:(simpl; lia) H E).
  rewrite Nat.max_r in M by lia.
  destruct (run_ok cap os C F _ _ _ l r (rep_create cap) H) as (s'&rest&E'&R).
  assert (s' = s) by congruence. subst s'. destruct R as [D SP Z1 P]. destruct M as [M1 M2].
  assert (LD : length (s_data s) = cap) by (rewrite D, app_length, rev_length; auto).
  unfold get_max_stack. rewrite Z1, Nat2Z.id. rewrite (unused_count _ (depth cap [] os)) by (auto; lia).
  cbn [bind]. f_equal. lia.
Qed.

End Arch.

(* concrete: two values and a frame on a stack of four; the fourth slot is
   refused to a frame but accepted by a push; LIFO order *)
Example stack_case :
  let os := [OPush 1; OPush 2; OReserve [3; 4]; OReserve [3]; ORead 2 0; OPush 9; OPush 10;
             OPop; OPopFrame 2; ODrop 5; OPop] in
  spec_run 4 [] os = Some ([],
    [Flag true; Flag true; StackError; Flag true; Words [2]; Flag true; Flag false;
     Words [9]; Words [2; 3]; Flag false; Words [1]]) /\
  Forall sane os /\ depth 4 [] os = 4%nat /\
  exists s, @run A32 (@stack_create A32 4) os = Ok (s,
    [Flag true; Flag true; StackError; Flag true; Words [2]; Flag true; Flag false;
     Words [9]; Words [2; 3]; Flag false; Words [1]]) /\ @get_max_stack A32 s = Ok 4.
Proof.
  split; [vm_compute; reflexivity|]. split; [repeat constructor|]. split; [reflexivity|].
  eexists. split; vm_compute; reflexivity.
Qed.

Print Assumptions stack_is_lifo.
Print Assumptions pop_needs_element.
Print Assumptions max_stack_exact.
