(* C27: the event ring is a bounded FIFO. *)
From Verif Require Import Base Event_Model.
Local Open Scope Z_scope.

(* Specification: a history of submissions and pops with their answers. *)
Inductive eop := EPush (e : event) | EPop.
Inductive ans := Accepted (b : bool) | Popped (o : option event).

Definition estep (r : ring) (o : eop) : res (ring * ans) :=
  match o with
  | EPush e => let! (r1, b) := event_internal r e in Ok (r1, Accepted b)
  | EPop => let! (r1, x) := event_pop r in Ok (r1, Popped x)
  end.

Inductive Hist (cap : nat) : ring -> list (eop * ans) -> Prop :=
| hist_init r b r' : init_events r (Some b) = (r', true) -> length b = cap -> Hist cap r' []
| hist_step r h o a r' : Hist cap r h -> estep r o = Ok (r', a) -> Hist cap r' (h ++ [(o, a)]).

(* events accepted and events handed out so far, in order *)
Definition accepted (h : list (eop * ans)) : list event :=
  flat_map (fun x => match x with (EPush e, Accepted true) => [e] | _ => [] end) h.
Definition popped (h : list (eop * ans)) : list event :=
  flat_map (fun x => match x with (EPop, Popped (Some e)) => [e] | _ => [] end) h.

(* The ring holds the list [l]. *)
Record holds (r : ring) (b : list event) (l : list event) : Prop := {
  h_buf : r_buf r = Some b;
  h_max : r_max r = Z.of_nat (length b);
  h_pos : 1 <= r_max r < 2 ^ 32;
  h_tail : 0 <= r_tail r < r_max r;
  h_len : Z.of_nat (length l) <= r_max r;
  h_head : r_head r = (r_tail r + Z.of_nat (length l)) mod r_max r;
  h_full : r_full r = (Z.of_nat (length l) =? r_max r);
  h_data : forall i, (i < length l)%nat ->
    nth_error b (Z.to_nat ((r_tail r + Z.of_nat i) mod r_max r)) = nth_error l i }.

Lemma mod_ring a k m : 0 < m -> 0 <= a < m -> 0 <= k <= m ->
  (a + k) mod m = if a + k <? m then a + k else a + k - m.
Proof.
  intros. destruct (Z.ltb_spec (a + k) m); [apply Z.mod_small; lia|].
  symmetry. apply Z.mod_unique with 1; lia.
Qed.

Lemma push_holds r b l e : holds r b l ->
  if Z.of_nat (length l) <? r_max r
  then exists r' b', event_internal r e = Ok (r', true) /\ holds r' b' (l ++ [e]) /\ length b' = length b
  else event_internal r e = Ok (r, false).
Proof.
  intros [B M P T L H F D]. unfold event_internal. rewrite B, F.
  destruct (Z.ltb_spec (Z.of_nat (length l)) (r_max r)) as [Q|Q].
  - destruct (Z.eqb_spec (Z.of_nat (length l)) (r_max r)); [lia|].
    assert (HB : 0 <= r_head r < r_max r) by (rewrite H; apply Z.mod_pos_bound; lia).
    rewrite wr_ok by lia. cbn [bind]. rewrite wrap_small by lia. unfold umod.
    destruct (Z.eqb_spec (r_max r) 0); [lia|]. cbn [bind].
    assert (HN : (r_head r + 1) mod r_max r = (r_tail r + Z.of_nat (length (l ++ [e]))) mod r_max r).
    { rewrite H, Zplus_mod_idemp_l. f_equal. rewrite app_length. simpl. lia. }
    eexists _, _. split; [reflexivity|]. split; [|apply length_upd].
    constructor; cbn [r_buf r_head r_tail r_max r_full]; rewrite ?length_upd; auto.
    + rewrite app_length; simpl; lia.
    + rewrite HN. rewrite mod_ring by (rewrite ?app_length; simpl; lia).
      rewrite app_length. simpl. 
      destruct (Z.ltb_spec (r_tail r + Z.of_nat (length l + 1)) (r_max r)); lia.
    + intros i Hi. rewrite app_length in Hi. simpl in Hi. rewrite H.
      assert (Hm : 0 <= (r_tail r + Z.of_nat (length l)) mod r_max r < r_max r) by (apply Z.mod_pos_bound; lia).
      destruct (Nat.eq_dec i (length l)) as [->|NE].
      * rewrite nth_error_upd_eq by lia. rewrite nth_error_app2, Nat.sub_diag by lia. reflexivity.
      * rewrite nth_error_upd_neq.
        -- rewrite nth_error_app1 by lia. apply D. lia.
        -- rewrite !mod_ring by lia.
           destruct (Z.ltb_spec (r_tail r + Z.of_nat (length l)) (r_max r)),
             (Z.ltb_spec (r_tail r + Z.of_nat i) (r_max r)); lia.
  - destruct (Z.eqb_spec (Z.of_nat (length l)) (r_max r)); [reflexivity|lia].
Qed.

Lemma pop_holds r b l : holds r b l ->
  match l with
  | [] => event_pop r = Ok (r, None)
  | e :: t => exists r', event_pop r = Ok (r', Some e) /\ holds r' b t
  end.
Proof.
  intros [B M P T L H F D]. unfold event_pop. destruct l as [|e t].
  - change (Z.of_nat (length (@nil event))) with 0 in *. rewrite Z.add_0_r, Z.mod_small in H by lia.
    rewrite H, Z.eqb_refl, F.
    destruct (Z.eqb_spec 0 (r_max r)); [lia|]. reflexivity.
  - assert (E : (r_head r =? r_tail r) && negb (r_full r) = false).
    { rewrite F, H. cbn [length] in *. rewrite mod_ring by lia.
      destruct (Z.ltb_spec (r_tail r + Z.of_nat (S (length t))) (r_max r));
        destruct (Z.eqb_spec (Z.of_nat (S (length t))) (r_max r)); simpl;
        rewrite ?andb_true_r, ?andb_false_r; auto; lia. }
    rewrite E, B. specialize (D 0%nat ltac:(simpl; lia)) as D0. simpl nth_error in D0 at 2.
    replace ((r_tail r + Z.of_nat 0) mod r_max r) with (r_tail r) in D0
      by (rewrite Z.add_0_r, Z.mod_small; lia).
    rewrite (rd_nth b (r_tail r) e) by (auto; lia). cbn [bind].
    rewrite wrap_small by lia. unfold umod.
    destruct (Z.eqb_spec (r_max r) 0); [lia|]. cbn [bind].
    assert (TN : 0 <= (r_tail r + 1) mod r_max r < r_max r) by (apply Z.mod_pos_bound; lia).
    eexists. split; [reflexivity|].
    cbn [length] in L. constructor; cbn [r_buf r_head r_tail r_max r_full]; auto; try lia.
    + rewrite H, Zplus_mod_idemp_l. f_equal. cbn [length]. lia.
    + intros i Hi. specialize (D (S i) ltac:(simpl; lia)). simpl in D. rewrite <- D.
      rewrite Zplus_mod_idemp_l. do 3 f_equal. lia.
Qed.

Lemma flat_map_app1 {A B} (f : A -> list B) h x : flat_map f (h ++ [x]) = flat_map f h ++ f x.
Proof. rewrite flat_map_app. simpl. rewrite app_nil_r. reflexivity. Qed.

Lemma hist_holds cap r h : (1 <= Z.of_nat cap < 2 ^ 32) -> Hist cap r h ->
  exists b l, length b = cap /\ holds r b l /\ accepted h = popped h ++ l.
Proof.
  intros C. induction 1 as [r b r' E L|r h o a r' H IH E].
  - simpl in E. injection E as <-. exists b, []. split; auto. split; auto.
    constructor; cbn [r_buf r_head r_tail r_max r_full length]; auto; try lia.
  - destruct IH as (b&l&L&HD&AC). unfold accepted, popped in *. rewrite !flat_map_app1.
    destruct o as [e|]; simpl in E.
    + pose proof (push_holds r b l e HD) as PH. rewrite app_nil_r.
      destruct (Z.of_nat (length l) <? r_max r).
      * destruct PH as (r1&b1&E1&H1&L1). rewrite E1 in E. simpl in E. injection E as <- <-.
        exists b1, (l ++ [e]). split; [lia|]. split; auto. rewrite AC, app_assoc. reflexivity.
      * rewrite PH in E. simpl in E. injection E as <- <-. exists b, l. rewrite app_nil_r. auto.
    + pose proof (pop_holds r b l HD) as PH. rewrite app_nil_r. destruct l as [|e t].
      * rewrite PH in E. simpl in E. injection E as <- <-. exists b, []. rewrite !app_nil_r in *. auto.
      * destruct PH as (r1&E1&H1). rewrite E1 in E. simpl in E. injection E as <- <-.
        exists b, t. split; auto. split; auto. rewrite AC, <- app_assoc. reflexivity.
Qed.

(* Events come out in the order they were accepted, each at most once, and
   none is lost: what has been popped is a prefix of what was accepted. *)
Theorem event_fifo : forall cap r h, 1 <= Z.of_nat cap < 2 ^ 32 -> Hist cap r h ->
  exists pending, accepted h = popped h ++ pending.
Proof. intros cap r h C H. destruct (hist_holds cap r h C H) as (b&l&_&_&E). eauto. Qed.

(* A submission is accepted exactly when fewer than [cap] events are pending;
   no step goes wrong. *)
Theorem event_accept_iff_room : forall cap r h e, 1 <= Z.of_nat cap < 2 ^ 32 -> Hist cap r h ->
  exists r', estep r (EPush e) =
    Ok (r', Accepted (length (accepted h) - length (popped h) <? cap)%nat).
Proof.
  intros cap r h e C H. destruct (hist_holds cap r h C H) as (b&l&L&HD&E).
  pose proof (push_holds r b l e HD) as PH. rewrite E, app_length.
  assert (M : r_max r = Z.of_nat cap) by (rewrite (h_max _ _ _ HD); lia).
  replace (length (popped h) + length l - length (popped h))%nat with (length l) by lia.
  replace (length l <? cap)%nat with (Z.of_nat (length l) <? r_max r) by lia.
  simpl. destruct (Z.of_nat (length l) <? r_max r).
  - destruct PH as (r1&b1&E1&_). rewrite E1. simpl. eauto.
  - rewrite PH. simpl. eauto.
Qed.

(* A pop answers with the oldest pending event, or with nothing exactly when
   none is pending. *)
Theorem event_pop_oldest : forall cap r h, 1 <= Z.of_nat cap < 2 ^ 32 -> Hist cap r h ->
  exists r', estep r EPop = Ok (r', Popped (nth_error (accepted h) (length (popped h)))) /\
    queue_is_empty r = (length (accepted h) =? length (popped h))%nat.
Proof.
  intros cap r h C H. destruct (hist_holds cap r h C H) as (b&l&L&HD&E).
  pose proof (pop_holds r b l HD) as PH. rewrite E.
  rewrite nth_error_app2, Nat.sub_diag, app_length by lia. unfold queue_is_empty, event_pop in *. simpl.
  destruct l as [|e t].
  - unfold event_pop in PH |- *. exists r. rewrite PH. simpl. split; auto.
    destruct ((r_head r =? r_tail r) && negb (r_full r)) eqn:Q.
    + rewrite Nat.add_0_r, Nat.eqb_refl. reflexivity.
    + exfalso. destruct (r_buf r); [|discriminate]. apply bind_ok in PH. destruct PH as (?&_&PH).
      apply bind_ok in PH. destruct PH as (?&_&PH). discriminate.
  - destruct PH as (r1&E1&_). unfold event_pop. exists r1. rewrite E1. simpl. split; auto.
    destruct ((r_head r =? r_tail r) && negb (r_full r)) eqn:Q; [discriminate|].
    symmetry. apply Nat.eqb_neq. lia.
Qed.

(* process_events hands over every pending event in order, stops, and leaves
   the ring empty (if the handler submits nothing). *)
Theorem process_events_drains : forall A (f : A -> event -> A) acc cap r h,
  1 <= Z.of_nat cap < 2 ^ 32 -> Hist cap r h ->
  exists r', process_events (S cap) f acc r =
    Ok (fold_left f (skipn (length (popped h)) (accepted h)) acc, r') /\
    queue_is_empty r' = true.
Proof.
  intros A f acc cap r h C H. destruct (hist_holds cap r h C H) as (b&l&L&HD&E).
  rewrite E, skipn_app, skipn_all, Nat.sub_diag. simpl skipn.
  assert (LN : (length l < S cap)%nat). { pose proof (h_len _ _ _ HD). pose proof (h_max _ _ _ HD). lia. }
  clear - HD LN. revert r acc LN HD. generalize (S cap). intros fuel. revert fuel.
  induction l as [|e t IH]; intros fuel r acc LN HD; destruct fuel as [|fuel]; try lia;
    cbn [process_events]; rewrite (h_buf _ _ _ HD); pose proof (pop_holds _ _ _ HD) as PH; simpl in PH.
  - rewrite PH. cbn [bind]. exists r. split; auto. unfold queue_is_empty.
    destruct ((r_head r =? r_tail r) && negb (r_full r)) eqn:Q; auto.
    exfalso. unfold event_pop in PH. rewrite Q in PH. destruct (r_buf r); [|discriminate]. apply bind_ok in PH. destruct PH as (?&_&PH).
    apply bind_ok in PH. destruct PH as (?&_&PH). discriminate.
  - destruct PH as (r1&E1&H1). rewrite E1. cbn [bind]. apply IH; auto. simpl in LN. lia.
Qed.

(* concrete: ring of two, three submissions, wrap-around *)
Definition ev n := mkev 0 n 0 0.
Example event_case : exists r,
  Hist 2 r [(EPush (ev 1), Accepted true); (EPop, Popped (Some (ev 1))); (EPush (ev 2), Accepted true);
            (EPush (ev 3), Accepted true); (EPush (ev 4), Accepted false); (EPop, Popped (Some (ev 2)))].
Proof.
  assert (H0 := hist_init 2 ring_null [ev 0; ev 0] _ eq_refl eq_refl).
  assert (H1 := hist_step _ _ _ (EPush (ev 1)) _ _ H0 eq_refl).
  assert (H2 := hist_step _ _ _ EPop _ _ H1 eq_refl).
  assert (H3 := hist_step _ _ _ (EPush (ev 2)) _ _ H2 eq_refl).
  assert (H4 := hist_step _ _ _ (EPush (ev 3)) _ _ H3 eq_refl).
  assert (H5 := hist_step _ _ _ (EPush (ev 4)) _ _ H4 eq_refl).
  assert (H6 := hist_step _ _ _ EPop _ _ H5 eq_refl).
  eexists. exact H6.
Qed.

(* Without memory for the ring (lbm_malloc answered NULL, which it also does
   for a size of zero) every submission is rejected and nothing goes wrong. *)
Theorem event_no_memory : forall r e r' b,
  init_events r None = (r', b) -> b = false /\ event_internal r' e = Ok (r', false).
Proof. intros r e r' b [= <- <-]. split; reflexivity. Qed.

Print Assumptions event_fifo.
Print Assumptions event_accept_iff_room.
Print Assumptions event_pop_oldest.
Print Assumptions process_events_drains.
Print Assumptions event_no_memory.
