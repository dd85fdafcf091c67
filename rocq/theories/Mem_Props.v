(* Properties C01-C06: the word allocator (src/lbm_memory.c).
   Statements use Mem_Spec: ledger of blocks held by a client. *)
From Verif Require Import Base Mem_Model Mem_Spec Mem_Proofs Mem_Proofs2.
Open Scope Z_scope.

(* A concrete client history used as a witness below: 32-bit build, 64 words at
   address 4096; allocate 3, 5 and 2 words, free the first, shrink the second
   to 4. *)
Definition hist : list op := [OAlloc 3; OAlloc 5; OMalloc 7; OFree 4096; OShrink 4108 4].

Definition validb (sh : Z) (led : ledger) (o : op) : bool :=
  let wordb x := (0 <=? x) && (x <? 2 ^ W sh) in
  match o with
  | OAlloc n | OMalloc n | OMallocR n | OSetReserve n => wordb n
  | OFree p => existsb (Z.eqb p) (map fst led)
  | OShrink p n => existsb (Z.eqb p) (map fst led) && wordb n
  end.

Lemma validb_valid sh led o : validb sh led o = true -> valid sh led o.
Proof.
  assert (He : forall p, existsb (Z.eqb p) (map fst led) = true -> In p (map fst led)).
  { intros p H. apply existsb_exists in H. destruct H as (x & H & E).
    apply Z.eqb_eq in E. subst; auto. }
  unfold validb, valid, word. destruct o; intros H; auto;
    try (apply andb_true_iff in H; destruct H; split; [apply Z.leb_le|apply Z.ltb_lt]; auto; fail).
  apply andb_true_iff in H; destruct H as [H1 H]. split; auto.
  apply andb_true_iff in H; destruct H; split; [apply Z.leb_le|apply Z.ltb_lt]; auto.
Qed.

Fixpoint replay (sh : Z) (m : mem) (led : ledger) (h : list op) : option (mem * ledger) :=
  match h with
  | [] => Some (m, led)
  | o :: h' => if validb sh led o then
                 match step sh m o with
                 | Ok (out, m') => replay sh m' (led_step sh led o out) h'
                 | _ => None
                 end
               else None
  end.

Lemma replay_reach sh data dsize bits bsz h : forall m led m' led',
  Reach sh data dsize bits bsz m led ->
  replay sh m led h = Some (m', led') ->
  Reach sh data dsize bits bsz m' led'.
Proof.
  induction h as [|o h IH]; intros m led m' led' HR E; simpl in E.
  - injection E as <- <-. auto.
  - destruct (validb sh led o) eqn:Hv; try discriminate.
    destruct (step sh m o) as [[out m1]| |] eqn:Es; try discriminate.
    eapply IH; [|exact E]. eapply reach_step; eauto. apply validb_valid; auto.
Qed.

Definition m0 : mem := match mem_init 5 4096 64 512 4 with Some m => m | None => mkMem [] 0 0 0 0 0 0 false end.

Lemma m0_reach : Reach 5 4096 64 512 4 m0 [].
Proof. apply reach_init; try lia; vm_compute; auto; split; congruence. Qed.

Example hist_reach : exists m,
  Reach 5 4096 64 512 4 m [(4128, 2); (4108, 4)] /\ nfree m = 58.
Proof.
  eexists. split.
  - eapply (replay_reach 5 4096 64 512 4 hist m0 []).
    + exact m0_reach.
    + vm_compute. reflexivity.
  - reflexivity.
Qed.

(* C01 ---------------------------------------------------------------- *)
(* Every valid call is defined (no out-of-bounds access in the bitmap, no
   endless loop) in every reachable state. *)
Theorem mem_calls_defined : forall sh, sh = 5 \/ sh = 6 ->
  forall data dsize bits bsz m led o,
  Reach sh data dsize bits bsz m led -> valid sh led o ->
  exists out m', step sh m o = Ok (out, m').
Proof.
  intros sh Hsh data dsize bits bsz m led o HR Hv.
  destruct (step_rel sh Hsh _ _ _ _ _ (reach_rel sh Hsh _ _ _ _ _ _ HR) Hv) as (out & m' & E & _).
  eauto.
Qed.
Print Assumptions mem_calls_defined.

Theorem mem_no_overlap : forall sh, sh = 5 \/ sh = 6 ->
  forall data dsize bits bsz m led,
  Reach sh data dsize bits bsz m led ->
  NoDup (map fst led) /\
  (forall b, In b led -> inside sh data dsize b) /\
  (forall b c, In b led -> In c led -> b <> c -> disjoint sh b c).
Proof.
  intros sh Hsh data dsize bits bsz m led HR.
  destruct (rel_sound sh Hsh _ _ _ _ (reach_rel sh Hsh _ _ _ _ _ _ HR)) as (H1 & H2 & H3 & _).
  auto.
Qed.
Print Assumptions mem_no_overlap.

(* C02 ---------------------------------------------------------------- *)
Theorem mem_alloc_iff_hole : forall sh, sh = 5 \/ sh = 6 ->
  forall data dsize bits bsz m led n,
  Reach sh data dsize bits bsz m led -> word sh n -> 0 < n ->
  n + reserve m <= nfree m ->          (* the request leaves the reserve untouched *)
  exists p m', allocate sh m n = Ok (p, m') /\
    (p <> 0 <-> hole sh data dsize led n) /\
    (p <> 0 -> inside sh data dsize (p, n) /\ forall b, In b led -> disjoint sh (p, n) b).
Proof.
  intros sh Hsh data dsize bits bsz m led n HR Hn Hn0 Hres.
  pose proof (reach_rel sh Hsh _ _ _ _ _ _ HR) as HRel.
  destruct HRel as (Eb & Em & segs & HI & HP).
  pose proof (nfree_word sh Hsh _ _ HI) as [[Hw1 Hw2] _].
  assert (Hrw : 0 <= reserve m) by (destruct HI as (((_&_&_&_&_&_&_&H) & _) & _); apply H).
  pose proof HI as (_ & _ & _ & Hnf).
  unfold allocate, wr_w. rewrite wrap_small by lia.
  replace (nfree m - n <? reserve m) with false by lia.
  destruct (alloc_int_rel sh Hsh data dsize m led n) as (p & m' & E & _ & Hc); auto.
  { split; auto. split; auto. eauto. }
  exists p, m'. split; auto.
  destruct Hc as [(Hp & _ & Hh & Hi & Hd & _)|(Hp & _ & Hnh)].
  - tauto.
  - split; [|congruence]. split; [congruence|]. intros Hh. exfalso. apply Hnh. auto.
Qed.
Print Assumptions mem_alloc_iff_hole.

(* A request that would eat into the reserve is refused, asks for garbage
   collection and changes nothing else. *)
Theorem mem_alloc_reserve : forall sh m n,
  0 <= n <= nfree m -> nfree m < 2 ^ W sh -> nfree m - n < reserve m ->
  allocate sh m n = Ok (0, set_gcreq m).
Proof.
  intros sh m n Hn Hw Hr. unfold allocate, wr_w. rewrite wrap_small by lia.
  replace (nfree m - n <? reserve m) with true by lia. reflexivity.
Qed.
Print Assumptions mem_alloc_reserve.

(* C03 ---------------------------------------------------------------- *)
Theorem mem_free_count_exact : forall sh, sh = 5 \/ sh = 6 ->
  forall data dsize bits bsz m led,
  Reach sh data dsize bits bsz m led -> nfree m = dsize - total led.
Proof.
  intros sh Hsh data dsize bits bsz m led HR.
  destruct (rel_sound sh Hsh _ _ _ _ (reach_rel sh Hsh _ _ _ _ _ _ HR)) as (_ & _ & _ & H).
  auto.
Qed.
Print Assumptions mem_free_count_exact.

(* C04 ---------------------------------------------------------------- *)
Theorem mem_free_live_succeeds : forall sh, sh = 5 \/ sh = 6 ->
  forall data dsize bits bsz m led p,
  Reach sh data dsize bits bsz m led -> In p (map fst led) ->
  exists m', mfree sh m p = Ok (1, m') /\
    Reach sh data dsize bits bsz m' (filter (fun b => negb (fst b =? p)) led).
Proof.
  intros sh Hsh data dsize bits bsz m led p HR Hp.
  destruct (free_rel sh Hsh _ _ _ _ _ (reach_rel sh Hsh _ _ _ _ _ _ HR) Hp) as (m' & E & _).
  exists m'. split; auto.
  apply (reach_step sh data dsize bits bsz m led (OFree p) 1 m' HR Hp E).
Qed.
Print Assumptions mem_free_live_succeeds.

(* Shrinking succeeds exactly for a smaller non-zero size, or for a one-word block. *)
Theorem mem_shrink_result : forall sh, sh = 5 \/ sh = 6 ->
  forall data dsize bits bsz m led p len n,
  Reach sh data dsize bits bsz m led -> In (p, len) led -> word sh n ->
  exists m', shrink sh m p n
    = Ok ((if (0 <? n) && ((n <? len) || (len =? 1)) then 1 else 0), m').
Proof.
  intros sh Hsh data dsize bits bsz m led p len n HR Hp Hn.
  destruct (shrink_rel sh Hsh _ _ _ _ _ _ _ (reach_rel sh Hsh _ _ _ _ _ _ HR) Hp Hn)
    as (r & m' & E & _ & -> & _).
  eauto.
Qed.
Print Assumptions mem_shrink_result.

Theorem mem_all_freed_is_whole : forall sh, sh = 5 \/ sh = 6 ->
  forall data dsize bits bsz m,
  Reach sh data dsize bits bsz m [] -> reserve m = 0 ->
  nfree m = dsize /\ exists m', allocate sh m dsize = Ok (data, m').
Proof.
  intros sh Hsh data dsize bits bsz m HR Hres.
  pose proof (mem_free_count_exact sh Hsh _ _ _ _ _ _ HR) as Hnf. simpl in Hnf.
  pose proof (reach_rel sh Hsh _ _ _ _ _ _ HR) as (Eb & Em & segs & HI & HP).
  pose proof (nfree_word sh Hsh _ _ HI) as [Hw Hl].
  pose proof HI as (_ & Ho & _ & Hnf'). pose proof (wb_pos sh Hsh).
  split; [lia|].
  destruct (mem_alloc_iff_hole sh Hsh _ _ _ _ _ _ dsize HR) as (p & m' & E & Hp & Hp').
  - rewrite <- Hnf', Hnf in Hw. rewrite Z.sub_0_r in Hw. auto.
  - lia.
  - lia.
  - assert (Hp0 : p <> 0).
    { apply Hp. exists data. split.
      - unfold inside. cbn [fst snd]. rewrite Z.sub_diag. rewrite Zmod_0_l. lia.
      - simpl. tauto. }
    destruct (Hp' Hp0) as [(H1 & H2 & _) _]. cbn [fst snd] in *.
    assert (p = data) as -> by lia. eauto.
Qed.
Print Assumptions mem_all_freed_is_whole.

Example all_freed_reachable : exists m, Reach 5 4096 64 512 4 m [] /\ reserve m = 0 /\ nfree m = 64.
Proof.
  eexists. split.
  - eapply (replay_reach 5 4096 64 512 4 [OAlloc 3; OAlloc 5; OFree 4096; OFree 4108; OSetReserve 0] m0 []).
    + exact m0_reach.
    + vm_compute. reflexivity.
  - split; reflexivity.
Qed.

(* C05 ---------------------------------------------------------------- *)
Theorem mem_longest_free_correct : forall sh, sh = 5 \/ sh = 6 ->
  forall data dsize bits bsz m led,
  Reach sh data dsize bits bsz m led -> reserve m <= nfree m ->
  exists L, longest_free sh m = Ok L /\
    forall n, 0 < n -> word sh n ->
      ((exists p m', allocate sh m n = Ok (p, m') /\ p <> 0) <-> n <= L).
Proof.
  intros sh Hsh data dsize bits bsz m led HR.
  apply (longest_spec sh Hsh data dsize m led). eapply reach_rel; eauto.
Qed.
Print Assumptions mem_longest_free_correct.

(* Without the side condition the statement is false: with fewer free words
   than the reserve, the reported length exceeds the whole memory. *)
Theorem mem_longest_free_below_reserve_refuted : exists m led,
  Reach 5 4096 64 512 4 m led /\ nfree m < reserve m /\
  exists L, longest_free 5 m = Ok L /\ msize m < L.
Proof.
  exists (set_res m0 65), [].
  split; [|split].
  - apply (reach_step 5 4096 64 512 4 m0 [] (OSetReserve 65) 0 _ m0_reach).
    vm_compute; split; congruence. reflexivity.
  - vm_compute. reflexivity.
  - eexists. split. vm_compute. reflexivity. vm_compute. reflexivity.
Qed.
Print Assumptions mem_longest_free_below_reserve_refuted.

(* C06 ---------------------------------------------------------------- *)
(* A rejected free is not harmless: free of an interior pointer returns 0, but
   the next allocation overlaps a live block. *)
Theorem mem_bad_free_harmless_refuted : exists m led p m1 q m2,
  Reach 5 4096 64 512 4 m led /\
  ~ In p (map fst led) /\ mfree 5 m p = Ok (0, m1) /\
  allocate 5 m1 2 = Ok (q, m2) /\ q <> 0 /\
  exists b, In b led /\ ~ disjoint 5 (q, 2) b.
Proof.
  destruct (step 5 m0 (OAlloc 4)) as [[out m]| |] eqn:E; try (vm_compute in E; discriminate).
  assert (HR : Reach 5 4096 64 512 4 m (led_step 5 [] (OAlloc 4) out)).
  { eapply reach_step; [exact m0_reach| |exact E]. vm_compute; split; congruence. }
  vm_compute in E. injection E as <- <-.
  eexists _, _, 4100, _, _, _. split; [exact HR|].
  split. { vm_compute. intuition congruence. }
  split. { vm_compute. reflexivity. }
  split. { vm_compute. reflexivity. }
  split. { congruence. }
  exists (4096, 4). split. { vm_compute. auto. }
  unfold disjoint. vm_compute. intros [H|H]; apply H; reflexivity.
Qed.
Print Assumptions mem_bad_free_harmless_refuted.
