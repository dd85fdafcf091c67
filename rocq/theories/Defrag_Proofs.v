(* Proofs about the defragmentable memory. *)
From Coq Require Import Permutation.
From Verif Require Import Base Value_Model Heap_Model Value_Proofs Value_Proofs2 Heap_Spec Heap_Proofs List_Proofs Env_Proofs
  Defrag_Model Defrag_Spec.
Local Open Scope Z_scope.

(* ---- words ---- *)

Lemma rd_mid {T} (l1 : list T) x l2 i : i = Z.of_nat (length l1) -> rd (l1 ++ x :: l2) i = Ok x.
Proof.
  intros ->. apply rd_nth; [lia|]. rewrite Nat2Z.id, nth_error_app2, Nat.sub_diag by lia. reflexivity.
Qed.

Lemma wr_mid {T} (l1 : list T) x l2 i y : i = Z.of_nat (length l1) -> wr (l1 ++ x :: l2) i y = Ok (l1 ++ y :: l2).
Proof.
  intros ->. rewrite wr_ok by (rewrite app_length; cbn [length]; lia).
  rewrite Nat2Z.id, upd_mid. reflexivity.
Qed.

Lemma load_mid l1 mid l2 i n : i = Z.of_nat (length l1) -> n = length mid -> load (l1 ++ mid ++ l2) i n = Ok mid.
Proof.
  revert l1 i n. induction mid as [|x mid IH]; intros l1 i n -> ->; [reflexivity|]. cbn [length load].
  change ((x :: mid) ++ l2) with (x :: mid ++ l2). rewrite rd_mid by auto. cbn [bind].
  replace (l1 ++ x :: mid ++ l2) with ((l1 ++ [x]) ++ mid ++ l2) by (rewrite <- app_assoc; reflexivity).
  rewrite IH by (auto; rewrite app_length; cbn [length]; lia). reflexivity.
Qed.

Lemma store_mid l1 mid l2 i xs : i = Z.of_nat (length l1) -> length xs = length mid ->
  store (l1 ++ mid ++ l2) i xs = Ok (l1 ++ xs ++ l2).
Proof.
  revert l1 i mid. induction xs as [|x xs IH]; intros l1 i [|y mid] -> L; try discriminate; [reflexivity|].
  cbn [store]. change ((y :: mid) ++ l2) with (y :: mid ++ l2). rewrite wr_mid by auto. cbn [bind].
  replace (l1 ++ x :: mid ++ l2) with ((l1 ++ [x]) ++ mid ++ l2) by (rewrite <- app_assoc; reflexivity).
  rewrite IH by (auto; rewrite ?app_length; cbn [length] in *; lia). rewrite <- app_assoc. reflexivity.
Qed.

Lemma clear_mid l1 mid l2 i n : i = Z.of_nat (length l1) -> n = Z.of_nat (length mid) ->
  clear (l1 ++ mid ++ l2) i n = Ok (l1 ++ repeat 0 (length mid) ++ l2).
Proof. intros -> ->. unfold clear. rewrite Nat2Z.id. apply store_mid; auto. rewrite repeat_length. auto. Qed.

Section Arch.
Context {A : Arch}.

Lemma WB_pos : 0 < WB. Proof. arch; reflexivity. Qed.
Lemma W_pos : 2 ^ W > 16. Proof. arch; reflexivity. Qed.

Lemma bs2ws_words b : 0 <= b -> bs2ws b = words_for b.
Proof.
  intros H. unfold bs2ws, words_for. pose proof WB_pos as P.
  assert (WB <> 0) as NZ by lia. pose proof (Z.div_mod b WB NZ) as D. pose proof (Z.mod_pos_bound b WB P) as B.
  destruct (Z.eqb_spec (b mod WB) 0) as [E|E].
  - rewrite E in D. replace (b + WB - 1) with ((b / WB) * WB + (WB - 1)) by lia.
    rewrite Z.div_add_l by lia. rewrite (Z.div_small (WB - 1)) by lia. lia.
  - replace (b + WB - 1) with ((b / WB + 1) * WB + (b mod WB - 1)) by lia.
    rewrite Z.div_add_l by lia. rewrite (Z.div_small (b mod WB - 1)) by lia. lia.
Qed.

Lemma bs2ws_range b : 0 <= b -> 0 <= bs2ws b <= b /\ (0 < b -> 0 < bs2ws b).
Proof.
  intros H. pose proof WB_pos as P. unfold bs2ws.
  assert (WB <> 0) as NZ by lia. pose proof (Z.div_mod b WB NZ) as D. pose proof (Z.mod_pos_bound b WB P) as B.
  assert (0 <= b / WB) by (apply Z.div_pos; lia).
  destruct (Z.eqb_spec (b mod WB) 0) as [E|E]; nia.
Qed.

Lemma bs2ws_mult k : 0 <= k -> bs2ws (WB * k) = k.
Proof.
  intros H. pose proof WB_pos. unfold bs2ws. rewrite Z.mul_comm, Z.mod_mul, Z.div_mul by lia. reflexivity.
Qed.

Lemma bs2ws_mono a b : 0 <= a <= b -> bs2ws a <= bs2ws b.
Proof.
  intros H. rewrite !bs2ws_words by lia. unfold words_for. pose proof WB_pos. apply Z.div_le_mono; lia.
Qed.

Lemma bs2ws_small b : 0 <= b < 2 ^ W -> bs2ws b + 3 < 2 ^ W.
Proof.
  intros H. assert (bs2ws b <= bs2ws (2 ^ W - 1)) as M by (apply bs2ws_mono; lia).
  assert (bs2ws (2 ^ W - 1) + 3 < 2 ^ W) by (arch; reflexivity). lia.
Qed.

(* ---- the layout ---- *)

(* a live block: unused words before it, and its array *)
Notation blk := (prod nat arr).

Definition hdr (base o : Z) (a : arr) : list Z := [a_bytes a; base + WB * (o + 3); enc_cons_ptr (a_cell a)].
Definition body (base o : Z) (a : arr) : list Z := hdr base o a ++ a_data a.

Fixpoint lay (base o : Z) (bs : list blk) (tail : nat) : list Z :=
  match bs with
  | [] => repeat 0 tail
  | (g, a) :: t => repeat 0 g ++ body base (o + Z.of_nat g) a ++ lay base (o + Z.of_nat g + extent a) t tail
  end.

(* the position after the blocks *)
Fixpoint after (o : Z) (bs : list blk) : Z :=
  match bs with
  | [] => o
  | (g, a) :: t => after (o + Z.of_nat g + extent a) t
  end.

Fixpoint gaps (bs : list blk) : nat :=
  match bs with [] => O | (g, _) :: t => (g + gaps t)%nat end.

Lemma body_length base o a : Z.of_nat (length (body base o a)) = extent a.
Proof. unfold body, hdr, extent. cbn [app length]. lia. Qed.

Lemma extent_pos a : 3 <= extent a. Proof. unfold extent. lia. Qed.

Lemma lay_length base o bs tail :
  Z.of_nat (length (lay base o bs tail)) = after o bs - o + Z.of_nat tail.
Proof.
  revert o. induction bs as [|[g a] t IH]; intros o; cbn [lay after].
  - rewrite repeat_length. lia.
  - rewrite !app_length, repeat_length. rewrite !Nat2Z.inj_add, body_length, IH. lia.
Qed.

Lemma after_sum o bs : after o bs = o + Z.of_nat (gaps bs) + taken (map snd bs).
Proof.
  revert o. induction bs as [|[g a] t IH]; intros o; cbn [after gaps map snd taken fold_right]; [lia|].
  rewrite IH. unfold taken. lia.
Qed.

Lemma lay_app base o bs1 bs2 tail :
  lay base o (bs1 ++ bs2) tail = lay base o bs1 0 ++ lay base (after o bs1) bs2 tail.
Proof.
  revert o. induction bs1 as [|[g a] t IH]; intros o; cbn [lay after app].
  - reflexivity.
  - rewrite IH. rewrite <- !app_assoc. reflexivity.
Qed.

Lemma after_app o bs1 bs2 : after o (bs1 ++ bs2) = after (after o bs1) bs2.
Proof. revert o. induction bs1 as [|[g a] t IH]; intros o; cbn [after app]; auto. Qed.

Lemma after_ge o bs : o <= after o bs.
Proof.
  revert o. induction bs as [|[g a] t IH]; intros o; cbn [after]; [lia|].
  specialize (IH (o + Z.of_nat g + extent a)). pose proof (extent_pos a). lia.
Qed.

Definition arr_ok (a : arr) : Prop :=
  0 < a_bytes a < 2 ^ W /\ Z.of_nat (length (a_data a)) = bs2ws (a_bytes a) /\ 0 <= a_cell a < 2 ^ (W - 8).

(* every array's cell points at it *)
Fixpoint linked (h : heap) (base o : Z) (bs : list blk) : Prop :=
  match bs with
  | [] => True
  | (g, a) :: t =>
    (exists q, cell h (a_cell a) = Some (base + WB * (o + Z.of_nat g), q) /\ (q = DEFRAG_ARRAY \/ q = set_gc_mark DEFRAG_ARRAY)) /\
    linked h base (o + Z.of_nat g + extent a) t
  end.

Definition cells_of (bs : list blk) : list Z := map (fun b => a_cell (snd b)) bs.

Record inv (d : dm) (h : heap) (bs : list blk) (tail : nat) (fl : list Z) : Prop := {
  i_words : d_words d = lay (d_base d) 0 bs tail;
  i_arr : Forall (fun b => arr_ok (snd b)) bs;
  i_nodup : NoDup (cells_of bs);
  i_linked : linked h (d_base d) 0 bs;
  i_heap : heap_ok h fl;
  i_used : forall c, In c (cells_of bs) -> ~ In c fl;
  i_placed : placed d
}.

Lemma inv_size d h bs tail fl : inv d h bs tail fl -> d_size d = after 0 bs + Z.of_nat tail.
Proof. intros I. unfold d_size. rewrite (i_words _ _ _ _ _ I), lay_length. lia. Qed.

Lemma linked_frame h h' base o bs : linked h base o bs ->
  (forall c, In c (cells_of bs) -> cell h' c = cell h c) -> linked h' base o bs.
Proof.
  revert o. induction bs as [|[g a] t IH]; intros o L F; cbn [linked] in *; auto.
  destruct L as [(q&C&Q) L]. split.
  - exists q. split; auto. rewrite F; auto. left; reflexivity.
  - apply IH; auto. intros; apply F; right; auto.
Qed.

Lemma linked_app h base o bs1 bs2 : linked h base o (bs1 ++ bs2) <-> linked h base o bs1 /\ linked h base (after o bs1) bs2.
Proof.
  revert o. induction bs1 as [|[g a] t IH]; intros o; cbn [linked app after]; [tauto|]. rewrite IH. tauto.
Qed.

Lemma cells_app bs1 bs2 : cells_of (bs1 ++ bs2) = cells_of bs1 ++ cells_of bs2.
Proof. apply map_app. Qed.

Lemma addr_ok d i : placed d -> 0 <= i < d_size d -> addr d i = d_base d + WB * i.
Proof.
  intros [P1 P2] H. pose proof WB_pos. unfold addr. apply wrap_small. nia.
Qed.

Lemma size_small d : placed d -> 2 * d_size d <= 2 ^ W /\ WB * d_size d <= 2 ^ W.
Proof.
  intros [P1 P2]. assert (0 <= d_size d) by (unfold d_size; lia). assert (4 <= WB) by (arch; discriminate). nia.
Qed.

(* ---- the search ---- *)

Lemma search_zeros fuel ws i s f g l1 l2 n : ws = l1 ++ repeat 0 g ++ l2 -> i = Z.of_nat (length l1) ->
  f + Z.of_nat g < n ->
  search (g + fuel) ws i (Some (s, f)) n = search fuel ws (i + Z.of_nat g) (Some (s, f + Z.of_nat g)) n.
Proof.
  revert i f l1. induction g as [|g IH]; intros i f l1 E I F.
  - cbn [Nat.add]. rewrite !Z.add_0_r. reflexivity.
  - cbn [Nat.add search].
    destruct (Z.ltb_spec i (Z.of_nat (length ws))) as [L|L]; [|exfalso; subst; rewrite !app_length, repeat_length in L; lia].
    rewrite E at 1. cbn [repeat app]. rewrite rd_mid by auto. cbn [bind Z.eqb].
    destruct (Z.geb_spec (f + 1) n); [lia|].
    rewrite (IH (i + 1) (f + 1) (l1 ++ [0])).
    + f_equal; [lia|]. f_equal. f_equal. lia.
    + rewrite E. cbn [repeat app]. rewrite <- app_assoc. reflexivity.
    + rewrite app_length. cbn [length]. lia.
    + lia.
Qed.

Lemma search_found fuel ws i s f g l1 l2 n : ws = l1 ++ repeat 0 g ++ l2 -> i = Z.of_nat (length l1) ->
  1 <= f -> f < n -> n <= f + Z.of_nat g -> (g <= fuel)%nat ->
  search fuel ws i (Some (s, f)) n = Ok (Some s).
Proof.
  revert fuel i f l1. induction g as [|g IH]; intros fuel i f l1 E I F1 F2 F3 Fu; [lia|].
  destruct fuel as [|fuel]; [lia|]. cbn [search].
  destruct (Z.ltb_spec i (Z.of_nat (length ws))) as [L|L]; [|exfalso; subst; rewrite !app_length, repeat_length in L; lia].
  rewrite E at 1. cbn [repeat app]. rewrite rd_mid by auto. cbn [bind Z.eqb].
  destruct (Z.geb_spec (f + 1) n) as [G|G]; auto.
  apply (IH _ _ _ (l1 ++ [0])); try lia.
  - rewrite E. cbn [repeat app]. rewrite <- app_assoc. reflexivity.
  - rewrite app_length. cbn [length]. lia.
Qed.

Lemma search_end fuel ws i st n : Z.of_nat (length ws) <= i -> search fuel ws i st n = Ok None.
Proof. intros L. destruct fuel; cbn [search]; destruct (Z.ltb_spec i (Z.of_nat (length ws))); try lia; reflexivity. Qed.

(* the first hole, if it is big enough; later holes are not looked at *)
Fixpoint first_hole (o : Z) (bs : list blk) (tail : nat) : Z * nat :=
  match bs with
  | [] => (o, tail)
  | (O, a) :: t => first_hole (o + extent a) t tail
  | (g, a) :: t => (o, g)
  end.

Lemma search_hole base fuel l1 g rest n next :
  (1 <= g)%nat -> 4 <= n -> (g + 2 <= fuel)%nat ->
  let ws := l1 ++ repeat 0 g ++ rest in
  (rest = [] \/ exists x p r, rest = x :: p :: r /\ x <> 0 /\ p = base /\ p <> 0 /\
     Z.of_nat (length ws) <= wrap W (next + 1 + wrap W (bs2ws p + 3)) /\ next = Z.of_nat (length l1 + g)) ->
  search fuel ws (Z.of_nat (length l1)) None n = Ok (if n <=? Z.of_nat g then Some (Z.of_nat (length l1)) else None).
Proof.
  intros G N Fu ws R. destruct fuel as [|fuel]; [lia|]. cbn [search].
  assert (ws = l1 ++ 0 :: repeat 0 (g - 1) ++ rest) as E.
  { unfold ws. destruct g; [lia|]. cbn [repeat app Nat.sub]. rewrite Nat.sub_0_r. reflexivity. }
  assert (ws = (l1 ++ [0]) ++ repeat 0 (g - 1) ++ rest) as E2 by (rewrite E, <- app_assoc; reflexivity).
  assert (length ws = (length l1 + g + length rest)%nat) as LW.
  { unfold ws. rewrite !app_length, repeat_length. lia. }
  destruct (Z.ltb_spec (Z.of_nat (length l1)) (Z.of_nat (length ws))) as [L|L]; [|lia].
  rewrite E at 1. rewrite rd_mid by auto. cbn [bind Z.eqb].
  destruct (Z.leb_spec n (Z.of_nat g)) as [C|C].
  - apply (search_found _ _ _ _ _ (g - 1) (l1 ++ [0]) rest); auto; try lia.
    rewrite app_length. cbn [length]. lia.
  - replace fuel with ((g - 1) + (fuel - (g - 1)))%nat by lia.
    rewrite (search_zeros _ _ _ _ _ (g - 1) (l1 ++ [0]) rest); auto; try lia.
    2: rewrite app_length; cbn [length]; lia.
    destruct R as [->|(x&p&r&->&X&Pb&P0&J&Nx)].
    + apply search_end. rewrite LW. cbn [length]. lia.
    + replace (fuel - (g - 1))%nat with (S (S (fuel - (g - 1) - 2))) by lia.
      set (fu := (fuel - (g - 1) - 2)%nat). cbn [search].
      cbn [length] in LW.
      destruct (Z.ltb_spec (Z.of_nat (length l1) + 1 + Z.of_nat (g - 1)) (Z.of_nat (length ws))); [|lia].
      rewrite E2 at 1. rewrite app_assoc. rewrite rd_mid.
      2: rewrite !app_length, repeat_length; cbn [length]; lia.
      cbn [bind]. destruct (Z.eqb_spec x 0); [congruence|].
      destruct (Z.ltb_spec (Z.of_nat (length l1) + 1 + Z.of_nat (g - 1) + 1) (Z.of_nat (length ws))) as [L2|L2]; auto.
      rewrite E2 at 1. rewrite app_assoc.
      replace (((l1 ++ [0]) ++ repeat 0 (g - 1)) ++ x :: p :: r) with ((((l1 ++ [0]) ++ repeat 0 (g - 1)) ++ [x]) ++ p :: r)
        by (rewrite <- app_assoc; reflexivity).
      rewrite rd_mid. 2: rewrite !app_length, repeat_length; cbn [length]; lia.
      cbn [bind]. destruct (Z.eqb_spec p 0); [congruence|]. apply search_end.
      replace (Z.of_nat (length l1) + 1 + Z.of_nat (g - 1) + 1) with (next + 1) by lia. exact J.
Qed.

Lemma wrap_add a b : 0 <= a -> 0 <= b -> a + b < 2 ^ W -> wrap W (a + b) = a + b.
Proof. intros. apply wrap_small. lia. Qed.

(* the search finds the first hole if it is big enough *)
Lemma search_ok base l1 bs tail n fuel : Forall (fun b => arr_ok (snd b)) bs -> 4 <= n ->
  let o := Z.of_nat (length l1) in
  let ws := l1 ++ lay base o bs tail in
  let sz := Z.of_nat (length ws) in
  WB * sz <= base -> base + WB * sz <= 2 ^ W -> (length (lay base o bs tail) + 2 <= fuel)%nat ->
  search fuel ws o None n =
    Ok (let '(s, g) := first_hole o bs tail in if n <=? Z.of_nat g then Some s else None).
Proof.
  revert l1 fuel. induction bs as [|[g a] t IH]; intros l1 fuel AO N o ws sz B1 B2 Fu.
  - cbn [first_hole]. cbn [lay] in *. destruct tail as [|tail].
    + rewrite search_end; [|unfold ws, o; rewrite app_length; cbn [repeat length]; lia].
      destruct (Z.leb_spec n (Z.of_nat 0)); [lia|]. reflexivity.
    + assert (ws = l1 ++ repeat 0 (S tail) ++ []) as -> by (unfold ws; rewrite app_nil_r; reflexivity).
      apply (search_hole 0 fuel l1 (S tail) [] n 0); auto; try lia.
      rewrite repeat_length in Fu. lia.
  - inversion AO as [|? ? (AB&AL&AC) AT]; subst. cbn [snd] in *.
    assert (0 < WB) as PB by apply WB_pos.
    assert (LB : Z.of_nat (length (body base (o + Z.of_nat g) a)) = extent a) by apply body_length.
    assert (sz = o + Z.of_nat g + extent a + Z.of_nat (length (lay base (o + Z.of_nat g + extent a) t tail))) as SZ.
    { unfold sz, ws, o. cbn [lay]. rewrite !app_length, repeat_length. rewrite !Nat2Z.inj_add, body_length. lia. }
    pose proof (extent_pos a). assert (2 * sz <= 2 ^ W) by nia.
    destruct g as [|g].
    + cbn [first_hole]. assert (o = Z.of_nat (length l1)) as EO by reflexivity.
      assert (EW : ws = l1 ++ body base o a ++ lay base (o + extent a) t tail).
      { unfold ws. cbn [lay repeat app]. change (Z.of_nat 0) with 0. rewrite Z.add_0_r. reflexivity. }
      assert (LB' : Z.of_nat (length (body base o a)) = extent a) by apply body_length.
      assert (SZ' : sz = o + extent a + Z.of_nat (length (lay base (o + extent a) t tail))).
      { unfold sz. rewrite EW. rewrite !app_length. lia. }
      destruct fuel as [|fuel]; [lia|]. cbn [search]. change (Z.of_nat (length ws)) with sz.
      destruct (Z.ltb_spec o sz); [|lia].
      rewrite EW at 1. unfold body at 1. cbn [hdr app]. rewrite rd_mid by auto. cbn [bind].
      destruct (Z.eqb_spec (a_bytes a) 0); [lia|].
      assert (bs2ws (a_bytes a) + 3 = extent a) as EX by (unfold extent; lia).
      rewrite EX, (wrap_small W (extent a)) by lia. rewrite wrap_add by lia.
      specialize (IH (l1 ++ body base o a) fuel AT N). cbv zeta in IH.
      assert (Z.of_nat (length (l1 ++ body base o a)) = o + extent a) as LO by (rewrite app_length; lia).
      rewrite !LO in IH. rewrite <- app_assoc in IH. rewrite <- EW in IH. rewrite IH; auto.
      unfold sz in SZ'. rewrite EW in SZ'. rewrite !app_length in SZ'.
      cbn [lay repeat app] in Fu. change (Z.of_nat 0) with 0 in Fu. rewrite Z.add_0_r, app_length in Fu. lia.
    + cbn [first_hole]. cbn [lay] in *.
      apply (search_hole (base + WB * (o + Z.of_nat (S g) + 3)) fuel l1 (S g) _ n (o + Z.of_nat (S g))); auto; try lia.
      { rewrite !app_length, repeat_length in Fu. pose proof (extent_pos a). lia. }
      right. unfold body at 1. cbn [hdr app].
      exists (a_bytes a), (base + WB * (o + Z.of_nat (S g) + 3)). eexists. split; [reflexivity|].
      split; [lia|]. split; [reflexivity|]. split; [nia|]. split; [|unfold o; lia].
      fold ws. fold sz.
      set (p := base + WB * (o + Z.of_nat (S g) + 3)).
      assert (p <= 2 ^ W) by (unfold p; nia).
      assert (bs2ws p <= bs2ws (2 ^ W)) as M by (apply bs2ws_mono; unfold p in *; nia).
      assert (bs2ws (2 ^ W) <= 2 ^ W / 4) as M2 by (arch; discriminate).
      assert (sz <= bs2ws p) as M3.
      { rewrite <- (bs2ws_mult sz) by lia. apply bs2ws_mono. unfold p. nia. }
      assert (4 <= WB) by (arch; discriminate). assert (4 * sz <= 2 ^ W) by nia.
      assert (2 ^ W / 4 + 3 < 2 ^ W /\ sz <= 2 ^ W / 4 /\ 2 ^ W / 4 + 2 ^ W / 4 + 8 < 2 ^ W) as (M4&M5&M6).
      { split; [arch; reflexivity|]. split; [apply Z.div_le_lower_bound; lia|arch; reflexivity]. }
      rewrite (wrap_small W (bs2ws p + 3)) by lia. rewrite wrap_small by lia. lia.
Qed.

(* ---- [k] more unused words in front ---- *)

Definition widen_b (k : nat) (bs : list blk) : list blk :=
  match bs with [] => [] | (g, a) :: t => ((k + g)%nat, a) :: t end.
Definition widen_t (k : nat) (bs : list blk) (tail : nat) : nat :=
  match bs with [] => (k + tail)%nat | _ => tail end.

Lemma lay_widen base o k bs tail :
  lay base o (widen_b k bs) (widen_t k bs tail) = repeat 0 k ++ lay base (o + Z.of_nat k) bs tail.
Proof.
  destruct bs as [|[g a] t]; cbn [widen_b widen_t lay].
  - apply repeat_app.
  - rewrite repeat_app, <- app_assoc. rewrite Nat2Z.inj_add, Z.add_assoc. reflexivity.
Qed.

Lemma linked_widen h base o k bs : linked h base o (widen_b k bs) <-> linked h base (o + Z.of_nat k) bs.
Proof.
  destruct bs as [|[g a] t]; cbn [widen_b linked]; [tauto|]. rewrite Nat2Z.inj_add, Z.add_assoc. reflexivity.
Qed.

Lemma arrs_widen k bs : map snd (widen_b k bs) = map snd bs.
Proof. destruct bs as [|[g a] t]; reflexivity. Qed.
Lemma cells_widen k bs : cells_of (widen_b k bs) = cells_of bs.
Proof. destruct bs as [|[g a] t]; reflexivity. Qed.
Lemma ok_widen k bs : Forall (fun b : blk => arr_ok (snd b)) (widen_b k bs) <-> Forall (fun b : blk => arr_ok (snd b)) bs.
Proof. destruct bs as [|[g a] t]; cbn [widen_b]; [tauto|]. rewrite !Forall_cons_iff. reflexivity. Qed.
Lemma gaps_app bs1 bs2 : gaps (bs1 ++ bs2) = (gaps bs1 + gaps bs2)%nat.
Proof. induction bs1 as [|[g a] t IH]; cbn [gaps app]; auto. rewrite IH. lia. Qed.
Lemma gaps_widen k bs tail : (gaps (widen_b k bs) + widen_t k bs tail = k + (gaps bs + tail))%nat.
Proof. destruct bs as [|[g a] t]; cbn [widen_b widen_t gaps]; lia. Qed.

Lemma first_hole_split o bs tail s g : first_hole o bs tail = (s, g) ->
  exists ps r t0, bs = ps ++ r /\ gaps ps = O /\ s = after o ps /\
    ((1 <= g)%nat -> forall n, (n <= g)%nat -> exists r0 t1, r = widen_b n r0 /\ tail = widen_t n r0 t1) /\ t0 = tail.
Proof.
  revert o. induction bs as [|[k a] t IH]; intros o E; cbn [first_hole] in E.
  - injection E as <- <-. exists [], [], tail. repeat split; auto. intros _ n N. exists [], (tail - n)%nat.
    cbn [widen_b widen_t]. split; auto. lia.
  - destruct k as [|k].
    + destruct (IH _ E) as (ps&r&t0&->&G&S&H&T). exists ((O, a) :: ps), r, t0.
      cbn [gaps after app]. repeat split; auto. change (Z.of_nat 0) with 0. rewrite Z.add_0_r. auto.
    + injection E as <- <-. exists [], ((S k, a) :: t), tail. repeat split; auto. intros _ n N.
      exists (((S k - n)%nat, a) :: t), tail. cbn [widen_b widen_t]. split; auto. do 2 f_equal. lia.
Qed.

Lemma first_hole_packed o ps r tail : gaps ps = O -> first_hole o (ps ++ r) tail = first_hole (after o ps) r tail.
Proof.
  revert o. induction ps as [|[k a] t IH]; intros o G; cbn [gaps after app] in *; auto.
  assert (k = O) as -> by lia. cbn [first_hole]. rewrite IH by lia. change (Z.of_nat 0) with 0. rewrite Z.add_0_r. reflexivity.
Qed.

(* ---- allocation ---- *)

Lemma set_cc_enc h i a d x y : 0 <= i < 2 ^ (W - 8) -> cell h i = Some (a, d) ->
  set_car_and_cdr h (enc_cons_ptr i) x y = Ok (hput h i (x, y), true).
Proof.
  intros R C. unfold set_car_and_cdr. rewrite enc_rw, (ref_enc h i _ R C) by auto. cbn [bind].
  rewrite (put_enc h i _ _ R C). reflexivity.
Qed.

Lemma heap_ok_hput h fl i c : heap_ok h fl -> ~ In i fl -> 0 <= i -> heap_ok (hput h i c) fl.
Proof.
  intros [S C N K] NI R. constructor; auto; rewrite ?hput_size; auto. apply chain_put; auto.
Qed.

Lemma linked_hput h base o bs i c : linked h base o bs -> ~ In i (cells_of bs) -> 0 <= i -> linked (hput h i c) base o bs.
Proof.
  intros L N R. eapply linked_frame; eauto. intros j J. apply cell_hput_neq; auto. intros ->; auto.
Qed.

Lemma MERROR_enc i : 0 <= i < 2 ^ (W - 8) -> (enc_cons_ptr i =? MERROR) = false.
Proof.
  intros R. apply Z.eqb_neq. intros E. pose proof MERROR_not_ptr as M. rewrite <- E in M.
  pose proof (enc_rw i R) as E2. apply rw_is_cons in E2; [|apply enc_word; auto]. apply cons_is_ptr in E2. congruence.
Qed.

Lemma cells_in_heap h base o bs c : linked h base o bs -> In c (cells_of bs) -> exists x, cell h c = Some x.
Proof.
  revert o. induction bs as [|[g a] t IH]; intros o L I; cbn [linked cells_of map In snd] in *; [tauto|].
  destruct L as [(q&C&_) L]. destruct I as [<-|I]; eauto.
Qed.

Lemma alloc_internal_ok d h bs tail fl bytes i : inv d h bs tail (i :: fl) -> 0 < bytes < 2 ^ W ->
  let n := bs2ws bytes + 3 in
  let '(s, g) := first_hole 0 bs tail in
  exists d' h' v, alloc_internal d h bytes = Ok (d', h', v) /\ d_base d' = d_base d /\
    (forall c, ~ In c (i :: cells_of bs) -> cell h' c = cell h c) /\ hsize h' = hsize h /\
    if n <=? Z.of_nat g then
      v = set_ptr_type (enc_cons_ptr i) TYPE_ARRAY /\ d_flags d' = d_flags d /\
      exists ps r t0, bs = ps ++ widen_b (Z.to_nat n) r /\ tail = widen_t (Z.to_nat n) r t0 /\
        inv d' h' (ps ++ (O, mkArr i bytes (repeat 0 (Z.to_nat (words_for bytes)))) :: r) t0 fl
    else v = MERROR /\ d_words d' = d_words d /\ d_flags d' = 1 /\ inv d' h' bs tail fl.
Proof.
  intros I B n. destruct (first_hole 0 bs tail) as [s g] eqn:FH.
  destruct (cons_ok h i fl NIL DEFRAG_ARRAY (i_heap _ _ _ _ _ I)) as (h1&E&OK1&C1&SB&HS&_&_&_&R).
  unfold alloc_internal. destruct (Z.eqb_spec bytes 0); [lia|]. unfold cons in E. rewrite E. cbn [bind].
  rewrite MERROR_enc by auto. destruct (bs2ws_range bytes ltac:(lia)) as [BR BP].
  pose proof (bs2ws_small bytes ltac:(lia)) as BS. rewrite (wrap_small W (bs2ws bytes + 3)) by lia. fold n.
  pose proof (i_placed _ _ _ _ _ I) as PL. pose proof PL as [P1 P2].
  assert (NI : ~ In i (cells_of bs)) by (intros J; apply (i_used _ _ _ _ _ I i J); left; auto).
  assert (N2 : ~ In i fl).
  { pose proof (ok_nodup _ _ (i_heap _ _ _ _ _ I)) as ND. inversion ND; auto. }
  assert (L1 : linked h1 (d_base d) 0 bs).
  { eapply linked_frame; [apply (i_linked _ _ _ _ _ I)|]. intros c J. apply SB. intros [<-|[]]; auto. }
  assert (U1 : forall c, In c (cells_of bs) -> ~ In c fl).
  { intros c J K. apply (i_used _ _ _ _ _ I c J). right; auto. }
  pose proof (search_ok (d_base d) [] bs tail n (length (d_words d) + 2) (i_arr _ _ _ _ _ I) ltac:(lia)) as SE.
  cbv zeta in SE. cbn [app length] in SE. change (Z.of_nat 0) with 0 in SE.
  rewrite <- (i_words _ _ _ _ _ I) in SE. fold (d_size d) in SE. specialize (SE P1 P2 ltac:(lia)).
  rewrite FH in SE. rewrite SE. cbn [bind]. destruct (Z.leb_spec n (Z.of_nat g)) as [C|C].
  - destruct (first_hole_split _ _ _ _ _ FH) as (ps&r'&t1&Eb&G&Es&Hr&_).
    destruct (Hr ltac:(lia) (Z.to_nat n) ltac:(lia)) as (r&t0&->&Et). clear Hr t1.
    set (new := mkArr i bytes (repeat 0 (Z.to_nat (words_for bytes)))).
    assert (EX : extent new = n).
    { unfold extent, new. cbn [a_data]. rewrite repeat_length, <- bs2ws_words by lia. lia. }
    assert (Wd : d_words d = lay (d_base d) 0 ps 0 ++ repeat 0 (Z.to_nat n) ++ lay (d_base d) (s + n) r t0).
    { rewrite (i_words _ _ _ _ _ I), Eb, lay_app, Et, lay_widen, <- Es, Z2Nat.id by lia. reflexivity. }
    assert (Ls : s = Z.of_nat (length (lay (d_base d) 0 ps 0))) by (rewrite lay_length, <- Es; lia).
    assert (Sz : s + n <= d_size d /\ 0 <= s).
    { unfold d_size. rewrite Wd, !app_length, repeat_length. split; lia. }
    assert (EZ : repeat 0 (Z.to_nat n) = 0 :: 0 :: 0 :: a_data new).
    { unfold new. cbn [a_data]. rewrite <- bs2ws_words by lia. replace (Z.to_nat n) with (3 + Z.to_nat (bs2ws bytes))%nat by lia.
      reflexivity. }
    rewrite Wd, EZ. set (L := lay (d_base d) 0 ps 0) in *. set (R' := lay (d_base d) (s + n) r t0) in *.
    cbn [app]. rewrite wr_mid by auto. cbn [bind].
    replace (L ++ bytes :: 0 :: 0 :: a_data new ++ R') with ((L ++ [bytes]) ++ 0 :: 0 :: a_data new ++ R')
      by (rewrite <- app_assoc; reflexivity).
    rewrite wr_mid by (rewrite app_length; cbn [length]; lia). cbn [bind].
    rewrite addr_ok by (auto; lia). set (dp := d_base d + WB * (s + 3)).
    replace ((L ++ [bytes]) ++ dp :: 0 :: a_data new ++ R') with ((L ++ [bytes; dp]) ++ 0 :: a_data new ++ R')
      by (rewrite <- !app_assoc; reflexivity).
    rewrite wr_mid by (rewrite app_length; cbn [length]; lia). cbn [bind].
    rewrite addr_ok by (auto; lia).
    rewrite (set_car_enc h1 i _ _ _ R C1). cbn [bind].
    eexists _, _, _. split; [reflexivity|]. split; [reflexivity|].
    split; [|split; [rewrite hput_size; auto|split; [reflexivity|split; [reflexivity|]]]].
    { intros c NC. rewrite cell_hput_neq; [apply SB; intros [<-|[]]; apply NC; left; auto|lia|intros ->; apply NC; left; auto]. }
    exists ps, r, t0. split; auto. split; auto.
    rewrite Eb in *. rewrite cells_app, cells_widen in NI.
    pose proof (i_arr _ _ _ _ _ I) as AO. pose proof (i_nodup _ _ _ _ _ I) as ND.
    apply Forall_app in AO as [AO1 AO2]. apply ok_widen in AO2. rewrite cells_app, cells_widen in ND.
    apply linked_app in L1 as [La Lb]. apply linked_widen in Lb.
    constructor; auto.
    + cbn [set_words d_words d_base]. rewrite lay_app. cbn [lay repeat app].
      change (Z.of_nat 0) with 0. rewrite Z.add_0_r, <- Es, EX. unfold body, hdr. fold dp. fold L. fold R'.
      cbn [a_bytes a_cell new app]. rewrite <- !app_assoc. reflexivity.
    + apply Forall_app. split; auto. constructor; auto. cbn [snd]. unfold new, arr_ok. cbn [a_bytes a_data a_cell].
      split; [lia|]. split; [|lia]. rewrite repeat_length, <- bs2ws_words by lia. lia.
    + rewrite cells_app. cbn [cells_of map snd a_cell new]. apply NoDup_Add with (a := i) (l := cells_of ps ++ cells_of r); auto.
      apply Add_app.
    + cbn [set_words d_base]. apply linked_app. rewrite in_app_iff in NI. split; [apply linked_hput; auto; lia|].
      cbn [linked]. change (Z.of_nat 0) with 0. rewrite Z.add_0_r, <- Es, EX. split.
      * cbn [a_cell new]. eexists. split; [rewrite (cell_hput_eq _ _ _ _ C1); reflexivity|auto].
      * apply linked_hput; auto; try lia. rewrite <- Es, Z2Nat.id in Lb by lia. exact Lb.
    + apply heap_ok_hput; auto. lia.
    + intros c. rewrite cells_app. cbn [cells_of map snd a_cell new]. rewrite in_app_iff. intros [J|[<-|J]]; auto;
      apply U1; rewrite cells_app, cells_widen, in_app_iff; auto.
    + assert (LEN : d_size d = Z.of_nat (length ((L ++ [bytes; dp]) ++ enc_cons_ptr i :: a_data new ++ R'))).
      { unfold d_size. rewrite Wd, EZ, !app_length. cbn [app length]. rewrite ?app_length. lia. }
      unfold placed, set_words. unfold d_size at 1 2. cbn [d_base d_words]. rewrite <- LEN. exact PL.
  - rewrite (set_cc_enc h1 i _ _ _ _ R C1). cbn [bind].
    eexists _, _, _. split; [reflexivity|]. split; [reflexivity|].
    split; [|split; [rewrite hput_size; auto|split; [reflexivity|split; [reflexivity|split; [reflexivity|]]]]].
    { intros c NC. rewrite cell_hput_neq; [apply SB; intros [<-|[]]; apply NC; left; auto|lia|intros ->; apply NC; left; auto]. }
    destruct I as [I1 I2 I3 I4 I5 I6 I7]. constructor; auto.
    + apply linked_hput; auto; lia.
    + apply heap_ok_hput; auto; lia.
Qed.

Lemma alloc_internal_full d h bs tail bytes : inv d h bs tail [] -> 0 < bytes ->
  alloc_internal d h bytes = Ok (d, h, MERROR).
Proof.
  intros I B. unfold alloc_internal. destruct (Z.eqb_spec bytes 0); [lia|].
  pose proof (cons_fail h NIL DEFRAG_ARRAY (i_heap _ _ _ _ _ I)) as E. unfold cons in E. rewrite E. cbn [bind].
  rewrite Z.eqb_refl. reflexivity.
Qed.

(* ---- compaction ---- *)

Lemma defrag_zeros fuel d h i hs u g l1 l2 : d_words d = l1 ++ repeat 0 g ++ l2 -> i = Z.of_nat (length l1) ->
  defrag_loop (g + fuel) d h i hs u = defrag_loop fuel d h (i + Z.of_nat g) hs u.
Proof.
  revert i l1. induction g as [|g IH]; intros i l1 E I.
  - cbn [Nat.add]. rewrite Z.add_0_r. reflexivity.
  - cbn [Nat.add defrag_loop].
    destruct (Z.ltb_spec i (d_size d)) as [L|L].
    2: { exfalso. unfold d_size in L. rewrite E, !app_length, repeat_length in L. lia. }
    rewrite E at 1. cbn [repeat app]. rewrite rd_mid by auto. cbn [bind Z.eqb negb].
    rewrite (IH (i + 1) (l1 ++ [0])).
    + f_equal. lia.
    + rewrite E. cbn [repeat app]. rewrite <- app_assoc. reflexivity.
    + rewrite app_length. cbn [length]. lia.
Qed.

Lemma defrag_end fuel d h i hs u : d_size d <= i -> defrag_loop fuel d h i hs u = Ok (d, h).
Proof. intros L. destruct fuel; cbn [defrag_loop]; destruct (Z.ltb_spec i (d_size d)); try lia; reflexivity. Qed.

(* nothing unused before the last block, or the first hole is of [u] words *)
Definition packed (bs : list blk) (tail : nat) (u : Z) : Prop :=
  gaps bs = O \/ u <= Z.of_nat (snd (first_hole 0 bs tail)).

Lemma defrag_ok u rest : 4 <= u -> forall d h ps m tail fl fuel,
  inv d h (ps ++ widen_b m rest) (widen_t m rest tail) fl -> gaps ps = O ->
  Z.of_nat fuel >= d_size d - after 0 ps - Z.of_nat m ->
  exists d' h' bs' tail', defrag_loop fuel d h (after 0 ps + Z.of_nat m) (after 0 ps) u = Ok (d', h') /\
    inv d' h' bs' tail' fl /\ map snd bs' = map snd ps ++ map snd rest /\ d_base d' = d_base d /\ d_flags d' = d_flags d /\
    d_size d' = d_size d /\
    packed bs' tail' u /\ (forall c, ~ In c (cells_of bs') -> cell h' c = cell h c) /\ hsize h' = hsize h.
Proof.
  intros U. induction rest as [|[g a] t IH]; intros d h ps m tail fl fuel I G Fu.
  - pose proof (inv_size _ _ _ _ _ I) as SZ. cbn [widen_b widen_t] in *. rewrite app_nil_r in *.
    exists d, h, ps, (m + tail)%nat. split.
    + rewrite Nat2Z.inj_add in SZ. replace fuel with (tail + (fuel - tail))%nat by lia.
      rewrite (defrag_zeros _ _ _ _ _ _ tail (lay (d_base d) 0 ps 0 ++ repeat 0 m) []).
      * apply defrag_end. lia.
      * rewrite app_nil_r, (i_words _ _ _ _ _ I).
        rewrite <- (app_nil_r ps) at 1. rewrite lay_app. cbn [lay]. rewrite repeat_app, app_assoc. reflexivity.
      * rewrite app_length, repeat_length, Nat2Z.inj_add, lay_length. lia.
    + split; auto. split; [cbn [map]; rewrite ?app_nil_r; auto|]. repeat split; auto. left; auto.
  - set (o := after 0 ps) in *.
    pose proof (i_placed _ _ _ _ _ I) as PL. pose proof (inv_size _ _ _ _ _ I) as SZ.
    destruct (size_small d PL) as [SM _].
    pose proof (i_words _ _ _ _ _ I) as Wd. cbn [widen_b widen_t] in *.
    rewrite lay_app in Wd. cbn [lay] in Wd. fold o in Wd. rewrite Nat2Z.inj_add, Z.add_assoc in Wd.
    rewrite after_app in SZ. cbn [after] in SZ. fold o in SZ.
    pose proof (i_arr _ _ _ _ _ I) as AO. apply Forall_app in AO as [AO1 AO2]. inversion AO2 as [|? ? AA AT]; subst.
    cbn [snd] in AA. destruct AA as (AB&AL&AC).
    assert (EX : bs2ws (a_bytes a) + 3 = extent a) by (unfold extent; lia). pose proof (extent_pos a) as EP.
    assert (0 <= o) as O0 by apply after_ge.
    pose proof (after_ge (o + Z.of_nat (m + g) + extent a) t) as AG.
    set (p := o + Z.of_nat m + Z.of_nat g) in *.
    replace (o + Z.of_nat (m + g)) with p in * by (unfold p; lia).
    assert (Lo : o = Z.of_nat (length (lay (d_base d) 0 ps 0))) by (rewrite lay_length; fold o; lia).
    replace fuel with (g + S (fuel - g - 1))%nat by lia.
    rewrite (defrag_zeros _ _ _ _ _ _ g (lay (d_base d) 0 ps 0 ++ repeat 0 m)
              (body (d_base d) p a ++ lay (d_base d) (p + extent a) t tail)).
    2: { rewrite Wd, repeat_app, <- !app_assoc. reflexivity. }
    2: { rewrite app_length, repeat_length, Nat2Z.inj_add, <- Lo. lia. }
    fold p. remember (fuel - g - 1)%nat as fu eqn:EF. cbn [defrag_loop].
    destruct (Z.ltb_spec p (d_size d)); [|lia].
    assert (RH : rd (d_words d) p = Ok (a_bytes a)).
    { rewrite Wd, app_assoc. unfold body. cbn [hdr app]. apply rd_mid.
      rewrite app_length, repeat_length, Nat2Z.inj_add, <- Lo. unfold p. lia. }
    rewrite RH. cbn [bind]. destruct (Z.eqb_spec (a_bytes a) 0); [lia|]. cbn [negb].
    rewrite EX, (wrap_small W (extent a)), (wrap_add p (extent a)) by lia.
    destruct (Z.eqb_spec o p) as [OP|OP].
    + assert (m = O /\ g = O) as [-> ->] by (unfold p in OP; lia).
      destruct (IH d h (ps ++ [(O, a)]) O tail fl fu) as (d'&h'&bs'&tail'&E&I'&M&Rest).
      * cbn [Nat.add] in I. rewrite <- app_assoc. cbn [app].
        assert (widen_b 0 t = t) as -> by (destruct t as [|[]]; reflexivity).
        assert (widen_t 0 t tail = tail) as -> by (destruct t as [|[]]; reflexivity). exact I.
      * rewrite gaps_app. cbn [gaps]. lia.
      * rewrite after_app. cbn [after]. fold o. lia.
      * rewrite after_app in E. cbn [after] in E. fold o in E. change (Z.of_nat 0) with 0 in E. rewrite !Z.add_0_r in E.
        rewrite <- OP. exists d', h', bs', tail'. split; [exact E|]. split; auto. split; auto.
        rewrite M, map_app, <- app_assoc. reflexivity.
    + assert (1 <= Z.of_nat (m + g)) as MG by (unfold p in OP; lia).
      replace (p - o) with (Z.of_nat (m + g)) by (unfold p; lia).
      rewrite (wrap_small W (Z.of_nat (m + g))) by (unfold p in *; lia).
      destruct (Z.geb_spec (Z.of_nat (m + g)) u) as [C|C].
      * exists d, h, (ps ++ ((m + g)%nat, a) :: t), tail. split; auto. split; auto.
        split; [rewrite map_app; reflexivity|]. repeat split; auto.
        right. rewrite first_hole_packed by auto. cbn [first_hole].
        destruct (m + g)%nat eqn:MG2; [lia|]. cbn [snd]. lia.
      * rewrite (wrap_add o (extent a)) by (unfold p in *; lia).
        set (L := lay (d_base d) 0 ps 0) in *. set (R := lay (d_base d) (p + extent a) t tail) in *.
        set (B := body (d_base d) p a) in *.
        assert (LB : Z.of_nat (length B) = extent a) by apply body_length.
        assert (E1 : load (d_words d) p (Z.to_nat (extent a)) = Ok B).
        { rewrite Wd, app_assoc. apply load_mid; [|lia]. rewrite app_length, repeat_length, Nat2Z.inj_add, <- Lo. unfold p; lia. }
        rewrite E1. cbn [bind].
        assert (SP : exists X Y, repeat 0 (m + g) ++ B = X ++ Y /\ length X = length B /\ length Y = (m + g)%nat).
        { exists (firstn (length B) (repeat 0 (m + g) ++ B)), (skipn (length B) (repeat 0 (m + g) ++ B)).
          rewrite firstn_skipn, firstn_length, skipn_length, app_length, repeat_length. split; auto. lia. }
        destruct SP as (X&Y&SP&LX&LY).
        assert (E2 : store (d_words d) o B = Ok (L ++ B ++ Y ++ R)).
        { rewrite Wd. rewrite (app_assoc (repeat 0 (m + g)) B R), SP, <- app_assoc. apply store_mid; auto. }
        rewrite E2. cbn [bind].
        assert (E3 : clear (L ++ B ++ Y ++ R) (o + extent a) (Z.of_nat (m + g)) = Ok (L ++ B ++ repeat 0 (m + g) ++ R)).
        { rewrite !app_assoc, <- (app_assoc (L ++ B) Y R). rewrite clear_mid.
          - rewrite LY, <- !app_assoc. reflexivity.
          - rewrite app_length. lia.
          - lia. }
        rewrite E3. cbn [bind]. unfold B at 1, body, hdr. cbn [app].
        replace (L ++ a_bytes a :: d_base d + WB * (p + 3) :: enc_cons_ptr (a_cell a) :: a_data a ++ repeat 0 (m + g) ++ R)
          with ((L ++ [a_bytes a]) ++ d_base d + WB * (p + 3) :: enc_cons_ptr (a_cell a) :: a_data a ++ repeat 0 (m + g) ++ R)
          by (rewrite <- app_assoc; reflexivity).
        rewrite wr_mid by (rewrite app_length; cbn [length]; lia). cbn [bind].
        rewrite addr_ok by (auto; unfold p in *; lia).
        replace ((L ++ [a_bytes a]) ++ d_base d + WB * (o + 3) :: enc_cons_ptr (a_cell a) :: a_data a ++ repeat 0 (m + g) ++ R)
          with ((L ++ [a_bytes a; d_base d + WB * (o + 3)]) ++ enc_cons_ptr (a_cell a) :: a_data a ++ repeat 0 (m + g) ++ R)
          by (rewrite <- !app_assoc; reflexivity).
        rewrite rd_mid by (rewrite app_length; cbn [length]; lia). cbn [bind].
        rewrite addr_ok by (auto; unfold p in *; lia).
        pose proof (i_linked _ _ _ _ _ I) as LK. apply linked_app in LK as [LK1 LK2]. cbn [linked] in LK2. fold o in LK2.
        replace (o + Z.of_nat (m + g)) with p in LK2 by (unfold p; lia).
        destruct LK2 as [(q&CQ&QQ) LK2].
        rewrite (set_car_enc h _ _ _ _ AC CQ). cbn [bind].
        set (d1 := set_words d _). set (h1 := hput h (a_cell a) _).
        pose proof (i_nodup _ _ _ _ _ I) as ND. rewrite cells_app in ND. cbn [cells_of map snd] in ND.
        fold (cells_of t) in ND.
        assert (NA : ~ In (a_cell a) (cells_of ps ++ cells_of t)) by (apply NoDup_remove_2 in ND; auto).
        rewrite in_app_iff in NA.
        assert (WD1 : d_words d1 = lay (d_base d) 0 (ps ++ [(O, a)]) 0 ++ repeat 0 (m + g) ++ R).
        { unfold d1. cbn [set_words d_words]. rewrite lay_app. cbn [lay repeat app]. fold o. fold L.
          change (Z.of_nat 0) with 0. rewrite Z.add_0_r. unfold body, hdr. cbn [app]. rewrite app_nil_r, <- !app_assoc. reflexivity. }
        assert (PA : after 0 (ps ++ [(O, a)]) = o + extent a).
        { rewrite after_app. cbn [after]. fold o. lia. }
        assert (SZ1 : d_size d1 = d_size d).
        { unfold d_size. rewrite WD1, Wd. rewrite !app_length, !Nat2Z.inj_add, lay_length, PA. fold B. lia. }
        destruct (IH d1 h1 (ps ++ [(O, a)]) (m + g)%nat tail fl fu) as (d'&h'&bs'&tail'&E&I'&M&Eb&Ef&Es&Pk&Fr&Hs).
        { destruct I as [I1 I2 I3 I4 I5 I6 I7]. constructor.
          - rewrite WD1. unfold d1. cbn [set_words d_base]. rewrite (lay_app _ _ (ps ++ [(O, a)])), lay_widen, PA.
            replace (o + extent a + Z.of_nat (m + g)) with (p + extent a) by (unfold p; lia). reflexivity.
          - rewrite Forall_app, Forall_app. split; [split; auto; constructor; auto; cbn [snd]; repeat split; auto; lia|].
            apply ok_widen; auto.
          - rewrite cells_app, cells_widen, cells_app. cbn [cells_of map snd]. rewrite <- app_assoc. exact ND.
          - unfold d1. cbn [set_words d_base]. rewrite linked_app, linked_app, linked_widen, PA. cbn [linked]. fold o.
            change (Z.of_nat 0) with 0. rewrite Z.add_0_r. split; [split; [|split; auto]|].
            + apply linked_hput; auto. lia.
            + exists q. unfold h1. rewrite (cell_hput_eq _ _ _ _ CQ). auto.
            + replace (o + extent a + Z.of_nat (m + g)) with (p + extent a) by (unfold p; lia). apply linked_hput; auto. lia.
          - apply heap_ok_hput; auto; [|lia]. apply I6. rewrite cells_app. apply in_or_app. right. left. reflexivity.
          - intros c J. apply I6. rewrite cells_app, cells_widen, cells_app in J. rewrite cells_app. cbn [cells_of map snd] in *.
            rewrite <- app_assoc in J. exact J.
          - unfold placed. rewrite SZ1. exact I7. }
        { rewrite gaps_app. cbn [gaps]. lia. }
        { rewrite PA, SZ1. lia. }
        rewrite PA in E. replace (o + extent a + Z.of_nat (m + g)) with (p + extent a) in E by (unfold p; lia).
        exists d', h', bs', tail'. split; [exact E|]. split; auto. split; [rewrite M, map_app, <- app_assoc; reflexivity|].
        split; [rewrite Eb; reflexivity|]. split; [rewrite Ef; reflexivity|]. split; [lia|]. split; auto.
        split; [|unfold h1 in Hs; rewrite hput_size in Hs; auto].
        intros c NC. rewrite (Fr c NC). unfold h1. apply cell_hput_neq; [lia|]. intros <-. apply NC.
        assert (cells_of bs' = map a_cell (map snd bs')) as -> by (unfold cells_of; rewrite map_map; reflexivity).
        rewrite M, !map_app. cbn [map snd]. rewrite !in_app_iff. left. right. left. reflexivity.
Qed.


Lemma first_hole_le o bs tail : (snd (first_hole o bs tail) <= gaps bs + tail)%nat.
Proof.
  revert o. induction bs as [|[[|g] a] t IH]; intros o; cbn [first_hole gaps]; [reflexivity| |cbn [snd]; lia].
  specialize (IH (o + extent a)). lia.
Qed.

Lemma inv_flags d f h bs tail fl : inv d h bs tail fl -> inv (set_flags d f) h bs tail fl.
Proof. intros []. constructor; auto. Qed.

Lemma inv_total d h bs tail fl : inv d h bs tail fl -> d_size d = taken (map snd bs) + Z.of_nat (gaps bs + tail).
Proof. intros I. rewrite (inv_size _ _ _ _ _ I), after_sum. lia. Qed.

Lemma alloc_grown ps r n a : Permutation (map snd (ps ++ (O, a) :: r)) (a :: map snd (ps ++ widen_b n r)).
Proof. rewrite !map_app, arrs_widen. cbn [map snd]. symmetry. apply Permutation_middle. Qed.

Lemma taken_perm l l' : Permutation l l' -> taken l = taken l'.
Proof. induction 1; cbn [taken fold_right]; auto; fold (taken l) in *; try fold (taken l') in *; lia. Qed.

Lemma grown_total ps r n t0 a bs tail : bs = ps ++ widen_b n r -> tail = widen_t n r t0 -> extent a = Z.of_nat n ->
  taken (map snd (ps ++ (O, a) :: r)) + Z.of_nat (gaps (ps ++ (O, a) :: r) + t0) =
  taken (map snd bs) + Z.of_nat (gaps bs + tail).
Proof.
  intros -> -> E. rewrite (taken_perm _ _ (alloc_grown ps r n a)). cbn [taken fold_right]. fold (taken (map snd (ps ++ widen_b n r))).
  rewrite !gaps_app. cbn [gaps]. pose proof (gaps_widen n r t0). lia.
Qed.

Lemma cells_of_map bs : cells_of bs = map a_cell (map snd bs).
Proof. unfold cells_of. rewrite map_map. reflexivity. Qed.

Lemma ptr_not_error k : 0 <= k < 2 ^ (W - 8) ->
  set_ptr_type (enc_cons_ptr k) TYPE_ARRAY <> MERROR /\ set_ptr_type (enc_cons_ptr k) TYPE_ARRAY <> EERROR /\
  f_ix (set_ptr_type (enc_cons_ptr k) TYPE_ARRAY) = k.
Proof.
  intros R. assert (PT : ptr_tag TYPE_ARRAY) by (exists (TYPE_ARRAY / 2 ^ (W - 6)); destruct A; vm_compute; intuition congruence).
  destruct (set_type_fields (enc_cons_ptr k) TYPE_ARRAY PT) as (_&_&I&_&P). rewrite enc_ix in I by auto.
  assert (IP : is_ptr (set_ptr_type (enc_cons_ptr k) TYPE_ARRAY) = true) by (rewrite is_ptr_f, P; reflexivity).
  split; [|split; auto]; intros X; rewrite X in IP.
  - rewrite MERROR_not_ptr in IP. discriminate.
  - revert IP. clear. destruct A; vm_compute; discriminate.
Qed.

Lemma dm_alloc_ok d h bs tail fl bytes : inv d h bs tail fl -> d_flags d = 0 -> 0 < bytes < 2 ^ W ->
  let n := bs2ws bytes + 3 in
  exists d' h' v bs' tail' fl', dm_alloc d h bytes = Ok (d', h', v) /\ d_base d' = d_base d /\ d_size d' = d_size d /\
    d_flags d' = 0 /\ inv d' h' bs' tail' fl' /\ hsize h' = hsize h /\
    (forall c, ~ In c fl -> ~ In c (cells_of bs) -> cell h' c = cell h c) /\ incl fl' fl /\
    ((exists k, v = set_ptr_type (enc_cons_ptr k) TYPE_ARRAY /\ In k fl /\ 0 <= k < 2 ^ (W - 8) /\
        Permutation (map snd bs') (mkArr k bytes (repeat 0 (Z.to_nat (words_for bytes))) :: map snd bs) /\
        taken (map snd bs) + n <= d_size d) \/
     (v = MERROR /\ Permutation (map snd bs') (map snd bs) /\ (d_size d < taken (map snd bs) + n \/ (length fl < 2)%nat))).
Proof.
  intros I F B n. unfold dm_alloc. pose proof (inv_total _ _ _ _ _ I) as TOT.
  destruct fl as [|i fl].
  { rewrite (alloc_internal_full _ _ _ _ _ I) by lia. cbn [bind]. rewrite Z.eqb_refl, F. cbn [Z.eqb negb].
    exists d, h, MERROR, bs, tail, []. repeat (split; [solve [auto]|]). split; [intros x []|]. right. split; auto. }
  pose proof (alloc_internal_ok _ _ _ _ _ _ _ I B) as X. cbn zeta in X. fold n in X.
  pose proof (first_hole_le 0 bs tail) as FL.
  destruct (first_hole 0 bs tail) as [s g] eqn:FH. cbn [snd] in FL.
  destruct X as (d1&h1&v1&E1&BE&FR&HS&X).
  destruct (Z.leb_spec n (Z.of_nat g)) as [C|C].
  { destruct X as (->&F1&ps&r&t0&Eb&Et&I1).
    rewrite E1. cbn [bind]. 
    assert (0 <= i < 2 ^ (W - 8)) as IR.
    { destruct I1 as [_ AO _ _ _ _ _]. apply Forall_app in AO as [_ AO]. inversion AO as [|? ? (_&_&AC) _]; subst. exact AC. }
    destruct (ptr_not_error i IR) as (P1&_&_). destruct (Z.eqb_spec (set_ptr_type (enc_cons_ptr i) TYPE_ARRAY) MERROR); [contradiction|].
    eexists d1, h1, _, _, t0, fl. split; [reflexivity|]. split; auto.
    split. { rewrite (inv_total _ _ _ _ _ I1), TOT. apply (grown_total ps r (Z.to_nat n)); auto.
      unfold extent. cbn [a_data]. destruct (bs2ws_range bytes ltac:(lia)). rewrite repeat_length, <- bs2ws_words by lia. unfold n in *. lia. }
    split; [lia|]. split; [exact I1|]. split; auto.
    split; [intros c N1 N2; apply FR; intros [->|J]; [apply N1; left; auto|auto]|].
    split; [intros x J; right; auto|].
    left. exists i. split; auto. split; [left; auto|]. split; auto. split; [|lia].
    rewrite Eb at 1. apply alloc_grown. }
  destruct X as (->&EW&F1&I1). rewrite E1. cbn [bind]. rewrite Z.eqb_refl, F1. cbn [Z.eqb negb].
  assert (SZ1 : d_size d1 = d_size d) by (unfold d_size; rewrite EW; auto).
  destruct (bs2ws_range bytes ltac:(lia)) as [BR BP].
  assert (NS : wrap W (bs2ws bytes + 3) = n).
  { apply wrap_small. pose proof (bs2ws_small bytes). lia. }
  destruct (defrag_ok n bs ltac:(unfold n; lia) d1 h1 [] O tail fl (length (d_words d1))) as (d2&h2&bs2&tail2&E2&I2&M2&Eb2&Ef2&Es2&Pk&Fr2&Hs2).
  { cbn [app]. destruct bs as [|[]]; exact I1. }
  { reflexivity. }
  { cbn [after]. unfold d_size. lia. }
  cbn [map app after] in *. change (0 + Z.of_nat 0) with 0 in E2.
  unfold dm_defrag. rewrite NS, E2. cbn [bind].
  assert (T2 : taken (map snd bs2) = taken (map snd bs)) by (rewrite M2; auto).
  pose proof (inv_total _ _ _ _ _ I2) as TOT2.
  assert (C2 : cells_of bs2 = cells_of bs) by (rewrite !cells_of_map, M2; auto).
  destruct fl as [|j fl].
  { rewrite (alloc_internal_full _ _ _ _ _ I2) by lia. cbn [bind].
    eexists _, h2, MERROR, bs2, tail2, []. split; [reflexivity|]. cbn [set_flags d_base d_flags].
    split; [congruence|]. split; [change (d_size d2 = d_size d); lia|].
    split; auto. split; [apply inv_flags; auto|]. split; [congruence|].
    split. { intros c N1 N2. rewrite Fr2, FR; auto; [intros [->|J]; [apply N1; left; auto|auto]|rewrite C2; auto]. }
    split; [intros x []|]. right. rewrite M2. split; auto. }
  pose proof (alloc_internal_ok _ _ _ _ _ _ _ I2 B) as X. cbn zeta in X. fold n in X.
  pose proof (first_hole_le 0 bs2 tail2) as FL2.
  destruct (first_hole 0 bs2 tail2) as [s2 g2] eqn:FH2. cbn [snd] in FL2.
  destruct X as (d3&h3&v3&E3&BE3&FR3&HS3&X). rewrite E3. cbn [bind].
  assert (FRA : forall c, ~ In c (i :: j :: fl) -> ~ In c (cells_of bs) -> cell h3 c = cell h c).
  { intros c N1 N2. cbn [In] in N1. rewrite FR3, Fr2, FR; auto.
    - intros [->|J]; auto.
    - rewrite C2; auto.
    - rewrite C2. intros [->|J]; auto. }
  destruct (Z.leb_spec n (Z.of_nat g2)) as [C3|C3].
  - destruct X as (->&F3&ps&r&t0&Eb&Et&I3).
    assert (0 <= j < 2 ^ (W - 8)) as IR.
    { destruct I3 as [_ AO _ _ _ _ _]. apply Forall_app in AO as [_ AO]. inversion AO as [|? ? (_&_&AC) _]; subst. exact AC. }
    eexists _, h3, _, _, t0, fl. split; [reflexivity|]. cbn [set_flags d_base d_flags]. split; [congruence|].
    split. { change (d_size d3 = d_size d).
      rewrite (inv_total _ _ _ _ _ I3), <- SZ1, <- Es2, TOT2. apply (grown_total ps r (Z.to_nat n)); auto.
      unfold extent. cbn [a_data]. rewrite repeat_length, <- bs2ws_words by lia. unfold n in *. lia. }
    split; auto. split; [apply inv_flags; exact I3|]. split; [congruence|]. split; [auto|].
    split; [intros x J; right; right; auto|].
    left. exists j. split; auto. split; [right; left; auto|]. split; auto. split; [|lia].
    rewrite <- M2. rewrite Eb at 1. apply alloc_grown.
  - destruct X as (->&EW3&F3&I3).
    eexists _, h3, _, bs2, tail2, fl. split; [reflexivity|]. cbn [set_flags d_base d_flags]. split; [congruence|].
    split. { transitivity (d_size d2); [unfold d_size; cbn [set_flags d_words]; rewrite EW3; auto|lia]. }
    split; auto. split; [apply inv_flags; exact I3|]. split; [congruence|]. split; auto.
    split; [intros x J; right; right; auto|].
    right. rewrite M2. split; auto. split; auto. left.
    destruct Pk as [P0|P0]; [|rewrite FH2 in P0; cbn [snd] in P0; lia].
    assert (snd (first_hole 0 (bs2 ++ []) tail2) = tail2) as HT by (rewrite first_hole_packed by auto; reflexivity).
    rewrite app_nil_r, FH2 in HT. cbn [snd] in HT. lia.
Qed.

End Arch.
