(* C18: the buffered character channel is a bounded FIFO.
   C51: a string channel presents the characters of its string. *)
From Verif Require Import Base Chan_Model.
Local Open Scope Z_scope.

(* ---- Specification of the buffered channel ---- *)
Record fifo := mkf {
  f_pending : list Z;           (* written and not yet read, oldest first *)
  f_read : list Z;              (* everything read so far *)
  f_wclosed : bool; f_rclosed : bool }.

Definition capacity : nat := Z.to_nat 256.

Inductive cop := CWrite (x : Z) | CRead | CPeek (n : nat) | CDrop (n : nat)
               | CWriterClose | CReaderClose | CEmpty | CFull | CRowCol.
Inductive cans := Unit | Code (c : code) | Char (x : option Z) | Peeked (c : code) (x : option Z)
               | Bool (b : bool) | Pos (row col : Z).

(* newlines read; characters read since the last newline *)
Definition newlines (l : list Z) : nat := length (filter (fun x => x =? 10) l).
Fixpoint since_newline (l : list Z) (start : nat) : nat :=
  match l with [] => start | x :: t => since_newline t (if x =? 10 then 0 else S start) end.

Definition fspec (f : fifo) (o : cop) : fifo * cans :=
  match o with
  | CWrite x =>
    if f_rclosed f then (f, Code READER_CLOSED)
    else if (length (f_pending f) <? capacity)%nat
    then (mkf (f_pending f ++ [x]) (f_read f) (f_wclosed f) (f_rclosed f), Code SUCCESS)
    else (f, Code FULL)
  | CRead =>
    match f_pending f with
    | [] => (f, Char None)
    | x :: t => (mkf t (f_read f ++ [x]) (f_wclosed f) (f_rclosed f), Char (Some x))
    end
  | CPeek n =>
    (f, match nth_error (f_pending f) n with
        | Some x => Peeked SUCCESS (Some x)
        | None => Peeked (if f_wclosed f then END else MORE) None
        end)
  | CDrop n =>
    (mkf (skipn n (f_pending f)) (f_read f ++ firstn n (f_pending f)) (f_wclosed f) (f_rclosed f),
     Bool (n <=? length (f_pending f))%nat)
  | CWriterClose => (mkf (f_pending f) (f_read f) true (f_rclosed f), Unit)
  | CReaderClose => (mkf (f_pending f) (f_read f) (f_wclosed f) true, Unit)
  | CEmpty => (f, Bool (length (f_pending f) =? 0)%nat)
  | CFull => (f, Bool (length (f_pending f) =? capacity)%nat)
  | CRowCol => (f, Pos ((1 + Z.of_nat (newlines (f_read f))) mod 2 ^ 32)
                       (Z.of_nat (since_newline (f_read f) 1) mod 2 ^ 32))
  end.

Fixpoint fspec_run (f : fifo) (os : list cop) : fifo * list cans :=
  match os with
  | [] => (f, [])
  | o :: t => let (f1, a) := fspec f o in let (f2, r) := fspec_run f1 t in (f2, a :: r)
  end.

(* peeking no further than the buffer is long *)
Definition near (o : cop) : Prop := match o with CPeek n => Z.of_nat n < BUF_SIZE | _ => True end.

(* ---- The same operations on the model ---- *)
Definition crun1 (c : bchan) (o : cop) : res (bchan * cans) :=
  match o with
  | CWrite x => let! (c1, r) := buffered_write c x in Ok (c1, Code r)
  | CRead => let! (c1, x) := buffered_read c in Ok (c1, Char x)
  | CPeek n => let! (r, x) := buffered_peek c (Z.of_nat n) in Ok (c, Peeked r x)
  | CDrop n => let! (c1, b) := buffered_drop c n in Ok (c1, Bool b)
  | CWriterClose => Ok (buffered_writer_close c, Unit)
  | CReaderClose => Ok (buffered_reader_close c, Unit)
  | CEmpty => Ok (c, Bool (buffered_is_empty c))
  | CFull => Ok (c, Bool (buffered_is_full c))
  | CRowCol => Ok (c, Pos (b_row c) (b_col c))
  end.

Fixpoint crun (c : bchan) (os : list cop) : res (bchan * list cans) :=
  match os with
  | [] => Ok (c, [])
  | o :: t => let! (c1, a) := crun1 c o in let! (c2, r) := crun c1 t in Ok (c2, a :: r)
  end.

(* ---- Proofs ---- *)
Record holds (c : bchan) (f : fifo) : Prop := {
  h_buf : length (b_buf c) = 257%nat;
  h_r : 0 <= b_r c < 257;
  h_len : Z.of_nat (length (f_pending f)) <= 256;
  h_w : b_w c = (b_r c + Z.of_nat (length (f_pending f))) mod 257;
  h_data : forall i x, nth_error (f_pending f) i = Some x ->
    nth_error (b_buf c) (Z.to_nat ((b_r c + Z.of_nat i) mod 257)) = Some x;
  h_more : b_more c = negb (f_wclosed f);
  h_rc : b_rclosed c = f_rclosed f;
  h_row : b_row c = (1 + Z.of_nat (newlines (f_read f))) mod 2 ^ 32;
  h_col : b_col c = Z.of_nat (since_newline (f_read f) 1) mod 2 ^ 32 }.

Lemma ring a k : 0 <= a < 257 -> 0 <= k <= 257 ->
  (a + k) mod 257 = if a + k <? 257 then a + k else a + k - 257.
Proof.
  intros. destruct (Z.ltb_spec (a + k) 257); [apply Z.mod_small; lia|].
  symmetry. apply Z.mod_unique with 1; lia.
Qed.

Lemma is_full c f : holds c f -> buffered_is_full c = (Z.of_nat (length (f_pending f)) =? 256).
Proof.
  intros H. destruct H as [HB HR HL HW _ _ _ _ _]. unfold buffered_is_full, BUF_SIZE. rewrite HW, ring by lia.
  destruct (Z.eqb_spec (b_r c) 0) as [E|E].
  - rewrite E in *. change (wrap 32 (0 - 1)) with (2 ^ 32 - 1). destruct (Z.ltb_spec (0 + Z.of_nat (length (f_pending f))) 257); lia.
  - rewrite wrap_small by lia. destruct (Z.ltb_spec (b_r c + Z.of_nat (length (f_pending f))) 257); lia.
Qed.

Lemma is_empty c f : holds c f -> buffered_is_empty c = (Z.of_nat (length (f_pending f)) =? 0).
Proof.
  intros H. destruct H as [HB HR HL HW _ _ _ _ _]. unfold buffered_is_empty. rewrite HW, ring by lia.
  destruct (Z.ltb_spec (b_r c + Z.of_nat (length (f_pending f))) 257); lia.
Qed.

Lemma since_app l x : forall s, since_newline (l ++ [x]) s = if x =? 10 then 0%nat else S (since_newline l s).
Proof. induction l as [|h t IH]; intros s; cbn [app since_newline]; auto. Qed.

Lemma newlines_app l x : newlines (l ++ [x]) = (newlines l + if (x =? 10)%Z then 1 else 0)%nat.
Proof. unfold newlines. rewrite filter_app, app_length. cbn. destruct (x =? 10); reflexivity. Qed.

Lemma read_ok c f : holds c f ->
  match f_pending f with
  | [] => buffered_read c = Ok (c, None)
  | x :: t => exists c', buffered_read c = Ok (c', Some x) /\
      holds c' (mkf t (f_read f ++ [x]) (f_wclosed f) (f_rclosed f))
  end.
Proof.
  intros H. pose proof (is_empty c f H) as EM. unfold buffered_read. rewrite EM.
  destruct H as [HB HR HL HW HD HM HC HRow HCol]. destruct (f_pending f) as [|x t] eqn:P.
  - reflexivity.
  - cbn [length] in *. destruct (Z.eqb_spec (Z.of_nat (S (length t))) 0); [lia|].
    assert (D0 := HD 0%nat x eq_refl). rewrite Z.add_0_r, Z.mod_small in D0 by lia.
    rewrite (rd_nth _ _ x) by (auto; lia). cbn [bind].
    assert (RN : 0 <= (b_r c + 1) mod 257 < 257) by (apply Z.mod_pos_bound; lia).
    eexists (mkbc _ _ _ _ _ (if x =? 10 then _ else _) (if x =? 10 then _ else _)). split.
    { destruct (x =? 10) eqn:X; reflexivity. }
    rewrite (wrap_small 32 (b_r c + 1)) by lia. unfold BUF_SIZE.
    constructor; cbn [b_buf b_w b_r b_more b_rclosed b_row b_col f_pending f_read f_wclosed f_rclosed]; auto.
    + lia.
    + rewrite HW, Zplus_mod_idemp_l. f_equal. lia.
    + intros i y E. rewrite Zplus_mod_idemp_l, <- Z.add_assoc.
      replace (1 + Z.of_nat i) with (Z.of_nat (S i)) by lia. apply HD. exact E.
    + rewrite newlines_app. destruct (x =? 10).
      * rewrite HRow. unfold wrap. rewrite Zplus_mod_idemp_l. f_equal. lia.
      * rewrite HRow. f_equal. lia.
    + rewrite since_app. destruct (x =? 10); [reflexivity|].
      rewrite HCol. unfold wrap. rewrite Zplus_mod_idemp_l. f_equal. lia.
Qed.

Lemma drop_ok n : forall c f, holds c f -> exists c',
  buffered_drop c n = Ok (c', (n <=? length (f_pending f))%nat) /\
  holds c' (mkf (skipn n (f_pending f)) (f_read f ++ firstn n (f_pending f)) (f_wclosed f) (f_rclosed f)).
Proof.
  induction n as [|n IH]; intros c f H; cbn [buffered_drop].
  - exists c. split; auto. cbn. rewrite app_nil_r. destruct f; auto.
  - pose proof (read_ok c f H) as R. destruct (f_pending f) as [|x t] eqn:P.
    + rewrite R. cbn [bind]. exists c. split; auto. cbn. rewrite app_nil_r, <- P. destruct f; auto.
    + destruct R as (c1&E&H1). rewrite E. cbn [bind]. destruct (IH c1 _ H1) as (c2&E2&H2).
      cbn [f_pending f_read f_wclosed f_rclosed] in *. exists c2. split; [exact E2|].
      cbn [skipn firstn]. rewrite <- app_assoc in H2. exact H2.
Qed.

Lemma crun1_ok c f o : holds c f -> near o ->
  exists c', crun1 c o = Ok (c', snd (fspec f o)) /\ holds c' (fst (fspec f o)).
Proof.
  intros H N. pose proof H as [HB HR HL HW HD HM HC HRow HCol].
  destruct o as [x| |n|n| | | | |]; cbn [crun1 fspec near] in *.
  - unfold buffered_write. rewrite HC. destruct (f_rclosed f) eqn:RC; [eexists; split; [reflexivity|exact H]|].
    rewrite (is_full c f H). unfold capacity.
    destruct (Z.eqb_spec (Z.of_nat (length (f_pending f))) 256);
      destruct (Nat.ltb_spec (length (f_pending f)) (Z.to_nat 256)); try lia.
    + eexists; split; [reflexivity|exact H].
    + assert (WB : 0 <= b_w c < 257) by (rewrite HW; apply Z.mod_pos_bound; lia).
      rewrite wr_ok by lia. cbn [bind]. eexists. split; [reflexivity|].
      rewrite wrap_small by lia. unfold BUF_SIZE.
      constructor; cbn [fst b_buf b_w b_r b_more b_rclosed b_row b_col f_pending f_read f_wclosed f_rclosed]; auto.
      * rewrite length_upd. auto.
      * rewrite app_length. cbn. lia.
      * rewrite HW, Zplus_mod_idemp_l. f_equal. rewrite app_length. cbn. lia.
      * intros i y E. destruct (Nat.lt_ge_cases i (length (f_pending f))) as [L|L].
        -- rewrite nth_error_app1 in E by auto. rewrite nth_error_upd_neq; [auto|].
           rewrite HW, !ring by lia.
           destruct (Z.ltb_spec (b_r c + Z.of_nat (length (f_pending f))) 257),
             (Z.ltb_spec (b_r c + Z.of_nat i) 257); lia.
        -- rewrite nth_error_app2 in E by auto.
           destruct (i - length (f_pending f))%nat as [|k] eqn:Q; [|destruct k; discriminate].
           injection E as <-. replace i with (length (f_pending f)) by lia. rewrite <- HW.
           apply nth_error_upd_eq. lia.
  - pose proof (read_ok c f H) as R. destruct (f_pending f) as [|x t] eqn:P.
    + rewrite R. cbn [bind]. eexists; split; [reflexivity|exact H].
    + destruct R as (c1&E&H1). rewrite E. cbn [bind]. eexists; split; [reflexivity|exact H1].
  - exists c. split; [|exact H]. unfold buffered_peek. cbv zeta. unfold BUF_SIZE in *. rewrite wrap_small by lia. cbn [snd].
    set (pp := (b_r c + Z.of_nat n) mod 257).
    assert (Q : (if b_w c >=? b_r c then (pp <? b_w c) && (pp >=? b_r c) else negb ((pp >=? b_w c) && (pp <? b_r c)))
                = (Z.of_nat n <? Z.of_nat (length (f_pending f)))).
    { subst pp. rewrite HW, !ring by lia. 
      destruct (Z.ltb_spec (b_r c + Z.of_nat (length (f_pending f))) 257), (Z.ltb_spec (b_r c + Z.of_nat n) 257); 
      destruct (_ >=? b_r c) eqn:?; lia. }
    rewrite Q. destruct (nth_error (f_pending f) n) as [x|] eqn:E.
    + assert (n < length (f_pending f))%nat by (apply nth_error_Some; congruence).
      destruct (Z.ltb_spec (Z.of_nat n) (Z.of_nat (length (f_pending f)))); [|lia].
      assert (0 <= pp) by (apply Z.mod_pos_bound; lia).
      rewrite (rd_nth _ _ x) by (auto; apply HD; auto). reflexivity.
    + apply nth_error_None in E. destruct (Z.ltb_spec (Z.of_nat n) (Z.of_nat (length (f_pending f)))); [lia|].
      rewrite HM. destruct (f_wclosed f); reflexivity.
  - destruct (drop_ok n c f H) as (c1&E&H1). rewrite E. cbn [bind]. eexists; split; [reflexivity|exact H1].
  - eexists; split; [reflexivity|]. constructor; auto.
  - eexists; split; [reflexivity|]. constructor; auto.
  - eexists; split; [|exact H]. rewrite (is_empty c f H). cbn [snd]. do 3 f_equal. lia.
  - eexists; split; [|exact H]. rewrite (is_full c f H). cbn [snd]. unfold capacity. do 3 f_equal. lia.
  - eexists; split; [|exact H]. rewrite HRow, HCol. reflexivity.
Qed.

(* Every sequence of writes, reads, peeks, drops and closes on a fresh channel
   answers as the bounded FIFO of capacity 256 does; nothing goes wrong. *)
Theorem channel_is_fifo : forall buf os,
  length buf = Z.to_nat BUF_SIZE -> Forall near os ->
  exists c, crun (buffered_create buf) os = Ok (c, snd (fspec_run (mkf [] [] false false) os)).
Proof.
  intros buf os L F.
  assert (H : holds (buffered_create buf) (mkf [] [] false false)).
  { constructor; cbn [buffered_create b_buf b_w b_r b_more b_rclosed b_row b_col f_pending f_read f_wclosed f_rclosed]; auto; try reflexivity; try (cbn; lia).
    intros [|i] x E; discriminate. }
  revert H. generalize (buffered_create buf) (mkf [] [] false false). induction F as [|o t N F IH]; intros c f H; cbn [crun fspec_run].
  - eauto.
  - destruct (crun1_ok c f o H N) as (c1&E&H1). rewrite E. cbn [bind].
    destruct (fspec f o) as [f1 a]. cbn [fst snd] in *. destruct (IH c1 f1 H1) as (c2&E2).
    rewrite E2. cbn [bind]. destruct (fspec_run f1 t). eauto.
Qed.

(* Consequence in terms of the characters alone: the characters read or
   dropped are a prefix of those whose write succeeded. *)
Definition written (h : list (cop * cans)) : list Z :=
  flat_map (fun x => match x with (CWrite c, Code SUCCESS) => [c] | _ => [] end) h.

Lemma fspec_prefix os : forall f f' r, fspec_run f os = (f', r) ->
  f_read f ++ f_pending f ++ written (combine os r) = f_read f' ++ f_pending f'.
Proof.
  unfold written. induction os as [|o t IH]; intros f f' r E; cbn [fspec_run] in E.
  - injection E as <- <-. cbn. rewrite app_nil_r. auto.
  - destruct (fspec f o) as [f1 a] eqn:E1. destruct (fspec_run f1 t) as [f2 r2] eqn:E2.
    injection E as <- <-. rewrite <- (IH _ _ _ E2). cbn [combine flat_map]. clear IH E2.
    destruct o as [x| |n|n| | | | |]; cbn [fspec] in E1.
    + destruct (f_rclosed f); [injection E1 as <- <-; reflexivity|].
      destruct (_ <? _)%nat; injection E1 as <- <-; cbn; rewrite <- ?app_assoc; reflexivity.
    + destruct (f_pending f) eqn:P; injection E1 as <- <-; cbn [f_read f_pending app]; rewrite ?P, <- ?app_assoc; reflexivity.
    + injection E1 as <- <-. reflexivity.
    + injection E1 as <- <-. cbn [f_read f_pending app]. rewrite <- app_assoc, (app_assoc (firstn n _)), firstn_skipn. reflexivity.
    + injection E1 as <- <-. reflexivity.
    + injection E1 as <- <-. reflexivity.
    + injection E1 as <- <-. reflexivity.
    + injection E1 as <- <-. reflexivity.
    + injection E1 as <- <-. reflexivity.
Qed.

Theorem channel_order : forall buf os,
  length buf = Z.to_nat BUF_SIZE -> Forall near os ->
  exists c f r, crun (buffered_create buf) os = Ok (c, r) /\
    fspec_run (mkf [] [] false false) os = (f, r) /\
    written (combine os r) = f_read f ++ f_pending f.
Proof.
  intros buf os L F. destruct (channel_is_fifo buf os L F) as (c&E).
  destruct (fspec_run (mkf [] [] false false) os) as [f r] eqn:E1. exists c, f, r.
  split; [exact E|]. split; auto. apply fspec_prefix in E1. exact E1.
Qed.

(* Peeking further than the buffer is long wraps around: with one character
   pending, peek(257) answers with it instead of reporting that no such
   character has arrived. *)
Theorem channel_peek_far_refuted :
  ~ (forall buf os, length buf = Z.to_nat BUF_SIZE ->
     exists c, crun (buffered_create buf) os = Ok (c, snd (fspec_run (mkf [] [] false false) os))).
Proof.
  intros H. destruct (H (repeat 0 257) [CWrite 65; CPeek (Z.to_nat 257)]) as (c&E); [reflexivity|].
  vm_compute in E. discriminate.
Qed.

Example channel_case :
  Forall near [CWrite 65; CWrite 10; CWrite 66; CPeek 2; CRead; CDrop 2; CRowCol; CWriterClose; CPeek 0; CDrop 1] /\
  snd (fspec_run (mkf [] [] false false)
    [CWrite 65; CWrite 10; CWrite 66; CPeek 2; CRead; CDrop 2; CRowCol; CWriterClose; CPeek 0; CDrop 1])
  = [Code SUCCESS; Code SUCCESS; Code SUCCESS; Peeked SUCCESS (Some 66); Char (Some 65); Bool true;
     Pos 2 1; Unit; Peeked END None; Bool false].
Proof. split; [repeat constructor|reflexivity]. Qed.

(* ---- C51: string channels ---- *)
(* reads one after the other *)
Fixpoint string_reads (c : schan) (n : nat) : res (schan * list (option Z)) :=
  match n with
  | O => Ok (c, [])
  | S m => let! (c1, x) := string_read c in let! (c2, r) := string_reads c1 m in Ok (c2, x :: r)
  end.

(* lbm_uint positions fit *)
Definition string_ok (s : list Z) : Prop := Z.of_nat (length s) < 2 ^ 32 /\ Forall (fun x => x <> 0) s.

Record sat (c : schan) (s1 s2 : list Z) : Prop := {
  a_str : c_str c = s1 ++ s2 ++ [0];
  a_len : c_len c = Z.of_nat (length (s1 ++ s2));
  a_r : c_r c = Z.of_nat (length s1);
  a_row : c_row c = (1 + Z.of_nat (newlines s1)) mod 2 ^ 32 }.

Lemma sread_ok c s1 s2 : Z.of_nat (length (s1 ++ s2)) < 2 ^ 32 -> sat c s1 s2 ->
  match s2 with
  | [] => exists c', string_read c = Ok (c', None) /\ sat c' s1 []
  | x :: t => exists c', string_read c = Ok (c', Some x) /\ sat c' (s1 ++ [x]) t
  end.
Proof.
  intros L [AS AL AR AW]. unfold string_read. rewrite AR, AL. destruct s2 as [|x t].
  - rewrite app_nil_r. rewrite Z.ltb_irrefl. eexists. split; [reflexivity|]. constructor; cbn; auto.
    rewrite app_nil_r in AL. rewrite app_nil_r. auto.
  - rewrite app_length in *. cbn [length] in *.
    destruct (Z.ltb_spec (Z.of_nat (length s1)) (Z.of_nat (length s1 + S (length t)))); [|lia].
    rewrite (rd_nth _ _ x); [|lia|].
    + cbn [bind]. rewrite !(wrap_small 32 (Z.of_nat (length s1) + 1)) by lia.
      assert (K : forall more row col, row = (1 + Z.of_nat (newlines (s1 ++ [x]))) mod 2 ^ 32 ->
        sat (mksc (c_str c) (Z.of_nat (length s1 + S (length t))) (Z.of_nat (length s1) + 1) (c_w c) more row col) (s1 ++ [x]) t).
      { intros. constructor; cbn [c_str c_len c_r c_row]; auto.
        - rewrite AS, <- app_assoc. reflexivity.
        - rewrite !app_length. cbn. lia.
        - rewrite app_length. cbn. lia. }
      rewrite newlines_app in K. destruct (x =? 10).
      * eexists. split; [reflexivity|]. apply K. rewrite AW. unfold wrap. rewrite Zplus_mod_idemp_l. f_equal. lia.
      * destruct (x =? 0); eexists; (split; [reflexivity|]); apply K; rewrite AW; f_equal; lia.
    + rewrite AS, Nat2Z.id, nth_error_app2, Nat.sub_diag by lia. reflexivity.
Qed.

Lemma sreads_ok n : forall c s1 s2, Z.of_nat (length (s1 ++ s2)) < 2 ^ 32 -> sat c s1 s2 ->
  exists c', string_reads c n = Ok (c', map Some (firstn n s2) ++ repeat None (n - length s2)) /\
    sat c' (s1 ++ firstn n s2) (skipn n s2).
Proof.
  induction n as [|n IH]; intros c s1 s2 L H; cbn [string_reads].
  - exists c. cbn. rewrite app_nil_r. auto.
  - pose proof (sread_ok c s1 s2 L H) as R. destruct s2 as [|x t].
    + destruct R as (c1&E&H1). rewrite E. cbn [bind]. destruct (IH c1 s1 [] L H1) as (c2&E2&H2).
      rewrite E2. cbn [bind]. exists c2. rewrite firstn_nil, skipn_nil in *. cbn in *.
      rewrite Nat.sub_0_r. auto.
    + destruct R as (c1&E&H1). rewrite E. cbn [bind].
      destruct (IH c1 (s1 ++ [x]) t ltac:(rewrite <- app_assoc; exact L) H1) as (c2&E2&H2).
      rewrite E2. cbn [bind]. exists c2. cbn [firstn skipn map app length]. rewrite Nat.sub_succ.
      rewrite <- app_assoc in H2. auto.
Qed.

(* After any number of reads of a string channel: the characters read are the
   first of the string, in order, and nothing once they are used up; peek(k)
   then shows the k-th of the remaining ones, or END; the row is one more than
   the newlines read. *)
Theorem string_channel_presents : forall s n k,
  string_ok s -> Z.of_nat (length s + k) < 2 ^ 32 -> exists c,
  string_reads (string_create s) n = Ok (c, map Some (firstn n s) ++ repeat None (n - length s)) /\
  string_peek c (Z.of_nat k) =
    Ok (match nth_error (skipn n s) k with Some x => (SUCCESS, Some x) | None => (END, None) end) /\
  string_is_empty c = (length s <=? n)%nat /\
  c_row c = (1 + Z.of_nat (newlines (firstn n s))) mod 2 ^ 32.
Proof.
  intros s n k [L NZ] LK.
  assert (H0 : sat (string_create s) [] s).
  { constructor; cbn; auto. apply wrap_small. lia. }
  destruct (sreads_ok n (string_create s) [] s L H0) as (c&E&[AS AL AR AW]). exists c. split; [exact E|].
  cbn [app] in *. rewrite firstn_skipn in *.
  assert (LF : length (firstn n s) = Nat.min n (length s)) by apply firstn_length.
  assert (LS : length (skipn n s) = (length s - n)%nat) by apply skipn_length.
  split; [|split].
  - unfold string_peek. cbv zeta. rewrite AR, AL, wrap_small by lia.
    destruct (nth_error (skipn n s) k) as [x|] eqn:X.
    + assert (k < length (skipn n s))%nat by (apply nth_error_Some; congruence).
      destruct (Z.ltb_spec (Z.of_nat (length (firstn n s)) + Z.of_nat k) (Z.of_nat (length s))); [|lia].
      rewrite (rd_nth _ _ x); [reflexivity|lia|]. rewrite AS.
      replace (Z.to_nat (Z.of_nat (length (firstn n s)) + Z.of_nat k)) with (length (firstn n s) + k)%nat by lia.
      rewrite nth_error_app2 by lia. replace (length (firstn n s) + k - length (firstn n s))%nat with k by lia.
      rewrite nth_error_app1 by lia. exact X.
    + apply nth_error_None in X.
      destruct (Z.ltb_spec (Z.of_nat (length (firstn n s)) + Z.of_nat k) (Z.of_nat (length s))); [lia|reflexivity].
  - unfold string_is_empty. rewrite AR, AL. lia.
  - exact AW.
Qed.

Lemma string_drop_reads n : forall c c' r, string_reads c n = Ok (c', r) -> string_drop c n = Ok c'.
Proof.
  induction n as [|n IH]; intros c c' r E; cbn [string_reads string_drop] in *.
  - congruence.
  - destruct (string_read c) as [[c1 x]| |]; try discriminate. cbn [bind] in *.
    destruct (string_reads c1 n) as [[c2 r2]| |] eqn:E2; try discriminate. cbn [bind] in E. injection E as <- _. eauto.
Qed.

(* Dropping n characters is reading n characters. *)
Theorem string_drop_is_reads : forall s n, string_ok s ->
  exists c, string_drop (string_create s) n = Ok c /\
    string_reads (string_create s) n = Ok (c, map Some (firstn n s) ++ repeat None (n - length s)).
Proof.
  intros s n OK. pose proof OK as [L _].
  destruct (string_channel_presents s n 0 OK ltac:(lia)) as (c&E&_). exists c. split; auto.
  eapply string_drop_reads; eauto.
Qed.

(* string_write on a channel over an empty array passes the bound check
   (length - 1 wraps) and stores outside the array. *)
Theorem string_write_empty_refuted : exists x, string_write (string_create_size [] 0) x = UB.
Proof. exists 65. vm_compute. reflexivity. Qed.

(* Otherwise writing stays in the array and keeps its last slot. *)
Theorem string_write_safe : forall c x,
  1 <= c_len c -> c_len c = Z.of_nat (length (c_str c)) -> c_len c < 2 ^ 32 -> 0 <= c_w c -> 
  exists c' r, string_write c x = Ok (c', r) /\ length (c_str c') = length (c_str c) /\
    nth_error (c_str c') (length (c_str c) - 1) = nth_error (c_str c) (length (c_str c) - 1) /\
    (r = SUCCESS <-> c_w c < c_len c - 1).
Proof.
  intros c x L1 L2 L3 W0. unfold string_write. rewrite wrap_small by lia.
  destruct (Z.ltb_spec (c_w c) (c_len c - 1)).
  - rewrite wr_ok by lia. cbn [bind]. eexists _, _. split; [reflexivity|]. cbn [c_str].
    rewrite length_upd. split; auto. split; [|tauto]. apply nth_error_upd_neq. lia.
  - eexists _, _. split; [reflexivity|]. repeat split; auto. discriminate. lia.
Qed.

Example string_case :
  string_ok [97; 10; 98] /\
  exists c, string_reads (string_create [97; 10; 98]) 4 = Ok (c, [Some 97; Some 10; Some 98; None]) /\
    c_row c = 2 /\ string_peek c 0 = Ok (END, None).
Proof. split; [split; [cbn; lia|repeat constructor; lia]|]. eexists. split; [vm_compute; reflexivity|]. split; vm_compute; reflexivity. Qed.

Print Assumptions channel_is_fifo.
Print Assumptions channel_order.
Print Assumptions channel_peek_far_refuted.
Print Assumptions string_channel_presents.
Print Assumptions string_drop_is_reads.
Print Assumptions string_write_empty_refuted.
Print Assumptions string_write_safe.
