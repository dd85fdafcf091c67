(* New strings, and lists of them. *)
From Verif Require Import Base Value_Model Heap_Model Value_Proofs Value_Proofs2 Value_Props Heap_Spec Heap_Proofs List_Proofs GC_Model Eq_Model Eq_Spec
  Flat_Model Flat_Spec Flat_Proofs Flat_Proofs2 Read_Model Read_Proofs2 Read_Proofs3 ArrExt_Model ArrExt_Proofs StrExt_Model StrExt_Spec.
From Verif Require ArrExt_Spec.
Import List.
Local Open Scope Z_scope.

Section Arch.
Context {A : Arch} {L : Libc} {C : Conv} {Ch : Char}.

(* ---- the text of a string ---- *)
Lemma strlen_text bs : strlen_max bs = Z.of_nat (length (text bs)).
Proof. induction bs as [|x t IH]; [reflexivity|]. cbn [strlen_max text]. destruct (x =? 0); [reflexivity|]. rewrite IH. cbn [length]. lia. Qed.
Lemma text_prefix bs : exists rest, bs = text bs ++ rest /\ (In 0 bs -> exists t, rest = 0 :: t).
Proof.
  induction bs as [|x t (rest&IH&IH0)]; [exists []; split; [auto|intros []]|]. cbn [text]. destruct (Z.eqb_spec x 0) as [->|N].
  - exists (0 :: t). split; auto. intros _. eauto.
  - exists rest. split; [cbn; f_equal; auto|]. intros [X|X]; [congruence|auto].
Qed.
Lemma text_length bs : (length (text bs) <= length bs)%nat.
Proof. destruct (text_prefix bs) as (r&E&_). rewrite E at 2. rewrite app_length. lia. Qed.
Lemma text_firstn bs : firstn (length (text bs)) bs = text bs.
Proof. destruct (text_prefix bs) as (r&E&_). rewrite E at 2. rewrite firstn_app, Nat.sub_diag, firstn_all. cbn. apply app_nil_r. Qed.
Lemma c_string_text bs : In 0 bs -> c_string bs = Ok (text bs).
Proof.
  induction bs as [|x t IH]; [intros []|]. cbn [c_string text]. destruct (Z.eqb_spec x 0) as [->|N]; auto.
  intros [X|X]; [congruence|]. rewrite IH by auto. reflexivity.
Qed.
Lemma text_no_zero bs : ~ In 0 (text bs).
Proof. induction bs as [|x t IH]; [intros []|]. cbn [text]. destruct (Z.eqb_spec x 0) as [->|N]; [intros []|]. intros [X|X]; auto. Qed.

(* ---- allocation ---- *)
Lemma ready_pool u fl a rest : ready u fl -> up u = a :: rest -> a <> 0 ->
  NoDup (firstn (avail rest) rest) /\ ~ In a (firstn (avail rest) rest) /\ mem (uh u) a = None /\
  Forall (fun a => mem (uh u) a = None) (firstn (avail rest) rest) /\ avail (up u) = S (avail rest).
Proof.
  intros [_ _ (ND&F)] E N. rewrite E in *. cbn [avail] in *. destruct (Z.eqb_spec a 0); [congruence|]. cbn [firstn] in *.
  inversion ND; subst. inversion F; subst. auto.
Qed.

(* what making a byte array of one cell and two blocks leads to *)
Definition made (u : ust) (fl bs : list Z) (u' : ust) (r : Z) : Prop :=
  (exists i fl', fl = i :: fl' /\ ready u' fl' /\ grows fl (uh u) (uh u') /\ avail (up u) = S (S (avail (up u'))) /\ r <> MERROR /\
     forall X, off X fl -> den (X ++ fl') (uh u') r (Bytes bs)) \/
  (~ ((1 <= length fl)%nat /\ (2 <= avail (up u))%nat) /\ r = MERROR /\ heap_ok (uh u') fl /\ grows fl (uh u) (uh u')).

Lemma free_grows fl h a : grows fl h (mem_free h a).
Proof. repeat split; auto. Qed.
Lemma free_ok h fl a : heap_ok h fl -> heap_ok (mem_free h a) fl.
Proof. intros [S1 S2 S3 S4]. constructor; auto. eapply chain_frame; eauto. Qed.

(* no cell left *)
Lemma create_full u n fill : heap_ok (uh u) [] -> exists u', create_str u n fill = Ok (u', MERROR) /\ heap_ok (uh u') [] /\ grows [] (uh u) (uh u').
Proof.
  intros OK. unfold create_str, alloc_array, malloc. destruct (up u) as [|a rest].
  { cbn [Z.eqb bind]. rewrite Z.eqb_refl. eexists. split; [reflexivity|]. split; [auto|apply grows_refl]. }
  destruct (Z.eqb_spec a 0).
  { cbn [bind]. rewrite Z.eqb_refl. eexists. split; [reflexivity|]. split; [auto|apply grows_refl]. }
  destruct (n >? 0) eqn:Pn; cbn [andb up].
  - destruct rest as [|d rest]; [cbn [Z.eqb bind]; rewrite Z.eqb_refl; eexists; split; [reflexivity|]; split; [apply free_ok; auto|apply free_grows]|].
    destruct (Z.eqb_spec d 0); [cbn [bind]; rewrite Z.eqb_refl; eexists; split; [reflexivity|]; split; [apply free_ok; auto|apply free_grows]|].
    cbn [uh]. rewrite alloc_cell_nil by auto. cbn [bind]. rewrite !Z.eqb_refl. cbn [bind]. rewrite !Z.eqb_refl. eexists. split; [reflexivity|].
    split; [apply free_ok, free_ok; auto|repeat split; auto].
  - cbn [uh]. rewrite alloc_cell_nil by auto. cbn [bind]. rewrite !Z.eqb_refl. cbn [bind]. rewrite !Z.eqb_refl. eexists. split; [reflexivity|].
    split; [apply free_ok, free_ok; auto|repeat split; auto].
Qed.

Lemma create_made u fl n fill bs : ready u fl -> 0 < n -> fill (repeat 0 (Z.to_nat n)) = Ok bs ->
  exists u' r, create_str u n fill = Ok (u', r) /\ made u fl bs u' r.
Proof.
  intros R Pn Fl. pose proof (r_heap _ _ R) as OK.
  destruct fl as [|i fl].
  { destruct (create_full u n fill OK) as (u'&E&OK'&G). exists u', MERROR. split; [auto|]. right. split; [cbn; lia|split; [auto|split; auto]]. }
  destruct (up u) as [|a rest] eqn:U.
  { unfold create_str, alloc_array, malloc. rewrite U. cbn [Z.eqb bind]. rewrite Z.eqb_refl. do 2 eexists. split; [reflexivity|]. right. rewrite U.
    split; [cbn; lia|split; [reflexivity|split; [exact OK|apply grows_refl]]]. }
  destruct (Z.eq_dec a 0) as [->|NA].
  { unfold create_str, alloc_array, malloc. rewrite U. cbn [Z.eqb bind]. rewrite Z.eqb_refl. do 2 eexists. split; [reflexivity|]. right. rewrite U.
    split; [cbn; lia|split; [reflexivity|split; [exact OK|apply grows_refl]]]. }
  assert (Short : avail rest = 0%nat -> (let '(_, d) := malloc (mkU (uh u) rest (us u) (uk u)) in d = 0) ->
    exists u' r, create_str u n fill = Ok (u', r) /\ made u (i :: fl) bs u' r).
  { intros Av D. unfold create_str, alloc_array. unfold malloc at 1. rewrite U. destruct (Z.eqb_spec a 0); [congruence|].
    replace (n >? 0) with true by lia. destruct (malloc (mkU (uh u) rest (us u) (uk u))) as (u2, d) eqn:M. subst d. cbn [andb Z.eqb bind]. rewrite Z.eqb_refl.
    do 2 eexists. split; [reflexivity|]. right. rewrite U. cbn [avail]. destruct (Z.eqb_spec a 0); [congruence|].
    assert (uh u2 = uh u) as E2 by (unfold malloc in M; cbn [up] in M; destruct rest; injection M; intros; subst; reflexivity).
    split; [lia|]. split; [auto|]. cbn [uh set_h]. rewrite E2. split; [apply free_ok; auto|apply free_grows]. }
  destruct rest as [|d rest]; [apply Short; reflexivity|]. destruct (Z.eq_dec d 0) as [->|ND]; [apply Short; reflexivity|]. clear Short.
  destruct (ready_pool _ _ _ _ R U NA) as (P1&P2&P3&P4&P5). cbn [avail] in P1, P2, P4, P5. destruct (Z.eqb_spec d 0); [congruence|]. cbn [firstn] in P1, P2, P4.
  destruct (alloc_array_ok u true n i fl a d rest OK U NA ND Pn ltac:(discriminate)) as (h1&q&E&OK1&Ce&S1&Cc&M&R8).
  cbv zeta in E. change (array_ty true) with TYPE_ARRAY in E. destruct (tagged_facts i TYPE_ARRAY R8 good_array) as (P&I&K&T&NM).
  set (v := set_ptr_type (enc_cons_ptr i) TYPE_ARRAY) in *. unfold create_str. rewrite E. cbn [bind]. rewrite (proj2 (Z.eqb_neq v MERROR) NM).
  unfold array_of. cbn [uh]. rewrite (car_ptr _ v a q P) by (apply ref_array; auto). cbn [bind mem set_obj set_mem]. rewrite Z.eqb_refl. cbn [bind]. rewrite Fl. cbn [bind fst snd].
  assert (NI : ~ In i fl) by (pose proof (ok_nodup _ _ OK) as X; inversion X; auto).
  assert (F0 : forall x o, mem (uh u) x = Some o -> x <> a) by (intros x o Mx ->; congruence).
  do 2 eexists. split; [reflexivity|]. left. exists i, fl. split; [auto|]. rewrite P5.
  split; [|split; [|split; [|split; [exact NM|]]]].
  - constructor; cbn [uh up put_array set_h].
    + apply set_obj_ok, set_obj_ok. auto.
    + cbn [mem set_obj set_mem]. destruct (Z.eqb_spec 0 a); [congruence|]. rewrite M. exact (r_null _ _ R).
    + split; [inversion P1; auto|]. apply Forall_inv_tail in P4. rewrite Forall_forall in *. intros x X. cbn.
      destruct (Z.eqb_spec x a) as [->|]; [exfalso; apply P2; right; auto|]. rewrite M. auto.
  - split; [|split]; cbn [uh put_array set_h].
    + intros j J. change (cell h1 j = cell (uh u) j). apply S1. intros [->|[]]. apply J. left; auto.
    + cbn. auto.
    + intros x o Mx. cbn. destruct (Z.eqb_spec x a) as [->|]; [congruence|]. rewrite M. auto.
  - reflexivity.
  - intros X OX. eapply den_bytes with (p := a) (q := q) (x := d); auto.
    + intros _ _ H. rewrite I in H. apply in_app_or in H. destruct H as [H|H]; [|auto]. exact (OX _ H (or_introl eq_refl)).
    + apply ref_array; auto.
    + cbn. rewrite Z.eqb_refl. reflexivity.
Qed.

Lemma off_nil fl : off [] fl. Proof. intros x []. Qed.
Lemma made_outcome u fl bs u' r : made u fl bs u' r -> outcome 1 2 u fl (Bytes bs) u' r.
Proof.
  intros [(i&fl'&->&R&G&Av&NM&D)|(N&->&OK&G)].
  - exists fl'. assert (I : incl fl' (i :: fl')) by apply incl_tl, incl_refl. split; [exact I|]. split; [apply R|]. split; [intros; eapply den_grows; eauto|].
    left. cbn [length]. split; [lia|split; [lia|split; [exact R|exact (D [] (off_nil _))]]].
  - exists fl. split; [apply incl_refl|]. split; [auto|]. split; [intros; eapply den_grows; eauto; apply incl_refl|]. right. auto.
Qed.

(* ---- writing the bytes ---- *)
Lemma memcpy_spec dst s1 src s2 n : (s1 + n <= length dst)%nat -> (s2 + n <= length src)%nat ->
  memcpy false dst (Z.of_nat s1) src (Z.of_nat s2) (Z.of_nat n) = Ok (ArrExt_Spec.put_at s1 (ArrExt_Spec.slice s2 n src) dst).
Proof.
  intros H1 H2. unfold memcpy, ArrExt_Spec.put_at, ArrExt_Spec.slice. cbn [andb negb].
  match goal with |- (if ?c then _ else _) = _ => replace c with true by lia end.
  rewrite !Nat2Z.id, <- Nat2Z.inj_add, Nat2Z.id, firstn_length, skipn_length. repeat f_equal. lia.
Qed.
Lemma wr_end (s : list Z) x y : wr (s ++ [x]) (Z.of_nat (length s)) y = Ok (s ++ [y]).
Proof.
  rewrite wr_ok by (rewrite app_length; cbn [length]; lia). rewrite Nat2Z.id, upd_mid. reflexivity.
Qed.
Lemma copy_spec src start n : (start + n <= length src)%nat ->
  copy_str src (Z.of_nat start) (Z.of_nat n) (repeat 0 (S n)) = Ok (ArrExt_Spec.slice start n src ++ [0]).
Proof.
  intros H. unfold copy_str. change 0 with (Z.of_nat 0) at 2. rewrite memcpy_spec by (rewrite ?repeat_length; lia). cbn [bind].
  set (s := ArrExt_Spec.slice start n src). assert (Ls : length s = n) by (unfold s, ArrExt_Spec.slice; rewrite firstn_length, skipn_length; lia).
  unfold ArrExt_Spec.put_at. cbn [firstn app]. replace (skipn (0 + length s) (repeat 0 (S n))) with [0].
  - rewrite <- Ls. apply wr_end.
  - rewrite Ls. replace (S n) with (n + 1)%nat by lia. cbn [Nat.add]. rewrite repeat_app, skipn_app, repeat_length, Nat.sub_diag, skipn_all2 by (rewrite repeat_length; lia). reflexivity.
Qed.
Lemma dec_size_ok fl h v bs : mem h 0 = None -> den fl h v (Bytes bs) -> dec_str_size h v = Ok (Some bs).
Proof. intros NN D. destruct (array_facts fl h v bs NN D) as (p&d&q&R&M&I&E&_). unfold dec_str_size. rewrite I. cbn [bind]. rewrite E. reflexivity. Qed.
End Arch.
