(* Unflattening arbitrary bytes: when the counts and strings in the buffer stay
   inside it and there is memory for the lisp arrays, nothing goes wrong. *)
From Verif Require Import Base Value_Model Heap_Model Value_Proofs Value_Proofs2 Value_Props Heap_Spec Heap_Proofs List_Proofs Env_Proofs
  GC_Model Eq_Model Eq_Spec Eq_Props Set_Props Sym_Model Sym_Props Flat_Model Flat_Spec Flat_Proofs Flat_Proofs2.
Local Open Scope Z_scope.

(* ---- Specification ---- *)
(* the byte at [p], and the big endian number in the four bytes at [p] *)
Definition byte (bs : list Z) (p : Z) : Z := nth (Z.to_nat p) bs 0.
Definition count (bs : list Z) (p : Z) : Z :=
  byte bs p * 2 ^ 24 + byte bs (p + 1) * 2 ^ 16 + byte bs (p + 2) * 2 ^ 8 + byte bs (p + 3).

(* A byte array (tag 13) ends before the buffer does, a symbol (tag 3) has a
   terminator, the size in bytes of a lisp array (tag 31) is a word. *)
Definition contained {A : Arch} (bs : list Z) : Prop := forall p, 0 <= p < Z.of_nat (length bs) ->
  (byte bs p = 13 -> p + 5 <= Z.of_nat (length bs) -> p + 5 + count bs (p + 1) <= Z.of_nat (length bs)) /\
  (byte bs p = 3 -> exists q, p < q < Z.of_nat (length bs) /\ byte bs q = 0) /\
  (byte bs p = 31 -> p + 5 <= Z.of_nat (length bs) -> WB * count bs (p + 1) < 2 ^ W).

(* memory for [n] more values: a cell and two blocks each *)
Definition room (n : Z) (fl pool : list Z) : Prop :=
  n <= Z.of_nat (length fl) /\ 2 * n <= Z.of_nat (length pool) /\ Forall (fun a => a <> 0) pool /\ NoDup pool.

(* ---- Proofs ---- *)
Lemma byte_rd bs p : 0 <= p < Z.of_nat (length bs) -> rd bs p = Ok (byte bs p).
Proof. intros. apply rd_nth; [lia|]. apply nth_error_nth'. lia. Qed.
Lemma byte_ok bs p : Forall (fun b => 0 <= b < 256) bs -> 0 <= byte bs p < 256.
Proof.
  intros F. unfold byte. destruct (Nat.lt_ge_cases (Z.to_nat p) (length bs)) as [L|G].
  - rewrite Forall_forall in F. apply F, nth_In. auto.
  - rewrite nth_overflow by auto. lia.
Qed.

Lemma be_total bs : Forall (fun b => 0 <= b < 256) bs -> forall k p acc, 0 <= p -> p + Z.of_nat k <= Z.of_nat (length bs) ->
  exists x, be bs p k acc = Ok x.
Proof.
  intros F. induction k as [|k IH]; intros p acc P L; cbn [be]; [eauto|]. rewrite byte_rd by lia. cbn [bind]. apply IH; lia.
Qed.
Lemma be_count bs p : Forall (fun b => 0 <= b < 256) bs -> 0 <= p -> p + 4 <= Z.of_nat (length bs) -> be bs p 4 0 = Ok (count bs p).
Proof.
  intros F P L. pose proof (byte_ok bs p F). pose proof (byte_ok bs (p + 1) F). pose proof (byte_ok bs (p + 2) F). pose proof (byte_ok bs (p + 3) F).
  cbn [be]. rewrite byte_rd by lia. cbn [bind]. rewrite byte_rd by lia. cbn [bind]. rewrite byte_rd by lia. cbn [bind]. rewrite byte_rd by lia. cbn [bind].
  replace (p + 1 + 1) with (p + 2) by lia. replace (p + 2 + 1) with (p + 3) by lia.
  rewrite !Z.shiftl_mul_pow2 by lia. rewrite !(lor_add _ _ 8) by (change (2 ^ 8) with 256; lia). unfold count. f_equal.
  change (2 ^ 24) with (2 ^ 8 * 2 ^ 8 * 2 ^ 8). change (2 ^ 16) with (2 ^ 8 * 2 ^ 8). lia.
Qed.

Lemma c_string_total l : In 0 l -> exists n, c_string l = Ok n /\ name_ok n /\ (length n < length l)%nat.
Proof.
  induction l as [|x l IH]; [intros []|]. intros I. cbn [c_string]. destruct (Z.eqb_spec x 0) as [->|N].
  - exists []. split; auto. split; [constructor|simpl; lia].
  - destruct IH as (n&E&NO&L); [destruct I; congruence||auto|]. rewrite E. cbn [bind]. exists (x :: n). split; auto.
    split; [constructor; auto|simpl; lia].
Qed.

Section Arch.
Context {A : Arch}.

(* [k] values' worth of cells, blocks and symbols used, memory outside [ex] and
   the new blocks untouched *)
Definition eff (max : nat) (ex : list Z) (k : Z) (u : ust) (hist : list (op * ans)) (fl : list Z) (u' : ust) (hist' : list (op * ans)) (fl' : list Z) : Prop :=
  heap_ok (uh u') fl' /\ Z.of_nat (length fl) <= Z.of_nat (length fl') + k /\
  reachable max hist' (us u') /\ Z.of_nat (length hist') <= Z.of_nat (length hist) + k /\
  exists used, up u = used ++ up u' /\ Z.of_nat (length used) <= 2 * k /\ (forall x, ~ In x ex -> ~ In x used -> mem (uh u') x = mem (uh u) x).

Lemma eff_refl max ex u hist fl k : heap_ok (uh u) fl -> reachable max hist (us u) -> 0 <= k -> eff max ex k u hist fl u hist fl.
Proof. intros. split; auto. split; [lia|]. split; auto. split; [lia|]. exists []. split; auto. split; [cbn [length]; lia|auto]. Qed.
Lemma eff_weak max ex ex' k k' u hist fl u' hist' fl' : k <= k' -> incl ex ex' -> eff max ex k u hist fl u' hist' fl' -> eff max ex' k' u hist fl u' hist' fl'.
Proof.
  intros L I (H1&H2&H3&H4&used&U1&U2&U3). split; auto. split; [lia|]. split; auto. split; [lia|]. exists used. split; auto. split; [lia|auto].
Qed.
Lemma eff_trans max ex k k' u hist fl u1 hist1 fl1 u' hist' fl' : eff max ex k u hist fl u1 hist1 fl1 -> eff max ex k' u1 hist1 fl1 u' hist' fl' ->
  eff max ex (k + k') u hist fl u' hist' fl'.
Proof.
  intros (H1&H2&H3&H4&used&U1&U2&U3) (G1&G2&G3&G4&vsed&V1&V2&V3). split; auto. split; [lia|]. split; auto. split; [lia|].
  exists (used ++ vsed). split; [rewrite U1, V1, app_assoc; auto|]. split; [rewrite app_length; lia|].
  intros x N X. rewrite V3, U3; auto; intros Y; apply X, in_or_app; auto.
Qed.

Lemma room_eff max ex k n u hist fl u' hist' fl' : eff max ex k u hist fl u' hist' fl' -> room (n + k) fl (up u) -> room n fl' (up u').
Proof.
  intros (_&H2&_&_&used&U1&U2&U3) (R1&R2&R3&R4). rewrite U1 in R2, R3, R4. rewrite app_length in R2. apply Forall_app in R3.
  destruct (NoDup_app_inv _ _ R4) as (_&ND&_). split; [lia|]. split; [lia|]. tauto.
Qed.

(* what an encoder does *)
Definition enc_fine (enc : ust -> Z -> res (ust * Z)) : Prop := forall max u x fl hist, heap_ok (uh u) fl -> reachable max hist (us u) ->
  exists u' c fl', enc u x = Ok (u', c) /\ eff max [] 1 u hist fl u' hist fl'.

Lemma imm_fine (g : Z -> Z) : enc_fine (fun u x => Ok (u, g x)).
Proof. intros max u x fl hist OK R. exists u, (g x), fl. split; auto. apply eff_refl; auto; lia. Qed.

Lemma cons_any h fl a d : heap_ok h fl -> exists h' c fl', cons h a d = Ok (h', c) /\ heap_ok h' fl' /\ (length fl <= length fl' + 1)%nat /\
  mem h' = mem h /\ (c = MERROR \/ exists i, c = enc_cons_ptr i /\ 0 <= i < 2 ^ (W - 8) /\ cell h' i = Some (a, d) /\ ~ In i fl').
Proof.
  intros OK. destruct fl as [|i fl].
  - exists h, MERROR, []. rewrite cons_fail by auto. split; auto. split; auto. split; [cbn [length]; lia|]. auto.
  - destruct (cons_ok h i fl a d OK) as (h'&E&OK'&C&S&Sz&Cc&M&Fr&R). exists h', (enc_cons_ptr i), fl. split; auto. split; auto.
    split; [cbn [length]; lia|]. split; auto. right. exists i. split; auto. split; auto. split; auto.
    pose proof (ok_nodup _ _ OK) as ND. inversion ND; auto.
Qed.

Lemma enc_raw_fine qual ty : enc_fine (fun u x => enc_raw u x qual ty).
Proof.
  intros max u x fl hist OK R. unfold enc_raw. destruct (cons_any (uh u) fl x (enc_sym qual) OK) as (h'&c&fl'&E&OK'&L&M&_).
  rewrite E. cbn [bind]. assert (F : eff max [] 1 u hist fl (set_h u h') hist fl').
  { split; auto. split; [lia|]. split; auto. split; [lia|]. exists []. split; auto. split; [cbn [length]; lia|]. intros. cbn. rewrite M; auto. }
  destruct (type_of c =? TYPE_SYMBOL); eauto.
Qed.

Lemma enc_64_fine qual ty : enc_fine (fun u x => enc_64_on_32 u x qual ty).
Proof.
  intros max u x fl hist OK R. unfold enc_64_on_32. destruct (cons_any (uh u) fl NIL NIL OK) as (h'&c&fl'&E&OK'&L&M&D).
  rewrite E. cbn [bind]. assert (F : eff max [] 1 u hist fl (set_h u h') hist fl').
  { split; auto. split; [lia|]. split; auto. split; [lia|]. exists []. split; auto. split; [cbn [length]; lia|]. intros. cbn. rewrite M; auto. }
  destruct D as [->|(i&->&R8&C&NI)].
  { rewrite MERROR_type. cbn [negb]. eauto. }
  rewrite enc_type_not_sym by auto. cbn [negb]. unfold malloc. cbn [up set_h]. destruct (up u) as [|a pool] eqn:U.
  { cbn [Z.eqb negb]. eauto. }
  destruct (Z.eqb_spec a 0) as [->|NA]; cbn [negb].
  - do 2 eexists. exists fl'. split; [reflexivity|]. split; auto. split; [lia|]. split; auto. split; [lia|]. exists [0]. split; auto. split; [cbn [length]; lia|].
    intros. cbn. rewrite M; auto.
  - cbn [uh set_h]. unfold set_car_and_cdr. rewrite enc_rw by auto.
    assert (C' : cell (set_obj h' a (Some (OBox x))) i = Some (NIL, NIL)) by exact C.
    rewrite ref_cell_rw, enc_ix, C' by auto using enc_not_const. cbn [bind]. rewrite put_cell_rw, enc_ix, C' by auto using enc_not_const. cbn [bind].
    do 2 eexists. exists fl'. split; [reflexivity|]. split; [apply heap_ok_put; auto using set_obj_ok; lia|]. split; [lia|]. split; auto. split; [lia|].
    exists [a]. split; auto. split; [cbn [length]; lia|]. intros y _ Y. cbn. destruct (Z.eqb_spec y a); [exfalso; apply Y; left; auto|]. rewrite M. auto.
Qed.

Lemma enc_i32_fine : enc_fine enc_i32. Proof. unfold enc_i32. destruct b64; [apply (imm_fine (fun x => enc_i32_imm (sgn 32 x)))|apply enc_raw_fine]. Qed.
Lemma enc_u32_fine : enc_fine enc_u32. Proof. unfold enc_u32. destruct b64; [apply (imm_fine (fun x => enc_u32_imm x))|apply enc_raw_fine]. Qed.
Lemma enc_float_fine : enc_fine enc_float. Proof. unfold enc_float. destruct b64; [apply (imm_fine (fun x => enc_float_imm x))|apply enc_raw_fine]. Qed.
Lemma enc_i64_fine : enc_fine enc_i64. Proof. unfold enc_i64. destruct b64; [apply enc_raw_fine|apply enc_64_fine]. Qed.
Lemma enc_u64_fine : enc_fine enc_u64. Proof. unfold enc_u64. destruct b64; [apply enc_raw_fine|apply enc_64_fine]. Qed.
Lemma enc_double_fine : enc_fine enc_double. Proof. unfold enc_double. destruct b64; [apply enc_raw_fine|apply enc_64_fine]. Qed.

Lemma mem_free_ok h fl a : heap_ok h fl -> heap_ok (mem_free h a) fl.
Proof. intros [S C N K]. constructor; auto. eapply chain_frame; eauto. Qed.

(* what allocating an array does *)
Definition header (b : bool) (num d : Z) : obj :=
  if b then OByte d (repeat 0 (Z.to_nat num))
  else OLisp d (wrap W (WB * num)) (repeat 0 (Z.to_nat (wrap W (WB * num) / WB))) 0.

Lemma alloc_any max u b num fl hist : heap_ok (uh u) fl -> reachable max hist (us u) ->
  exists u' c fl', alloc_array u b num = Ok (u', c) /\ eff max [] 1 u hist fl u' hist fl' /\
    (room 1 fl (up u) -> c <> MERROR) /\
    (c <> MERROR -> exists i a d q, c = set_ptr_type (enc_cons_ptr i) (array_ty b) /\ 0 <= i < 2 ^ (W - 8) /\
      cell (uh u') i = Some (a, q) /\ mem (uh u') a = Some (header b num d) /\ (exists pre, up u = a :: pre ++ up u')).
Proof.
  intros OK R. unfold alloc_array. set (size := if b then num else wrap W (WB * num)). unfold malloc.
  assert (M0 : MERROR <> MERROR -> forall P : Prop, P) by congruence.
  destruct (up u) as [|a pool] eqn:U.
  { cbn [Z.eqb]. exists u, MERROR, fl. split; auto. split; [apply eff_refl; auto; lia|]. split; [intros (_&R2&_); simpl in R2; lia|intros X; apply M0; auto]. }
  destruct (Z.eqb_spec a 0) as [->|NA].
  { do 2 eexists. exists fl. split; [reflexivity|]. split.
    { split; auto. split; [lia|]. split; auto. split; [lia|]. exists [0]. split; auto. split; [cbn [length]; lia|auto]. }
    split; [intros (_&_&F&_); inversion F; congruence|intros X; apply M0; auto]. }
  cbn [up].
  assert (STEP : forall d pool2, (exists pre, pool = pre ++ pool2 /\ (length pre <= 1)%nat) ->
    let u2 := mkU (uh u) pool2 (us u) (uk u) in
    exists u' c fl', (let! (h, c) := alloc_cell (uh u2) (if b then TYPE_ARRAY else TYPE_LISPARRAY) a (enc_sym (if b then SYM_ARRAY_TYPE else SYM_LISPARRAY_TYPE)) in
      if c =? MERROR then Ok (set_h u2 (mem_free (mem_free h d) a), MERROR)
      else Ok (set_h u2 (set_obj h a (Some (if b then OByte d (repeat 0 (Z.to_nat size)) else OLisp d size (repeat 0 (Z.to_nat (size / WB))) 0))), c)) = Ok (u', c) /\
      eff max [] 1 u hist fl u' hist fl' /\ (fl <> [] -> c <> MERROR) /\
      (c <> MERROR -> exists i a d q, c = set_ptr_type (enc_cons_ptr i) (array_ty b) /\ 0 <= i < 2 ^ (W - 8) /\
        cell (uh u') i = Some (a, q) /\ mem (uh u') a = Some (header b num d) /\ (exists pre, up u = a :: pre ++ up u'))).
  { intros d pool2 (pre&->&LP) u2. destruct fl as [|i fl].
    - rewrite alloc_cell_nil by auto. cbn [bind]. rewrite Z.eqb_refl. do 2 eexists. exists []. split; [reflexivity|]. split.
      { split. { cbn [uh set_h]. auto using mem_free_ok. } split; [lia|]. split; auto. split; [lia|]. exists (a :: pre). split; [rewrite U; auto|]. split; [cbn [length]; lia|auto]. }
      split; [congruence|intros X; apply M0; auto].
    - destruct (alloc_cell_ok (uh u) i fl (array_ty b) a (enc_sym (if b then SYM_ARRAY_TYPE else SYM_LISPARRAY_TYPE)) OK (good_ptr_tag _ (good_array_ty b)))
        as (h1&E&OK1&C&S&Sz&Cc&M&_&_&R0&_).
      assert (R8 : 0 <= i < 2 ^ (W - 8)) by (pose proof (ok_size _ _ OK); lia).
      destruct (tagged_facts i (array_ty b) R8 (good_array_ty b)) as (P&I&K&T&NM). cbn [uh u2]. unfold array_ty in E. rewrite E. cbn [bind]. fold (array_ty b).
      rewrite merror_neq by auto. do 2 eexists. exists fl. split; [reflexivity|]. split.
      { split; [apply set_obj_ok; auto|]. split; [cbn [length]; lia|]. split; auto. split; [lia|]. exists (a :: pre). split; [rewrite U; auto|]. split; [cbn [length]; lia|].
        intros y _ Y. cbn. destruct (Z.eqb_spec y a); [exfalso; apply Y; left; auto|]. rewrite M. auto. }
      split; auto. intros _. exists i, a, d. eexists. split; auto. split; auto. split; [exact C|]. split.
      { cbn. rewrite Z.eqb_refl. unfold header, size. destruct b; reflexivity. }
      exists pre. exact U. }
  destruct (Z.gtb_spec size 0) as [G|G].
  - destruct pool as [|d pool].
    + cbn [andb Z.eqb]. do 2 eexists. exists fl. split; [reflexivity|]. split.
      { split. { cbn [uh set_h]. auto using mem_free_ok. } split; [lia|]. split; auto. split; [lia|]. exists [a]. split; auto. split; [cbn [length]; lia|auto]. }
      split; [intros (_&R2&_); simpl in R2; lia|intros X; apply M0; auto].
    + destruct (Z.eqb_spec d 0) as [->|ND]; cbn [andb].
      * do 2 eexists. exists fl. split; [reflexivity|]. split.
        { split. { cbn [uh set_h]. auto using mem_free_ok. } split; [lia|]. split; auto. split; [lia|]. exists [a; 0]. split; auto. split; [cbn [length]; lia|auto]. }
        split; [intros (_&_&F&_); inversion F as [|? ? ? F2]; inversion F2; congruence|intros X; apply M0; auto].
      * destruct (STEP d pool) as (u'&c&fl'&E&EF&NM&H). { exists [d]. simpl. auto. }
        exists u', c, fl'. split; [exact E|]. split; auto. split. { intros (R1&_). apply NM. intros ->. simpl in R1. lia. }
        rewrite U in H. exact H.
  - cbn [andb]. destruct (STEP 0 pool) as (u'&c&fl'&E&EF&NM&H). { exists []. simpl. auto. }
    exists u', c, fl'. split; [exact E|]. split; auto. split. { intros (R1&_). apply NM. intros ->. simpl in R1. lia. }
    rewrite U in H. exact H.
Qed.

(* ---- the decoder ---- *)
Definition is_ok (r : un) : Prop := match r with UOk _ => True | _ => False end.

Definition fine (max : nat) (bs : list Z) (hist : list (op * ans)) (fl : list Z) (u : ust) (p : Z) (x : ust * fv * un) : Prop :=
  let '(u', f', r) := x in
  buf f' = bs /\ p <= pos f' <= Z.of_nat (length bs) /\ (is_ok r -> p < pos f') /\
  exists hist' fl', eff max [] (pos f' - p) u hist fl u' hist' fl'.

Definition rec_fine (max : nat) (bs : list Z) (lo : Z) (rec : ust -> fv -> res (ust * fv * un)) : Prop := forall u p fl hist,
  lo <= p <= Z.of_nat (length bs) -> heap_ok (uh u) fl -> reachable max hist (us u) ->
  Z.of_nat (length hist) + (Z.of_nat (length bs) - p) < 2 ^ 27 -> (In 31 bs -> room (Z.of_nat (length bs) - p) fl (up u)) ->
  exists x, rec u (mkF bs p) = Ok x /\ fine max bs hist fl u p x.

Lemma elts_fine max bs lo rec hd : rec_fine max bs lo rec -> In 31 bs -> forall fuel i size u p r fl hist d s es ix,
  lo <= p <= Z.of_nat (length bs) -> heap_ok (uh u) fl -> reachable max hist (us u) -> Z.of_nat (length hist) + (Z.of_nat (length bs) - p) < 2 ^ 27 ->
  room (Z.of_nat (length bs) - p) fl (up u) -> ~ In hd (up u) -> mem (uh u) hd = Some (OLisp d s es ix) -> size <= Z.of_nat (length es) ->
  0 <= i -> Z.of_nat (length bs) - p < Z.of_nat fuel ->
  exists u' f' r', unflatten_elts rec fuel i size hd u (mkF bs p) r = Ok (u', f', r') /\ buf f' = bs /\ p <= pos f' <= Z.of_nat (length bs) /\
    exists hist' fl', eff max [hd] (pos f' - p) u hist fl u' hist' fl'.
Proof.
  intros RF I31. induction fuel as [|fuel IH]; intros i size u p r fl hist d s es ix P OK R HB RM NI M L I0 Fu; [lia|].
  cbn [unflatten_elts]. destruct (Z.ltb_spec i size).
  2:{ exists u, (mkF bs p), r. split; auto. split; auto. cbn [pos]. split; [lia|]. exists hist, fl. apply eff_refl; auto; lia. }
  destruct (RF u p fl hist P OK R HB (fun _ => RM)) as ([[u1 f1] r1]&E&B1&P1&G1&hist1&fl1&EF). rewrite E. cbn [bind].
  assert (D : exists u' f' r', Ok (u1, f1, r1) = Ok (u', f', r') /\ buf f' = bs /\ p <= pos f' <= Z.of_nat (length bs) /\
    exists hist' fl', eff max [hd] (pos f' - p) u hist fl u' hist' fl').
  { exists u1, f1, r1. split; auto. split; auto. split; auto. exists hist1, fl1. eapply eff_weak; [|apply incl_nil_l|exact EF]. lia. }
  destruct r1 as [v| |]; auto. clear D. specialize (G1 Logic.I). pose proof EF as (H1&H2&H3&H4&used&U1&U2&U3).
  assert (NI1 : ~ In hd (up u1)) by (intros X; apply NI; rewrite U1; apply in_or_app; auto).
  rewrite (U3 hd), M; [|intros []|intros X; apply NI; rewrite U1; apply in_or_app; auto].
  rewrite wr_ok by lia. cbn [bind]. destruct f1 as [b1 p1]. cbn [buf pos] in *. subst b1.
  set (u2 := set_h u1 (set_obj (uh u1) hd (Some (OLisp d s (upd es (Z.to_nat i) v) ix)))).
  assert (RM1 : room (Z.of_nat (length bs) - p1) fl1 (up u1)) by (eapply room_eff; [exact EF|]; replace (Z.of_nat (length bs) - p1 + (p1 - p)) with (Z.of_nat (length bs) - p) by lia; auto).
  destruct (IH (i + 1) size u2 p1 (UOk v) fl1 hist1 d s (upd es (Z.to_nat i) v) ix) as (u3&f3&r3&E3&B3&P3&hist3&fl3&EF3); auto; try lia.
  { apply set_obj_ok; auto. } { cbn. rewrite Z.eqb_refl. auto. } { rewrite length_upd. auto. }
  exists u3, f3, r3. split; [exact E3|]. split; auto. split; [lia|]. exists hist3, fl3.
  replace (pos f3 - p) with ((p1 - p) + (pos f3 - p1)) by lia. eapply eff_trans; [eapply eff_weak; [|apply incl_nil_l|exact EF]; lia|].
  destruct EF3 as (K1&K2&K3&K4&used3&V1&V2&V3). split; auto. split; [lia|]. split; auto. split; [lia|]. exists used3. split; auto. split; [lia|].
  intros x X Y. rewrite V3 by auto. cbn. destruct (Z.eqb_spec x hd) as [->|]; auto. exfalso. apply X. left; auto.
Qed.


Lemma room_mono n m fl pool : m <= n -> room n fl pool -> room m fl pool.
Proof. intros L (R1&R2&R3&R4). split; [lia|]. split; [lia|]. auto. Qed.

Lemma num_fine max bs u p k enc chk fl hist : Forall (fun b => 0 <= b < 256) bs -> enc_fine enc -> 0 <= k -> 0 <= p -> p + 1 <= Z.of_nat (length bs) ->
  (forall f r, exists r', chk f r = Ok (fst r : ust, f : fv, r')) -> heap_ok (uh u) fl -> reachable max hist (us u) ->
  exists x, (let! (o, f1) := extract (mkF bs (p + 1)) k in
      match o with
      | None => Ok (u, f1, UBad)
      | Some x => let! r := enc u x in chk f1 r
      end) = Ok x /\ fine max bs hist fl u p x.
Proof.
  intros F EF K P L CH OK R. unfold extract, blen. cbn [buf pos]. destruct (Z.geb_spec (Z.of_nat (length bs)) (p + 1 + k)).
  - destruct (be_total bs F (Z.to_nat k) (p + 1) 0) as (x&E); [lia|lia|]. rewrite E. cbn [bind].
    destruct (EF max u x fl hist OK R) as (u'&c&fl'&E2&F2). rewrite E2. cbn [bind]. destruct (CH (mkF bs (p + 1 + k)) (u', c)) as (r'&E3). rewrite E3.
    eexists. split; [reflexivity|]. split; auto. cbn [pos fst]. split; [lia|]. split; [lia|]. exists hist, fl'. eapply eff_weak; [|apply incl_refl|exact F2]. lia.
  - cbn [bind]. eexists. split; [reflexivity|]. split; auto. cbn [pos]. split; [lia|]. split; [intros []|]. exists hist, fl. apply eff_refl; auto. lia.
Qed.

Lemma fine_intro max bs hist fl u p u' p' r hist' fl' : p <= p' <= Z.of_nat (length bs) -> (is_ok r -> p < p') -> eff max [] (p' - p) u hist fl u' hist' fl' ->
  exists x, Ok (u', mkF bs p', r) = Ok x /\ fine max bs hist fl u p x.
Proof. intros. eexists. split; [reflexivity|]. cbn. eauto 10. Qed.

Lemma skipn_byte bs p q : 0 <= p <= q -> q < Z.of_nat (length bs) -> byte bs q = 0 -> In 0 (skipn (Z.to_nat p) bs).
Proof.
  intros P Q B. unfold byte in B. rewrite <- (firstn_skipn (Z.to_nat p) bs) in B.
  assert (L : length (firstn (Z.to_nat p) bs) = Z.to_nat p) by (rewrite firstn_length; lia).
  rewrite app_nth2 in B by lia. rewrite <- B. apply nth_In. rewrite L, skipn_length. lia.
Qed.

Lemma unflatten_fine max bs : Forall (fun b => 0 <= b < 256) bs -> contained bs -> forall fuel,
  rec_fine max bs (Z.max 0 (Z.of_nat (length bs) - Z.of_nat fuel + 1)) (unflatten fuel).
Proof.
  intros F CT. induction fuel as [|n IH]; intros u p fl hist P OK R HB RM; [lia|].
  cbn [unflatten]. unfold blen. cbn [buf pos]. destruct (Z.eqb_spec (Z.of_nat (length bs)) p) as [E|NE].
  { apply (fine_intro max bs hist fl u p u p UBad hist fl); [lia|intros []|]. apply eff_refl; auto. lia. }
  assert (PL : 0 <= p < Z.of_nat (length bs)) by lia. rewrite byte_rd by lia. cbn [bind]. set (curr := byte bs p). cbv zeta.
  assert (N1 : exists x, Ok (u, mkF bs (p + 1), UBad) = Ok x /\ fine max bs hist fl u p x).
  { apply (fine_intro max bs hist fl u p u (p + 1) UBad hist fl); [lia|intros []|]. apply eff_refl; auto. lia. }
  destruct (CT p PL) as (CT13&CT3&CT31). fold curr in CT13, CT3, CT31.
  assert (PLAIN : forall f r, exists r', Ok (fst r : ust, f : fv, UOk (snd r : Z)) = Ok (fst r, f, r')) by eauto.
  assert (CHK : forall f r, exists r', checked f r = Ok (fst r, f, r')) by (intros; unfold checked; eauto).
  assert (LO : Z.max 0 (Z.of_nat (length bs) - Z.of_nat n + 1) <= p + 1) by lia.
  destruct (Z.eqb_spec curr S_CONS) as [E1|_].
  { destruct (IH u (p + 1) fl hist ltac:(lia) OK R ltac:(lia)) as ([[u1 f1] r1]&E&B1&P1&G1&hist1&fl1&EF1).
    { intros X. eapply room_mono; [|apply RM; auto]. lia. }
    rewrite E. cbn [bind]. destruct f1 as [b1 p1]. cbn [buf pos] in *. subst b1.
    assert (D : exists x, Ok (u1, mkF bs p1, r1) = Ok x /\ fine max bs hist fl u p x).
    { apply (fine_intro max bs hist fl u p u1 p1 r1 hist1 fl1); [lia|lia|]. eapply eff_weak; [|apply incl_refl|exact EF1]. lia. }
    destruct r1 as [a| |]; auto. clear D. specialize (G1 Logic.I). pose proof EF1 as (K1&K2&K3&K4&_).
    destruct (IH u1 p1 fl1 hist1 ltac:(lia) K1 K3 ltac:(lia)) as ([[u2 f2] r2]&E2&B2&P2&G2&hist2&fl2&EF2).
    { intros X. eapply room_eff; [exact EF1|]. eapply room_mono; [|apply RM; auto]. lia. }
    rewrite E2. cbn [bind]. destruct f2 as [b2 p2]. cbn [buf pos] in *. subst b2.
    assert (D : exists x, Ok (u2, mkF bs p2, r2) = Ok x /\ fine max bs hist fl u p x).
    { apply (fine_intro max bs hist fl u p u2 p2 r2 hist2 fl2); [lia|lia|].
      eapply eff_weak; [|apply incl_refl|eapply eff_trans; [exact EF1|exact EF2]]. lia. }
    destruct r2 as [b| |]; auto. clear D. pose proof EF2 as (J1&J2&J3&J4&_).
    destruct (cons_any (uh u2) fl2 a b J1) as (h'&c&fl3&E3&OK3&L3&M3&_). rewrite E3. cbn [bind]. unfold checked. cbn [fst snd].
    apply (fine_intro max bs hist fl u p _ p2 _ hist2 fl3); [lia|lia|].
    replace (p2 - p) with ((p1 - (p + 1)) + (p2 - p1) + 1) by lia. eapply eff_trans; [eapply eff_trans; [exact EF1|exact EF2]|].
    split; auto. split; [lia|]. split; auto. split; [lia|]. exists []. split; auto. split; [cbn [length]; lia|]. intros. cbn. rewrite M3. auto. }
  destruct (Z.eqb_spec curr S_LBM_LISP_ARRAY) as [E1|_].
  { unfold extract, blen. cbn [buf pos]. destruct (Z.geb_spec (Z.of_nat (length bs)) (p + 1 + 4)); [|cbn [bind]; auto].
    change (Z.to_nat 4) with 4%nat. rewrite be_count by (auto; lia). cbn [bind]. set (size := count bs (p + 1)) in *.
    assert (I31 : In 31 bs). { unfold S_LBM_LISP_ARRAY in E1. rewrite <- E1. unfold curr, byte. apply nth_In. lia. }
    assert (S0 : 0 <= size).
    { unfold size, count. pose proof (byte_ok bs (p + 1) F). pose proof (byte_ok bs (p + 1 + 1) F). pose proof (byte_ok bs (p + 1 + 2) F). pose proof (byte_ok bs (p + 1 + 3) F). nia. }
    specialize (RM I31). specialize (CT31 E1 ltac:(lia)).
    destruct (alloc_any max u false size fl hist OK R) as (u1&c&fl1&E&EF1&NM&HC). rewrite E. cbn [bind].
    assert (NM' : c <> MERROR) by (apply NM; eapply room_mono; [|exact RM]; lia). clear NM.
    destruct (HC NM') as (i&a&d&q&C1&R8&C2&C3&pool&C4). clear HC.
    destruct (tagged_facts i (array_ty false) R8 (good_array_ty false)) as (Pp&I&K&T&_). rewrite <- C1 in *.
    rewrite (car_ptr _ _ a q Pp) by (rewrite ref_cell_rw, I, C2 by auto; reflexivity). cbn [bind]. rewrite C3. unfold header. cbv iota. rewrite merror_neq by auto.
    pose proof EF1 as (K1&K2&K3&K4&used&U1&U2&U3). pose proof RM as (_&_&_&ND). rewrite C4 in ND. inversion ND as [|? ? NIp ND1]; subst.
    assert (NIa : ~ In a (up u1)) by (intros X; apply NIp, in_or_app; auto).
    destruct (elts_fine max bs _ (unflatten n) a IH I31 (S (length bs)) 0 size u1 (p + 5) UBad fl1 hist d (wrap W (WB * size)) (repeat 0 (Z.to_nat (wrap W (WB * size) / WB))) 0)
      as (u2&f2&r2&E2&B2&P2&hist2&fl2&EF2); auto; try lia.
    { eapply room_mono; [|eapply room_eff; [exact EF1|]]; [reflexivity|]. eapply room_mono; [|exact RM]. lia. }
    { rewrite repeat_length, wrap_small by (pose proof WB_pos; nia). rewrite Z.mul_comm, Z.div_mul by (pose proof WB_pos; lia). lia. }
    replace (p + 1 + 4) with (p + 5) by lia. rewrite E2. cbn [bind]. destruct f2 as [b2 p2]. cbn [buf pos] in *. subst b2.
    apply (fine_intro max bs hist fl u p u2 p2 _ hist2 fl2); [lia|lia|].
    assert (EF : eff max [a] (1 + (p2 - (p + 5))) u hist fl u2 hist2 fl2).
    { eapply eff_trans; [eapply eff_weak; [|apply incl_nil_l|exact EF1]; lia|exact EF2]. }
    destruct EF as (J1&J2&J3&J4&us2&V1&V2&V3). split; auto. split; [lia|]. split; auto. split; [lia|].
    exists us2. split; auto. split; [lia|]. intros x _ X. apply V3; auto. intros [->|[]]. apply X.
    destruct EF2 as (_&_&_&_&us3&W1&_). rewrite C4, W1, app_comm_cons, app_assoc in V1. apply app_inv_tail in V1. rewrite <- V1. left; auto. }
  destruct (Z.eqb_spec curr S_SYM_VALUE) as [_|_]. { apply (num_fine max bs u p (if b64 then 8 else 4) (fun u x => Ok (u, enc_sym x)) (fun f r => Ok (fst r, f, UOk (snd r)))); auto; try lia; [apply imm_fine|destruct b64; lia]. }
  destruct (Z.eqb_spec curr S_BYTE_VALUE) as [_|_]. { apply (num_fine max bs u p 1 (fun u x => Ok (u, enc_char x)) (fun f r => Ok (fst r, f, UOk (snd r)))); auto; try lia; apply imm_fine. }
  destruct (Z.eqb_spec curr S_I28_VALUE) as [_|_]. { apply (num_fine max bs u p 4 (fun u x => Ok (u, enc_i (sgn 32 x))) (fun f r => Ok (fst r, f, UOk (snd r)))); auto; try lia; apply (imm_fine (fun x => enc_i (sgn 32 x))). }
  destruct (Z.eqb_spec curr S_U28_VALUE) as [_|_]. { apply (num_fine max bs u p 4 (fun u x => Ok (u, enc_u x)) (fun f r => Ok (fst r, f, UOk (snd r)))); auto; try lia; apply imm_fine. }
  destruct (Z.eqb_spec curr S_I56_VALUE) as [_|_]. { apply (num_fine max bs u p 8 (if b64 then fun u x => Ok (u, enc_i (sgn 64 x)) else enc_i64) (fun f r => Ok (fst r, f, UOk (snd r)))); auto; try lia; destruct b64; [apply (imm_fine (fun x => enc_i (sgn 64 x)))|apply enc_i64_fine]. }
  destruct (Z.eqb_spec curr S_U56_VALUE) as [_|_]. { apply (num_fine max bs u p 8 (if b64 then fun u x => Ok (u, enc_u x) else enc_u64) (fun f r => Ok (fst r, f, UOk (snd r)))); auto; try lia; destruct b64; [apply imm_fine|apply enc_u64_fine]. }
  destruct (Z.eqb_spec curr S_FLOAT_VALUE) as [_|_]. { apply (num_fine max bs u p 4 enc_float checked); auto; try lia; apply enc_float_fine. }
  destruct (Z.eqb_spec curr S_DOUBLE_VALUE) as [_|_]. { apply (num_fine max bs u p 8 enc_double checked); auto; try lia; apply enc_double_fine. }
  destruct (Z.eqb_spec curr S_I32_VALUE) as [_|_]. { apply (num_fine max bs u p 4 enc_i32 checked); auto; try lia; apply enc_i32_fine. }
  destruct (Z.eqb_spec curr S_U32_VALUE) as [_|_]. { apply (num_fine max bs u p 4 enc_u32 checked); auto; try lia; apply enc_u32_fine. }
  destruct (Z.eqb_spec curr S_I64_VALUE) as [_|_]. { apply (num_fine max bs u p 8 enc_i64 checked); auto; try lia; apply enc_i64_fine. }
  destruct (Z.eqb_spec curr S_U64_VALUE) as [_|_]. { apply (num_fine max bs u p 8 enc_u64 checked); auto; try lia; apply enc_u64_fine. }
  destruct (Z.eqb_spec curr S_LBM_ARRAY) as [E1|_].
  { unfold extract, blen. cbn [buf pos]. destruct (Z.geb_spec (Z.of_nat (length bs)) (p + 1 + 4)); [|cbn [bind]; auto].
    change (Z.to_nat 4) with 4%nat. rewrite be_count by (auto; lia). cbn [bind]. set (num := count bs (p + 1)) in *.
    assert (S0 : 0 <= num).
    { unfold num, count. pose proof (byte_ok bs (p + 1) F). pose proof (byte_ok bs (p + 1 + 1) F). pose proof (byte_ok bs (p + 1 + 2) F). pose proof (byte_ok bs (p + 1 + 3) F). nia. }
    specialize (CT13 E1 ltac:(lia)).
    destruct (alloc_any max u true num fl hist OK R) as (u1&c&fl1&E&EF1&_&HC). rewrite E. cbn [bind].
    destruct (Z.eqb_spec c MERROR) as [_|NM].
    { apply (fine_intro max bs hist fl u p u1 (p + 1 + 4) URetry hist fl1); [lia|intros []|]. eapply eff_weak; [|apply incl_refl|exact EF1]. lia. }
    destruct (HC NM) as (i&a&d&q&C1&R8&C2&C3&pool&C4). clear HC.
    destruct (tagged_facts i (array_ty true) R8 (good_array_ty true)) as (Pp&I&K&T&_). rewrite <- C1 in *.
    rewrite (car_ptr _ _ a q Pp) by (rewrite ref_cell_rw, I, C2 by auto; reflexivity). cbn [bind]. rewrite C3. unfold header. cbv iota. 
    unfold slice. cbn [buf pos]. replace ((0 <=? p + 1 + 4) && (p + 1 + 4 + num <=? Z.of_nat (length bs))) with true.
    2:{ symmetry. apply andb_true_iff. split; apply Z.leb_le; lia. }
    cbn [bind buf pos]. eapply (fine_intro max bs hist fl u p _ (p + 1 + 4 + num) _ hist fl1); [lia|lia|].
    destruct EF1 as (K1&K2&K3&K4&used&U1&U2&U3). split; [apply set_obj_ok; auto|]. split; [lia|]. split; auto. split; [lia|].
    exists used. split; auto. split; [lia|]. intros x _ X. cbn. destruct (Z.eqb_spec x a) as [->|]; [|apply U3; auto].
    exfalso. apply X. rewrite C4, app_comm_cons in U1. apply app_inv_tail in U1. rewrite <- U1. left; auto. }
  destruct (Z.eqb_spec curr S_SYM_STRING) as [E1|_]; [|auto].
  destruct (CT3 E1) as (q&Q1&Q2).
  destruct (c_string_total (skipn (Z.to_nat (p + 1)) bs)) as (nm&E&NO&LN). { apply (skipn_byte bs (p + 1) q); auto; lia. }
  rewrite E. cbn [bind]. rewrite skipn_length in LN.
  destruct (tables_safe max hist (us u) (OSym Memory nm (List.hd false (uk u))) R NO ltac:(lia)) as (s'&a&ES&RS). cbn [step] in ES.
  destruct (add_symbol (us u) Memory nm (List.hd false (uk u))) as [[s1 o]| |]; try discriminate. cbn [bind] in ES |- *. injection ES as <- <-.
  assert (EF : forall k, 1 <= k -> eff max [] k u hist fl (mkU (uh u) (up u) s1 (tl (uk u))) (hist ++ [(OSym Memory nm (List.hd false (uk u)), Sym o)]) fl).
  { intros k K. split; auto. split; [lia|]. split; auto. split; [rewrite app_length; cbn [length]; lia|]. exists []. split; auto. split; [cbn [length]; lia|auto]. }
  destruct o as [id|].
  - eapply (fine_intro max bs hist fl u p _ (p + 1 + (Z.of_nat (length nm) + 1))); [lia|lia|]. apply EF. lia.
  - eapply (fine_intro max bs hist fl u p _ (p + 1)); [lia|intros []|]. apply EF. lia.
Qed.

End Arch.
