(* The functions of fundamental.c at work, and where they go wrong. *)
From Verif Require Import Base Value_Model Heap_Model Value_Proofs Value_Proofs2 Value_Props Heap_Spec Heap_Proofs Heap_Proofs2 List_Proofs GC_Model.
From Verif Require Import Env_Model Env_Proofs Eq_Model Eq_Spec Set_Props Eval_Proofs Flat_Model Flat_Spec Flat_Proofs Flat_Proofs2 Read_Model Read_Proofs2 ArrExt_Model ArrExt_Spec ArrExt_Proofs.
From Verif Require Import Sym_Model StrExt_Spec StrExt_Proofs Fund_Model Fund_Spec Fund_Proofs Fund_Props Fund_Props2 Fund_Props3 Fund_Props4 Fund_Props5.
From Verif Require Read_Props.
Import List.
Local Open Scope Z_scope.

#[local] Instance conv4 : Conv := {| f32_i32 _ := None; f64_i32 _ := None |}.
#[local] Instance libc4 : Libc := Read_Props.libc0.

(* cells 0 to 2: the list (1 2 3); cells 3 and 4: (10 20); cell 5: an array of 7 and
   8; cell 6: the pair (1 . 2); cells 7 to 14 are free; cells 15 to 18: the
   association list ((a . 1) (5 . 2)), a being symbol 1000; cells 19 and 20: the same
   string "k" twice; cells 21 and 22: the list (("k" . 1)) *)
Definition arr4 {A : Arch} : Z := set_ptr_type (enc_cons_ptr 5) TYPE_LISPARRAY.
Definition str4 {A : Arch} (i : Z) : Z := set_ptr_type (enc_cons_ptr i) TYPE_ARRAY.
Definition sym_a {A : Arch} : Z := enc_sym 1000.
Definition heap4 {A : Arch} : heap :=
  mkHeap [(enc_i 1, enc_cons_ptr 1); (enc_i 2, enc_cons_ptr 2); (enc_i 3, 0); (enc_i 10, enc_cons_ptr 4); (enc_i 20, 0);
          (500, enc_sym SYM_LISPARRAY_TYPE); (enc_i 1, enc_i 2);
          (0, enc_cons_ptr 8); (0, enc_cons_ptr 9); (0, enc_cons_ptr 10); (0, enc_cons_ptr 11); (0, enc_cons_ptr 12); (0, enc_cons_ptr 13); (0, enc_cons_ptr 14); (0, 0);
          (enc_cons_ptr 16, enc_cons_ptr 17); (sym_a, enc_i 1); (enc_cons_ptr 18, 0); (enc_i 5, enc_i 2);
          (508, enc_sym SYM_ARRAY_TYPE); (516, enc_sym SYM_ARRAY_TYPE); (enc_cons_ptr 22, 0); (str4 19, enc_i 1)]
    [] (enc_cons_ptr 7) 15 [] 0 0 0 0
    (fun p => if p =? 500 then Some (OLisp 504 (2 * WB) [enc_i 7; enc_i 8] 0) else if p =? 508 then Some (OByte 512 [107; 0]) else if p =? 516 then Some (OByte 520 [107; 0]) else None) [] false.
Definition fl4 : list Z := [7; 8; 9; 10; 11; 12; 13; 14].
Definition st4 {A : Arch} : ust := mkU heap4 [1000; 1004; 1008; 1012] (mksy [] 0 [] 0 0) [].
Lemma ready4 {A : Arch} : ready st4 fl4.
Proof.
  constructor; [constructor| |].
  - destruct A; vm_compute; discriminate.
  - destruct A; cbn [uh st4 freelist heap4]; unfold fl4; repeat (eapply chain_cons; [reflexivity|]); apply chain_nil.
  - unfold fl4. repeat (constructor; [cbn; lia|]). constructor.
  - reflexivity.
  - reflexivity.
  - split.
    + cbn. repeat (constructor; [cbn; lia|]). constructor.
    + cbn [avail st4 up firstn Z.eqb]. repeat (constructor; [reflexivity|]). constructor.
Qed.
Lemma ok4 {A : Arch} : heap_ok heap4 fl4. Proof. apply ready4. Qed.
Lemma int4 {A : Arch} n : -2 ^ 27 <= n < 2 ^ 27 -> integer fl4 heap4 (enc_i n) n.
Proof.
  intros R. exists KI. split; [repeat split; discriminate|]. apply den_int. pose proof payload_big. assert (P27 : 2 ^ 27 <= 2 ^ (payload A - 1)) by (apply Z.pow_le_mono_r; lia). lia.
Qed.
Ltac path4 := match goal with B : Arch |- _ => destruct B end;
  repeat (eapply path_step; [split; vm_compute; congruence|reflexivity|left; reflexivity|reflexivity|]); apply path_end.
Ltac used4 := match goal with B : Arch |- _ => destruct B end; intros p I _ J; cbn [In] in I;
  repeat (destruct I as [<-|I]; [vm_compute in J; repeat (destruct J as [J|J]; [discriminate J|]); exact J|]); destruct I.
Lemma one4 {A : Arch} : path heap4 (enc_cons_ptr 0) (map enc_i [1; 2; 3]) (map enc_cons_ptr [0; 1; 2]) 0. Proof. path4. Qed.
Lemma ten4 {A : Arch} : path heap4 (enc_cons_ptr 3) (map enc_i [10; 20]) (map enc_cons_ptr [3; 4]) 0. Proof. path4. Qed.
Lemma proper1 {A : Arch} : proper fl4 heap4 (enc_cons_ptr 0) (map enc_i [1; 2; 3]). Proof. eexists. split; [apply one4|used4]. Qed.
Lemma proper10 {A : Arch} : proper fl4 heap4 (enc_cons_ptr 3) (map enc_i [10; 20]). Proof. eexists. split; [apply ten4|used4]. Qed.
Lemma pair4 {A : Arch} : items fl4 heap4 (enc_cons_ptr 6) [enc_i 1].
Proof.
  exists [enc_cons_ptr 6], (enc_i 2). split; [path4|]. split; [used4|]. destruct A; (split; [reflexivity|split; [vm_compute; discriminate|discriminate]]).
Qed.
Lemma array4 {A : Arch} : lisp_array heap4 arr4 [enc_i 7; enc_i 8].
Proof. destruct A; (split; [reflexivity|split; [reflexivity|]]); do 4 eexists; (split; [reflexivity|reflexivity]). Qed.
Lemma rw4 {A : Arch} : Forall (fun p => is_cons_rw p = true) (map enc_cons_ptr [0; 1; 2]). Proof. destruct A; repeat constructor. Qed.
Lemma W8 {A : Arch} : WB * 8 < 2 ^ W. Proof. destruct A; reflexivity. Qed.

(* ---- C79 ---- *)
Example list_case {A : Arch} : exists h' r, list_fun heap4 [enc_i 4; enc_cons_ptr 0] = Ok (h', r) /\ built fl4 heap4 [enc_i 4; enc_cons_ptr 0] 0 h' r.
Proof. exact (list_correct heap4 fl4 _ ok4). Qed.
Example append_case {A : Arch} : exists h' r, append 5 heap4 [enc_cons_ptr 0; enc_cons_ptr 6; enc_cons_ptr 3] = Ok (h', r) /\ built fl4 heap4 (concat [map enc_i [1; 2; 3]; [enc_i 1]]) (enc_cons_ptr 3) h' r.
Proof.
  apply (append_correct 5 heap4 fl4 [enc_cons_ptr 0; enc_cons_ptr 6]); [apply ok4|discriminate| |].
  - constructor; [apply proper_items, proper1|]. constructor; [apply pair4|constructor].
  - repeat constructor; cbn; lia.
Qed.
Example append_list_case {A : Arch} : exists h' r, append 5 heap4 [enc_cons_ptr 0; enc_cons_ptr 3] = Ok (h', r) /\ kept fl4 heap4 h' /\
  heap_ok h' (skipn 3 fl4) /\ proper (skipn 3 fl4) h' r (map enc_i [1; 2; 3; 10; 20]).
Proof.
  apply (append_list 5 heap4 fl4 [enc_cons_ptr 0] [map enc_i [1; 2; 3]]); [apply ok4|discriminate| |repeat constructor; cbn; lia|apply proper10|cbn; lia].
  constructor; [apply proper_items, proper1|constructor].
Qed.
Example append_not_list_case {A : Arch} : exists h', append 5 heap4 [enc_i 3; enc_cons_ptr 0; enc_cons_ptr 3] = Ok (h', TERROR) /\ kept fl4 heap4 h'.
Proof.
  apply (append_not_list 5 heap4 fl4 [enc_i 3; enc_cons_ptr 0]); [apply ok4| |].
  - constructor; [left; destruct A; reflexivity|]. constructor; [right|constructor]. eexists. split; [apply proper_items, proper1|]. cbn; lia.
  - apply Exists_cons_hd. destruct A; reflexivity.
Qed.

(* ---- C80 ---- *)
Example ix_case {A : Arch} : ix 5 heap4 [enc_cons_ptr 0; enc_i (-1)] = Ok (enc_i 3) /\ ix 5 heap4 [enc_cons_ptr 0; enc_i 3] = Ok 0.
Proof.
  split; [rewrite (ix_list 5 heap4 fl4 _ _ _ (-1) proper1)|rewrite (ix_list 5 heap4 fl4 _ _ _ 3 proper1)];
    try (apply int4; lia); try (cbn; lia); destruct A; reflexivity.
Qed.
Example ix_array_case {A : Arch} : ix 5 heap4 [arr4; enc_i 1] = Ok (enc_i 8) /\ ix 5 heap4 [arr4; enc_i (-1)] = Ok EERROR.
Proof.
  split; [rewrite (ix_array 5 heap4 fl4 _ _ _ 1 array4)|rewrite (ix_array 5 heap4 fl4 _ _ _ (-1) array4)]; try (apply int4; lia); auto.
Qed.
Example set_ix_case {A : Arch} : exists h', set_ix 5 heap4 [enc_cons_ptr 0; enc_i (-2); enc_i 9] = Ok (h', enc_cons_ptr 0) /\
  ix 5 h' [enc_cons_ptr 0; enc_i 1] = Ok (enc_i 9).
Proof.
  destruct (set_ix_ix 5 heap4 fl4 (enc_cons_ptr 0) (map enc_i [1; 2; 3]) (map enc_cons_ptr [0; 1; 2]) (enc_i (-2)) (-2) (enc_i 9) 1) as (h'&E&H);
    try (cbn; lia); [apply path_list, one4|apply rw4|exact (path_plain _ _ _ _ _ one4)|used4|apply int4; lia|]. exists h'. split; auto.
Qed.
Example set_ix_array_case {A : Arch} : exists h', set_ix 5 heap4 [arr4; enc_i 0; enc_i 9] = Ok (h', arr4) /\ ix 5 h' [arr4; enc_i 0] = Ok (enc_i 9).
Proof.
  destruct (set_ix_ix_array 5 heap4 fl4 arr4 _ (enc_i 0) 0 (enc_i 9) 0 array4) as (h'&E&H); try (cbn; lia); [destruct A; reflexivity|apply int4; lia|]. exists h'. split; auto.
Qed.

(* ---- C81 ---- *)
Example length_case {A : Arch} : exists r1 r2 r3, length_fun 5 heap4 [enc_cons_ptr 0] = Ok r1 /\ int_value r1 3 /\ length_fun 5 heap4 [arr4] = Ok r2 /\ int_value r2 2 /\
  length_fun 5 heap4 [str4 19] = Ok r3 /\ int_value r3 2.
Proof.
  destruct (length_list 5 heap4 fl4 _ _ (proper_items _ _ _ _ proper1)) as (r1&E1&V1); [cbn; lia|cbn; lia|].
  destruct (length_array 5 heap4 _ _ array4) as (r2&E2&V2); [cbn; lia|].
  destruct (length_bytes 5 fl4 heap4 (str4 19) [107; 0]) as (r3&E3&V3); [reflexivity| |destruct A; reflexivity|cbn; lia|].
  { destruct A; (eapply den_bytes; [reflexivity|intros _ _ X; vm_compute in X; repeat (destruct X as [X|X]; [discriminate X|]); exact X|reflexivity|reflexivity|reflexivity]). }
  exists r1, r2, r3. auto 10.
Qed.
Example take_case {A : Arch} : exists h' r, take 5 heap4 [enc_cons_ptr 0; enc_i 2] = Ok (h', r) /\ list_on h' r (map enc_i [1; 2]) (map enc_cons_ptr [7; 8]).
Proof.
  destruct (take_correct 5 heap4 fl4 _ _ _ 2 ok4 proper1 (int4 2 ltac:(lia))) as (h'&r&E&_&_&_&H); [lia|cbn; lia|]. exists h', r. split; auto.
Qed.
Example drop_case {A : Arch} : exists r, drop 5 heap4 [enc_cons_ptr 0; enc_i 2] = Ok r /\ list_on heap4 r (map enc_i [3]) (map enc_cons_ptr [2]).
Proof. exact (drop_correct 5 heap4 fl4 _ _ _ _ 2 one4 (int4 2 ltac:(lia)) ltac:(cbn; lia)). Qed.
Example range_case {A : Arch} : exists h' r vs, range 9 heap4 [enc_i 3; enc_i (-1)] = Ok (h', r) /\ proper (skipn 4 fl4) h' r vs /\ Forall2 int_value vs [2; 1; 0; -1].
Proof.
  destruct (range_correct 9 heap4 fl4 _ _ 3 (-1) ok4 (int4 3 ltac:(lia)) (int4 (-1) ltac:(lia))) as (h'&r&E&_&_&vs&P&V); try (cbn; lia). exists h', r, vs. auto.
Qed.
Example range_one_case {A : Arch} : exists h' r vs, range 9 heap4 [enc_i 3] = Ok (h', r) /\ proper (skipn 3 fl4) h' r vs /\ Forall2 int_value vs [0; 1; 2].
Proof.
  destruct (range_one 9 heap4 fl4 _ 3 ok4 (int4 3 ltac:(lia))) as (h'&r&E&_&_&vs&P&V); try (cbn; lia). exists h', r, vs. auto.
Qed.

(* ---- C82 ---- *)
Example mkarray_case {A : Arch} : exists u' r, mkarray st4 [enc_i 3] = Ok (u', r) /\ lisp_array (uh u') r [0; 0; 0] /\ ready u' (tl fl4).
Proof.
  destruct (mkarray_correct st4 fl4 (enc_i 3) 3 ready4 (int4 3 ltac:(lia))) as (u'&r&E&_&H); [lia|pose proof W8; pose proof WB_pos; lia|]. exists u', r. destruct H as (R&LA&_). auto.
Qed.
Example list_to_array_case {A : Arch} : exists u' r, list_to_array 5 st4 [enc_cons_ptr 0] = Ok (u', r) /\ lisp_array (uh u') r (map enc_i [1; 2; 3]) /\ ready u' (tl fl4).
Proof.
  destruct (list_to_array_correct 5 st4 fl4 _ _ ready4 (proper_items _ _ _ _ proper1)) as (u'&r&E&_&H); [cbn; lia|pose proof W8; pose proof WB_pos; cbn [map length Z.of_nat]; lia|].
  exists u', r. destruct H as (R&LA&_). auto.
Qed.
Example array_to_list_case {A : Arch} : exists h' r, array_to_list 5 heap4 [arr4] = Ok (h', r) /\ path h' r (map enc_i [7; 8]) (map enc_cons_ptr [7; 8]) 0.
Proof. destruct (array_to_list_correct 5 heap4 fl4 _ _ ok4 array4) as (h'&r&E&_&_&H); [cbn; lia|]. exists h', r. auto. Qed.
Example list_array_list_case {A : Arch} : exists u' r h' l fl', list_to_array 5 st4 [enc_cons_ptr 3] = Ok (u', r) /\ array_to_list 5 (uh u') [r] = Ok (h', l) /\
  proper fl' h' l (map enc_i [10; 20]) /\ incl fl' fl4.
Proof.
  apply (list_array_list 5 st4 fl4 _ _ ready4 (proper_items _ _ _ _ proper10)); try (cbn; lia); [|discriminate]. pose proof W8; pose proof WB_pos; cbn [map length Z.of_nat]; lia.
Qed.

(* ---- C83 ---- *)
Lemma env4 {A : Arch} : env_at heap4 fl4 (enc_cons_ptr 15) [(sym_a, enc_i 1); (enc_i 5, enc_i 2)] [15; 16; 17; 18].
Proof.
  split; [|split].
  - destruct A; (eapply env_cons; [vm_compute; split; congruence|vm_compute; split; congruence|reflexivity|reflexivity|]); (eapply env_cons; [vm_compute; split; congruence|vm_compute; split; congruence|reflexivity|reflexivity|]); constructor.
  - repeat constructor; cbn; lia.
  - cbn. intros c I J. lia.
Qed.
Lemma keys4 {A : Arch} : plain_key sym_a /\ plain_key (enc_i 5).
Proof. split; [left; exists 1000|right; exists 5]; split; auto; lia. Qed.
Lemma alist4 {A : Arch} : list_on heap4 (enc_cons_ptr 15) (map enc_cons_ptr [16; 18]) (map enc_cons_ptr [15; 17]) /\
  alist_on fl4 heap4 (map enc_cons_ptr [16; 18]) [(Leaf KSym 1000, enc_i 1); (Leaf KI 5, enc_i 2)] /\
  clist_on fl4 heap4 (map enc_cons_ptr [16; 18]) [(Leaf KI 1, sym_a); (Leaf KI 2, enc_i 5)].
Proof.
  assert (D : forall n, -2 ^ 27 <= n < 2 ^ 27 -> den fl4 heap4 (enc_i n) (Leaf KI n)).
  { intros n R. apply den_int. pose proof payload_big. assert (P27 : 2 ^ 27 <= 2 ^ (payload A - 1)) by (apply Z.pow_le_mono_r; lia). lia. }
  split; [apply path_list; path4|]. split.
  - cbn [map]. econstructor; [destruct A; reflexivity|destruct A; reflexivity|apply den_sym; lia|]. econstructor; [destruct A; reflexivity|destruct A; reflexivity|apply D; lia|]. constructor.
  - cbn [map]. econstructor; [destruct A; reflexivity|destruct A; reflexivity|apply D; lia|]. econstructor; [destruct A; reflexivity|destruct A; reflexivity|apply D; lia|]. constructor.
Qed.
Example assoc_case {A : Arch} : Fund_Model.assoc 5 5 heap4 [enc_cons_ptr 15; enc_i 5] = Ok (enc_i 2) /\ cossa 5 5 heap4 [enc_cons_ptr 15; enc_i 2] = Ok (enc_i 5).
Proof.
  destruct alist4 as (LO&AL&CL).
  assert (D : forall n, -2 ^ 27 <= n < 2 ^ 27 -> den fl4 heap4 (enc_i n) (Leaf KI n)).
  { intros n R. apply den_int. pose proof payload_big. assert (P27 : 2 ^ 27 <= 2 ^ (payload A - 1)) by (apply Z.pow_le_mono_r; lia). lia. }
  split.
  - destruct (assoc_correct _ _ _ _ _ _ (enc_i 5) (Leaf KI 5) 5 5 LO AL (D 5 ltac:(lia))) as (r&F&E); [repeat constructor; cbn; lia|cbn; lia|]. rewrite E. f_equal.
    inversion F; subst; [inversion H3|]. inversion H4; subst; [destruct A; reflexivity|]. exfalso. match goal with H : ~ same ?x ?x |- _ => apply H; constructor; reflexivity end.
  - destruct (cossa_correct _ _ _ _ _ _ (enc_i 2) (Leaf KI 2) 5 5 LO CL (D 2 ltac:(lia))) as (r&F&E); [repeat constructor; cbn; lia|cbn; lia|]. rewrite E. f_equal.
    inversion F; subst; [inversion H3; subst; discriminate|]. inversion H4; subst; [destruct A; reflexivity|]. exfalso. match goal with H : ~ same ?x ?x |- _ => apply H; constructor; reflexivity end.
Qed.
Example acons_case {A : Arch} : exists h' r cs' ps', acons heap4 [enc_i 6; enc_i 3; enc_cons_ptr 15] = Ok (h', r) /\ list_on h' r cs' ps' /\
  alist_on [9; 10; 11; 12; 13; 14] h' cs' [(Leaf KI 6, enc_i 3); (Leaf KSym 1000, enc_i 1); (Leaf KI 5, enc_i 2)].
Proof.
  destruct alist4 as (LO&AL&_). eapply (acons_entries heap4 fl4 (enc_i 6) (enc_i 3) _ 7 8 [9; 10; 11; 12; 13; 14]); [apply ok4|reflexivity| |exact LO|used4|used4|exact AL].
  apply den_int. pose proof payload_big. assert (P27 : 2 ^ 27 <= 2 ^ (payload A - 1)) by (apply Z.pow_le_mono_r; lia). lia.
Qed.
Example set_assoc_case {A : Arch} : exists h' r, set_assoc 5 heap4 [enc_cons_ptr 15; enc_i 5; enc_i 9] = Ok (h', r) /\
  Fund_Model.assoc 5 5 h' [r; enc_i 5] = Ok (enc_i 9) /\ Fund_Model.assoc 5 5 h' [r; sym_a] = Ok (enc_i 1).
Proof.
  destruct keys4 as (K1&K2). destruct (set_assoc_correct heap4 fl4 (enc_cons_ptr 15) _ _ (enc_i 5) (enc_i 9) 5 ok4 env4) as (h'&r&E&[(X&_)|H]); try (cbn; lia); auto.
  all: try solve [repeat constructor; auto]; try (cbn in X; lia).
  exists h', r. split; auto. rewrite !H by (auto; cbn; lia). split; [rewrite Z.eqb_refl; destruct A; reflexivity|]. destruct A; vm_compute; reflexivity.
Qed.
Example set_assoc_pair_case {A : Arch} : exists h' r, set_assoc 5 heap4 [enc_cons_ptr 15; enc_cons_ptr 6] = Ok (h', r) /\
  Fund_Model.assoc 5 5 h' [r; enc_i 1] = Ok (enc_i 2) /\ Fund_Model.assoc 5 5 h' [r; sym_a] = Ok (enc_i 1).
Proof.
  destruct keys4 as (K1&K2). assert (K3 : plain_key (enc_i 1)) by (right; exists 1; split; auto; lia).
  destruct (set_assoc_pair heap4 fl4 (enc_cons_ptr 15) _ _ (enc_i 1) (enc_i 2) (enc_cons_ptr 6) 5 ok4 env4) as (h'&r&E&[(X&_)|H]); try (cbn; lia); auto.
  all: try solve [destruct A; split; vm_compute; congruence]; try solve [destruct A; reflexivity]; try solve [repeat constructor; auto]; try (cbn in X; lia).
  exists h', r. split; auto. rewrite !H by (auto; cbn; lia). split; [rewrite Z.eqb_refl; destruct A; reflexivity|]. destruct A; vm_compute; reflexivity.
Qed.

(* ---- C84 ---- *)
Example convert_case {A : Arch} : exists u' r, convert ToByte st4 [enc_i (-1)] = Ok (u', r) /\ outcome 0 0 st4 fl4 (Leaf KChar 255) u' r.
Proof.
  destruct (convert_correct ToByte st4 fl4 (enc_i (-1)) (-1) ready4 (int4 (-1) ltac:(lia))) as (u'&r&m&E&(R&j&Em)&O). exists u', r. split; auto.
  cbn [target in_range bits_of] in *. assert (m = 255) as -> by lia. auto.
Qed.
Example convert_box_case {A : Arch} : exists u' r, convert ToU64 st4 [enc_i (-1)] = Ok (u', r) /\ outcome 1 (if blocked KU64 then 1 else 0) st4 fl4 (Leaf KU64 (2 ^ 64 - 1)) u' r.
Proof.
  destruct (convert_correct ToU64 st4 fl4 (enc_i (-1)) (-1) ready4 (int4 (-1) ltac:(lia))) as (u'&r&m&E&(R&j&Em)&O). exists u', r. split; auto.
  cbn [target in_range bits_of] in *. assert (m = 2 ^ 64 - 1) as -> by lia. auto.
Qed.
Example convert_same_case {A : Arch} : exists u' r, convert ToI32 st4 [enc_i (-7)] = Ok (u', r) /\ outcome (if boxed KI32 then 1 else 0) 0 st4 fl4 (Leaf KI32 (-7)) u' r.
Proof.
  destruct (convert_correct ToI32 st4 fl4 (enc_i (-7)) (-7) ready4 (int4 (-7) ltac:(lia))) as (u'&r&m&E&Rm&O). exists u', r. split; auto.
  rewrite (convert_same _ _ _ Rm) in O by (cbn [target in_range]; lia). auto.
Qed.

(* ---- where they go wrong ---- *)
(* C81, false beyond 28 bits.  Counting down to the smallest int overflows on its way
   out of the loop: (range -2147483648 -2147483646) is undefined, on a 64 bit build
   with two plain integers. *)
Theorem range_overflow_refuted : exists h fl a b, heap_ok (A := A64) h fl /\ (2 <= length fl)%nat /\
  integer (A := A64) fl h a (- 2 ^ 31) /\ integer (A := A64) fl h b (- 2 ^ 31 + 2) /\ range (A := A64) 9 h [a; b] = UB.
Proof.
  exists (heap4 (A := A64)), fl4, (enc_i (A := A64) (- 2 ^ 31)), (enc_i (A := A64) (- 2 ^ 31 + 2)). split; [apply ok4|]. split; [cbn; lia|].
  split; [exists KI; split; [repeat split; discriminate|apply den_int; vm_compute; split; congruence]|].
  split; [exists KI; split; [repeat split; discriminate|apply den_int; vm_compute; split; congruence]|]. vm_compute. reflexivity.
Qed.
(* On a 32 bit build the elements are integers of 28 bits: the list from 134217728 on,
   which unsigned arguments can ask for, starts at -134217728. *)
Theorem range_wraps_refuted : exists h fl a b, heap_ok (A := A32) h fl /\ integer (A := A32) fl h a (2 ^ 27) /\ integer (A := A32) fl h b (2 ^ 27 + 1) /\
  exists h' r x, range (A := A32) 9 h [a; b] = Ok (h', r) /\ list_at (A := A32) h' r [x] /\ int_value (A := A32) x (- 2 ^ 27).
Proof.
  exists (heap4 (A := A32)), fl4, (enc_u (A := A32) (2 ^ 27)), (enc_u (A := A32) (2 ^ 27 + 1)). split; [apply ok4|].
  assert (D : forall n, 0 <= n < 2 ^ 28 -> integer (A := A32) fl4 (heap4 (A := A32)) (enc_u (A := A32) n) n).
  { intros n R. exists KU. split; [repeat split; discriminate|]. pose proof (enc_kinds (A := A32) n) as (T1&T2&T3&T4&P1&P2&P3&P4&_). constructor; auto; [intros X; congruence|discriminate|rewrite functional_nonptr; auto|].
    cbn [reads]. rewrite enc_u_roundtrip. symmetry. apply Z.mod_small. auto. }
  split; [apply D; lia|]. split; [apply D; lia|].
  remember (range (A := A32) 9 (heap4 (A := A32)) [enc_u (A := A32) (2 ^ 27); enc_u (A := A32) (2 ^ 27 + 1)]) as o eqn:E. vm_compute in E.
  match type of E with _ = Ok (?h', ?r) => exists h', r, (enc_i (A := A32) (2 ^ 27)) end. split; [exact E|]. split; [|split; reflexivity].
  exists [enc_cons_ptr (A := A32) 7]. econstructor; [split; vm_compute; congruence|reflexivity|reflexivity|constructor].
Qed.
(* C82, false on a 32 bit build: the size in bytes wraps.  An array of 2^30 + 1
   elements has one. *)
Definition u32_of : Z := set_ptr_type (A := A32) (enc_cons_ptr (A := A32) 0) (TYPE_U32 (A := A32)).
Theorem mkarray_refuted : exists u fl v, ready (A := A32) u fl /\ integer (A := A32) fl (uh u) v (2 ^ 30 + 1) /\
  exists u' r, mkarray (A := A32) u [v] = Ok (u', r) /\ lisp_array (A := A32) (uh u') r [0].
Proof.
  set (h := mkHeap [(2 ^ 30 + 1, enc_sym (A := A32) SYM_RAW_U_TYPE); (0, enc_cons_ptr (A := A32) 2); (0, 0)] [] (enc_cons_ptr (A := A32) 1) 1 [] 0 0 0 0 (fun _ => None) [] false).
  exists (mkU h [1000; 1004] (mksy [] 0 [] 0 0) []), [1; 2], u32_of. split; [|split].
  - constructor; [constructor| |].
    + vm_compute; discriminate.
    + repeat (eapply chain_cons; [reflexivity|]); apply chain_nil.
    + repeat (constructor; [cbn; lia|]). constructor.
    + reflexivity.
    + reflexivity.
    + split; [repeat (constructor; [cbn; lia|]); constructor|repeat (constructor; [reflexivity|]); constructor].
  - exists KU32. split; [repeat split; discriminate|]. constructor; [intros _ _ X; vm_compute in X; repeat (destruct X as [X|X]; [discriminate X|]); exact X|discriminate|reflexivity|].
    cbn [reads]. exists (2 ^ 30 + 1). split; reflexivity.
  - match goal with |- exists u' r, mkarray ?u ?l = _ /\ _ => remember (mkarray (A := A32) u l) as o eqn:E end. vm_compute in E.
    match type of E with _ = Ok (?u', ?r) => exists u', r end. split; [exact E|]. split; [reflexivity|]. split; [reflexivity|]. do 4 eexists. split; [reflexivity|reflexivity].
Qed.
(* C83, false for keys that are not plain: setassoc looks for the same word, assoc for
   an equal value.  The list has the key "k", but (setassoc lst "k" 2) does not
   update it: a second entry is made in front, and lst still has the old value. *)
Theorem set_assoc_string_refuted {A : Arch} : den fl4 heap4 (str4 19) (Bytes [107; 0]) /\ den fl4 heap4 (str4 20) (Bytes [107; 0]) /\
  Fund_Model.assoc 5 5 heap4 [enc_cons_ptr 21; str4 20] = Ok (enc_i 1) /\
  exists h' r, set_assoc 5 heap4 [enc_cons_ptr 21; str4 20; enc_i 2] = Ok (h', r) /\
    Fund_Model.assoc 5 5 h' [enc_cons_ptr 21; str4 20] = Ok (enc_i 1) /\
    exists c d, list_at h' r [c; d] /\ ref_cell h' c = Ok (str4 20, enc_i 2) /\ ref_cell h' d = Ok (str4 19, enc_i 1).
Proof.
  assert (D : forall i, i = 19 \/ i = 20 -> den fl4 heap4 (str4 i) (Bytes [107; 0])).
  { intros i [->| ->]; destruct A; (eapply den_bytes; [reflexivity|intros _ _ X; vm_compute in X; repeat (destruct X as [X|X]; [discriminate X|]); exact X|reflexivity|reflexivity|reflexivity]). }
  split; [auto|]. split; [auto|]. split; [destruct A; vm_compute; reflexivity|].
  destruct (set_assoc 5 heap4 [enc_cons_ptr 21; str4 20; enc_i 2]) as [[h' r]| |] eqn:E; [|destruct A; vm_compute in E; discriminate|destruct A; vm_compute in E; discriminate].
  exists h', r. split; auto. pose (c := enc_cons_ptr 7). pose (d := enc_cons_ptr 22). destruct A; vm_compute in E; injection E as <- <-.
  all: (split; [vm_compute; reflexivity|]); exists c, d; (split; [|split; reflexivity]); eexists.
  all: econstructor; [split; vm_compute; congruence|reflexivity|reflexivity|]; econstructor; [split; vm_compute; congruence|reflexivity|reflexivity|constructor].
Qed.

Print Assumptions list_correct.
Print Assumptions append_correct.
Print Assumptions append_list.
Print Assumptions append_one_arg.
Print Assumptions append_not_list.
Print Assumptions ix_list.
Print Assumptions ix_array.
Print Assumptions set_ix_list.
Print Assumptions set_ix_ix.
Print Assumptions set_ix_array.
Print Assumptions set_ix_ix_array.
Print Assumptions length_list.
Print Assumptions length_bytes.
Print Assumptions length_array.
Print Assumptions take_correct.
Print Assumptions drop_correct.
Print Assumptions range_correct.
Print Assumptions range_one.
Print Assumptions mkarray_correct.
Print Assumptions list_to_array_correct.
Print Assumptions array_to_list_correct.
Print Assumptions list_array_list.
Print Assumptions assoc_correct.
Print Assumptions cossa_correct.
Print Assumptions acons_correct.
Print Assumptions acons_entries.
Print Assumptions set_assoc_correct.
Print Assumptions set_assoc_pair.
Print Assumptions convert_correct.
Print Assumptions convert_same.
Print Assumptions range_overflow_refuted.
Print Assumptions range_wraps_refuted.
Print Assumptions mkarray_refuted.
Print Assumptions set_assoc_string_refuted.
