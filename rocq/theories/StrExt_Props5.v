(* The functions on strings at work, and where they go wrong. *)
From Verif Require Import Base Value_Model Heap_Model Value_Proofs Value_Proofs2 Value_Props Heap_Spec Heap_Proofs List_Proofs GC_Model Eq_Model Eq_Spec
  Flat_Model Flat_Spec Flat_Proofs Flat_Proofs2 Read_Model Read_Proofs2 Read_Proofs3 Match_Props Eval_Proofs ArrExt_Model ArrExt_Spec ArrExt_Proofs
  StrExt_Model StrExt_Spec StrExt_Proofs StrExt_Proofs2 StrExt_Props StrExt_Props2 StrExt_Props3 StrExt_Props4.
From Verif Require Import Sym_Model.
From Verif Require Read_Props.
Import List.
Local Open Scope Z_scope.

#[local] Instance conv3 : Conv := {| f32_i32 _ := None; f64_i32 _ := None |}.
#[local] Instance libc3 : Libc := Read_Props.libc0.
#[local] Instance char3 : Char := true.

(* cells 0 to 2: the strings "Hello, Lola" and "lo" and ", "; cells 3 and 4: a list
   of the first two; the other cells are free.  Cell 13: four bytes without an end;
   cell 14: a string with a letter that is not ASCII *)
Definition hello : list Z := [72; 101; 108; 108; 111; 44; 32; 76; 111; 108; 97].
Definition lo : list Z := [108; 111].
Definition comma : list Z := [44; 32].
Definition at3 {A : Arch} (i : Z) : Z := set_ptr_type (enc_cons_ptr i) TYPE_ARRAY.
Definition heap3 {A : Arch} : heap :=
  mkHeap [(400, enc_sym SYM_ARRAY_TYPE); (408, enc_sym SYM_ARRAY_TYPE); (416, enc_sym SYM_ARRAY_TYPE); (at3 0, enc_cons_ptr 4); (at3 1, 0);
          (0, enc_cons_ptr 6); (0, enc_cons_ptr 7); (0, enc_cons_ptr 8); (0, enc_cons_ptr 9); (0, enc_cons_ptr 10); (0, enc_cons_ptr 11); (0, enc_cons_ptr 12); (0, 0);
          (424, enc_sym SYM_ARRAY_TYPE); (432, enc_sym SYM_ARRAY_TYPE)] [] (enc_cons_ptr 5) 7 [] 0 0 0 0
    (fun p => if p =? 400 then Some (OByte 404 (hello ++ [0])) else if p =? 408 then Some (OByte 412 (lo ++ [0])) else if p =? 416 then Some (OByte 420 (comma ++ [0]))
       else if p =? 424 then Some (OByte 428 [1; 2; 3; 4]) else if p =? 432 then Some (OByte 436 [195; 165; 0]) else None) [] false.
Definition fl3 : list Z := [5; 6; 7; 8; 9; 10; 11; 12].
Definition st3 {A : Arch} : ust := mkU heap3 [1000; 1004; 1008; 1012; 1016; 1020; 1024; 1028] (mksy [] 0 [] 0 0) [].

Lemma ready3 {A : Arch} : ready st3 fl3.
Proof.
  constructor; [constructor| |].
  - destruct A; vm_compute; discriminate.
  - destruct A; cbn [uh st3 freelist heap3]; unfold fl3; repeat (eapply chain_cons; [reflexivity|]); apply chain_nil.
  - unfold fl3. repeat (constructor; [cbn; lia|]). constructor.
  - reflexivity.
  - reflexivity.
  - split.
    + cbn. repeat (constructor; [cbn; lia|]). constructor.
    + cbn [avail st3 up firstn Z.eqb]. repeat (constructor; [reflexivity|]). constructor.
Qed.
Lemma data3 {A : Arch} : data_ok heap3.
Proof.
  intros p d bs M N. cbn [mem heap3] in M. destruct (p =? 400); [injection M as <- <-; discriminate|]. destruct (p =? 408); [injection M as <- <-; discriminate|].
  destruct (p =? 416); [injection M as <- <-; discriminate|]. destruct (p =? 424); [injection M as <- <-; discriminate|]. destruct (p =? 432); [injection M as <- <-; discriminate|]. discriminate.
Qed.
Ltac den3 := match goal with B : Arch |- _ => destruct B end; (eapply den_bytes; [reflexivity|intros _ _ X; vm_compute in X; repeat (destruct X as [X|X]; [discriminate X|]); exact X|reflexivity|reflexivity|reflexivity]).
Lemma hello3 {A : Arch} : den fl3 heap3 (at3 0) (Bytes (hello ++ [0])). Proof. den3. Qed.
Lemma lo3 {A : Arch} : den fl3 heap3 (at3 1) (Bytes (lo ++ [0])). Proof. den3. Qed.
Lemma comma3 {A : Arch} : den fl3 heap3 (at3 2) (Bytes (comma ++ [0])). Proof. den3. Qed.
Lemma raw3 {A : Arch} : den fl3 heap3 (at3 13) (Bytes [1; 2; 3; 4]). Proof. den3. Qed.
Lemma ring3 {A : Arch} : den fl3 heap3 (at3 14) (Bytes [195; 165; 0]). Proof. den3. Qed.
Lemma list3 {A : Arch} : den fl3 heap3 (enc_cons_ptr 3) (tlist (map Bytes [hello ++ [0]; lo ++ [0]])).
Proof.
  destruct A.
  all: (eapply den_pair; [reflexivity|intros _ _ X; vm_compute in X; repeat (destruct X as [X|X]; [discriminate X|]); exact X|reflexivity|reflexivity|apply hello3|]).
  all: (eapply den_pair; [reflexivity|intros _ _ X; vm_compute in X; repeat (destruct X as [X|X]; [discriminate X|]); exact X|reflexivity|reflexivity|apply lo3|]).
  all: (apply den_leaf; [intros X; discriminate X|reflexivity|reflexivity|reflexivity]).
Qed.
Lemma int3 {A : Arch} n : -2 ^ 27 <= n < 2 ^ 27 -> integer fl3 heap3 (enc_i n) n.
Proof.
  intros R. exists KI. split; [repeat split; discriminate|]. apply den_int. pose proof payload_big. assert (P27 : 2 ^ 27 <= 2 ^ (payload A - 1)) by (apply Z.pow_le_mono_r; lia). lia.
Qed.
Lemma sym3 {A : Arch} n : 0 <= n < 2 ^ 28 -> den fl3 heap3 (enc_sym n) (Leaf KSym n).
Proof. apply den_sym. Qed.

(* ---- C74 ---- *)
Example str_len_case {A : Arch} : exists v, str_len st3 [at3 0] = Ok (st3, v) /\ den fl3 heap3 v (Leaf KI 11).
Proof. exact (str_len_correct st3 fl3 (at3 0) _ eq_refl hello3 ltac:(reflexivity)). Qed.
Example str_part_case {A : Arch} : exists u' r, str_part st3 [at3 0; enc_i 7; enc_i 100] = Ok (u', r) /\ outcome 1 2 st3 fl3 (str [76; 111; 108; 97]) u' r.
Proof.
  apply (str_part_correct st3 fl3 (at3 0) (hello ++ [0]) (enc_i 7) 7 [enc_i 100] 100%nat ready3 hello3); [reflexivity|apply int3; lia|cbn; lia|].
  right. exists (enc_i 100), 100. split; [auto|]. split; [apply int3; lia|]. split; [lia|reflexivity].
Qed.
Example str_part_outside_case {A : Arch} : str_part st3 [at3 0; enc_i (-1)] = Ok (st3, EERROR) /\ str_part st3 [at3 0; enc_i 11] = Ok (st3, EERROR).
Proof. split; (eapply (str_part_outside st3 fl3); [reflexivity|apply hello3|reflexivity|apply int3; lia|lia|cbn; lia|cbn; lia]). Qed.
Example str_upper_case {A : Arch} : exists u' r, change_case true st3 [at3 0] = Ok (u', r) /\ outcome 1 2 st3 fl3 (str [72; 69; 76; 76; 79; 44; 32; 76; 79; 76; 65]) u' r.
Proof. apply (str_case_correct true st3 fl3 (at3 0) (hello ++ [0]) ready3 hello3); [reflexivity|]. intros _. cbn. repeat (constructor; [lia|]). constructor. Qed.
Example str_replicate_case {A : Arch} : exists u' r, str_replicate st3 [enc_i 3; enc_i 97] = Ok (u', r) /\ outcome 1 2 st3 fl3 (str [97; 97; 97]) u' r.
Proof. apply (str_replicate_correct st3 fl3 (enc_i 3) 3 (enc_i 97) 97 ready3); [apply int3; lia|apply int3; lia|lia]. Qed.
Example str_join_case {A : Arch} : exists u' r, str_join 2 st3 [enc_cons_ptr 3; at3 2] = Ok (u', r) /\ outcome 1 2 st3 fl3 (str (hello ++ comma ++ lo)) u' r.
Proof.
  apply (str_join_correct st3 fl3 (enc_cons_ptr 3) [hello ++ [0]; lo ++ [0]] [at3 2] comma 2 ready3 data3 list3); [cbn; lia| |destruct A; reflexivity|destruct A; reflexivity].
  right. exists (at3 2), (comma ++ [0]). split; [auto|]. split; [apply comma3|]. split; [cbn; lia|reflexivity].
Qed.
(* ---- C75 ---- *)
Example str_split_size_case {A : Arch} : exists ps u' r, str_split 20 st3 [at3 0; enc_i 4] = Ok (u', r) /\ cut 4 hello ps /\ outcome (2 * length ps) (2 * length ps) st3 fl3 (tlist (map str ps)) u' r.
Proof. apply (str_split_size st3 fl3 (at3 0) (hello ++ [0]) (enc_i 4) 4 ready3 hello3); [cbn; lia|apply int3; lia|lia]. Qed.
Example str_split_chars_case {A : Arch} : exists ps u' r, str_split 20 st3 [at3 0; at3 2] = Ok (u', r) /\ pieces comma hello ps /\ outcome (2 * length ps) (2 * length ps) st3 fl3 (tlist (map str ps)) u' r.
Proof. apply (str_split_chars st3 fl3 (at3 0) (hello ++ [0]) (at3 2) (comma ++ [0]) 20 ready3 data3 hello3 comma3); cbn; try lia. Qed.
(* ---- C76 ---- *)
Example str_replace_case {A : Arch} : exists t, replaced lo comma hello t /\ exists u' r, str_replace st3 [at3 0; at3 1; at3 2] = Ok (u', r) /\ outcome 1 2 st3 fl3 (str t) u' r.
Proof.
  destruct (str_replace_correct st3 fl3 (at3 0) (hello ++ [0]) (at3 1) (lo ++ [0]) [at3 2] comma ready3 hello3 lo3) as (t&Rt&Go); [cbn; lia|cbn; lia| |discriminate|].
  { right. exists (at3 2), (comma ++ [0]). split; [auto|]. split; [apply comma3|reflexivity]. }
  exists t. split; [exact Rt|]. apply Go. assert (X : (length t <= length hello)%nat).
  { change (text (lo ++ [0])) with lo in Rt. change (text (hello ++ [0])) with hello in Rt. clear Go. induction Rt as [s|a b t _ Rt IH]; [lia|]. rewrite !app_length. cbn [length lo comma]. lia. }
  cbn [length hello] in X. destruct A; [change (2 ^ W) with (2 ^ 64)|change (2 ^ W) with (2 ^ 32)]; lia.
Qed.
Example str_replace_empty_case {A : Arch} : forall u, text [0] = [] -> den fl3 (uh u) (at3 1) (Bytes [0]) -> mem (uh u) 0 = None -> den fl3 (uh u) (at3 0) (Bytes (hello ++ [0])) -> str_replace u [at3 0; at3 1] = Ok (u, at3 0).
Proof. intros u E D1 N D0. eapply (str_replace_empty u fl3); eauto. Qed.
(* ---- C77: left 90000, nocase 90001 ---- *)
Example str_find_case {A : Arch} : exists u' r, str_find 90000 90001 2 st3 [at3 0; enc_cons_ptr 3; enc_sym 90000; enc_sym 90001; enc_i (-1); enc_i 1] = Ok (u', r) /\ outcome 0 0 st3 fl3 (Leaf KI 3) u' r.
Proof.
  apply (str_find_correct 90000 90001 st3 fl3 (at3 0) (hello ++ [0]) (enc_cons_ptr 3) [hello ++ [0]; lo ++ [0]] 0%nat [enc_sym 90000; enc_sym 90001; enc_i (-1); enc_i 1] [inr 90000; inr 90001; inl (-1); inl 1] 2 ready3 hello3).
  - reflexivity.
  - right. split; [apply list3|reflexivity].
  - repeat (constructor; [cbn; lia|]). constructor.
  - apply Forall2_cons; [apply sym3; lia|]. apply Forall2_cons; [apply sym3; lia|]. apply Forall2_cons; [split; [apply int3|]; lia|]. apply Forall2_cons; [split; [apply int3|]; lia|]. apply Forall2_nil.
  - cbn. lia.
  - lia.
  - lia.
  - lia.
  - cbn. lia.
  - cbn. lia.
  - assert (F : forall l, forallb (fun x => (0 <=? x) && (x <? 128)) l = true -> Forall plain l).
    { intros l H. apply Forall_forall. intros x X. rewrite forallb_forall in H. specialize (H x X). unfold plain. lia. }
    intros _ _. split; [apply F; reflexivity|]. constructor; [apply F; reflexivity|]. constructor; [apply F; reflexivity|]. constructor.
Qed.
Example str_find_first_case {A : Arch} : exists i u' r, str_find 90000 90001 1 st3 [at3 0; at3 1] = Ok (u', r) /\ outcome 1 0 st3 fl3 (Leaf KI i) u' r /\ i = 3.
Proof.
  destruct (str_find_first 90000 90001 st3 fl3 (at3 0) (hello ++ [0]) (at3 1) (lo ++ [0]) 1 ready3 hello3) as (i&u'&r&E&O&H); auto; try lia; try discriminate; [reflexivity|apply lo3|reflexivity|].
  exists i, u', r. split; [exact E|]. split; [exact O|]. change (removelast (lo ++ [0])) with lo in H.
  assert (A3 : 0 <= 3 /\ exists p q, hello ++ [0] = p ++ lo ++ q /\ 3 = Z.of_nat (length p)) by (split; [lia|]; exists (firstn 3 hello), [44; 32; 76; 111; 108; 97; 0]; split; reflexivity).
  destruct H as [((I0&p&q&E1&->)&Mi)|(_&No)]; [|exfalso; exact (No _ A3)]. specialize (Mi _ A3).
  destruct p as [|? [|? [|? [|? p]]]]; cbn in E1; try discriminate E1; [reflexivity|cbn [length] in Mi; lia].
Qed.
(* ---- C78 ---- *)
Example str_cmp_case {A : Arch} : exists v x, str_cmp st3 [at3 0; at3 1] = Ok (st3, v) /\ den fl3 heap3 v (Leaf KI x) /\ x < 0.
Proof.
  destruct (str_cmp_correct st3 fl3 (at3 0) (at3 1) (hello ++ [0]) (lo ++ [0]) [] (fun s => s) eq_refl hello3 lo3 data3) as (v&x&E&D&_&(_&B)&_);
    [repeat (constructor; [lia|]); constructor|repeat (constructor; [lia|]); constructor|left; repeat split; cbn; lia|].
  exists v, x. split; [exact E|]. split; [exact D|]. apply B. exists []. right. exists 72, 108, (tl hello), [111]. repeat split.
Qed.

(* C74 is false of the code where a number is out of range, a delimiter has no end,
   or a letter is not ASCII.  (str-replicate -1 97): the size is one more than
   4294967295, that is 0 *)
Theorem str_replicate_refuted : forall {A : Arch}, integer fl3 heap3 (enc_i (-1)) (-1) /\ integer fl3 heap3 (enc_i 97) 97 /\ str_replicate st3 [enc_i (-1); enc_i 97] = UB.
Proof. intros A. split; [apply int3; lia|]. split; [apply int3; lia|]. destruct A; vm_compute; reflexivity. Qed.
(* a delimiter of bytes without a 0: strlen reads on after the last *)
Theorem str_join_refuted : forall {A : Arch}, den fl3 heap3 (enc_cons_ptr 3) (tlist (map Bytes [hello ++ [0]; lo ++ [0]])) /\ den fl3 heap3 (at3 13) (Bytes [1; 2; 3; 4]) /\
  str_join 2 st3 [enc_cons_ptr 3; at3 13] = UB.
Proof. intros A. split; [apply list3|]. split; [apply raw3|]. destruct A; vm_compute; reflexivity. Qed.
(* toupper of a negative char, where char is signed *)
Theorem str_case_refuted : forall {A : Arch}, den fl3 heap3 (at3 14) (Bytes [195; 165; 0]) /\ change_case true st3 [at3 14] = UB.
Proof. intros A. split; [apply ring3|]. destruct A; vm_compute; reflexivity. Qed.

Print Assumptions str_join_correct.
Print Assumptions str_replace_correct.
Print Assumptions str_find_correct.
Print Assumptions str_find_first.
Print Assumptions str_split_chars.
Print Assumptions str_cmp_correct.
Print Assumptions str_replicate_refuted.
