(* C96: cases. *)
From Verif Require Import Base Value_Model Heap_Model Value_Proofs Value_Proofs2 Heap_Spec Heap_Proofs Fund_Spec DispArg_Model DispArg_Spec DispArg_Proofs DispArg_Props.
Local Open Scope Z_scope.

Definition names7 : list Z := [1000; 1001; 1002; 1003; 1004; 1005; 1006].
(* cells 0 and 1: (thickness 3); cell 2: (filled); cells 3 to 7: (resolution 1 2 3 4) *)
Definition heap7 {A : Arch} : heap :=
  mkHeap [(enc_sym 1000, enc_cons_ptr 1); (enc_i 3, 0); (enc_sym 1001, 0);
          (enc_sym 1006, enc_cons_ptr 4); (enc_i 1, enc_cons_ptr 5); (enc_i 2, enc_cons_ptr 6); (enc_i 3, enc_cons_ptr 7); (enc_i 4, 0)]
    [] 0 8 [] 0 0 0 0 (fun _ => None) [] false.
Lemma seven7 : seven_symbols names7.
Proof. split; [repeat (constructor; [cbn; lia|]); constructor|]. split; [reflexivity|]. repeat (constructor; [lia|]). constructor. Qed.
Ltac path7 := repeat (eapply path_step; [split; vm_compute; congruence|reflexivity|left; reflexivity|reflexivity|]); apply path_end.
Lemma num7 {A : Arch} n : n = 0 \/ n = 5 \/ n = 9 -> is_given names7 heap7 (enc_i n) (Num (enc_i n)).
Proof. intros [-> |[-> | ->]]; apply is_num; destruct A; reflexivity. Qed.
Lemma thick7 {A : Arch} : is_given names7 heap7 (enc_cons_ptr 0) (Att 0 [enc_i 3]).
Proof. destruct A; (eapply is_att with (s := 1000); [reflexivity|reflexivity|path7|reflexivity|repeat constructor]). Qed.
Lemma filled7 {A : Arch} : is_given names7 heap7 (enc_cons_ptr 2) (Att 1 []).
Proof. destruct A; (eapply is_att with (s := 1001); [reflexivity|reflexivity|path7|reflexivity|repeat constructor]). Qed.
Lemma four7 {A : Arch} : is_given names7 heap7 (enc_cons_ptr 3) (Att 6 (map enc_i [1; 2; 3; 4])).
Proof. destruct A; (eapply is_att with (s := 1006); [reflexivity|reflexivity|path7|reflexivity|repeat constructor]). Qed.

(* 5 9 '(thickness 3) 0 '(filled) *)
Example accepts_case {A : Arch} : exists d, decode_args names7 heap7 [enc_i 5; enc_i 9; enc_cons_ptr 0; enc_i 0; enc_cons_ptr 2] 3 = Ok (Some d) /\
  firstn 3 (d_args d) = map enc_i [5; 9; 0] /\ a_valid (nth 0 (d_attrs d) (mkAttr false 0 [])) = true /\ a_valid (nth 2 (d_attrs d) (mkAttr true 0 [])) = false.
Proof.
  destruct (decode_accepts names7 heap7 [enc_i 5; enc_i 9; enc_cons_ptr 0; enc_i 0; enc_cons_ptr 2] [Num (enc_i 5); Num (enc_i 9); Att 0 [enc_i 3]; Num (enc_i 0); Att 1 []] 3 seven7) as (d&E&N&_).
  - repeat (constructor; [first [apply num7; lia|apply thick7|apply filled7]|]). constructor.
  - repeat constructor.
  - reflexivity.
  - lia.
  - exists d. split; [exact E|]. split; [exact N|]. destruct A; vm_compute in E; injection E as <-; auto.
Qed.
Example refuses_case {A : Arch} : refused names7 heap7 (enc_sym 1000) /\ ~ takes 0 (length [enc_i 3; enc_i 4]).
Proof. split; [apply no_arg; destruct A; reflexivity|cbn; discriminate]. Qed.
Example nine_case {A : Arch} : Forall2 (is_given names7 heap7) (repeat (enc_i 5) 9) (repeat (Num (enc_i 5)) 9).
Proof. repeat (constructor; [apply num7; lia|]). constructor. Qed.
Example four_case {A : Arch} : decode_args names7 heap7 [enc_i 5; enc_cons_ptr 3] 1 = UB.
Proof.
  apply (decode_four_numbers_refuted names7 heap7 [enc_i 5] [Num (enc_i 5)] 1 (enc_cons_ptr 3) 6 (map enc_i [1; 2; 3; 4]) [] seven7); [|repeat constructor|cbn; lia|apply four7|cbn; lia].
  constructor; [apply num7; lia|constructor].
Qed.

Print Assumptions decode_accepts.
Print Assumptions decode_refuses.
Print Assumptions decode_nine_numbers_refuted.
Print Assumptions decode_four_numbers_refuted.
