(* map and reverse at work, and where map goes wrong. *)
From Verif Require Import Base Value_Model Heap_Model Env_Model Match_Model QQ_Model GC_Model Eval_Model Sym_Model Flat_Model Fund_Model Prim_Model
  Eval_Spec Prim_Spec Value_Proofs Heap_Spec Heap_Proofs Env_Proofs Eval_Proofs3 Eval_Props Fund_Spec Fund_Proofs Ctl_Model Ctl_Props Map_Model Map_Spec Map_Proofs Map_Props.
From Verif Require Fund_Props6.
Local Open Scope Z_scope.
#[local] Existing Instance alone.

(* (map + '(1 2 3)) on the stack [5], with an evaluator that gives 7 for every application *)
Definition state4 {A : Arch} : est := mkE Fund_Props6.heap4 [] [enc_cons_ptr 0; enc_sym 0x20000; enc_sym 0x3000D; 5] 20 0 0 0 false.
Definition seven {A : Arch} (s s' : est) : Prop := s' = mkE (e_heap s) (e_glob s) (e_K s) (e_size s) (e_exp s) (e_env s) (enc_i 7) true /\ evaluated s s'.
Example map_case {A : Arch} : exists s1, apply_map state4 2 = Ok (Val s1) /\
  forall vs s2, rounds seven s1 vs s2 -> length vs = 3%nat -> vs = [enc_i 7; enc_i 7; enc_i 7] /\ e_K s2 = [5] /\ e_app s2 = true /\
    exists fl, proper fl (e_heap s2) (e_r s2) [enc_i 7; enc_i 7; enc_i 7].
Proof.
  destruct (map_correct seven (fun _ v => v = enc_i 7) state4 (enc_cons_ptr 0) (enc_sym 0x20000) (enc_sym 0x3000D) [5] (map enc_i [1; 2; 3]) (map enc_cons_ptr [0; 1; 2]) 0
    7 8 9 10 11 [12; 13; 14]) as (s1&E&H).
  - intros s s' (_&V). exact V.
  - intros s1 s2 x (->&_) _ _. reflexivity.
  - reflexivity.
  - apply Fund_Props6.ok4.
  - reflexivity.
  - apply Fund_Props6.one4.
  - discriminate.
  - destruct A; reflexivity.
  - Fund_Props6.used4.
  - exists s1. split; [exact E|]. intros vs s2 RO L. destruct (H vs s2 RO) as (F2&D). rewrite L in F2, D. cbn in D, F2. destruct D as (D1&D2&_&fl&_&D3).
    inversion F2 as [|? v1 ? ? -> F2']; subst. inversion F2' as [|? v2 ? ? -> F2'']; subst. inversion F2'' as [|? v3 ? ? -> F3]; subst. inversion F3; subst. eauto 10.
Qed.

(* [seven] can be carried out wherever nothing that is in use refers to a free cell *)
Definition okb {A : Arch} (fl : list Z) (p : Z) : bool := negb (is_cons p) || (negb (is_const_ptr p) && negb (existsb (Z.eqb (f_ix p)) fl)).
Definition closed_b {A : Arch} (h : heap) (fl K : list Z) : bool :=
  forallb (okb fl) K &&
  forallb (fun i => existsb (Z.eqb (Z.of_nat i)) fl || match cell h (Z.of_nat i) with Some (a, d) => okb fl a && okb fl d | None => true end) (seq 0 (length (cells h))).
Lemma closed_held {A : Arch} h fl K : closed_b h fl K = true -> forall p, held h K p -> okb fl p = true.
Proof.
  unfold closed_b. intros C. apply andb_prop in C as (C1&C2). rewrite forallb_forall in C1, C2.
  assert (ST : forall p a d, okb fl p = true -> is_cons p = true -> ref_cell h p = Ok (a, d) -> okb fl a = true /\ okb fl d = true).
  { intros p a d O K1 R. unfold okb in O. rewrite K1 in O. cbn [negb orb] in O. apply andb_prop in O as (O1&O2). apply negb_true_iff in O1, O2.
    rewrite ref_cell_rw in R by auto. destruct (cell h (f_ix p)) as [[a' d']|] eqn:E; [|discriminate R]. injection R as -> ->.
    assert (RG : 0 <= f_ix p /\ (Z.to_nat (f_ix p) < length (cells h))%nat).
    { unfold cell in E. destruct (Z.ltb_spec (f_ix p) 0); [discriminate|]. split; [auto|]. apply nth_error_Some. congruence. }
    specialize (C2 (Z.to_nat (f_ix p)) ltac:(apply in_seq; lia)). rewrite Z2Nat.id, O2, E in C2 by lia. cbn [orb] in C2. apply andb_prop in C2. exact C2. }
  intros p H. induction H as [w I|p a d H IH K1 R|p a d H IH K1 R]; [auto| |]; destruct (ST p a d IH K1 R); auto.
Qed.
Lemma seven_ok {A : Arch} s fl : heap_ok (e_heap s) fl -> fl <> [] -> closed_b (e_heap s) fl (e_K s) = true -> exists s', seven s s'.
Proof.
  intros OK NE C. eexists. split; [reflexivity|]. cbn. repeat (split; [reflexivity|]). exists fl. split; [auto|]. split; [auto|]. intros p H K1 _ K2. split; [reflexivity|].
  pose proof (closed_held _ _ _ C p H) as O. unfold okb in O. rewrite K1, K2 in O. cbn in O. apply negb_true_iff in O. intros I.
  assert (existsb (Z.eqb (f_ix p)) fl = true) by (apply existsb_exists; exists (f_ix p); split; [auto|apply Z.eqb_refl]). congruence.
Qed.
(* the first round *)
Example rounds_case : exists s1 s2 s3, apply_map (A := A32) (state4 (A := A32)) 2 = Ok (Val s1) /\ seven (A := A32) s1 s2 /\ rounds (A := A32) (seven (A := A32)) s1 [enc_i (A := A32) 7] s3.
Proof.
  assert (H : exists s1, apply_map (A := A32) (state4 (A := A32)) 2 = Ok (Val s1) /\ heap_ok (A := A32) (e_heap s1) [12; 13; 14] /\ closed_b (A := A32) (e_heap s1) [12; 13; 14] (e_K s1) = true /\
    e_app s1 = false /\ exists s3, cont_map (A := A32) (mkE (e_heap s1) (e_glob s1) (tl (e_K s1)) (e_size s1) (e_exp s1) (e_env s1) (enc_i (A := A32) 7) false) = Ok (Val s3)).
  { eexists. split; [vm_compute; reflexivity|]. split; [|split; [vm_compute; reflexivity|split; [reflexivity|eexists; vm_compute; reflexivity]]].
    constructor; [vm_compute; discriminate| |repeat (constructor; [cbn; lia|]); constructor|reflexivity].
    cbn [freelist e_heap]. match goal with |- chain ?h _ _ => 
      exact (chain_cons (A := A32) h 12 0 (enc_cons_ptr (A := A32) 13) [13; 14] eq_refl (chain_cons (A := A32) h 13 0 (enc_cons_ptr (A := A32) 14) [14] eq_refl
        (chain_cons (A := A32) h 14 0 0 [] eq_refl (chain_nil _)))) end. }
  destruct H as (s1&E&OK&C&EA&s3&E3). destruct (seven_ok (A := A32) s1 _ OK ltac:(discriminate) C) as (s2&V). exists s1, s2, s3. split; [exact E|]. split; [exact V|].
  pose proof V as (V1&_). assert (E7 : e_r s2 = enc_i (A := A32) 7) by (rewrite V1; reflexivity). rewrite <- E7.
  apply (rounds_one (A := A32) _ s1 [] s1 s2 s3); [constructor|exact EA|exact V|]. rewrite V1. exact E3.
Qed.
(* two cells in use by nobody, and none free *)
Definition full2 : heap := mkHeap [(0, 0); (0, 0)] [] 0 2 [] 10 0 0 0 (fun _ => None) [] false.
Example map_cells_case : exists h2, collect (A := A32) full2 [] [] (regs 0 0 0 []) = Ok (Val h2) /\ heap_ok (A := A32) full2 [] /\ num_free (A := A32) h2 = 2 /\
  exists h' v, two_gc (A := A32) full2 [] [] (regs 0 0 0 []) = Ok (Val (h', v)) /\ is_cons (A := A32) v = true.
Proof.
  eexists. split; [vm_compute; reflexivity|]. split; [|split; [reflexivity|do 2 eexists; split; [vm_compute; reflexivity|reflexivity]]].
  split; [discriminate|constructor; discriminate|constructor|reflexivity].
Qed.
Example map_nil_case {A : Arch} : e_K (mkE Fund_Props6.heap4 [] [0; enc_sym 0x20000; enc_sym 0x3000D; 5] 20 0 0 0 false) = 0 :: enc_sym 0x20000 :: enc_sym 0x3000D :: [5].
Proof. reflexivity. Qed.
Example map_refuses_case {A : Arch} : is_cons (enc_i 3) = false /\ is_symbol_nil (enc_i 3) = false.
Proof. destruct A; auto. Qed.
(* (reverse '(1 2 3)) *)
Example reverse_case {A : Arch} : exists s1, apply_reverse 9 (mkE Fund_Props6.heap4 [] [enc_cons_ptr 0; enc_sym 0x3000E; 5] 20 0 0 0 false) 1 = Ok (Val s1) /\
  e_K s1 = [5] /\ path (e_heap s1) (e_r s1) (map enc_i [3; 2; 1]) (map enc_cons_ptr [9; 8; 7]) 0.
Proof.
  destruct (reverse_correct 9 (mkE Fund_Props6.heap4 [] [enc_cons_ptr 0; enc_sym 0x3000E; 5] 20 0 0 0 false) (enc_cons_ptr 0) (enc_sym 0x3000E) [5] (map enc_i [1; 2; 3]) (map enc_cons_ptr [0; 1; 2]) 0 Fund_Props6.fl4)
    as (s1&E&_&E1&_&_&_&P); [reflexivity|apply Fund_Props6.ok4|apply Fund_Props6.one4|destruct A; reflexivity|discriminate|Fund_Props6.used4|cbn; lia|cbn; lia|].
  exists s1. auto.
Qed.

(* programs in which the function that is applied is map: (f a b) with the arguments on the stack *)
Definition mstep {A : Arch} (s : est) : res (out est) :=
  match e_K s with
  | k :: _ => if e_app s && (k =? MAP) then cont_map (popped s) else step fundamental_table 64 s
  | [] => UB
  end.
Fixpoint mfinish {A : Arch} (m : nat) (s : est) : res (out est) :=
  match m with
  | O => Fuel
  | S k => if e_app s && (length (e_K s) =? 1)%nat then Ok (Val s) else let* s1 := mstep s in mfinish k s1
  end.
(* (map f lst), the values of [f] and [lst] given *)
Definition map_program {A : Arch} (f lst : val) : res (out est) :=
  let! h0 := heap_init 200 20 in
  let! (h1, l) := load h0 lst in
  let! (h2, p) := load h1 f in
  let* s := apply_map (mkE h2 (groots (init_env h0)) [l; p; enc_sym 0x3000D; CONT 0] 60 NIL NIL NIL false) 2 in
  mfinish 400 s.
(* what a list of depth at most [d] reads *)
Fixpoint readback {A : Arch} (d : nat) (h : heap) (v : Z) : val :=
  match d with
  | O => VAtom v
  | S k => if is_cons v then match ref_cell h v with Ok (a, b) => VC (readback k h a) (readback k h b) | _ => VAtom v end else VAtom v
  end.
Definition shown {A : Arch} (o : res (out est)) : option val := match o with Ok (Val s) => Some (readback 10 (e_heap s) (e_r s)) | _ => None end.
Definition alist (l : list Z) : val := fold_right (fun a d => VC (VAtom a) d) (VAtom 0) l.
Definition closure_ (ps : list val) (body : val) : val := vlist [VSym 0x10F; vlist ps; body; VSym 0].

Example map_program_case :
  shown (A := A32) (map_program (A := A32) (VSym 0x20000) (vlist [n32 1; n32 2; n32 3])) = Some (alist (map (enc_i (A := A32)) [1; 2; 3])) /\
  shown (A := A32) (map_program (A := A32) (closure_ [A_] (if_ A_ (n32 8) A_)) (vlist [n32 1; VSym 0; n32 3])) = Some (alist [enc_i (A := A32) 8; 0; enc_i (A := A32) 8]).
Proof. vm_compute. auto. Qed.

(* (map quote '(1 2 3)) = ((quote 3) (quote 3) (quote 3)), although (quote (quote 1))
   is (quote 1): the expression is used again for the next element, and a value that
   contains a part of it changes with it *)
Theorem map_shares_refuted :
  let q n := VC (VAtom (enc_sym (A := A32) 0x100)) (VC (VAtom (enc_i (A := A32) n)) (VAtom 0)) in
  shown (A := A32) (map_program (A := A32) (VSym 0x100) (vlist [n32 1])) = Some (VC (q 1) (VAtom 0)) /\
  shown (A := A32) (map_program (A := A32) (VSym 0x100) (vlist [n32 1; n32 2; n32 3])) = Some (VC (q 3) (VC (q 3) (VC (q 3) (VAtom 0)))).
Proof. vm_compute. auto. Qed.

Print Assumptions map_correct.
Print Assumptions map_cells.
Print Assumptions map_nil.
Print Assumptions map_refuses.
Print Assumptions map_shares_refuted.
Print Assumptions reverse_correct.
Print Assumptions reverse_refuses.
