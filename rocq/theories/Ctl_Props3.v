(* C92: atomic blocks. *)
From Verif Require Import Base Value_Model Heap_Model Env_Model Match_Model QQ_Model GC_Model Eval_Model Sym_Model Flat_Model Fund_Model Prim_Model
  Eval_Spec Prim_Spec Value_Proofs Value_Proofs2 Value_Props Heap_Spec Heap_Proofs Heap_Proofs2 Env_Proofs Eval_GC Eval_Proofs Eval_Proofs2 Eval_Proofs3 Eval_Props
  Ctl_Model Ctl_Spec Ctl_Proofs Ctl_Proofs2 Ctl_Props.
Local Open Scope Z_scope.

Section Props.
Context {A : Arch} {HO : Host} {FA : Faults}.
Variable prim : Z -> heap -> list Z -> res (heap * Z).
Notation any := (fun _ : Z => True).

(* the expression is a form (atomic ...) *)
Definition is_atomic_form (s : est) : Prop :=
  e_app s = false /\ exists i rest, e_exp s = enc_cons_ptr i /\ 0 <= i < 2 ^ (W - 8) /\ cell (e_heap s) i = Some (enc_sym 0x10C, rest).
(* the body of an atomic block on the stack [K] is being evaluated, or its value has just come *)
Definition inside (K : list Z) (x : xst) : Prop :=
  x_atomic x = true /\ (returned (CONT 14 :: K) (x_e x) \/ going_on False any (CONT 14 :: K) (x_e x)).

Lemma exit_not_progn K : hd_error (CONT 14 :: K) <> Some PROGN_REST.
Proof. cbn. intros E. injection E as E. revert E. clear. arch; discriminate. Qed.
Lemma xstep_atomic f x : is_atomic_form (x_e x) -> xstep prim f x = eval_atomic f x.
Proof.
  intros (EA&i&rest&EX&Ri&Ci). destruct x as [[h g K sz exp env r ap] xf at_ po ab]. cbn [x_e e_app e_exp e_heap] in *. subst ap exp.
  unfold xstep. cbn [x_e]. rewrite enc_cons by auto. rewrite (ref_enc _ _ _ Ri Ci). cbn [bind].
  replace (is_symbol (enc_sym 0x10C) && (Z.land (enc_sym 0x10C) SF_MASK =? SF_BIT)) with true by (clear; arch; reflexivity).
  replace (Z.land (dec_sym (enc_sym 0x10C)) 255) with 12 by (clear; arch; reflexivity). reflexivity.
Qed.

(* Outside atomic blocks the form begins one: is_atomic is set, and the word on
   the stack that will end it is under everything that the body does. *)
Lemma atomic_enters f x x1 : is_atomic_form (x_e x) -> xstep prim f x = Ok (Next x1) ->
  x_atomic x = false /\ inside (e_K (x_e x)) x1 /\ e_size (x_e x1) = e_size (x_e x).
Proof.
  intros I. rewrite xstep_atomic by auto. destruct x as [[h g K sz exp env r ap] xf at_ po ab]. unfold eval_atomic. cbn [x_e x_atomic e_K e_size].
  assert (NR : forall y h0 K0 err, raise y h0 K0 err <> Ok (Next x1)).
  { intros y h0 K0 err E. pose proof (kx_raise False (fun _ => False) [] 0 y h0 K0 err) as KR. rewrite E in KR. cbn in KR. tauto. }
  destruct at_; [intros E; destruct (NR _ _ _ _ E)|]. destruct (reserve sz K [EXIT_ATOMIC]) as [K1|] eqn:RE; [|intros E; destruct (NR _ _ _ _ E)].
  apply reserve_some in RE as (->&_). cbn [rev app].
  change (x_e (set_atomic (onto (mkX (mkE h g K sz exp env r ap) xf false po ab) (mkE h g (EXIT_ATOMIC :: K) sz exp env r false)) true)) with (mkE h g (EXIT_ATOMIC :: K) sz exp env r false).
  assert (O : on False any (CONT 14 :: K) (EXIT_ATOMIC :: K)) by (exists []; split; [reflexivity|constructor]).
  pose proof (eval_progn_on False any (CONT 14 :: K) (exit_not_progn K) prim h g (EXIT_ATOMIC :: K) sz exp env r O) as KP.
  destruct (eval_progn _) as [[s| |]| |] eqn:EP; cbn [bind]; try discriminate; try (intros E; destruct (NR _ _ _ _ E)).
  intros E. injection E as <-. cbn in KP. destruct KP as ((X&EX&F)&SZ). cbn [x_e set_atomic onto x_atomic].
  split; [reflexivity|]. split; [|auto]. split; [reflexivity|]. cbn [x_e].
  destruct (e_app s) eqn:EA.
  - destruct X as [|k X]; [left; split; auto|right]. exists (k :: X). split; [exact EX|]. split; [exact F|intros _; discriminate].
  - right. exists X. split; [exact EX|]. split; [exact F|intros H1; cbn in H1; congruence].
Qed.

(* 1. An atomic block on the stack [K], any body.  It can only begin outside of
   atomic blocks.  After any number of steps, none of which raises an error or
   applies a continuation, is_atomic is set, unless the body has come to its end; and
   until then the stack is as it was, with the word that will end the block on it
   and no other such word above. *)
Theorem atomic_throughout f m x x' K : is_atomic_form (x_e x) -> e_K (x_e x) = K -> e_size (x_e x) <= 2 ^ 28 ->
  plain prim f (S m) x = Ok (Next x') ->
  x_atomic x = false /\
  ((exists j y, (0 < j <= S m)%nat /\ plain prim f j x = Ok (Next y) /\ x_atomic y = true /\ returned (CONT 14 :: K) (x_e y)) \/
   (x_atomic x' = true /\ going_on False (fun _ => True) (CONT 14 :: K) (x_e x'))).
Proof.
  intros I <- SZ R. cbn [plain] in R. destruct (xstep prim f x) as [o| |] eqn:E0; try discriminate R. cbn [bind] in R. destruct o as [x1|x1|x1|e b|e b|]; try discriminate R.
  destruct (atomic_enters f x x1 I E0) as (A0&(A1&[RT|G])&SZ1); (split; [exact A0|]).
  { left. exists 1%nat, x1. split; [lia|]. split; [cbn [plain]; rewrite E0; reflexivity|auto]. }
  destruct (plain_on False any ltac:(auto) ltac:(auto) (CONT 14 :: e_K (x_e x)) (exit_not_progn _) prim f m x1 x') as [(j&y&L&Rj&RT&[[]|AT])|(G'&_&_&[[]|AT])]; auto; try lia.
  left. exists (S j), y. split; [lia|]. split; [cbn [plain]; rewrite E0; exact Rj|auto].
Qed.

(* 2. When the body has its value, the next step clears is_atomic and hands the
   value on to the stack on which the block began. *)
Theorem atomic_ends f x K : returned (CONT 14 :: K) (x_e x) ->
  exists x1, xstep prim f x = Ok (Next x1) /\ x_atomic x1 = false /\ returned K (x_e x1) /\
    e_r (x_e x1) = e_r (x_e x) /\ e_heap (x_e x1) = e_heap (x_e x) /\ e_glob (x_e x1) = e_glob (x_e x) /\ e_env (x_e x1) = e_env (x_e x) /\ x_flags x1 = x_flags x.
Proof.
  intros (EK&EA). destruct x as [[h g K1 sz exp env r ap] xf at_ po ab]. cbn [x_e e_K e_app] in *. subst.
  unfold xstep. cbn [x_e]. replace (DEC_CONT (CONT 14)) with 14 by (clear; arch; reflexivity). cbn [Z.eqb Pos.eqb]. unfold cont_exit_atomic. cbn [x_e].
  eexists. split; [reflexivity|]. cbn. unfold returned. cbn. auto 10.
Qed.

(* 3. An atomic block in an atomic block is an error, eval_error; is_atomic is clear after it. *)
Theorem atomic_nested f x : is_atomic_form (x_e x) -> x_atomic x = true ->
  match xstep prim f x with
  | Ok (Ended e at_) | Ok (Lost e at_) => e = EERROR /\ at_ = false
  | Ok (Caught y) => x_atomic y = false
  | Ok _ => False
  | _ => True
  end.
Proof.
  intros I AT. rewrite xstep_atomic by auto. destruct x as [[h g K sz exp env r ap] xf at_ po ab]. cbn [x_atomic] in AT. subst at_.
  unfold eval_atomic. cbn [x_e x_atomic]. unfold raise. cbn [x_e x_flags x_atomic set_atomic].
  destruct (_ && _); [auto|]. destruct (_ && _); [|auto]. destruct (unwind _ _ _) as [[[? ?] ?]|]; [|auto].
  destruct (set_car _ _ _) as [[? ?]| |]; cbn; auto.
Qed.
End Props.

#[local] Existing Instance alone.
#[local] Existing Instance exact.

(* a test of [is_atomic_form] *)
Definition atomic_form_b (s : est) : bool :=
  negb (e_app s) && (e_exp s =? enc_cons_ptr (A := A32) (f_ix (A := A32) (e_exp s))) && (0 <=? f_ix (A := A32) (e_exp s)) && (f_ix (A := A32) (e_exp s) <? 2 ^ 24) &&
  match cell (e_heap s) (f_ix (A := A32) (e_exp s)) with Some (hd, _) => hd =? enc_sym (A := A32) 0x10C | None => false end.
Lemma atomic_form_test s : atomic_form_b s = true -> is_atomic_form (A := A32) s.
Proof.
  unfold atomic_form_b. intros H. repeat (apply andb_prop in H as (H&?)). split; [destruct (e_app s); auto; discriminate|].
  destruct (cell _ _) as [[hd rest]|] eqn:C; [|discriminate]. exists (f_ix (A := A32) (e_exp s)), rest.
  split; [apply Z.eqb_eq; auto|]. split; [change (W (A := A32) - 8) with 24; lia|]. rewrite C. f_equal. f_equal. lia.
Qed.

(* (atomic (if 1 2 3)): after two steps the body is evaluated, atomically *)
Example throughout_case :
  match xload (A := A32) 40 0 (atomic_ (if_ (n32 1) (n32 2) (n32 3))) with
  | Ok x => atomic_form_b (x_e x) = true /\ e_size (x_e x) <= 2 ^ 28 /\
    match steps (A := A32) 2 x with Ok (Next x') => x_atomic x' = true /\ length (e_K (x_e x')) = 5%nat | _ => False end
  | _ => False
  end.
Proof. vm_compute. repeat split; discriminate. Qed.
Example ends_case : let x := mkX (mkE (mkHeap [] [] 0 0 [] 0 0 0 0 (fun _ => None) [] false) [] [CONT (A := A32) 14; 9] 40 0 0 7 true) 0 true [] [] in
  returned [CONT (A := A32) 14; 9] (x_e x).
Proof. split; reflexivity. Qed.
Example nested_case :
  xprog (A := A32) 40 0 (atomic_ (if_ (n32 1) (n32 2) (n32 3))) = Ok (SValue (enc_i (A := A32) 2) 0 false) /\
  xprog (A := A32) 40 0 (atomic_ (atomic_ (n32 1))) = Ok (SOut (Ended (EERROR (A := A32)) false)).
Proof. vm_compute. auto. Qed.

Definition runs (m : nat) (x : xst) : res xout := @xrun A32 alone (exact (A := A32)) (fundamental_table (A := A32)) 64 m x.

(* (atomic (trap (atomic 1)) 2): the error of the inner block is caught, and
   then the rest of the outer block is run although is_atomic is clear *)
Theorem atomic_rest_refuted :
  match xload (A := A32) 40 0 (vlist [VSym 0x10C; trap_ (atomic_ (n32 1)); n32 2]) with
  | Ok x => atomic_form_b (x_e x) = true /\
    match runs 4 x with
    | Ok (Next y) => x_atomic y = false /\ going_on (A := A32) False (fun _ => True) (CONT (A := A32) 14 :: e_K (x_e x)) (x_e y)
    | _ => False
    end
  | _ => False
  end.
Proof.
  vm_compute. split; [reflexivity|]. split; [reflexivity|].
  eexists [_; _; _; _]. split; [reflexivity|]. split; [|discriminate].
    match goal with |- frames _ _ [_; ?a; ?b; ?c] => exact (fr_fixed (A := A32) False (fun _ => True) 4 3 [a; b; c] [] ltac:(cbn; tauto) ltac:(discriminate) eq_refl (fr_nil _ _)) end.
Qed.
Print Assumptions atomic_throughout.
Print Assumptions atomic_ends.
Print Assumptions atomic_nested.
Print Assumptions atomic_rest_refuted.
