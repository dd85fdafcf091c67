(* C87: call-cc. *)
From Verif Require Import Base Value_Model Heap_Model Env_Model Match_Model QQ_Model GC_Model Eval_Model Sym_Model Flat_Model Fund_Model Prim_Model
  Eval_Spec Prim_Spec Fund_Spec Value_Proofs Value_Proofs2 Value_Props Heap_Spec Heap_Proofs Heap_Proofs2 Env_Proofs List_Proofs Flat_Proofs2 Eval_GC
  Eval_Proofs Eval_Proofs2 Eval_Proofs3 Eval_Props Fund_Props Ctl_Model Ctl_Spec Ctl_Proofs Ctl_Proofs2 Ctl_Props.
Local Open Scope Z_scope.

Section Props.
Context {A : Arch} {HO : Host} {FA : Faults}.
Variable prim : Z -> heap -> list Z -> res (heap * Z).

(* [v] is the continuation of the stack [K] (top first): a cell with the symbol
   cont and an array of the words of the stack from the bottom, and last whether it
   was taken inside an atomic *)
Definition is_continuation (h : heap) (v : Z) (K : list Z) (at_ : bool) : Prop :=
  exists i p, v = enc_cons_ptr i /\ 0 <= i < 2 ^ (W - 8) /\ cell h i = Some (enc_sym 0x10E, p) /\
    Fund_Spec.lisp_array h p (rev K ++ [enc_sym (if at_ then 2 else 0)]).

(* the expression is (call-cc fn), in the cells [i] and [j] *)
Definition is_callcc (s : est) (fn i j : Z) : Prop :=
  e_app s = false /\ exists rest, e_exp s = enc_cons_ptr i /\ 0 <= i < 2 ^ (W - 8) /\ 0 <= j < 2 ^ (W - 8) /\
    cell (e_heap s) i = Some (enc_sym 0x10B, enc_cons_ptr j) /\ cell (e_heap s) j = Some (fn, rest).

(* 1. call-cc evaluates its function and will apply it to the continuation of the
   stack, which is unchanged under that application. *)
Theorem callcc_captures f x fn a b i j k fl ad dd rest :
  is_callcc (x_e x) fn a b -> heap_ok (e_heap (x_e x)) (i :: j :: k :: fl) -> ~ In a [i; j; k] -> ~ In b [i; j; k] -> x_pool x = ad :: dd :: rest -> ad <> 0 -> dd <> 0 ->
  Z.of_nat (length (e_K (x_e x))) + 3 < e_size (x_e x) -> WB * e_size (x_e x) < 2 ^ W ->
  exists x1 h cv al, xstep prim f x = Ok (Next x1) /\
    x_e x1 = mkE h (e_glob (x_e x)) (CONT 10 :: al :: e_env (x_e x) :: e_K (x_e x)) (e_size (x_e x)) fn (e_env (x_e x)) (e_r (x_e x)) false /\
    x_flags x1 = x_flags x /\ x_atomic x1 = x_atomic x /\ x_pool x1 = rest /\
    al = enc_cons_ptr k /\ cell h k = Some (cv, NIL) /\ is_continuation h cv (e_K (x_e x)) (x_atomic x) /\
    same_but [i; j; k] (e_heap (x_e x)) h /\ (forall a, a <> ad -> mem h a = mem (e_heap (x_e x)) a) /\ heap_ok h fl.
Proof.
  intros (EA&rs&EX&Ra&Rb&Ca&Cb) OK Ua Ub PO NA ND RM SM. destruct x as [[h g K sz exp env r app] xf at_ po ab]. cbn [x_e e_app e_exp e_heap e_K e_size e_glob e_env e_r x_flags x_atomic x_pool] in *.
  subst app exp po. unfold xstep. cbn [x_e].
  assert (IC : is_cons (enc_cons_ptr a) = true) by (rewrite rw_is_cons; auto using enc_rw, enc_word). rewrite IC, (ref_enc _ _ _ Ra Ca). cbn [bind].
  replace (is_symbol (enc_sym 267) && (Z.land (enc_sym 267) SF_MASK =? SF_BIT)) with true by (clear; arch; reflexivity).
  replace (Z.land (dec_sym (enc_sym 267)) 255) with 11 by (clear; arch; reflexivity). cbn [Z.eqb Pos.eqb].
  unfold eval_callcc. cbn [x_e x_atomic x_pool]. unfold reserve. cbn [length]. destruct (Z.ltb_spec (Z.of_nat (length K) + Z.of_nat 1) sz); [|lia]. cbn [rev app].
  set (w := if at_ then TRUE else NIL). unfold cont_array.
  set (u0 := mkU h (ad :: dd :: rest) (mksy [] 0 [] 0 0) []).
  destruct (alloc_array_ok u0 false (Z.of_nat (length (w :: K))) i (j :: k :: fl) ad dd rest OK eq_refl NA ND) as (h1&q&E&OK1&C1&S1&Cc1&M1&R1); [cbn; lia| |].
  { intros _. cbn [length]. pose proof WB_pos2. nia. }
  cbv zeta in E. set (arr := set_ptr_type _ _) in E.
  destruct (tagged_facts i (array_ty false) R1 (good_array_ty false)) as (P&I&Kc&T&NM). fold arr in P, I, Kc, T, NM.
  rewrite E. cbn [bind]. destruct (Z.eqb_spec arr MERROR); [congruence|]. cbn [bind uh up].
  rewrite P. unfold lisp_array_of, car. rewrite P.
  set (o0 := OLisp dd _ (repeat _ _) 0) in *.
  assert (R : ref_cell (set_obj h1 ad (Some o0)) arr = Ok (ad, q)).
  { rewrite ref_cell_rw, I by auto. change (cell (set_obj h1 ad (Some o0)) i) with (cell h1 i). rewrite C1. reflexivity. }
  rewrite R. cbn [bind fst]. change (mem (set_obj h1 ad (Some o0)) ad) with (if ad =? ad then Some o0 else mem h1 ad). rewrite Z.eqb_refl. unfold o0 at 1. cbn [bind].
  set (h2 := set_obj _ ad (Some (OLisp _ _ _ _))).
  assert (OK2 : heap_ok h2 (j :: k :: fl)) by (apply set_obj_ok, set_obj_ok; auto).
  unfold cons_gc. rewrite (freelist_nil _ _ OK2). cbn [bind].
  destruct (cons_ok h2 j (k :: fl) S_CONT arr OK2) as (h3&E3&OK3&C3&S3&Sz3&Cc3&M3&_&R3). rewrite E3. cbn [bind]. rewrite (freelist_nil _ _ OK3). cbn [bind].
  destruct (cons_ok h3 k fl (enc_cons_ptr j) NIL OK3) as (h4&E4&OK4&C4&S4&Sz4&Cc4&M4&_&R4). rewrite E4. cbn [bind].
  cbn [length] in *. destruct (Z.ltb_spec (Z.of_nat (S (length K)) + 2) sz); [|lia].
  pose proof (ok_nodup _ _ OK) as NDp. apply NoDup_cons_iff in NDp as (Ni&NDp). apply NoDup_cons_iff in NDp as (Nj&NDp). apply NoDup_cons_iff in NDp as (Nk&NDp).
  assert (SB : same_but [i; j; k] h h4).
  { intros z Nz. rewrite S4, S3 by (intros [?|[]]; apply Nz; cbn; auto). change (cell h2 z) with (cell h1 z). apply S1. intros [?|[]]; apply Nz; cbn; auto. }
  unfold get_cadr. rewrite enc_is_ptr by auto. rewrite (ref_enc h4 a (enc_sym 267, enc_cons_ptr b)) by (auto; rewrite SB; auto). cbn [bind snd].
  rewrite enc_is_ptr by auto. rewrite (ref_enc h4 b (fn, rs)) by (auto; rewrite SB; auto). cbn [bind fst].
  exists (set_pool (onto (mkX (mkE h g K sz (enc_cons_ptr a) env r false) xf at_ (ad :: dd :: rest) ab) (mkE h4 g (CONT 10 :: enc_cons_ptr k :: env :: K) sz fn env r false)) rest), h4, (enc_cons_ptr j), (enc_cons_ptr k).
  split; [reflexivity|]. cbn. do 5 (split; [reflexivity|]). split; [exact C4|]. split; [|split; [exact SB|split; [|exact OK4]]].
  - exists j, arr. split; [reflexivity|split; [exact R3|]]. split.
    { rewrite S4; [exact C3|]. intros [->|[]]. apply Nj. left. reflexivity. }
    split; [exact P|split; [exact T|]]. exists ad, q, dd, 0. split.
    { rewrite ref_cell_rw, I by auto. rewrite S4, S3; [change (cell h2 i) with (cell h1 i); rewrite C1; reflexivity|intros [->|[]]; apply Ni; cbn; auto..]. }
    rewrite M4, M3. unfold h2. cbn [mem set_obj set_mem]. rewrite Z.eqb_refl. do 2 f_equal.
    + rewrite app_length, rev_length. cbn [length]. lia.
    + do 2 f_equal. unfold w. destruct at_; reflexivity.
  - intros z Nz. rewrite M4, M3. unfold h2. cbn [mem set_obj set_mem]. destruct (Z.eqb_spec z ad); [congruence|]. rewrite M1. reflexivity.
Qed.

(* the arguments are none, or one: [arg] *)
Definition at_most_one (h : heap) (args arg : Z) : Prop :=
  (args = NIL /\ arg = NIL) \/ exists i, args = enc_cons_ptr i /\ 0 <= i < 2 ^ (W - 8) /\ cell h i = Some (arg, NIL).

(* 2. A continuation is applied, whatever the stack is then: the stack is the one
   that was captured, as is whether the context is in an atomic, and the argument
   is evaluated.  The stack must have room for it. *)
Theorem callcc_restores f x K at_ args arg env0 K1 :
  e_app (x_e x) = true -> e_K (x_e x) = CONT 10 :: args :: env0 :: K1 ->
  is_continuation (e_heap (x_e x)) (e_r (x_e x)) K at_ -> at_most_one (e_heap (x_e x)) args arg -> (1 <= f)%nat ->
  Z.of_nat (length K) + 1 <= e_size (x_e x) ->
  exists x2, xstep prim f x = Ok (Jumped x2) /\
    x_e x2 = mkE (e_heap (x_e x)) (e_glob (x_e x)) K (e_size (x_e x)) arg (e_env (x_e x)) (e_r (x_e x)) false /\
    x_atomic x2 = at_ /\ x_flags x2 = x_flags x /\ x_pool x2 = x_pool x.
Proof.
  intros EA EK (i&p&Er&Ri&Ci&LA) AM F1 SZ. destruct x as [[h g K2 sz exp env r app] xf at0 po ab]. cbn [x_e e_app e_exp e_heap e_K e_size e_glob e_env e_r x_flags x_atomic x_pool] in *.
  subst app K2 r. unfold xstep. cbn [x_e]. replace (DEC_CONT (CONT 10)) with 10 by (clear; arch; reflexivity). cbn [Z.eqb Pos.eqb andb].
  assert (IC : forall i, 0 <= i < 2 ^ (W - 8) -> is_cons (enc_cons_ptr i) = true) by (intros; rewrite rw_is_cons; auto using enc_rw, enc_word).
  rewrite IC, (ref_enc _ _ _ Ri Ci) by auto. cbn [bind]. change (enc_sym 270 =? S_CONT) with (S_CONT =? S_CONT). rewrite Z.eqb_refl. unfold apply_cont. cbn [x_e].
  rewrite (ref_enc _ _ _ Ri Ci). cbn [bind]. destruct (array_is_lisp _ _ _ LA) as (_&_&IL&_&p0&q0&d&x&_&_&LO). rewrite IL. cbn [negb].
  assert (NC : is_cons NIL = false) by (clear; arch; reflexivity).
  assert (LR : length (rev K ++ [enc_sym (if at_ then 2 else 0)]) = S (length K)) by (rewrite app_length, rev_length; cbn; lia).
  assert (SG : (Z.of_nat (length (rev K ++ [enc_sym (if at_ then 2 else 0)])) * WB >? WB * sz) = false) by (rewrite LR; pose proof WB_pos2; nia).
  assert (RV : rev (rev K ++ [enc_sym (if at_ then 2 else 0)]) = enc_sym (if at_ then 2 else 0) :: K) by (rewrite rev_app_distr, rev_involutive; reflexivity).
  assert (AT : negb (enc_sym (if at_ then 2 else 0) =? 0) = at_) by (clear; destruct at_; arch; reflexivity).
  unfold list_length. destruct AM as [(->&->)|(z&->&Rz&Cz)].
  - destruct f as [|f]; [lia|]. cbn [list_length_loop]. rewrite NC. cbn [bind Z.gtb Z.compare Z.eqb]. rewrite LO. cbn [bind]. rewrite SG, RV, AT.
    eexists. split; [reflexivity|]. auto.
  - destruct f as [|f]; [lia|]. cbn [list_length_loop]. rewrite IC by auto. unfold cdr. rewrite enc_is_ptr, (ref_enc _ _ _ Rz Cz) by auto. cbn [bind snd].
    replace (list_length_loop f h NIL (wrap W (0 + 1))) with (Ok 1) by (destruct f; cbn [list_length_loop]; rewrite NC; f_equal; clear; arch; reflexivity).
    cbn [bind Z.gtb Z.compare Pos.compare Pos.compare_cont Z.eqb]. unfold get_car. rewrite enc_is_ptr, (ref_enc _ _ _ Rz Cz) by auto. cbn [bind fst]. rewrite LO. cbn [bind]. rewrite SG, RV, AT.
    eexists. split; [reflexivity|]. auto.
Qed.

(* 3. If the stack (of another context) is smaller than the captured one, memory behind it is written. *)
Theorem callcc_small_stack_refuted f x K at_ args arg env0 K1 :
  e_app (x_e x) = true -> e_K (x_e x) = CONT 10 :: args :: env0 :: K1 ->
  is_continuation (e_heap (x_e x)) (e_r (x_e x)) K at_ -> at_most_one (e_heap (x_e x)) args arg -> (1 <= f)%nat ->
  e_size (x_e x) < Z.of_nat (length K) + 1 ->
  xstep prim f x = UB.
Proof.
  intros EA EK (i&p&Er&Ri&Ci&LA) AM F1 SZ. destruct x as [[h g K2 sz exp env r app] xf at0 po ab]. cbn [x_e e_app e_exp e_heap e_K e_size e_glob e_env e_r x_flags x_atomic x_pool] in *.
  subst app K2 r. unfold xstep. cbn [x_e]. replace (DEC_CONT (CONT 10)) with 10 by (clear; arch; reflexivity). cbn [Z.eqb Pos.eqb andb].
  assert (IC : forall i, 0 <= i < 2 ^ (W - 8) -> is_cons (enc_cons_ptr i) = true) by (intros; rewrite rw_is_cons; auto using enc_rw, enc_word).
  rewrite IC, (ref_enc _ _ _ Ri Ci) by auto. cbn [bind]. change (enc_sym 270 =? S_CONT) with (S_CONT =? S_CONT). rewrite Z.eqb_refl. unfold apply_cont. cbn [x_e].
  rewrite (ref_enc _ _ _ Ri Ci). cbn [bind]. destruct (array_is_lisp _ _ _ LA) as (_&_&IL&_&p0&q0&d&x&_&_&LO). rewrite IL. cbn [negb].
  assert (NC : is_cons NIL = false) by (clear; arch; reflexivity).
  assert (LR : length (rev K ++ [enc_sym (if at_ then 2 else 0)]) = S (length K)) by (rewrite app_length, rev_length; cbn; lia).
  assert (SG : (Z.of_nat (length (rev K ++ [enc_sym (if at_ then 2 else 0)])) * WB >? WB * sz) = true) by (rewrite LR; pose proof WB_pos2; nia).
  unfold list_length. destruct AM as [(->&->)|(z&->&Rz&Cz)].
  - destruct f as [|f]; [lia|]. cbn [list_length_loop]. rewrite NC. cbn [bind Z.gtb Z.compare Z.eqb]. rewrite LO. cbn [bind]. rewrite SG. reflexivity.
  - destruct f as [|f]; [lia|]. cbn [list_length_loop]. rewrite IC by auto. unfold cdr. rewrite enc_is_ptr, (ref_enc _ _ _ Rz Cz) by auto. cbn [bind snd].
    replace (list_length_loop f h NIL (wrap W (0 + 1))) with (Ok 1) by (destruct f; cbn [list_length_loop]; rewrite NC; f_equal; clear; arch; reflexivity).
    cbn [bind Z.gtb Z.compare Pos.compare Pos.compare_cont Z.eqb]. unfold get_car. rewrite enc_is_ptr, (ref_enc _ _ _ Rz Cz) by auto. cbn [bind fst]. rewrite LO. cbn [bind]. rewrite SG. reflexivity.
Qed.
End Props.

(* ---- programs ---- *)
#[local] Existing Instance alone.
#[local] Existing Instance exact.
Definition callcc_ (x : val) : val := vlist [VSym 0x10B; x].
Definition let_ (a b x : val) : val := vlist [VSym 0x105; vlist [vlist [a; b]]; x].

(* (call-cc 5), in the first two cells of a heap of eight, on a stack of three words *)
Example callcc_captures_case : exists x, is_callcc (A := A32) (x_e x) (enc_i (A := A32) 5) 0 1 /\ heap_ok (A := A32) (e_heap (x_e x)) [2; 3; 4; 5; 6; 7] /\
  ~ In 0 [2; 3; 4] /\ ~ In 1 [2; 3; 4] /\ x_pool x = [4; 8] /\
  Z.of_nat (length (e_K (x_e x))) + 3 < e_size (x_e x) /\ WB (A := A32) * e_size (x_e x) < 2 ^ W (A := A32).
Proof.
  destruct (heap_init_ok (A := A32) 8 20) as (h&E&OK&_); [vm_compute; split; discriminate|].
  destruct (alloc_list_init_ok (A := A32) h (zseq 8) [enc_sym (A := A32) 0x10B; enc_i (A := A32) 5] OK) as (h1&v&E1&OK1&L&Ev&_); [discriminate|vm_compute; lia|].
  exists (mkX (mkE h1 [] [CONT (A := A32) 3; 7; 8] 40 v (NIL (A := A32)) (NIL (A := A32)) false) 0 false [4; 8] []). cbn [x_e e_heap e_K e_size e_app e_exp x_pool].
  vm_compute in E. injection E as <-. vm_compute in E1. injection E1 as <- <-.
  split; [|split; [exact OK1|]].
  - split; [reflexivity|]. exists (NIL (A := A32)).
    split; [reflexivity|]. split; [vm_compute; split; [discriminate|reflexivity]|]. split; [vm_compute; split; [discriminate|reflexivity]|]. split; vm_compute; reflexivity.
  - cbn [In]. repeat split; try lia.
Qed.

(* (call-cc (lambda (a) (if (a 1) 2 3))): after eight steps the continuation is
   applied, on a stack of seven words; the captured one has one. *)
Example callcc_restores_case : exists x args env0 K1,
  (let! x0 := xload (A := A32) 40 0 (callcc_ (lam [A_] (if_ (vlist [A_; n32 1]) (n32 2) (n32 3)))) in steps (A := A32) 8 x0) = Ok (Next x) /\
  e_app (x_e x) = true /\ e_K (x_e x) = CONT (A := A32) 10 :: args :: env0 :: K1 /\ length K1 = 4%nat /\
  is_continuation (A := A32) (e_heap (x_e x)) (e_r (x_e x)) [CONT (A := A32) 0] false /\ at_most_one (A := A32) (e_heap (x_e x)) args (enc_i (A := A32) 1).
Proof.
  do 4 eexists. split; [vm_compute; reflexivity|]. split; [reflexivity|]. split; [reflexivity|]. split; [reflexivity|]. split.
  - exists 13. eexists. split; [vm_compute; reflexivity|]. split; [vm_compute; split; [discriminate|reflexivity]|]. split; [vm_compute; reflexivity|].
    split; [vm_compute; reflexivity|]. split; [vm_compute; reflexivity|]. do 4 eexists. split; vm_compute; reflexivity.
  - right. exists 2. split; [vm_compute; reflexivity|]. split; [vm_compute; split; [discriminate|reflexivity]|]. vm_compute. reflexivity.
Qed.

(* (if (if (if (call-cc (lambda (a) (a 1))) 2 3) 2 3) 2 3): the captured stack has
   ten words.  The continuation and its argument are used by a context whose stack
   has room for ten. *)
Example callcc_small_stack_case : exists x args env0 K,
  (let! x0 := xload (A := A32) 40 0 (if_ (if_ (if_ (callcc_ (lam [A_] (vlist [A_; n32 1]))) (n32 2) (n32 3)) (n32 2) (n32 3)) (n32 2) (n32 3)) in steps (A := A32) 10 x0) = Ok (Next x) /\
  e_K (x_e x) = CONT (A := A32) 10 :: args :: env0 :: K /\ length K = 10%nat /\
  is_continuation (A := A32) (e_heap (x_e x)) (e_r (x_e x)) K false /\ at_most_one (A := A32) (e_heap (x_e x)) args (enc_i (A := A32) 1) /\
  let s := mkE (e_heap (x_e x)) (e_glob (x_e x)) [CONT (A := A32) 10; args; env0; CONT (A := A32) 0] 10 (e_exp (x_e x)) (e_env (x_e x)) (e_r (x_e x)) true in
  e_size s < Z.of_nat (length K) + 1.
Proof.
  do 4 eexists. split; [vm_compute; reflexivity|]. split; [reflexivity|]. split; [reflexivity|]. split.
  - exists 21. eexists. split; [vm_compute; reflexivity|]. split; [vm_compute; split; [discriminate|reflexivity]|]. split; [vm_compute; reflexivity|].
    split; [vm_compute; reflexivity|]. split; [vm_compute; reflexivity|]. do 4 eexists. split; vm_compute; reflexivity.
  - split; [|reflexivity]. right. exists 6. split; [vm_compute; reflexivity|]. split; [vm_compute; split; [discriminate|reflexivity]|]. vm_compute. reflexivity.
Qed.

(* (call-cc (lambda (a) (let ((b 1)) ((let ((b 2)) a) b)))) = 2: the argument is
   evaluated in the environment that the expression of the function left behind.
   If the function is a closure it is 1. *)
Theorem callcc_argument_refuted :
  xprog (A := A32) 40 0 (callcc_ (lam [A_] (let_ B_ (n32 1) (vlist [let_ B_ (n32 2) A_; B_])))) = Ok (SValue (enc_i (A := A32) 2) 0 false) /\
  xprog (A := A32) 40 0 (callcc_ (lam [A_] (let_ B_ (n32 1) (vlist [let_ B_ (n32 2) (lam [C_] C_); B_])))) = Ok (SValue (enc_i (A := A32) 1) 0 false).
Proof. vm_compute. auto. Qed.

(* A continuation does not hold the flags of the context.  After (progn (call-cc
   (lambda (a) (trap (a 1)))) z) the context is taken to be in a trap, whose handler
   is not there; in (progn (trap (call-cc (lambda (a) (define b a)))) (b z)) the trap
   is on the stack again, but does not catch the error. *)
Theorem callcc_flags_refuted :
  xprog (A := A32) 40 0 (progn [callcc_ (lam [A_] (trap_ (vlist [A_; n32 1]))); Zq]) = Ok (SOut (Lost (EERROR (A := A32)) false)) /\
  xprog (A := A32) 40 0 (progn [trap_ (callcc_ (lam [A_] (vlist [VSym 0x101; B_; A_]))); vlist [B_; Zq]]) = Ok (SOut (Ended (EERROR (A := A32)) false)).
Proof. vm_compute. auto. Qed.

Print Assumptions callcc_captures.
Print Assumptions callcc_restores.
Print Assumptions callcc_small_stack_refuted.
Print Assumptions callcc_argument_refuted.
Print Assumptions callcc_flags_refuted.
