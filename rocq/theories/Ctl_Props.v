(* C85: the stack.  C86: trap. *)
From Verif Require Import Base Value_Model Heap_Model Env_Model Match_Model QQ_Model GC_Model Eval_Model Sym_Model Flat_Model Fund_Model Prim_Model
  Eval_Spec Prim_Spec Value_Proofs Value_Proofs2 Value_Props Heap_Spec Heap_Proofs Heap_Proofs2 Env_Proofs Eval_GC Eval_Proofs2 Eval_Proofs3 Eval_Props
  Ctl_Model Ctl_Spec Ctl_Proofs Ctl_Proofs2.
Local Open Scope Z_scope.

Section Props.
Context {A : Arch} {HO : Host} {FA : Faults}.
Variable prim : Z -> heap -> list Z -> res (heap * Z).

(* ---- C85: the stack below ---- *)

(* An expression is evaluated on the stack [P].  After any number of steps, none
   of which raises an error or applies a continuation, either the evaluation has at
   some time come back to exactly the stack [P], or [P] lies unchanged at the
   bottom of the stack, and on it are whole frames.  The word on top of [P] must
   not be that of a progn. *)
Theorem stack_discipline f m x x' P :
  e_K (x_e x) = P -> e_app (x_e x) = false -> hd_error P <> Some PROGN_REST -> e_size (x_e x) <= 2 ^ 28 ->
  plain prim f m x = Ok (Next x') ->
  (exists j y, (j <= m)%nat /\ plain prim f j x = Ok (Next y) /\ returned P (x_e y)) \/
  going_on True (fun _ => True) P (x_e x').
Proof.
  intros EK EA NP SZ R.
  destruct (plain_on True (fun _ => True) ltac:(auto) ltac:(auto) P NP prim f m x x') as [(j&y&L&R1&H&_)|(G&_)]; eauto 6.
  exists []. split; [auto|split; [constructor|congruence]].
Qed.

(* ---- C86: trap ---- *)

(* the list of two values [a] and [b], in two cells *)
Definition two (h : heap) (v a b : Z) (i j : Z) : Prop :=
  v = enc_cons_ptr i /\ i <> j /\ 0 <= i < 2 ^ (W - 8) /\ 0 <= j < 2 ^ (W - 8) /\
  cell h i = Some (a, enc_cons_ptr j) /\ cell h j = Some (b, NIL).

(* the expression is (trap e) *)
Definition is_trap (s : est) (e : Z) : Prop :=
  e_app s = false /\ exists i j rest, e_exp s = enc_cons_ptr i /\ 0 <= i < 2 ^ (W - 8) /\ 0 <= j < 2 ^ (W - 8) /\
    cell (e_heap s) i = Some (enc_sym 0x116, enc_cons_ptr j) /\ cell (e_heap s) j = Some (e, rest).

(* 1. A trap puts a handler on the stack, sets the flag, and evaluates its
   expression; the result is prepared in two free cells. *)
Theorem trap_begins f x e i j fl : is_trap (x_e x) e -> heap_ok (e_heap (x_e x)) (i :: j :: fl) ->
  Z.of_nat (length (e_K (x_e x))) + 3 < e_size (x_e x) ->
  exists x1 h rv, xstep prim f x = Ok (Next x1) /\
    x_e x1 = mkE h (e_glob (x_e x)) (EXCEPTION_HANDLER :: x_flags x :: rv :: e_K (x_e x)) (e_size (x_e x)) e (e_env (x_e x)) (e_r (x_e x)) false /\
    x_flags x1 = Z.lor (x_flags x) FLAG_UNROLL /\ x_atomic x1 = x_atomic x /\
    two h rv (enc_sym 0x3000B) NIL i j /\ (forall k, k <> i -> k <> j -> cell h k = cell (e_heap (x_e x)) k) /\ heap_ok h fl.
Proof.
  intros (EA&a&b&rest&EX&Ra&Rb&Ca&Cb) OK RM. destruct x as [[h g K sz exp env r app] xf at_ po ab]. cbn [x_e e_app e_exp e_heap e_K e_size e_glob e_env e_r x_flags x_atomic] in *.
  subst app exp. unfold xstep. cbn [x_e].
  assert (IC : is_cons (enc_cons_ptr a) = true) by (rewrite rw_is_cons; auto using enc_rw, enc_word). rewrite IC, (ref_enc _ _ _ Ra Ca). cbn [bind].
  replace (is_symbol (enc_sym 278) && (Z.land (enc_sym 278) SF_MASK =? SF_BIT)) with true by (clear; arch; reflexivity).
  replace (Z.land (dec_sym (enc_sym 278)) 255 =? 22) with true by (clear; arch; reflexivity).
  unfold eval_trap. cbn [x_e]. unfold get_cadr. rewrite !enc_is_ptr by auto. rewrite (ref_enc _ _ _ Ra Ca). cbn [bind snd]. rewrite enc_is_ptr, (ref_enc _ _ _ Rb Cb) by auto. cbn [bind fst].
  destruct (alloc_list_init_ok h (i :: j :: fl) [NIL; NIL] OK) as (h1&v&E&OK1&L&Hv&Sm&Sz&_); [discriminate|cbn; lia|].
  unfold alloc_list. change (repeat NIL (Z.to_nat 2)) with [NIL; NIL]. rewrite E. cbn [bind]. cbn [headp] in Hv. subst v.
  pose proof (ok_nodup _ _ OK) as ND. pose proof (chain_range _ _ _ (ok_chain _ _ OK)) as CR. pose proof (ok_size _ _ OK) as SZ.
  inversion CR as [|? ? Ri CR']; subst. inversion CR' as [|? ? Rj _]; subst. inversion ND as [|? ? Ni ND']; subst. inversion ND' as [|? ? Nj _]; subst.
  assert (Wi : 0 <= i < 2 ^ (W - 8)) by lia. assert (Wj : 0 <= j < 2 ^ (W - 8)) by lia.
  cbn [length firstn map skipn] in L, Sm, OK1.
  assert (Ei : ref_cell h1 (enc_cons_ptr i) = Ok (NIL, enc_cons_ptr j) /\ ref_cell h1 (enc_cons_ptr j) = Ok (NIL, NIL)).
  { inversion L as [|? ? q ? ? _ _ E1 L1]; subst. inversion L1 as [|? ? q2 ? ? _ _ E2 L2]; subst. inversion L2; subst. assert (N0 : NIL = 0) by (clear; arch; reflexivity). split; [auto|rewrite E2, <- N0; reflexivity]. }
  destruct Ei as (Ei&Ej).
  assert (Ci : cell h1 i = Some (NIL, enc_cons_ptr j)) by (rewrite ref_cell_rw, enc_ix in Ei by auto using enc_not_const; destruct (cell h1 i); [congruence|discriminate]).
  assert (Cj : cell h1 j = Some (NIL, NIL)) by (rewrite ref_cell_rw, enc_ix in Ej by auto using enc_not_const; destruct (cell h1 j); [congruence|discriminate]).
  rewrite enc_not_MERROR by auto. cbn [bind]. rewrite enc_not_MERROR by auto. rewrite (set_car_enc _ _ _ _ _ Wi Ci). cbn [bind].
  unfold reserve. cbn [length]. destruct (Z.ltb_spec (Z.of_nat (length K) + Z.of_nat 3) sz); [|lia].
  eexists _, _, _. split; [reflexivity|]. cbn. split; [reflexivity|split; [reflexivity|split; [reflexivity|]]]. split; [|split].
  - unfold two. rewrite (cell_hput_eq _ _ _ _ Ci), cell_hput_neq by (try lia; intros ->; apply Ni; left; auto). repeat split; auto; try lia; intros ->; apply Ni; left; auto.
  - intros k N1 N2. rewrite cell_hput_neq by (try lia; auto). apply Sm. cbn. intros [?|[?|[]]]; auto.
  - apply heap_ok_put; auto; [|lia]. intros I. apply Ni. right. auto.
Qed.

(* 2. While the expression of a trap is evaluated, no step ends the context, except
   with fatal_error; in particular the handler is always found.  The context must
   not be one made by spawn-trap. *)
Theorem trap_survives f m x x' fl rv K0 :
  e_K (x_e x) = EXCEPTION_HANDLER :: fl :: rv :: K0 -> e_app (x_e x) = false -> catching (x_flags x) ->
  Z.of_nat (length K0) + 3 < e_size (x_e x) <= 2 ^ 28 ->
  plain prim f m x = Ok (Next x') ->
  (forall j y, (j <= m)%nat -> plain prim f j x = Ok (Next y) -> ~ returned (EXCEPTION_HANDLER :: fl :: rv :: K0) (x_e y)) ->
  match xstep prim f x' with
  | Ok (Ended e _) => e = FATAL_ERROR
  | Ok (Lost _ _) => False
  | _ => True
  end.
Proof.
  intros EK EA C (L1&L2) R NR.
  destruct (plain_on True catching catching_lor (catching_wrap prim) (EXCEPTION_HANDLER :: fl :: rv :: K0) (trap_not_progn fl rv K0) prim f m x x') as [(j&y&J&E&T&_)|(G&S&F&_)]; auto.
  - exists []. split; [auto|split; [constructor|congruence]].
  - exfalso. eapply NR; eauto.
  - apply (xstep_survives prim f x' fl rv K0 G F). lia.
Qed.

(* 3. An error on a stack in which the handler is found: the evaluation goes on
   with the stack under the handler, the old flags, and the list (exit-error err). *)
Theorem trap_error f x h Y fl rv K0 err a b i j :
  ~ In EXCEPTION_HANDLER Y -> err <> FATAL_ERROR -> catching (x_flags x) -> Z.of_nat (length K0) + 3 < e_size (x_e x) ->
  two h rv a b i j ->
  exists x1 x2, raise x h (Y ++ EXCEPTION_HANDLER :: fl :: rv :: K0) err = Ok (Caught x1) /\
    xstep prim f x1 = Ok (Next x2) /\
    e_K (x_e x2) = K0 /\ e_app (x_e x2) = true /\ e_r (x_e x2) = rv /\ x_flags x2 = wrap 32 fl /\ x_atomic x2 = x_atomic x /\
    e_glob (x_e x2) = e_glob (x_e x) /\ e_size (x_e x2) = e_size (x_e x) /\
    two (e_heap (x_e x2)) rv (enc_sym 0x3000C) err i j /\
    (forall k, k <> i -> k <> j -> cell (e_heap (x_e x2)) k = cell h k).
Proof.
  intros NE NF (C4&C0) L (Ev&Nij&Ri&Rj&Ci&Cj). subst rv. unfold raise. destruct x as [[h0 g K sz exp env r app] xf at_ po ab].
  cbn [x_e e_size e_glob x_flags x_atomic] in *. rewrite C4, C0. cbn [andb]. destruct (Z.eqb_spec err FATAL_ERROR); [congruence|]. cbn [negb].
  rewrite unwind_plain, unwind_here by auto. rewrite (set_car_enc _ _ _ _ _ Ri Ci). cbn [bind]. eexists _, _. split; [reflexivity|].
  unfold xstep, onto. cbn [x_e]. change (DEC_CONT EXCEPTION_HANDLER) with (DEC_CONT (CONT 45)). replace (DEC_CONT (CONT 45)) with 45 by (clear; arch; reflexivity). cbn [Z.eqb Pos.eqb]. unfold cont_exception_handler. cbn [x_e].
  unfold get_cdr. rewrite enc_is_ptr by auto. rewrite (ref_enc _ _ _ Ri (cell_hput_eq _ _ _ _ Ci)). cbn [bind snd].
  assert (Cj' : cell (hput h i (S_EXIT_ERROR, enc_cons_ptr j)) j = Some (b, NIL)) by (rewrite cell_hput_neq by (auto; lia); auto).
  rewrite (set_car_enc _ _ _ _ _ Rj Cj'). cbn [bind]. split; [reflexivity|]. cbn. do 7 (split; [reflexivity|]). split.
  - unfold two. rewrite (cell_hput_eq _ _ _ _ Cj'), cell_hput_neq, (cell_hput_eq _ _ _ _ Ci) by (auto; lia). repeat split; auto; lia.
  - intros k N1 N2. rewrite !cell_hput_neq by (auto; lia). auto.
Qed.

(* 4. Without an error: the value [v] of the expression is given back as (exit-ok v). *)
Theorem trap_returns f x fl rv K0 b i j :
  returned (EXCEPTION_HANDLER :: fl :: rv :: K0) (x_e x) -> two (e_heap (x_e x)) rv (enc_sym 0x3000B) b i j ->
  exists x2, xstep prim f x = Ok (Next x2) /\
    e_K (x_e x2) = K0 /\ e_app (x_e x2) = true /\ e_r (x_e x2) = rv /\ x_flags x2 = wrap 32 fl /\ x_atomic x2 = x_atomic x /\
    e_glob (x_e x2) = e_glob (x_e x) /\ e_size (x_e x2) = e_size (x_e x) /\
    two (e_heap (x_e x2)) rv (enc_sym 0x3000B) (e_r (x_e x)) i j /\
    (forall k, k <> j -> cell (e_heap (x_e x2)) k = cell (e_heap (x_e x)) k).
Proof.
  intros (EK&EA) (Ev&Nij&Ri&Rj&Ci&Cj). subst rv. destruct x as [[h0 g K sz exp env r app] xf at_ po ab].
  cbn [x_e e_size e_glob e_K e_app e_heap e_r x_flags x_atomic] in *. subst K app.
  unfold xstep. cbn [x_e]. change (DEC_CONT EXCEPTION_HANDLER) with (DEC_CONT (CONT 45)). replace (DEC_CONT (CONT 45)) with 45 by (clear; arch; reflexivity). cbn [Z.eqb Pos.eqb]. unfold cont_exception_handler. cbn [x_e].
  unfold get_cdr. rewrite enc_is_ptr by auto. rewrite (ref_enc _ _ _ Ri Ci). cbn [bind snd].
  rewrite (set_car_enc _ _ _ _ _ Rj Cj). cbn [bind]. eexists. split; [reflexivity|]. cbn. do 7 (split; [reflexivity|]). split.
  - unfold two. rewrite (cell_hput_eq _ _ _ _ Cj), cell_hput_neq by (auto; lia). repeat split; auto; lia.
  - intros k N1. rewrite !cell_hput_neq by (auto; lia). auto.
Qed.
End Props.

(* ---- programs ---- *)
#[local] Existing Instance alone.
(* why a step of the evaluator fails: eval_error; nothing else is on the stack *)
Definition exact {A : Arch} : Faults := mkFaults (fun _ => EERROR) (fun _ => []) e_heap (fun _ => true) (fun _ => false).
#[local] Existing Instance exact.

(* a program is run until it has come back to the bottom of the stack *)
Fixpoint xfinish {A : Arch} (m : nat) (x : xst) : res xout :=
  match m with
  | O => Fuel
  | S k =>
    if e_app (x_e x) && (length (e_K (x_e x)) =? 1)%nat then Ok (Next x)
    else let! o := xstep fundamental_table 64 x in match o with Next y | Jumped y | Caught y => xfinish k y | _ => Ok o end
  end.
Definition xload {A : Arch} (sz fl : Z) (x : val) : res xst :=
  let! h0 := heap_init 200 20 in
  let! (h1, p) := load h0 x in
  Ok (mkX (mkE h1 (groots (init_env h0)) [CONT 0] sz p NIL NIL false) fl false [4; 8; 12; 16; 20; 24] (repeat 0 (Z.to_nat sz))).
(* how it ends: with a value, with a list of two, or otherwise; with the flags and is_atomic *)
Inductive seen := SValue (v fl : Z) (at_ : bool) | SPair (a b fl : Z) (at_ : bool) | SOut (o : xout).
Definition show {A : Arch} (o : res xout) : res seen :=
  let! o := o in
  match o with
  | Next x =>
    if is_cons (e_r (x_e x)) then
      let! (a, d) := ref_cell (e_heap (x_e x)) (e_r (x_e x)) in
      let! (b, _) := ref_cell (e_heap (x_e x)) d in
      Ok (SPair a b (x_flags x) (x_atomic x))
    else Ok (SValue (e_r (x_e x)) (x_flags x) (x_atomic x))
  | _ => Ok (SOut o)
  end.
Definition xprog {A : Arch} (sz fl : Z) (x : val) : res seen := show (let! s := xload sz fl x in xfinish 400 s).
Definition steps {A : Arch} (m : nat) (x : xst) : res xout := plain fundamental_table 64 m x.
(* a symbol that is not bound *)
Definition Zq : val := VSym 0x40009.
Definition trap_ (x : val) : val := vlist [VSym 0x116; x].
Definition atomic_ (x : val) : val := vlist [VSym 0x10C; x].
Definition if_ (a b c : val) : val := vlist [VSym 0x104; a; b; c].
Definition lam (ps : list val) (x : val) : val := vlist [VSym 0x103; vlist ps; x].
Definition progn (l : list val) : val := VC (VSym 0x102) (vlist l).
Definition var_ (a b : val) : val := vlist [VSym 0x112; a; b].
Definition n32 (n : Z) : val := VInt (A := A32) n.

(* (if (if 1 2 3) 4 5): after two steps there are two frames *)
Example discipline_case :
  match xload (A := A32) 40 0 (if_ (if_ (n32 1) (n32 2) (n32 3)) (n32 4) (n32 5)) with
  | Ok x => e_K (x_e x) = [CONT (A := A32) 0] /\ e_app (x_e x) = false /\ hd_error (e_K (x_e x)) <> Some (PROGN_REST (A := A32)) /\ e_size (x_e x) <= 2 ^ 28 /\
    match steps (A := A32) 2 x with Ok (Next x') => length (e_K (x_e x')) = 7%nat | _ => False end
  | _ => False
  end.
Proof. vm_compute. repeat split; discriminate. Qed.

(* (progn ((lambda () (var a 5))) a) = 5, (progn (progn 1 (var a 5)) a) = 5: a progn
   whose last expression is a var writes into the frame under its own, if that is of
   a progn.  With an argument the frame of the call is between them. *)
Theorem var_leaks_refuted :
  run_program (A := A32) 200 40 400 (progn [vlist [lam [] (var_ A_ (n32 5))]; A_]) = Ok (Val ([CONT (A := A32) 0], enc_i (A := A32) 5)) /\
  run_program (A := A32) 200 40 400 (progn [progn [n32 1; var_ A_ (n32 5)]; A_]) = Ok (Val ([CONT (A := A32) 0], enc_i (A := A32) 5)) /\
  run_program (A := A32) 200 40 400 (progn [vlist [lam [B_] (var_ A_ B_); n32 7]; A_]) = Ok Err.
Proof. vm_compute. auto. Qed.

(* (trap 5), in the first two cells of a heap of eight *)
Example trap_begins_case : exists h x, alloc_list_init (A := A32) h [enc_sym (A := A32) 0x116; enc_i (A := A32) 5] = Ok (e_heap (x_e x), e_exp (x_e x)) /\
  is_trap (A := A32) (x_e x) (enc_i (A := A32) 5) /\ heap_ok (A := A32) (e_heap (x_e x)) (2 :: 3 :: [4; 5; 6; 7]) /\
  Z.of_nat (length (e_K (x_e x))) + 3 < e_size (x_e x).
Proof.
  destruct (heap_init_ok (A := A32) 8 20) as (h&E&OK&_); [vm_compute; split; discriminate|].
  destruct (alloc_list_init_ok (A := A32) h (zseq 8) [enc_sym (A := A32) 0x116; enc_i (A := A32) 5] OK) as (h1&v&E1&OK1&L&Ev&_); [discriminate|vm_compute; lia|].
  exists h, (mkX (mkE h1 [] [CONT (A := A32) 0] 40 v (NIL (A := A32)) (NIL (A := A32)) false) 0 false [] []). split; [exact E1|]. cbn [x_e e_heap e_K e_size e_app e_exp].
  cbn [length firstn map zseq] in L. vm_compute in E. injection E as <-. vm_compute in E1. injection E1 as <- <-.
  split; [|split; [exact OK1|vm_compute; reflexivity]]. split; [reflexivity|]. exists 0, 1, (NIL (A := A32)).
  split; [reflexivity|]. split; [vm_compute; split; [discriminate|reflexivity]|]. split; [vm_compute; split; [discriminate|reflexivity]|]. split; vm_compute; reflexivity.
Qed.

(* (trap (if 1 z 2)): the state after the first step, and the next two steps; then
   z is looked up *)
Example trap_survives_case : exists x x' fl rv K0,
  (let! x0 := xload (A := A32) 40 0 (trap_ (if_ (n32 1) Zq (n32 2))) in steps (A := A32) 1 x0) = Ok (Next x) /\
  e_K (x_e x) = EXCEPTION_HANDLER (A := A32) :: fl :: rv :: K0 /\ e_app (x_e x) = false /\ catching (x_flags x) /\
  Z.of_nat (length K0) + 3 < e_size (x_e x) <= 2 ^ 28 /\ steps (A := A32) 3 x = Ok (Next x') /\
  (forall j y, (j <= 3)%nat -> steps (A := A32) j x = Ok (Next y) -> ~ returned (EXCEPTION_HANDLER (A := A32) :: fl :: rv :: K0) (x_e y)) /\
  exists y, xstep (A := A32) (FA := exact (A := A32)) (fundamental_table (A := A32)) 64 x' = Ok (Caught y).
Proof.
  do 5 eexists. split; [vm_compute; reflexivity|]. split; [reflexivity|]. split; [reflexivity|]. split; [split; reflexivity|].
  split; [split; [reflexivity|discriminate]|]. split; [vm_compute; reflexivity|]. split.
  - intros j y J. destruct j as [|[|[|[|j]]]]; [..|lia]; vm_compute; intros [= <-] (X&Y); discriminate.
  - eexists. vm_compute. reflexivity.
Qed.

(* an error with two words on top of the handler *)
Example trap_error_case : exists x rv i j,
  (let! x0 := xload (A := A32) 40 0 (trap_ (if_ (n32 1) Zq (n32 2))) in steps (A := A32) 1 x0) = Ok (Next x) /\
  ~ In (EXCEPTION_HANDLER (A := A32)) [7; 8] /\ EERROR (A := A32) <> FATAL_ERROR (A := A32) /\ catching (x_flags x) /\ Z.of_nat (length [CONT (A := A32) 0]) + 3 < e_size (x_e x) /\
  e_K (x_e x) = [EXCEPTION_HANDLER (A := A32); 0; rv; CONT (A := A32) 0] /\
  two (A := A32) (e_heap (x_e x)) rv (enc_sym (A := A32) 0x3000B) (NIL (A := A32)) i j.
Proof.
  do 2 eexists. exists 6, 7. split; [vm_compute; reflexivity|]. split; [vm_compute; intros [?|[?|[]]]; discriminate|]. split; [discriminate|]. split; [split; reflexivity|].
  split; [reflexivity|]. split; [reflexivity|].
  unfold two. do 6 (try (split; [vm_compute; first [reflexivity|discriminate|split; [discriminate|reflexivity]]|])). vm_compute. reflexivity.
Qed.

(* (trap 5) after two steps: it has returned *)
Example trap_returns_case : exists x rv i j,
  (let! x0 := xload (A := A32) 40 0 (trap_ (n32 5)) in steps (A := A32) 2 x0) = Ok (Next x) /\
  returned [EXCEPTION_HANDLER (A := A32); 0; rv; CONT (A := A32) 0] (x_e x) /\
  two (A := A32) (e_heap (x_e x)) rv (enc_sym (A := A32) 0x3000B) (NIL (A := A32)) i j.
Proof.
  do 2 eexists. exists 2, 3. split; [vm_compute; reflexivity|]. split; [split; reflexivity|].
  unfold two. do 6 (try (split; [vm_compute; first [reflexivity|discriminate|split; [discriminate|reflexivity]]|])). vm_compute. reflexivity.
Qed.

(* (trap z) = (exit-error eval_error), (trap 5) = (exit-ok 5) *)
Example trap_programs :
  xprog (A := A32) 40 0 (trap_ Zq) = Ok (SPair (enc_sym (A := A32) 0x3000C) (EERROR (A := A32)) 0 false) /\
  xprog (A := A32) 40 0 (trap_ (n32 5)) = Ok (SPair (enc_sym (A := A32) 0x3000B) (enc_i (A := A32) 5) 0 false).
Proof. vm_compute. auto. Qed.

(* In a context made by spawn-trap (flag 1) an error in (trap z) ends the context. *)
Theorem trap_spawn_trap_refuted : xprog (A := A32) 40 1 (trap_ Zq) = Ok (SOut (Ended (EERROR (A := A32)) false)).
Proof. vm_compute. reflexivity. Qed.

(* (trap (atomic z)) catches the error, but the context stays atomic; and (atomic
   z) ends the context and leaves is_atomic set *)
Theorem trap_atomic_refuted :
  xprog (A := A32) 40 0 (trap_ (atomic_ Zq)) = Ok (SPair (enc_sym (A := A32) 0x3000C) (EERROR (A := A32)) 0 true) /\
  xprog (A := A32) 40 0 (atomic_ Zq) = Ok (SOut (Ended (EERROR (A := A32)) true)).
Proof. vm_compute. auto. Qed.

(* (progn (trap ((lambda (a) a))) 1) = 1.  After (if (if (trap z) 1 2) 1 2), which
   leaves the word of a handler above the stack, the same trap finds that word in
   the four words that the call of the closure has reserved and not written, and
   the error ends the context. *)
Theorem trap_stale_handler_refuted :
  xprog (A := A32) 40 0 (progn [trap_ (vlist [lam [A_] A_]); n32 1]) = Ok (SValue (enc_i (A := A32) 1) 0 false) /\
  exists e, xprog (A := A32) 40 0 (progn [if_ (if_ (trap_ Zq) (n32 1) (n32 2)) (n32 1) (n32 2); trap_ (vlist [lam [A_] A_]); n32 1]) = Ok (SOut (Ended e false)).
Proof. split; [vm_compute; reflexivity|]. eexists. vm_compute. reflexivity. Qed.

Print Assumptions stack_discipline.
Print Assumptions var_leaks_refuted.
Print Assumptions trap_begins.
Print Assumptions trap_survives.
Print Assumptions trap_error.
Print Assumptions trap_returns.
Print Assumptions trap_spawn_trap_refuted.
Print Assumptions trap_atomic_refuted.
Print Assumptions trap_stale_handler_refuted.
