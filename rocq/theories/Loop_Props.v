(* C95: what the loop macros expand to. *)
From Verif Require Import Base Value_Model Heap_Model Value_Proofs Heap_Spec Heap_Proofs Heap_Proofs2 Fund_Spec Fund_Proofs Loop_Model Loop_Spec Loop_Proofs.
Local Open Scope Z_scope.

Definition root_climbs (e : cexp) : bool := match e with Arg _ => true | MakeList es => forallb (climbs (length es)) es end.

Section Arch.
Context {A : Arch}.

Lemma kept_skip k fl h h1 h2 : kept fl h h1 -> kept (skipn k fl) h1 h2 -> kept fl h h2.
Proof.
  intros (K1&K2&K3) (J1&J2&J3). split; [|split; congruence]. intros i NI. rewrite J1; auto. intros I. apply NI. rewrite <- (firstn_skipn k fl). apply in_or_app. auto.
Qed.
Lemma skipn_add {T} a b (l : list T) : skipn a (skipn b l) = skipn (b + a) l.
Proof. revert l. induction b as [|b IH]; intros l; [reflexivity|]. destruct l; cbn; [apply skipn_nil|apply IH]. Qed.

Lemma run_enough h e h' e' : csteps h e h' e' -> forall fl f, heap_ok h fl -> (need e <= length fl)%nat -> part fl h e f ->
  kept fl h h' /\ exists k, need e = (k + need e')%nat /\ heap_ok h' (skipn k fl) /\ part (skipn k fl) h' e' f.
Proof.
  induction 1 as [h e|h e h1 e1 h2 e2 _ IH S]; intros fl f OK LE P.
  - split; [repeat split; auto|]. exists 0%nat. auto.
  - destruct (IH fl f OK LE P) as (K&k&E1&OK1&P1). destruct (step_enough _ _ _ _ S _ f OK1) as (j&E2&OK2&K2&_&P2); [rewrite skipn_length; lia|exact P1|].
    split; [eapply kept_skip; eauto|]. exists (k + j)%nat. rewrite <- skipn_add. split; [lia|]. auto.
Qed.

Lemma run_short h e h' e' : csteps h e h' e' -> forall fl, heap_ok h fl -> (length fl < need e)%nat -> root_climbs e = true ->
  kept fl h h' /\ exists k, heap_ok h' (skipn k fl) /\ (e' = Arg MERROR \/ root_climbs e' = true /\ (length (skipn k fl) < need e')%nat).
Proof.
  induction 1 as [h e|h e h1 e1 h2 e2 _ IH S]; intros fl OK LT CL.
  - split; [repeat split; auto|]. exists 0%nat. auto.
  - destruct (IH fl OK LT CL) as (K&k&OK1&[->|(CL1&LT1)]); [inversion S|].
    inversion S as [? vs ? v E|? l e0 r ? e0' S0]; subst.
    + rewrite need_args in LT1. destruct (one_call h1 (skipn k fl) vs OK1) as (h3&v3&E3&H). rewrite E in E3. injection E3 as <- <-.
      destruct (Nat.leb_spec (length vs) (length (skipn k fl))); [lia|]. destruct H as (->&->). split; [auto|]. exists k. auto.
    + cbn [root_climbs] in CL1. rewrite forallb_app in CL1. cbn [forallb] in CL1. apply andb_prop in CL1 as (FL&FA). apply andb_prop in FA as (FE&FR).
      destruct (step_any _ _ _ _ S0 _ _ OK1 FE) as (CE&j&OK2&K2&NE). split; [eapply kept_skip; eauto|]. exists (k + j)%nat. rewrite <- skipn_add. split; [auto|]. right. split.
      * cbn [root_climbs]. replace (length (l ++ e0' :: r)) with (length (l ++ e0 :: r)) by (rewrite !app_length; reflexivity). rewrite forallb_app. cbn [forallb]. rewrite FL, CE, FR. reflexivity.
      * pose proof (need_in l e0 r). pose proof (need_in l e0' r). pose proof (need_len l). pose proof (need_len r). rewrite app_length in NE. cbn [length] in NE.
        pose proof (NE (need (MakeList l) + need (MakeList r) - (length l + length r))%nat) as N. lia.
Qed.

Lemma expands h fl e f h' v : heap_ok h fl -> root_climbs e = true -> part fl h e f -> cells_of f = need e -> csteps h e h' (Arg v) -> made fl h f h' v.
Proof.
  intros OK CL P EQ R. unfold made. rewrite EQ. destruct (Nat.leb_spec (need e) (length fl)) as [LE|LT].
  - destruct (run_enough _ _ _ _ R fl f OK LE P) as (K&k&E&OK'&P'). cbn [need] in E. replace (need e) with k by lia. auto.
  - destruct (run_short _ _ _ _ R fl OK LT CL) as (K&k&OK'&[E|(_&X)]); [injection E as ->; eauto|cbn [need] in X; lia].
Qed.

(* (loopfor it start cond update body):
   (let ((loop (lambda (it res break) (if cond (loop update body break) res)))) (call-cc (lambda (brk) (loop start nil brk)))) *)
Theorem loopfor_expands h fl n it start cond update body h' v : heap_ok h fl ->
  returns h (me_loopfor n [it; start; cond; update; body]) h' v ->
  made fl h (loop_form (n_loop n) (n_brk n) [At it; sym (n_res n); sym (n_break n)]
    (At cond) (L [sym (n_loop n); At update; At body; sym (n_break n)]) (sym (n_res n))
    (L [sym (n_loop n); At start; At NIL; sym (n_brk n)])) h' v.
Proof. intros OK R. refine (expands _ _ _ _ _ _ OK _ _ _ R); [reflexivity| |reflexivity]. cbn. repeat split; constructor. Qed.

(* (loopwhile cond body):
   (let ((loop (lambda (res break) (if cond (loop body break) res)))) (call-cc (lambda (brk) (loop nil brk)))) *)
Theorem loopwhile_expands h fl n cond body h' v : heap_ok h fl ->
  returns h (me_loopwhile n [cond; body]) h' v ->
  made fl h (loop_form (n_loop n) (n_brk n) [sym (n_res n); sym (n_break n)]
    (At cond) (L [sym (n_loop n); At body; sym (n_break n)]) (sym (n_res n))
    (L [sym (n_loop n); At NIL; sym (n_brk n)])) h' v.
Proof. intros OK R. refine (expands _ _ _ _ _ _ OK _ _ _ R); [reflexivity| |reflexivity]. cbn. repeat split; constructor. Qed.

(* (looprange it start end body):
   (let ((loop (lambda (it res break) (if (< it end) (loop (+ it 1) body break) res)))) (call-cc (lambda (brk) (loop start nil brk)))) *)
Theorem looprange_expands h fl n it start end_ body h' v : heap_ok h fl ->
  returns h (me_looprange n [it; start; end_; body]) h' v ->
  made fl h (loop_form (n_loop n) (n_brk n) [At it; sym (n_res n); sym (n_break n)]
    (L [sym 0x20009; At it; At end_]) (L [sym (n_loop n); L [sym 0x20000; At it; At (enc_i 1)]; At body; sym (n_break n)]) (sym (n_res n))
    (L [sym (n_loop n); At start; At NIL; sym (n_brk n)])) h' v.
Proof. intros OK R. refine (expands _ _ _ _ _ _ OK _ _ _ R); [reflexivity| |reflexivity]. cbn. repeat split; constructor. Qed.

(* (loopforeach it lst body):
   (let ((loop (lambda (it rst res break) (if (eq it nil) res (loop (car rst) (cdr rst) body break)))))
     (call-cc (lambda (brk) (loop (car lst) (cdr lst) nil brk)))) *)
Theorem loopforeach_expands h fl n it lst body h' v : heap_ok h fl ->
  returns h (me_loopforeach n [it; lst; body]) h' v ->
  made fl h (loop_form (n_loop n) (n_brk n) [At it; sym (n_rst n); sym (n_res n); sym (n_break n)]
    (L [sym 0x20005; At it; At NIL]) (sym (n_res n))
    (L [sym (n_loop n); L [sym 0x20012; sym (n_rst n)]; L [sym 0x20013; sym (n_rst n)]; At body; sym (n_break n)])
    (L [sym (n_loop n); L [sym 0x20012; At lst]; L [sym 0x20013; At lst]; At NIL; sym (n_brk n)])) h' v.
Proof. intros OK R. refine (expands _ _ _ _ _ _ OK _ _ _ R); [reflexivity| |reflexivity]. cbn. repeat split; constructor. Qed.

(* any other number of arguments is an error *)
Theorem loop_macros_refuse h n args h' v :
  (length args <> 5%nat /\ returns h (me_loopfor n args) h' v) \/ (length args <> 2%nat /\ returns h (me_loopwhile n args) h' v) \/
  (length args <> 4%nat /\ returns h (me_looprange n args) h' v) \/ (length args <> 3%nat /\ returns h (me_loopforeach n args) h' v) ->
  h' = h /\ v = EERROR.
Proof.
  intros [(L&R)|[(L&R)|[(L&R)|(L&R)]]]; do 6 (try destruct args as [|? args]; cbn in L; try congruence); cbn in R; try exact R; destruct args; cbn in L; try congruence; exact R.
Qed.

(* ---- every run ends ---- *)
Lemma step_ok h e h' e' : cstep h e h' e' -> forall fl, heap_ok h fl -> (exists fl', heap_ok h' fl') /\ (ncalls e' < ncalls e)%nat.
Proof.
  induction 1 as [h vs h' v E|h l e r h' e' _ IH]; intros fl OK.
  - destruct (one_call h fl vs OK) as (h1&v1&E1&H). rewrite E in E1. injection E1 as <- <-. split; [|cbn; lia].
    destruct (_ <=? _)%nat; [destruct H; eauto|destruct H as (->&_); eauto].
  - destruct (IH fl OK) as (X&Y). split; [exact X|]. cbn. clear - Y. induction l as [|x l IH]; cbn in *; lia.
Qed.
Lemma can_step h fl : heap_ok h fl -> forall e, (exists v, e = Arg v) \/ exists h' e', cstep h e h' e'.
Proof.
  intros OK. apply cexp_all; [eauto|]. intros es AE. right.
  assert (X : (exists vs, es = map Arg vs) \/ exists l e r, es = l ++ e :: r /\ exists h' e', cstep h e h' e').
  { induction AE as [|e es [(v&->)|S] _ IH]; [left; exists []; reflexivity| |right; exists [], e, es; auto].
    destruct IH as [(vs&->)|(l&e&r&->&S)]; [left; exists (v :: vs); reflexivity|right; exists (Arg v :: l), e, r; auto]. }
  destruct X as [(vs&->)|(l&e&r&->&h'&e'&S)].
  - destruct (one_call h fl vs OK) as (h1&v1&E1&_). do 2 eexists. constructor. exact E1.
  - do 2 eexists. constructor. exact S.
Qed.

(* In whatever order the calls are made, each of them is one less to make, and when
   some have been made the rest can be: there is always a result. *)
Theorem loop_macros_end h fl e h' e' : heap_ok h fl -> csteps h e h' e' ->
  (forall h2 e2, cstep h' e' h2 e2 -> ncalls e2 < ncalls e')%nat /\ exists h2 v, csteps h' e' h2 (Arg v).
Proof.
  intros OK R. assert (X : exists fl', heap_ok h' fl').
  { induction R as [h e|h e h1 e1 h2 e2 _ IH S]; [eauto|]. destruct (IH OK) as (fl1&OK1). destruct (step_ok _ _ _ _ S _ OK1). auto. }
  destruct X as (fl1&OK1). split; [intros h2 e2 S; apply (step_ok _ _ _ _ S _ OK1)|]. clear R OK. clear h fl e.
  assert (IN : forall m h e fl, (ncalls e <= m)%nat -> heap_ok h fl -> csteps h' e' h e -> exists h2 v, csteps h' e' h2 (Arg v)).
  { induction m as [|m IH]; intros h e fl LE OK R; (destruct (can_step h fl OK e) as [(v&->)|(h2&e2&S)]; [eauto|]); destruct (step_ok _ _ _ _ S _ OK) as ((fl2&OK2)&LT); [lia|].
    eapply IH with (e := e2); [|exact OK2|econstructor; eauto]. lia. }
  eapply IN; [apply le_n|exact OK1|constructor].
Qed.
End Arch.
