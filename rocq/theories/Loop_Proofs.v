(* The calls of make_list in any order. *)
From Verif Require Import Base Value_Model Heap_Model Value_Proofs Heap_Spec Heap_Proofs Heap_Proofs2 Env_Proofs Fund_Spec Fund_Proofs Map_Proofs Map_Props Loop_Model Loop_Spec.
Local Open Scope Z_scope.

Section CInd.
Context (P : cexp -> Prop) (HA : forall v, P (Arg v)) (HL : forall es, Forall P es -> P (MakeList es)).
Fixpoint cexp_all (e : cexp) : P e :=
  match e with
  | Arg v => HA v
  | MakeList es => HL es ((fix go l : Forall P l := match l with [] => Forall_nil P | x :: t => Forall_cons x (cexp_all x) (go t) end) es)
  end.
End CInd.

(* the cells the calls ask for *)
Fixpoint need (e : cexp) : nat := match e with Arg _ => 0 | MakeList es => fold_right (fun e n => 1 + need e + n)%nat 0%nat es end.
(* a call asks for at most [up] cells more than the calls around it *)
Fixpoint climbs (up : nat) (e : cexp) : bool :=
  match e with Arg _ => true | MakeList es => (length es <=? up)%nat && forallb (climbs (up + length es)) es end.

Section Arch.
Context {A : Arch}.

Fixpoint part (fl : list Z) (h : heap) (e : cexp) : form -> Prop :=
  match e with
  | Arg v => reads fl h v
  | MakeList es => fold_right (fun e k s => match s with Cn a d => part fl h e a /\ k d | _ => False end) (fun s => s = Nl) es
  end.
Definition parts fl h es : form -> Prop := fold_right (fun e k s => match s with Cn a d => part fl h e a /\ k d | _ => False end) (fun s => s = Nl) es.
Definition frame fl h fl' h' := forall v s, reads fl h v s -> reads fl' h' v s.

Lemma reads_frame fl h k h' : same_but (firstn k fl) h h' -> frame fl h (skipn k fl) h'.
Proof.
  intros SB v s R. induction R as [v| |i a d x y NI C RG _ IH1 _ IH2]; [constructor|constructor|]. econstructor; eauto.
  - intros I. apply NI. rewrite <- (firstn_skipn k fl). apply in_or_app. auto.
  - rewrite SB; auto. intros I. apply NI. rewrite <- (firstn_skipn k fl). apply in_or_app. auto.
Qed.
Lemma part_frame fl h fl' h' : frame fl h fl' h' -> forall e s, part fl h e s -> part fl' h' e s.
Proof.
  intros F. apply (cexp_all (fun e => forall s, part fl h e s -> part fl' h' e s)).
  - intros v s. apply F.
  - intros es AE. cbn. induction AE as [|e es PE _ IH]; cbn; [auto|]. intros [| |a d]; try tauto. intros (H1&H2). auto.
Qed.

Lemma parts_args fl h vs : forall s, parts fl h (map Arg vs) s -> exists fs, s = L fs /\ Forall2 (reads fl h) vs fs.
Proof.
  induction vs as [|v vs IH]; intros s; cbn.
  - intros ->. exists []. split; [reflexivity|constructor].
  - destruct s as [| |a d]; try tauto. intros (H1&H2). destruct (IH _ H2) as (fs&->&F). exists (a :: fs). split; [reflexivity|]. constructor; auto.
Qed.
Lemma list_reads fl h : forall is v vs fs, list_on h v vs (map enc_cons_ptr is) -> Forall (fun i => 0 <= i < 2 ^ (W - 8)) is -> (forall i, In i is -> ~ In i fl) ->
  Forall2 (reads fl h) vs fs -> reads fl h v (L fs).
Proof.
  induction is as [|i is IH]; intros v vs fs LO RG NI F; cbn [map] in LO; inversion LO as [|p x q xs ps Wp K R LO' E1 E2]; subst; inversion F as [|? f ? fs' Ff F']; subst.
  - constructor.
  - inversion RG as [|? ? RI RG']; subst. cbn [L fold_right]. fold (L fs').
    destruct (cell h i) as [[a d]|] eqn:C.
    + rewrite (ref_enc _ _ _ RI C) in R. injection R as -> ->. econstructor; eauto. { apply NI. left. auto. } eapply IH; eauto. intros j J. apply NI. right. auto.
    + exfalso. rewrite ref_cell_rw, enc_ix, C in R by auto using enc_not_const. discriminate.
Qed.

Lemma frame_all fl h fl' h' : frame fl h fl' h' -> forall vs fs, Forall2 (reads fl h) vs fs -> Forall2 (reads fl' h') vs fs.
Proof. intros FR vs fs F. induction F; constructor; auto. Qed.

(* one call *)
Lemma one_call h fl vs : heap_ok h fl -> exists h' v, alloc_list_init h vs = Ok (h', v) /\
  if (length vs <=? length fl)%nat
  then heap_ok h' (skipn (length vs) fl) /\ kept fl h h' /\ frame fl h (skipn (length vs) fl) h' /\
       (forall fs, Forall2 (reads fl h) vs fs -> reads (skipn (length vs) fl) h' v (L fs))
  else h' = h /\ v = MERROR.
Proof.
  intros OK. destruct (Nat.leb_spec (length vs) (length fl)) as [LE|GT].
  - destruct vs as [|x vs].
    + exists h, 0. split; [destruct A; reflexivity|]. split; [exact OK|]. split; [repeat split; auto|]. split; [intros v s R; exact R|]. intros fs F. inversion F. constructor.
    + destruct (alloc_list_init_ok h fl (x :: vs) OK) as (h'&v&E&OK'&LO&_&SB&_&CC&MM&_); [discriminate|exact LE|].
      set (k := length (x :: vs)) in *. exists h', v. split; [exact E|]. split; [exact OK'|]. pose proof (reads_frame fl h k h' SB) as FR.
      split; [split; [|auto]|split; [exact FR|]].
      * intros i NI. apply SB. intros I. apply NI. rewrite <- (firstn_skipn k fl). apply in_or_app. auto.
      * intros fs F. refine (list_reads _ _ _ _ _ _ LO _ _ _).
        { apply Forall_forall. intros i I. apply (free_in_range h fl); auto. rewrite <- (firstn_skipn k fl). apply in_or_app. auto. }
        { intros i I J. pose proof (ok_nodup _ _ OK) as ND. rewrite <- (firstn_skipn k fl) in ND. clear - I J ND. revert I J ND. generalize (firstn k fl) (skipn k fl).
          induction l as [|a l IH]; cbn; [tauto|]. intros l0 [-> |I] J ND; inversion ND as [|? ? NI ND']; subst; [apply NI, in_or_app; auto|]. eapply IH; eauto. }
        { exact (frame_all _ _ _ _ FR _ _ F). }
  - exists h, MERROR. split; [apply (alloc_list_init_fail h fl); auto|auto].
Qed.

Lemma need_args vs : need (MakeList (map Arg vs)) = length vs.
Proof. cbn. induction vs as [|v vs IH]; cbn; [auto|]. lia. Qed.
Lemma need_in l e r : (need (MakeList (l ++ e :: r)) = need e + (need (MakeList l) + need (MakeList r) + 1))%nat.
Proof. cbn. induction l as [|x l IH]; cbn; lia. Qed.
Lemma need_len es : (length es <= need (MakeList es))%nat.
Proof. cbn. induction es as [|x l IH]; cbn; lia. Qed.

(* with enough cells *)
Lemma step_enough h e h' e' : cstep h e h' e' -> forall fl s, heap_ok h fl -> (need e <= length fl)%nat -> part fl h e s ->
  exists k, need e = (k + need e')%nat /\ heap_ok h' (skipn k fl) /\ kept fl h h' /\ frame fl h (skipn k fl) h' /\ part (skipn k fl) h' e' s.
Proof.
  induction 1 as [h vs h' v E|h l e r h' e' C IH]; intros fl s OK LE P.
  - rewrite need_args in LE. destruct (one_call h fl vs OK) as (h1&v1&E1&H). rewrite E in E1. injection E1 as <- <-.
    destruct (Nat.leb_spec (length vs) (length fl)); [|lia]. destruct H as (OK'&KE&FR&RD). exists (length vs). rewrite need_args. cbn [need]. split; [lia|].
    split; [auto|]. split; [auto|]. split; [auto|]. destruct (parts_args fl h vs s P) as (fs&->&F). cbn. auto.
  - pose proof (need_in l e r) as N1. pose proof (need_in l e' r) as N2.
    assert (X : exists b, part fl h e b). { clear - P. cbn in P. revert s P. induction l as [|x l IH]; intros [| |a d]; cbn; try tauto; intros (H1&H2); eauto. }
    destruct X as (b&PB). destruct (IH fl b OK) as (k&K1&K2&K3&K4&_); [lia|exact PB|]. exists k. split; [lia|].
    split; [auto|]. split; [auto|]. split; [auto|].
    assert (PF := part_frame _ _ _ _ K4).
    assert (IH' : forall b, part fl h e b -> part (skipn k fl) h' e' b).
    { intros c PC. destruct (IH fl c OK) as (k2&J1&_&_&_&J2); [lia|exact PC|]. assert (k2 = k) by lia. subst. exact J2. }
    clear - P PF IH'. cbn in *. revert s P. induction l as [|x l IH]; intros [| |a d]; cbn; try tauto; intros (H1&H2); (split; [auto|]); auto.
    clear - H2 PF. revert d H2. induction r as [|y r IH]; cbn; [auto|]. intros [| |u v]; try tauto. intros (H3&H4). auto.
Qed.

(* in any case *)
Lemma step_any h e h' e' : cstep h e h' e' -> forall fl up, heap_ok h fl -> climbs up e = true ->
  climbs up e' = true /\ exists k, heap_ok h' (skipn k fl) /\ kept fl h h' /\
    forall m, (length fl < need e + (up + m) -> length (skipn k fl) < need e' + (up + m))%nat.
Proof.
  induction 1 as [h vs h' v E|h l e r h' e' C IH]; intros fl up OK CL.
  - split; [reflexivity|]. cbn [climbs] in CL. apply andb_prop in CL as (CL&_). apply Nat.leb_le in CL. rewrite map_length in CL.
    destruct (one_call h fl vs OK) as (h1&v1&E1&H). rewrite E in E1. injection E1 as <- <-. rewrite need_args. cbn [need].
    destruct (Nat.leb_spec (length vs) (length fl)) as [LE|GT].
    + destruct H as (OK'&KE&_). exists (length vs). split; [auto|]. split; [auto|]. intros m. rewrite skipn_length. lia.
    + destruct H as (->&->). exists 0%nat. cbn [skipn]. split; [auto|]. split; [repeat split; auto|]. intros m. lia.
  - cbn [climbs] in CL. apply andb_prop in CL as (CL&FA). rewrite forallb_app in FA. cbn [forallb] in FA. apply andb_prop in FA as (FL&FA). apply andb_prop in FA as (FE&FR).
    destruct (IH fl _ OK FE) as (CE&k&OK'&KE&NE). split.
    + cbn [climbs]. replace (length (l ++ e' :: r)) with (length (l ++ e :: r)) by (rewrite !app_length; reflexivity). rewrite CL, forallb_app. cbn [forallb andb]. rewrite FL, CE, FR. reflexivity.
    + exists k. split; [auto|]. split; [auto|]. intros m. pose proof (need_in l e r) as N1. pose proof (need_in l e' r) as N2.
      pose proof (need_len l). pose proof (need_len r). rewrite app_length in NE. cbn [length] in NE.
      pose proof (NE (m + (need (MakeList l) + need (MakeList r)) - (length l + length r))%nat) as N. lia.
Qed.
End Arch.
