(* Helper for the concrete cases: replaying an execution by computation. *)
From Verif Require Import Base Sched_Model Sched_Spec.
Local Open Scope Z_scope.

Definition isome {A} (o : option A) : bool := match o with Some _ => true | None => false end.
Definition wordb (w x : Z) : bool := (0 <=? x) && (x <? 2 ^ w).
Definition freeb (s : sched) (x : nat) : bool :=
  (x <? length (s_st s))%nat && negb (isome (at_ (s_st s) x)).

Definition svalidb (w : Z) (s : sched) (o : op) : bool :=
  match o with
  | OSpawn x _ => isome (s_running s) && freeb s x
  | OCreate x => freeb s x
  | OYield now us _ => isome (s_running s) && wordb w now && wordb w us
  | OBlock state now us _ =>
      isome (s_running s) && wordb w now && wordb w us &&
      existsb (Z.eqb state) [ST_BLOCKED; ST_TIMEOUT; ST_RECV_BL; ST_RECV_TO]
  | OExit _ | OSend _ _ | OKill _ _ | OEnter _ | OLeave => isome (s_running s)
  | OTake ix => isome (s_running s) && (0 <=? ix) && (ix <? my_mail s)
  | OResize fresh =>
      isome (s_running s) && (my_mail s <=? Z.of_nat (length fresh)) &&
      (1 <=? Z.of_nat (length fresh)) && (Z.of_nat (length fresh) <? 2 ^ 32)
  | OUnblock _ _ _ | OEvent _ _ => true
  | ODispatch now => wordb w now
  end.

Lemma isome_ok {A} (o : option A) : isome o = true -> o <> None.
Proof. destruct o; discriminate. Qed.
Lemma wordb_ok w x : wordb w x = true -> is_word w x.
Proof. unfold wordb, is_word. lia. Qed.
Lemma freeb_ok s x : freeb s x = true -> free_slot s x.
Proof.
  unfold freeb, free_slot. destruct (at_ (s_st s) x); simpl; [rewrite andb_false_r; discriminate|].
  intros H. split; auto. lia.
Qed.

Lemma svalidb_ok w s o : svalidb w s o = true -> svalid w s o.
Proof.
  destruct o; cbn [svalidb svalid]; rewrite ?andb_true_iff; intros H;
    repeat match goal with H : _ /\ _ |- _ => destruct H end;
    auto using isome_ok, wordb_ok, freeb_ok; try solve [eapply isome_ok; eassumption].
  - repeat (split; [eauto using isome_ok, wordb_ok|]).
    match goal with H : existsb _ _ = true |- _ => apply existsb_exists in H; destruct H as (y&I&E) end.
    apply Z.eqb_eq in E. congruence.
  - split; [eauto using isome_ok|lia].
  - split; [eauto using isome_ok|lia].
Qed.

Fixpoint replay (w : Z) (s : sched) (ops : list op) : option (nat * sched) :=
  match ops with
  | [] => Some (0%nat, s)
  | o :: t =>
    if svalidb w s o then
      match sstep w s o with
      | Ok s1 => match replay w s1 t with Some (d, s2) => Some ((reschedules s o + d)%nat, s2) | None => None end
      | _ => None
      end
    else None
  end.

Lemma replay_run w ops : forall s d s', replay w s ops = Some (d, s') -> SRun w s ops d s'.
Proof.
  induction ops as [|o t IH]; intros s d s' H; simpl in H.
  - injection H as <- <-. constructor.
  - destruct (svalidb w s o) eqn:V; [|discriminate]. destruct (sstep w s o) as [s1| |] eqn:E; try discriminate.
    destruct (replay w s1 t) as [[d1 s2]|] eqn:E2; [|discriminate]. injection H as <- <-.
    econstructor; eauto using svalidb_ok.
Qed.

Lemma srun_reach w n s ops d s' : SRun w s ops d s' -> SReach w n s -> SReach w n s'.
Proof. induction 1; intros; auto. apply IHSRun. econstructor; eauto. Qed.

Lemma replay_reach w n ops d s : replay w (sinit n) ops = Some (d, s) -> SReach w n s.
Proof. intros H. eapply srun_reach; [eapply replay_run; eauto|constructor]. Qed.
