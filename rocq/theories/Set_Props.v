(* C42: sets represented as lists; association lists. *)
From Verif Require Import Base Value_Model Heap_Model Value_Proofs Value_Proofs2 Heap_Spec Heap_Proofs List_Proofs
  Heap_Proofs2 Env_Proofs Eq_Model Eq_Spec Eq_Props.
From Coq Require Import ZifyBool.
Local Open Scope Z_scope.

Section Spec.
Context {A : Arch}.

(* the list of trees has a member that is the datum [t] *)
Definition has (t : tree) (ts : list tree) : Prop := Exists (fun u => same u t) ts.
(* no datum twice *)
Definition distinct (ts : list tree) : Prop := ForallOrdPairs (fun u t => ~ same u t) ts.

(* [v] is a proper list whose elements denote [ts], no cell of it being in [fl] *)
Definition den_list (fl : list Z) (h : heap) (v : Z) (ts : list tree) : Prop :=
  exists xs ps, list_on h v xs ps /\ used fl ps /\ Forall2 (den fl h) xs ts.

(* only cells in [l] changed *)
Definition only (l : list Z) (h h' : heap) : Prop :=
  same_but l h h' /\ ccells h' = ccells h /\ mem h' = mem h.

End Spec.

Section Proofs.
Context {A : Arch}.

Lemma only_refl l h : only l h h. Proof. repeat split; auto. Qed.
Lemma only_trans l h1 h2 h3 : only l h1 h2 -> only l h2 h3 -> only l h1 h3.
Proof. intros (A1&B1&C1) (A2&B2&C2). split; [eapply same_but_trans; eauto|split; congruence]. Qed.
Lemma only_incl l l' h h' : incl l l' -> only l h h' -> only l' h h'.
Proof. intros I (A1&B1&C1). split; auto. eapply same_but_incl; eauto. Qed.

Lemma ref_frame l h h' v : only l h h' -> (is_const_ptr v = false -> ~ In (f_ix v) l) -> ref_cell h' v = ref_cell h v.
Proof.
  intros (S&C&M) N. destruct (is_const_ptr v) eqn:E.
  - unfold ref_cell. rewrite E, C. auto.
  - rewrite !ref_cell_rw by auto. rewrite S; auto.
Qed.

Lemma car_frame l h h' v : only l h h' -> held l v -> car h' v = car h v.
Proof. intros O H. unfold car. destruct (is_ptr v) eqn:P; auto. rewrite (ref_frame l h h'); auto. Qed.

Lemma payload_frame l h h' v : only l h h' -> held l v -> payload32 h' v = payload32 h v /\ payload64 h' v = payload64 h v.
Proof.
  intros O H. unfold payload32, payload64. rewrite (car_frame l h h') by auto. destruct O as (_&_&->). auto.
Qed.

Lemma reads_frame l h h' v k n : only l h h' -> held l v -> reads h v k n -> reads h' v k n.
Proof. intros O H. destruct (payload_frame l h h' v O H) as (E1&E2). destruct k; simpl; rewrite ?E1, ?E2; auto. Qed.

Lemma held_incl l l' v : incl l' l -> held l v -> held l' v.
Proof. intros I H P C J. apply (H P C). auto. Qed.

Lemma den_frame l h h' l' v t : only l h h' -> incl l' l -> den l h v t -> den l' h' v t.
Proof.
  intros O I. revert v. induction t as [k n|a d IHa IHd|bs|ts IH] using tree_rec_depth; intros v D; inversion D; subst.
  - constructor; eauto using held_incl, reads_frame.
  - eapply den_pair; eauto using held_incl. erewrite ref_frame; eauto.
  - eapply den_bytes; eauto using held_incl. { erewrite ref_frame; eauto. } destruct O as (_&_&->). eauto.
  - eapply den_arr; eauto using held_incl. { erewrite ref_frame; eauto. } { destruct O as (_&_&->). eauto. }
    match goal with H : Forall2 _ _ _ |- _ => revert H end. clear D. revert IH. generalize elts ts.
    induction elts0 as [|e es IHe]; intros us IH F; inversion F; subst; constructor; inversion IH; subst; auto.
Qed.

Lemma dens_frame l h h' l' vs ts : only l h h' -> incl l' l -> Forall2 (den l h) vs ts -> Forall2 (den l' h') vs ts.
Proof. intros O I. induction 1; constructor; eauto using den_frame. Qed.

Lemma list_on_only l h h' v xs ps : only l h h' -> used l ps -> list_on h v xs ps -> list_on h' v xs ps.
Proof. intros (S&C&M) U L. eapply list_on_same; eauto using incl_refl. Qed.

Lemma cons_case p x q h : is_cons p = true -> ref_cell h p = Ok (x, q) -> car h p = Ok x /\ cdr h p = Ok q.
Proof. intros C R. pose proof (cons_is_ptr _ C). split; [eapply car_ptr|eapply cdr_ptr]; eauto. Qed.

Lemma has_dec fl h x y t u ef : den fl h x t -> den fl h y u -> (depth t <= ef)%nat ->
  (struct_eq ef h x y = Ok true /\ same t u) \/ (struct_eq ef h x y = Ok false /\ ~ same t u).
Proof. intros D1 D2 L. destruct (struct_eq_correct fl h ef x y t u D1 D2 L) as ([]&E&R); [left|right]; rewrite E, <- R; auto. Qed.

Definition shallow (ef : nat) (ts : list tree) : Prop := Forall (fun t => (depth t <= ef)%nat) ts.

Lemma list_is_list h v xs ps : list_on h v xs ps -> is_list v = true.
Proof.
  intros L. unfold is_list. inversion L; subst; [rewrite zero_not_cons; reflexivity|].
  match goal with H : is_cons v = true |- _ => rewrite H end. auto.
Qed.
Lemma den_list_not_merror fl h v ts : den_list fl h v ts -> v <> MERROR.
Proof.
  intros (xs&ps&L&_) ->. inversion L as [E|? ? ? ? ? ? C]; subst.
  - revert E. unfold MERROR. destruct A; discriminate.
  - apply cons_is_ptr in C. rewrite MERROR_not_ptr in C. discriminate.
Qed.

(* C42: member *)
Lemma member_loop_ok fl h ef val t : den fl h val t -> forall v xs ps, list_on h v xs ps -> forall ts fuel,
  Forall2 (den fl h) xs ts -> shallow ef ts -> (length xs <= fuel)%nat ->
  exists r, member_loop ef fuel h v val = Ok r /\ (r = true <-> has t ts).
Proof.
  intros Dv. induction 1 as [|p x q xs ps Wp C R L IH]; intros ts fuel F Sh LF.
  - inversion F; subst. exists false. split; [|split; [discriminate|intros H; inversion H]].
    destruct fuel; cbn [member_loop]; rewrite zero_not_cons; reflexivity.
  - inversion F as [|? u ? us Dx Fs]; subst. inversion Sh; subst. simpl in LF. destruct fuel as [|n]; [lia|].
    destruct (cons_case _ _ _ _ C R) as (Ca&Cd). cbn [member_loop]. rewrite C, Ca. cbn [bind].
    destruct (has_dec fl h x val u t ef Dx Dv) as [(E&Y)|(E&N)]; auto; rewrite E; cbn [bind].
    + exists true. split; auto. split; auto. intros _. constructor; auto.
    + rewrite Cd. cbn [bind]. destruct (IH us n Fs) as (r&E2&R2); auto; [lia|]. exists r. split; auto. rewrite R2.
      split; [intros; apply Exists_cons_tl; auto|intros H; inversion H; subst; auto; contradiction].
Qed.

Theorem member_correct fl h v ts val t ef fuel : den_list fl h v ts -> den fl h val t -> shallow ef ts ->
  (length ts <= fuel)%nat ->
  exists r, member ef fuel h v val = Ok r /\ (has t ts -> r = v /\ v <> NIL) /\ (~ has t ts -> r = NIL).
Proof.
  intros (xs&ps&L&U&F) D Sh LF. unfold member.
  assert (is_list v = true) as ->.
  { unfold is_list. inversion L; subst; [rewrite zero_not_cons; reflexivity|]. match goal with H : is_cons v = true |- _ => rewrite H end. auto. }
  destruct (member_loop_ok fl h ef val t D v xs ps L ts fuel F Sh) as (r&E&R).
  { apply Eq_Props.Forall2_length in F. lia. }
  rewrite E. cbn [bind]. eexists. split; [reflexivity|]. split.
  - intros H. apply R in H. subst r. split; auto. rewrite NIL_0. intros ->.
    inversion L; subst; [|rewrite zero_not_cons in *; discriminate]. inversion F; subst.
    assert (has t []) as H by (apply R; auto). inversion H.
  - intros H. destruct r; auto. exfalso. apply H, R. auto.
Qed.

(* ---- insert ---- *)

(* the copy made so far: nothing, or a list ending in cell e *)
Definition acc_ok (h : heap) (G fl : list Z) (start ed : Z) (acc cs : list Z) : Prop :=
  (acc = [] /\ cs = [] /\ start = 0 /\ ed = 0) \/
  (exists e x, In e cs /\ ed = enc_cons_ptr e /\ cell h e = Some (x, 0) /\
    list_on h start acc (map enc_cons_ptr cs) /\ acc <> []).

Lemma NoDup_remove_head (i : Z) fl : NoDup (i :: fl) -> ~ In i fl /\ NoDup fl.
Proof. inversion 1; auto. Qed.

Lemma heap_ok_range h fl i : heap_ok h fl -> In i fl -> 0 <= i < 2 ^ (W - 8).
Proof.
  intros OK I. pose proof (chain_range _ _ _ (ok_chain _ _ OK)) as R. rewrite Forall_forall in R.
  specialize (R _ I). pose proof (ok_size _ _ OK). lia.
Qed.

Lemma map_enc_const cs : Forall (fun c => 0 <= c < 2 ^ (W - 8)) cs -> Forall (fun p => is_const_ptr p = false) (map enc_cons_ptr cs).
Proof. induction 1; simpl; constructor; auto using enc_not_const. Qed.

(* a fresh cell (x . nil) appended to the copy *)
Lemma acc_snoc h G i fl start ed acc cs x : heap_ok h (i :: fl) -> incl (i :: fl) G -> incl cs G ->
  (forall c, In c cs -> ~ In c (i :: fl)) -> Forall (fun c => 0 <= c < 2 ^ (W - 8)) cs ->
  acc_ok h G (i :: fl) start ed acc cs ->
  exists h1, cons h x NIL = Ok (h1, enc_cons_ptr i) /\ heap_ok h1 fl /\ only G h h1 /\
    ((ed = 0 /\ acc_ok h1 G fl (enc_cons_ptr i) (enc_cons_ptr i) (acc ++ [x]) (cs ++ [i])) \/
     (ed <> 0 /\ exists h2, set_cdr h1 ed (enc_cons_ptr i) = Ok (h2, true) /\ heap_ok h2 fl /\ only G h h2 /\
        acc_ok h2 G fl start (enc_cons_ptr i) (acc ++ [x]) (cs ++ [i]))).
Proof.
  intros OK IG IC DJ RC AO. rewrite NIL_0.
  destruct (cons_ok h i fl x 0 OK) as (h1&E1&OK1&C1&S1&Z1&CC1&M1&_&Ri).
  assert (O1 : only G h h1).
  { split; [|split; auto]. apply (same_but_incl [i]); auto. intros c [<-|[]]. apply IG; simpl; auto. }
  exists h1. split; auto. split; auto. split; auto.
  destruct AO as [(->&->&->&->)|(e&y&Ie&->&Ce&L&NN)].
  - left. split; auto. right. exists i, x. split; [simpl; auto|]. split; auto. split; auto. split; [|discriminate].
    simpl. apply list_on_cons_cell with (d := 0); auto. constructor.
  - right. rewrite Forall_forall in RC. pose proof (RC e Ie) as Re. split; [apply enc_nonzero; auto|].
    assert (ei : e <> i) by (intros ->; eapply DJ; eauto; simpl; auto).
    assert (Ce1 : cell h1 e = Some (y, 0)) by (rewrite S1; auto; intros [->|[]]; auto).
    exists (hput h1 e (y, enc_cons_ptr i)). split; [apply set_cdr_enc with (d := 0); auto|].
    assert (ND := ok_nodup _ _ OK). apply NoDup_remove_head in ND. destruct ND as (NDi&ND).
    split; [apply heap_ok_put; auto; [|lia]; intros I; eapply DJ; eauto; simpl; auto|]. split.
    + eapply only_trans; eauto. split; [|split; auto]. apply (same_but_incl [e]); [|apply hput_same; lia].
      intros c [<-|[]]. auto.
    + right. exists i, x. split; [apply in_or_app; simpl; auto|]. split; auto. split.
      { rewrite cell_hput_neq; auto. lia. } split; [|destruct acc; discriminate].
      rewrite map_app. simpl.
      assert (L1 : list_on h1 start acc (map enc_cons_ptr cs)).
      { eapply list_on_frame; eauto. intros p P _. apply in_map_iff in P. destruct P as (c&<-&Pc).
        rewrite enc_ix by auto. apply S1. intros [->|[]]. eapply DJ; eauto; simpl; auto. }
      eapply list_on_relink with (p := enc_cons_ptr e) (x := y) (w := enc_cons_ptr i).
      * exact L1.
      * apply in_map; auto.
      * apply ref_enc; auto.
      * apply enc_not_const; auto.
      * rewrite enc_ix by auto. eapply cell_hput_eq; eauto.
      * rewrite enc_ix by auto. apply hput_same. lia.
      * reflexivity.
      * apply map_enc_const. apply Forall_forall. auto.
      * apply list_on_cons_cell with (d := 0); auto; [|constructor]. rewrite cell_hput_neq; auto. lia.
Qed.

Lemma insert_loop_ok G ef val t : forall xs ts ps v h fl start ed acc cs fuel,
  list_on h v xs ps -> used G ps -> Forall2 (den G h) xs ts -> den G h val t -> shallow ef ts ->
  heap_ok h fl -> incl fl G -> incl cs G -> (forall c, In c cs -> ~ In c fl) -> Forall (fun c => 0 <= c < 2 ^ (W - 8)) cs ->
  acc_ok h G fl start ed acc cs -> (length xs <= fuel)%nat ->
  exists h' fl' i, insert_loop ef fuel h v val start ed = Ok (h', i) /\ heap_ok h' fl' /\ incl fl' fl /\ only G h h' /\
    match i with
    | Found => has t ts /\ (length fl <= length fl' + length xs)%nat
    | Abort => (length fl < length xs)%nat /\ fl' = []
    | Done s e => ~ has t ts /\ (length fl' + length xs = length fl)%nat /\ exists cs',
        acc_ok h' G fl' s e (acc ++ xs) cs' /\ incl cs' G /\ (forall c, In c cs' -> ~ In c fl') /\
        Forall (fun c => 0 <= c < 2 ^ (W - 8)) cs' /\ (e = 0 <-> acc ++ xs = [])
    end.
Proof.
  induction xs as [|x xs IH]; intros ts ps v h fl start ed acc cs fuel L U F D Sh OK IG IC DJ RC AO LF.
  - inversion L; subst. inversion F; subst. exists h, fl, (Done start ed).
    split; [destruct fuel; cbn [insert_loop]; rewrite zero_not_cons; reflexivity|].
    split; auto. split; [apply incl_refl|]. split; [apply only_refl|]. split; [intros H; inversion H|]. split; [simpl; lia|].
    exists cs. rewrite app_nil_r. repeat (split; [solve [auto]|]).
    destruct AO as [(->&_&_&->)|(e&y&Ie&->&_&_&NN)]; [tauto|]. split; [|intros; contradiction].
    intros E. exfalso. rewrite Forall_forall in RC. exact (enc_nonzero _ (RC _ Ie) E).
  - inversion L as [|? ? q ? ps' Wp C R L']; subst. inversion F as [|? u ? us Dx Fs]; subst. inversion Sh; subst.
    simpl in LF. destruct fuel as [|n]; [lia|]. destruct (cons_case _ _ _ _ C R) as (Ca&Cd).
    cbn [insert_loop]. rewrite C, Ca. cbn [bind].
    destruct (has_dec G h x val u t ef Dx D) as [(E&Y)|(E&N)]; auto; rewrite E; cbn [bind].
    { exists h, fl, Found. split; auto. split; auto. split; [apply incl_refl|]. split; [apply only_refl|]. split; [constructor; auto|lia]. }
    destruct fl as [|i fl].
    { rewrite cons_fail by auto. cbn [bind]. rewrite Z.eqb_refl. exists h, [], Abort. split; auto. split; auto.
      split; [apply incl_refl|]. split; [apply only_refl|]. simpl. split; [lia|auto]. }
    destruct (acc_snoc h G i fl start ed acc cs x OK IG IC DJ RC AO) as (h1&E1&OK1&O1&Next). rewrite E1. cbn [bind].
    assert (Ri : 0 <= i < 2 ^ (W - 8)) by (apply (heap_ok_range h (i :: fl)); simpl; auto).
    destruct (Z.eqb_spec (enc_cons_ptr i) MERROR) as [EE|_].
    { exfalso. pose proof (enc_is_ptr _ Ri) as PP. rewrite EE, MERROR_not_ptr in PP. discriminate. }
    pose proof (ok_nodup _ _ OK) as ND. apply NoDup_remove_head in ND. destruct ND as (NDi&ND).
    assert (IG1 : incl fl G) by (intros c I; apply IG; simpl; auto).
    assert (IC1 : incl (cs ++ [i]) G).
    { intros c I. apply in_app_or in I. destruct I as [I|[<-|[]]]; auto. apply IG; simpl; auto. }
    assert (DJ1 : forall c, In c (cs ++ [i]) -> ~ In c fl).
    { intros c I J. apply in_app_or in I. destruct I as [I|[<-|[]]]; auto. eapply DJ; eauto; simpl; auto. }
    assert (RC1 : Forall (fun c => 0 <= c < 2 ^ (W - 8)) (cs ++ [i])) by (apply Forall_app; auto).
    assert (U1 : used G ps') by (eapply used_tail2; eauto).
    assert (HH : forall b, has t (u :: us) <-> has t us \/ (same u t /\ b = true) \/ same u t).
    { intros b. split; [intros HH; inversion HH; subst; auto|intros [HH|[(HH&_)|HH]]; [apply Exists_cons_tl|constructor|constructor]; auto]. }
    assert (Step : forall h2 st, only G h h2 -> heap_ok h2 fl -> acc_ok h2 G fl st (enc_cons_ptr i) (acc ++ [x]) (cs ++ [i]) ->
      exists h' fl' ii, insert_loop ef n h2 q val st (enc_cons_ptr i) = Ok (h', ii) /\ heap_ok h' fl' /\ incl fl' (i :: fl) /\ only G h h' /\
        match ii with
        | Found => has t (u :: us) /\ (length (i :: fl) <= length fl' + length (x :: xs))%nat
        | Abort => (length (i :: fl) < length (x :: xs))%nat /\ fl' = []
        | Done s e => ~ has t (u :: us) /\ (length fl' + length (x :: xs) = length (i :: fl))%nat /\ exists cs',
            acc_ok h' G fl' s e (acc ++ x :: xs) cs' /\ incl cs' G /\ (forall c, In c cs' -> ~ In c fl') /\
            Forall (fun c => 0 <= c < 2 ^ (W - 8)) cs' /\ (e = 0 <-> acc ++ x :: xs = [])
        end).
    { intros h2 st O2 OK2 AO2.
      destruct (IH us ps' q h2 fl st (enc_cons_ptr i) (acc ++ [x]) (cs ++ [i]) n) as (h'&fl'&ii&E2&OK'&I'&O'&M'); auto.
      { eapply list_on_only; eauto. } { eapply dens_frame; eauto using incl_refl. } { eapply den_frame; eauto using incl_refl. } { lia. }
      exists h', fl', ii. split; auto. split; auto. split; [intros c Hc; simpl; auto|].
      split; [eapply only_trans; eauto|]. destruct ii; simpl in *.
      - destruct M'. split; [apply Exists_cons_tl; auto|lia].
      - split; [lia|tauto].
      - destruct M' as (M1&M2&cs'&M3&M4). split; [intros HX; inversion HX; subst; auto|]. split; [lia|].
        exists cs'. rewrite <- app_assoc in M3, M4. simpl in M3, M4. auto. }
    clear HH. destruct Next as [(->&AO1)|(NE&h2&E2&OK2&O2&AO2)].
    + rewrite NIL_0. change (0 =? 0) with true. cbn iota.
      assert (Cd1 : cdr h1 v = Ok q).
      { eapply cdr_ptr; [apply cons_is_ptr; auto|]. rewrite (ref_frame G h h1); eauto. intros Cc. apply U; simpl; auto. }
      rewrite Cd1. cbn [bind]. apply Step; auto.
    + destruct (Z.eqb_spec ed NIL) as [EN|_]; [rewrite NIL_0 in EN; contradiction|].
      rewrite E2. cbn [bind fst].
      assert (Cd1 : cdr h2 v = Ok q).
      { eapply cdr_ptr; [apply cons_is_ptr; auto|]. rewrite (ref_frame G h h2); eauto. intros Cc. apply U; simpl; auto. }
      rewrite Cd1. cbn [bind]. apply Step; auto.
Qed.

(* C42: insertion.  The set itself when the datum is in it, else a fresh list
   with the datum at the end; merror only when memory runs out.  No cell in use
   changes. *)
Theorem set_insert_correct fl h v ts val t ef fuel : heap_ok h fl -> den_list fl h v ts -> den fl h val t ->
  shallow ef ts -> (length ts <= fuel)%nat ->
  exists h' r fl', set_insert ef fuel h v val = Ok (h', r) /\ heap_ok h' fl' /\ incl fl' fl /\ only fl h h' /\ (length fl <= length fl' + length ts + 1)%nat /\
    (has t ts /\ r = v /\ den_list fl' h' r ts \/
     ~ has t ts /\ r <> MERROR /\ den_list fl' h' r (ts ++ [t]) \/
     r = MERROR /\ (length fl <= length ts)%nat).
Proof.
  intros OK (xs&ps&L&U&F) D Sh LF. unfold set_insert.
  assert (LX : length xs = length ts) by (eapply Eq_Props.Forall2_length; eauto).
  destruct (insert_loop_ok fl ef val t xs ts ps v h fl NIL NIL [] [] fuel) as (h1&fl1&i&E&OK1&I1&O1&M); auto using incl_refl, incl_nil_l; try lia.
  { rewrite NIL_0. left; auto. }
  rewrite E. cbn [bind]. destruct i as [| |s e].
  - exists h1, v, fl1. split; auto. split; auto. split; auto. split; auto. split; [lia|]. left. split; [tauto|]. split; auto.
    exists xs, ps. split; [eapply list_on_only; eauto|]. split; [intros p P C; intros I; eapply U; eauto|].
    eapply dens_frame; eauto.
  - exists h1, MERROR, fl1. split; auto. split; auto. split; auto. split; auto. split; [lia|]. right; right. split; auto. lia.
  - destruct M as (NH&LN&cs&AO&IC&DJ&RC&EZ). simpl in AO, EZ.
    destruct fl1 as [|i fl1].
    + rewrite cons_fail by auto. cbn [bind]. rewrite Z.eqb_refl. exists h1, MERROR, []. split; auto. split; auto.
      split; auto. split; auto. simpl in *. split; [lia|]. right; right. split; auto. lia.
    + destruct (acc_snoc h1 fl i fl1 s e xs cs val OK1 I1 IC DJ RC AO) as (h2&E2&OK2&O2&Next). rewrite E2. cbn [bind].
      assert (Ri : 0 <= i < 2 ^ (W - 8)) by (apply (heap_ok_range h1 (i :: fl1)); simpl; auto).
      assert (NM : forall j, 0 <= j < 2 ^ (W - 8) -> enc_cons_ptr j <> MERROR).
      { intros j Rj EE. pose proof (enc_is_ptr _ Rj) as PP. rewrite EE, MERROR_not_ptr in PP. discriminate. }
      destruct (Z.eqb_spec (enc_cons_ptr i) MERROR) as [EE|_]; [exfalso; eapply NM; eauto|].
      pose proof (ok_nodup _ _ OK1) as ND. apply NoDup_remove_head in ND. destruct ND as (NDi&ND).
      assert (Fin : forall h3 st, only fl h1 h3 -> heap_ok h3 fl1 -> acc_ok h3 fl fl1 st (enc_cons_ptr i) (xs ++ [val]) (cs ++ [i]) ->
        st <> MERROR /\ den_list fl1 h3 st (ts ++ [t])).
      { intros h3 st O3 OK3 AO3. destruct AO3 as [(AA&_)|(e'&y&Ie&_&Ce&L3&NN)]; [destruct xs; discriminate|].
        assert (incl fl1 fl) by (intros c Hc; apply I1; simpl; auto).
        split.
        - intros ->. inversion L3; subst; [destruct xs; discriminate|]. 
          match goal with H : is_cons MERROR = true |- _ => apply cons_is_ptr in H; rewrite MERROR_not_ptr in H; discriminate end.
        - exists (xs ++ [val]), (map enc_cons_ptr (cs ++ [i])). split; auto. split.
          + intros p P C J. apply in_map_iff in P. destruct P as (c&<-&Pc). apply in_app_or in Pc. destruct Pc as [Pc|[<-|[]]].
            * rewrite Forall_forall in RC. rewrite enc_ix in J by auto. eapply DJ; eauto. simpl; auto.
            * rewrite enc_ix in J by auto. contradiction.
          + assert (only fl h h3) by (eapply only_trans; eauto).
            apply Forall2_app; [eapply dens_frame; eauto|]. constructor; [eapply den_frame; eauto|constructor]. }
      destruct Next as [(->&AO1)|(NE&h3&E3&OK3&O3&AO3)].
      * rewrite NIL_0. change (0 =? 0) with true. cbn iota. destruct (Fin h2 (enc_cons_ptr i) O2 OK2) as (F1&F2).
        { exact AO1. }
        exists h2, (enc_cons_ptr i), fl1. split; auto. split; auto. split; [intros c Hc; apply I1; simpl; auto|].
        split; [eapply only_trans; eauto|]. simpl in LN. split; [lia|]. right; left. auto.
      * destruct (Z.eqb_spec e NIL) as [EN|_]; [rewrite NIL_0 in EN; contradiction|]. rewrite E3. cbn [bind fst].
        destruct (Fin h3 s O3 OK3 AO3) as (F1&F2).
        exists h3, s, fl1. split; auto. split; auto. split; [intros c Hc; apply I1; simpl; auto|].
        split; [eapply only_trans; eauto|]. simpl in LN. split; [lia|]. right; left. auto.
Qed.

Lemma distinct_snoc ts t : distinct ts -> ~ has t ts -> distinct (ts ++ [t]).
Proof.
  unfold distinct. induction 1 as [|u us Fu FO IH]; intros N; simpl; [repeat constructor|].
  constructor.
  - apply Forall_app. split; auto. constructor; auto. intros S. apply N. constructor; auto.
  - apply IH. intros H. apply N. apply Exists_cons_tl. auto.
Qed.

(* C42: insertion keeps the set free of duplicates and adds exactly the datum *)
Theorem set_insert_keeps_distinct fl h v ts val t ef fuel h' r : heap_ok h fl -> den_list fl h v ts -> den fl h val t ->
  shallow ef ts -> (length ts <= fuel)%nat -> distinct ts -> set_insert ef fuel h v val = Ok (h', r) -> r <> MERROR ->
  exists fl' us, den_list fl' h' r us /\ distinct us /\ (no_nan t -> has t us) /\
    (forall x, has x us <-> has x ts \/ same t x).
Proof.
  intros OK DL D Sh LF DI E NM.
  destruct (set_insert_correct fl h v ts val t ef fuel OK DL D Sh LF) as (h2&r2&fl'&E2&_&_&_&_&C).
  rewrite E in E2. injection E2 as <- <-.
  destruct C as [(H&->&DL')|[(H&_&DL')|(->&_)]]; [| |congruence].
  - exists fl', ts. split; auto. split; auto. split; auto. intros x. split; [auto|]. intros [K|S1]; auto.
    unfold has in *. apply Exists_exists in H. destruct H as (u&I&S2). apply Exists_exists. exists u. split; auto. eapply same_trans; eauto.
  - exists fl', (ts ++ [t]). split; auto. split; [apply distinct_snoc; auto|]. split.
    + intros NN. apply Exists_app. right. constructor. apply same_refl; auto.
    + intros x. unfold has. rewrite Exists_app. split.
      * intros [K|K]; auto. inversion K as [? ? S1|? ? S1]; subst; auto. inversion S1.
      * intros [K|S1]; auto.
Qed.

(* C42: union *)
Lemma union_loop_ok ef sf : forall xs ts ps v h fl set us fuel,
  list_on h v xs ps -> used fl ps -> Forall2 (den fl h) xs ts -> shallow ef ts ->
  heap_ok h fl -> den_list fl h set us -> shallow ef us -> (length xs <= fuel)%nat -> (length us + length xs <= sf)%nat ->
  exists h' r fl', union_loop ef fuel sf h v set = Ok (h', r) /\ heap_ok h' fl' /\ incl fl' fl /\ only fl h h' /\
    (r <> MERROR /\ (exists ws, den_list fl' h' r (us ++ ws) /\ (distinct us -> distinct (us ++ ws)) /\ incl ws ts /\
       (forall t, In t ts -> no_nan t -> has t (us ++ ws))) \/
     r = MERROR /\ (length fl < (length us + length xs) * S (length xs))%nat).
Proof.
  induction xs as [|x xs IH]; intros ts ps v h fl set us fuel L U F Sh OK DL Shu LF LS.
  - inversion L; subst. inversion F; subst. exists h, set, fl. split; [destruct fuel; cbn [union_loop]; rewrite zero_not_cons; reflexivity|].
    split; auto. split; [apply incl_refl|]. split; [apply only_refl|]. left. split.
    + eapply den_list_not_merror; eauto.
    + exists []. rewrite app_nil_r. split; auto. split; auto. split; [intros y []|]. intros t [].
  - inversion L as [|? ? q ? ps' Wp C R L']; subst. inversion F as [|? t ? ts' Dx Fs]; subst. inversion Sh; subst.
    simpl in LF, LS. destruct fuel as [|n]; [lia|]. destruct (cons_case _ _ _ _ C R) as (Ca&Cd).
    cbn [union_loop]. rewrite C, Ca. cbn [bind].
    destruct (set_insert_correct fl h set us x t ef sf OK DL Dx Shu) as (h1&r1&fl1&E1&OK1&I1&O1&LE1&Cs); [lia|]. rewrite E1. cbn [bind].
    assert (Cd1 : cdr h1 v = Ok q).
    { eapply cdr_ptr; [apply cons_is_ptr; auto|]. rewrite (ref_frame fl h h1); eauto. intros Cc. apply U; simpl; auto. }
    assert (Step : forall us1, den_list fl1 h1 r1 us1 -> shallow ef us1 -> (length us <= length us1 <= S (length us))%nat -> r1 <> MERROR ->
       (length fl <= length fl1 + length us + 1)%nat ->
       exists h' r fl', (let! q0 := cdr h1 v in union_loop ef n sf h1 q0 r1) = Ok (h', r) /\ heap_ok h' fl' /\ incl fl' fl /\ only fl h h' /\
        (r <> MERROR /\ (exists ws, den_list fl' h' r (us1 ++ ws) /\ (distinct us1 -> distinct (us1 ++ ws)) /\ incl ws ts' /\
           (forall t, In t ts' -> no_nan t -> has t (us1 ++ ws))) \/
         r = MERROR /\ (length fl < (length us + length (x :: xs)) * S (length (x :: xs)))%nat)).
    { intros us1 DL1 Sh1 LU NM LFL. rewrite Cd1. cbn [bind].
      destruct (IH ts' ps' q h1 fl1 r1 us1 n) as (h2&r2&fl2&E2&OK2&I2&O2&C2); auto; try lia.
      { eapply list_on_only; eauto. eapply used_tail2; eauto. }
      { intros p P Cp J. eapply U; eauto. simpl; auto. }
      { eapply dens_frame; eauto. }
      exists h2, r2, fl2. split; auto. split; auto. split; [eapply incl_tran; eauto|].
      split; [eapply only_trans; eauto; eapply only_incl; eauto|].
      destruct C2 as [C2|(->&C2)]; [left; auto|right]. split; auto. simpl. nia. }
    destruct Cs as [(H&->&DL1)|[(H&NM&DL1)|(->&LE)]].
    + pose proof (den_list_not_merror _ _ _ _ DL) as NM. destruct (Z.eqb_spec set MERROR); [contradiction|].
      destruct (Step us DL1 Shu) as (h'&r&fl'&E&OK'&I'&O'&C'); auto.
      exists h', r, fl'. split; auto. split; auto. split; auto. split; auto.
      destruct C' as [(N1&ws&DW&DI&IW&HW)|C']; [left|right; auto]. split; auto. exists ws. split; auto. split; auto.
      split; [intros y Y; simpl; auto|]. intros y [<-|Y] NN; auto.
      unfold has in *. apply Exists_app. auto.
    + destruct (Z.eqb_spec r1 MERROR); [contradiction|].
      destruct (Step (us ++ [t]) DL1) as (h'&r&fl'&E&OK'&I'&O'&C'); auto.
      { apply Forall_app. split; auto. }
      { rewrite app_length. simpl. lia. }
      exists h', r, fl'. split; auto. split; auto. split; auto. split; auto.
      destruct C' as [(N1&ws&DW&DI&IW&HW)|C']; [left|right; auto]. split; auto. exists (t :: ws).
      rewrite <- app_assoc in *. simpl in *. split; auto. split; [intros DU; apply DI, distinct_snoc; auto|].
      split; [intros y [<-|Y]; simpl; auto|]. intros y [<-|Y] NN; auto.
      unfold has. apply Exists_app. right. constructor. apply same_refl; auto.
    + rewrite Z.eqb_refl. exists h1, MERROR, fl1. split; auto. split; auto. split; auto. split; auto. right. split; auto. simpl. nia.
Qed.

Theorem set_union_correct fl h a b ta tb ef fuel sf : heap_ok h fl -> den_list fl h a ta -> den_list fl h b tb ->
  shallow ef ta -> shallow ef tb -> (length ta <= fuel)%nat -> (length ta + length tb <= sf)%nat ->
  exists h' r fl', set_union ef fuel sf h a b = Ok (h', r) /\ heap_ok h' fl' /\ incl fl' fl /\ only fl h h' /\
    ((exists us, r <> MERROR /\ den_list fl' h' r us /\ (distinct tb -> distinct us) /\
       (forall t, In t us -> In t ta \/ In t tb) /\ (forall t, In t ta \/ In t tb -> no_nan t -> has t us)) \/
     r = MERROR /\ (length fl < (length ta + length tb) * S (length ta))%nat).
Proof.
  intros OK DA DB SA SB LF LS. destruct DA as (xs&ps&L&U&F). unfold set_union.
  rewrite (list_is_list _ _ _ _ L). destruct DB as (ys&qs&L2&U2&F2). rewrite (list_is_list _ _ _ _ L2). cbn [andb].
  assert (LX : length xs = length ta) by (eapply Eq_Props.Forall2_length; eauto).
  destruct (union_loop_ok ef sf xs ta ps a h fl b tb fuel) as (h'&r&fl'&E&OK'&I'&O'&C); auto; try lia.
  { exists ys, qs. auto. }
  exists h', r, fl'. split; auto. split; auto. split; auto. split; auto.
  destruct C as [(N&ws&DW&DI&IW&HW)|(->&C)].
  - left. exists (tb ++ ws). split; auto. split; auto. split; auto. split.
    + intros t I. apply in_app_or in I. destruct I; auto.
    + intros t [I|I] NN; auto. unfold has. apply Exists_app. left. apply Exists_exists. exists t. split; auto. apply same_refl; auto.
  - right. split; auto. rewrite LX in C. lia.
Qed.

(* association lists: the value of the first pair with that key *)
Inductive alist_on (fl : list Z) (h : heap) : list Z -> list (tree * Z) -> Prop :=
| al_nil : alist_on fl h [] []
| al_cons c k x t cs kvs : is_cons c = true -> ref_cell h c = Ok (k, x) -> den fl h k t ->
    alist_on fl h cs kvs -> alist_on fl h (c :: cs) ((t, x) :: kvs).

Inductive first_at (t : tree) : list (tree * Z) -> option Z -> Prop :=
| fa_nil : first_at t [] None
| fa_hit u x kvs : same u t -> first_at t ((u, x) :: kvs) (Some x)
| fa_miss u x kvs r : ~ same u t -> first_at t kvs r -> first_at t ((u, x) :: kvs) r.

Theorem assoc_lookup_correct fl h v cs ps kvs key t ef fuel : list_on h v cs ps -> alist_on fl h cs kvs -> den fl h key t ->
  shallow ef (map fst kvs) -> (length kvs <= fuel)%nat ->
  exists r, first_at t kvs r /\ assoc_lookup ef fuel h key v = Ok (match r with Some x => x | None => enc_sym SYM_NO_MATCH end).
Proof.
  intros L. revert kvs fuel. induction L as [|p c q cs ps Wp C R L IH]; intros kvs fuel AL D Sh LF.
  - inversion AL; subst. exists None. split; [constructor|]. destruct fuel; cbn [assoc_lookup]; rewrite zero_not_cons; reflexivity.
  - inversion AL as [|? k x u ? kvs' Cc Rc Dk AL']; subst. inversion Sh; subst. simpl in LF. destruct fuel as [|n]; [lia|].
    cbn [assoc_lookup]. rewrite C, R. cbn [bind fst snd]. rewrite Cc, Rc. cbn [bind fst snd].
    destruct (has_dec fl h k key u t ef Dk D) as [(E&Y)|(E&N)]; auto; rewrite E; cbn [bind].
    + exists (Some x). split; [constructor; auto|reflexivity].
    + destruct (IH kvs' n) as (r&F&E2); auto; [lia|]. exists r. split; [apply fa_miss; auto|auto].
Qed.

End Proofs.

(* the set (1 2) in cells 0 and 1, the datum 3, three free cells: the result is
   a fresh list (1 2 3) *)
Example ex_set_insert : exists h v val,
  heap_ok (A := A32) h [2; 3; 4] /\ den_list (A := A32) [2; 3; 4] h v [Leaf KI 1; Leaf KI 2] /\
  den (A := A32) [2; 3; 4] h val (Leaf KI 3) /\ distinct [Leaf KI 1; Leaf KI 2] /\
  exists h' r, set_insert (A := A32) 5 5 h v val = Ok (h', r) /\ den_list (A := A32) [] h' r [Leaf KI 1; Leaf KI 2; Leaf KI 3].
Proof.
  set (e := fun i => enc_cons_ptr (A := A32) i).
  set (h := mkHeap [(enc_i (A := A32) 1, e 1); (enc_i (A := A32) 2, 0); (0, e 3); (0, e 4); (0, 0)] [] (e 2) 2 [] 10 0 0 0
    (fun _ => None) [] false).
  exists h, (e 0), (enc_i (A := A32) 3).
  assert (OK : heap_ok (A := A32) h [2; 3; 4]).
  { split.
    - vm_compute; discriminate.
    - repeat econstructor; try reflexivity; vm_compute; congruence.
    - repeat constructor; simpl; intuition lia.
    - reflexivity. }
  assert (D : forall h fl n, In n [1; 2; 3] -> den (A := A32) fl h (enc_i (A := A32) n) (Leaf KI n)).
  { intros h0 fl n I. constructor; [intros P; destruct I as [<-|[<-|[<-|[]]]]; vm_compute in P; discriminate|discriminate| |];
    destruct I as [<-|[<-|[<-|[]]]]; reflexivity. }
  assert (DL : den_list (A := A32) [2; 3; 4] h (e 0) [Leaf KI 1; Leaf KI 2]).
  { exists [enc_i (A := A32) 1; enc_i (A := A32) 2], [e 0; e 1]. split; [|split].
    - repeat econstructor; try reflexivity; vm_compute; congruence.
    - intros p [<-|[<-|[]]] _; vm_compute; intuition lia.
    - repeat (apply Forall2_cons; [apply D; simpl; auto|]); apply Forall2_nil. }
  split; [exact OK|]. split; [exact DL|]. split; [apply D; simpl; auto|].
  split. { repeat constructor. intros S. inversion S as [? ? ? N| | |]; subst. discriminate N. }
  destruct (set_insert (A := A32) 5 5 h (e 0) (enc_i (A := A32) 3)) as [[h' r]| |] eqn:E; vm_compute in E; try discriminate E.
  injection E as <- <-. eexists _, _. split; [reflexivity|].
  exists [enc_i (A := A32) 1; enc_i (A := A32) 2; enc_i (A := A32) 3], [e 2; e 3; e 4]. split; [|split].
  - repeat econstructor; try reflexivity; vm_compute; congruence.
  - intros p _ _ [].
  - repeat (apply Forall2_cons; [apply D; simpl; auto|]); apply Forall2_nil.
Qed.

Print Assumptions member_correct.
Print Assumptions set_insert_correct.
Print Assumptions set_insert_keeps_distinct.
Print Assumptions set_union_correct.
Print Assumptions assoc_lookup_correct.
