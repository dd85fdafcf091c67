(* Termination of marking. *)
From Verif Require Import Base Value_Model Heap_Model Value_Proofs Value_Proofs2 Heap_Spec Heap_Proofs GC_Model GC_Spec
  GC_Proofs GC_Proofs2 GC_Proofs3 GC_Proofs4 GC_Check.
Local Open Scope Z_scope.

Section Arch.
Context {A : Arch}.

Definition unm (c : Z * Z) : bool := negb (get_gc_mark (snd c)).
(* number of unmarked cells *)
Definition Mz (h : heap) : nat := length (filter unm (cells h)).
(* elements still to be looked at, over the unmarked cells *)
Definition rest (h : heap) (c : Z * Z) : nat :=
  if unm c then
    match mem h (fst c) with
    | Some (OLisp _ _ elts k) => (length elts - Z.to_nat k)%nat
    | _ => 0%nat
    end
  else 0%nat.
Definition Sz (h : heap) : nat := list_sum (map (rest h) (cells h)).
(* all array elements *)
Definition elts_of (h : heap) (c : Z * Z) : nat :=
  match mem h (fst c) with Some (OLisp _ _ elts _) => length elts | _ => 0%nat end.
Definition SB (h : heap) : nat := list_sum (map (elts_of h) (cells h)).

Lemma filter_upd {T} (f : T -> bool) l n x y : nth_error l n = Some x -> f x = true -> f y = false ->
  S (length (filter f (upd l n y))) = length (filter f l).
Proof.
  revert n. induction l as [|z l IH]; intros [|n] E Fx Fy; try discriminate; simpl in *.
  - injection E as ->. rewrite Fx, Fy. reflexivity.
  - destruct (f z); simpl; rewrite <- (IH n); auto.
Qed.

Lemma filter_len {T} (f : T -> bool) l : (length (filter f l) <= length l)%nat.
Proof. induction l as [|x l IH]; simpl; [lia|]. destruct (f x); simpl; lia. Qed.

Lemma list_ext {T} (l l' : list T) : (forall n, nth_error l n = nth_error l' n) -> l = l'.
Proof.
  revert l'. induction l as [|x l IH]; intros [|y l'] H; auto.
  - specialize (H 0%nat). discriminate.
  - specialize (H 0%nat). discriminate.
  - pose proof (H 0%nat) as H0. simpl in H0. injection H0 as ->. f_equal. apply IH. intros n. apply (H (S n)).
Qed.

Lemma list_sum_le {T} (f g : T -> nat) l : (forall x, In x l -> (f x <= g x)%nat) -> (list_sum (map f l) <= list_sum (map g l))%nat.
Proof. induction l as [|x l IH]; intros H; simpl; [lia|]. pose proof (H x (or_introl eq_refl)). specialize (IH (fun y I => H y (or_intror I))). lia. Qed.

Lemma list_sum_lt {T} (f g : T -> nat) l x : (forall x, In x l -> (f x <= g x)%nat) -> In x l -> (f x < g x)%nat ->
  (list_sum (map f l) < list_sum (map g l))%nat.
Proof.
  induction l as [|y l IH]; intros H I L; [destruct I|]. simpl. pose proof (H y (or_introl eq_refl)).
  pose proof (list_sum_le f g l (fun z I => H z (or_intror I))).
  destruct I as [->|I]; [lia|]. specialize (IH (fun z I => H z (or_intror I)) I L). lia.
Qed.

Lemma cell_In h i c : cell h i = Some c -> In c (cells h).
Proof. unfold cell. destruct (i <? 0); [discriminate|]. apply nth_error_In. Qed.

Section Mark.
Variable h0 : heap.
Variable root : Z -> Prop.
Hypothesis RDY : gc_ready h0 root.
Notation R := (reach h0 root).
Notation Inv := (Inv h0 root).

(* nesting depth of arrays directly within arrays *)
Variable rk : Z -> nat.
Variable RK : nat.
Hypothesis RKB : forall i, (rk i <= RK)%nat.
Hypothesis RKD : forall w v, R w -> type_of w = TYPE_LISPARRAY -> points h0 w v -> heap_ptr v ->
  type_of v = TYPE_LISPARRAY -> (rk (f_ix v) < rk (f_ix w))%nat.

Definition todo (h : heap) (w : Z) : bool := hpb w && match cell h (f_ix w) with Some c => unm c | None => false end.
Definition Tz (h : heap) (pc : option Z) : nat :=
  match pc with
  | Some w => if todo h w then (if type_of w =? TYPE_LISPARRAY then (rk (f_ix w) + 2)%nat else 1%nat)
              else (RK + 4 + 2 * length (gstack h))%nat
  | None => (RK + 3 + 2 * length (gstack h))%nat
  end.

Definition TB : nat := (RK + 5 + 2 * Z.to_nat (gsize h0))%nat.

Lemma Tz_bound h pc : stack_ok h -> gsize h = gsize h0 -> (Tz h pc < TB)%nat.
Proof.
  intros [L _] G. unfold Tz, TB. assert (length (gstack h) <= Z.to_nat (gsize h0))%nat by lia.
  destruct pc as [w|]; [|lia]. destruct (todo h w); [|lia]. pose proof (RKB (f_ix w)). destruct (type_of w =? TYPE_LISPARRAY); lia.
Qed.

Lemma Sz_bound K h S P : Inv K h S P -> (Sz h <= SB h0)%nat.
Proof.
  intros I. unfold Sz, SB.
  assert (E : map fst (cells h) = map fst (cells h0)).
  { apply list_ext. intros n. rewrite !nth_error_map.
    pose proof (iv_size _ _ _ _ _ _ I) as SZ.
    destruct (nth_error (cells h0) n) as [[a d]|] eqn:C0.
    - assert (C : cell h0 (Z.of_nat n) = Some (a, d)) by (unfold cell; destruct (Z.ltb_spec (Z.of_nat n) 0); [lia|]; rewrite Nat2Z.id; auto).
      destruct (iv_cells _ _ _ _ _ _ I _ _ _ C) as [C1|C1]; unfold cell in C1; destruct (Z.ltb_spec (Z.of_nat n) 0); try lia;
        rewrite Nat2Z.id in C1; rewrite C1; reflexivity.
    - apply nth_error_None in C0. assert (E : nth_error (cells h) n = None) by (apply nth_error_None; unfold hsize in SZ; lia).
      rewrite E. reflexivity. }
  set (ef := fun a => match mem h0 a with Some (OLisp _ _ elts _) => length elts | _ => 0%nat end).
  assert (E1 : map (elts_of h0) (cells h0) = map ef (map fst (cells h0))) by (rewrite map_map; reflexivity).
  rewrite E1, <- E, map_map. apply list_sum_le. intros c _. unfold rest, ef.
  destruct (unm c); [|lia]. destruct (iv_mem _ _ _ _ _ _ I (fst c)) as [->|(w&d&data&size&elts&k&k0&_&_&_&M0&M)].
  - destruct (mem h0 (fst c)) as [[| | | |]|]; lia.
  - rewrite M, M0. lia.
Qed.

Definition smaller (h' : heap) (pc' : option Z) (h : heap) (pc : option Z) : Prop :=
  (Mz h' < Mz h)%nat \/ (Mz h' = Mz h /\ (Sz h' < Sz h)%nat) \/ (Mz h' = Mz h /\ Sz h' = Sz h /\ (Tz h' pc' < Tz h pc)%nat).

Definition pc_of (n : next) : option Z := match n with NGo w => Some w | _ => None end.

Lemma todo_false h w : (negb (is_ptr w) || is_const_ptr w) = true -> todo h w = false.
Proof. unfold todo, hpb. destruct (is_ptr w), (is_const_ptr w); simpl; intros; auto; discriminate. Qed.

Lemma Mz_mk h i c : cell h i = Some c -> word (snd c) -> unm c = true -> (Mz (mk h i c) < Mz h)%nat.
Proof.
  intros C Wc U. unfold Mz, mk, hput. simpl. unfold cell in C. destruct (i <? 0); [discriminate|].
  rewrite <- (filter_upd unm (cells h) (Z.to_nat i) c (fst c, set_gc_mark (snd c))); auto.
  unfold unm. simpl. rewrite get_set; auto.
Qed.

Lemma body_dec K h c P h' nx : Inv K h (c :: gstack h) P -> stack_ok h -> mark_body h c = Ok (h', nx) -> nx <> NCrit ->
  smaller h' (pc_of nx) h (Some c).
Proof.
  intros I SO B NC. unfold mark_body in B.
  destruct (negb (is_ptr c) || is_const_ptr c) eqn:HP.
  { injection B as <- <-. right; right. split; auto. split; auto. unfold Tz, pc_of. rewrite (todo_false _ _ HP). lia. }
  pose proof HP as HP'. apply orb_false_iff in HP as [HP1 HP2]. apply negb_false_iff in HP1.
  assert (Hc : heap_ptr c) by (split; auto).
  destruct (iv_pend _ _ _ _ _ _ I c) as (w&Rw&Ix&Ty); [left; auto|auto|].
  destruct (gr_in _ _ RDY w Rw) as [Ww Lw].
  rewrite dec_ptr_f in B. destruct (cell_some h (f_ix c)) as (cc&C).
  { rewrite (iv_size _ _ _ _ _ _ I). pose proof (f_ix_range c). lia. }
  rewrite rd_cell, C in B. cbn [bind] in B.
  assert (TD : todo h c = negb (get_gc_mark (snd cc))).
  { unfold todo. assert (E : hpb c = true) by (apply hpb_spec; auto). rewrite E, C. reflexivity. }
  destruct (get_gc_mark (snd cc)) eqn:GM.
  { injection B as <- <-. right; right. split; auto. split; auto. unfold Tz, pc_of. rewrite TD. simpl. lia. }
  pose proof (inv_unmarked h0 root RDY _ _ _ _ _ _ I C GM) as C0. destruct cc as [a d]. cbn [fst snd negb] in *.
  destruct (gr_cdr _ _ RDY _ _ _ C0) as [Wd Gd].
  assert (MD : (Mz (mk h (f_ix c) (a, d)) < Mz h)%nat).
  { apply Mz_mk; auto. unfold unm. simpl. rewrite GM. reflexivity. }
  rewrite <- Ix in C0.
  destruct (Z.eqb_spec (type_of c) TYPE_LISPARRAY) as [T|NT].
  - destruct (iv_arr _ _ _ _ _ _ I w a d Rw ltac:(congruence) C0) as (data&elts&k&M0&M&Kl&L32&D&Zk&Zs).
    set (h1 := gpush_ignored h c) in *.
    assert (E1 : cells h1 = cells h /\ mem h1 = mem h).
    { unfold h1, gpush_ignored, gpush. destruct (_ =? _); auto. }
    destruct E1 as (Ec&Em). clearbody h1.
    rewrite Em, M in B. destruct (nth_error elts k) as [e|] eqn:Ek; [|apply nth_error_None in Ek; lia].
    rewrite (rd_nth_error _ _ _ Ek) in B. cbn [bind] in B.
    assert (HC : forall i, cell h1 i = cell h i) by (intros; unfold cell; rewrite Ec; auto).
    assert (ME : Mz h1 = Mz h) by (unfold Mz; rewrite Ec; auto).
    assert (SE : Sz h1 = Sz h) by (unfold Sz; rewrite Ec; f_equal; apply map_ext; intros x; unfold rest; rewrite Em; auto).
    assert (Re : is_followed e = true -> R e /\ points h0 w e /\ heap_ptr e).
    { intros Fe. apply followed_spec in Fe as [He Nc].
      assert (points h0 w e) by (eapply pt_elt; eauto; [congruence|]; eapply nth_error_In; eauto).
      split; auto. eapply reach_step; eauto. }
    assert (FOL : exists b, (if is_followed e then let! ec := rd (cells h1) (dec_ptr e) in Ok (negb (get_gc_mark (snd ec))) else Ok false) = Ok b /\
       (b = true -> is_followed e = true /\ todo h1 e = true)).
    { destruct (is_followed e) eqn:Fe; [|exists false; split; auto; discriminate].
      destruct (Re eq_refl) as (Re'&_&He). destruct (gr_in _ _ RDY e Re') as [_ Le].
      destruct (cell_some h (f_ix e)) as (ce&Ce). { rewrite (iv_size _ _ _ _ _ _ I). pose proof (f_ix_range e). lia. }
      rewrite dec_ptr_f, rd_cell, HC, Ce. cbn [bind]. eexists. split; [reflexivity|]. intros Ub. split; auto.
      unfold todo. rewrite HC, Ce. apply hpb_spec in He. rewrite He. exact Ub. }
    destruct FOL as (b&EB&HB). rewrite EB in B. cbn [bind] in B.
    destruct b.
    + (* descend *)
      injection B as <- <-. destruct (HB eq_refl) as (Fe&Te). destruct (Re Fe) as (Re'&Pe&He).
      right; right. split; auto. split; auto. unfold pc_of, Tz. rewrite Te, TD, T, Z.eqb_refl.
      destruct (Z.eqb_spec (type_of e) TYPE_LISPARRAY) as [TE|]; [|lia].
      pose proof (RKD w e Rw ltac:(congruence) Pe He TE). rewrite Ix in H. lia.
    + rewrite size_minus in B by lia.
      destruct (Z.ltb_spec (Z.of_nat k) (Z.of_nat (length elts) - 1)).
      * (* index++ *)
        injection B as <- <-. right; left. split; auto.
        rewrite <- SE. unfold Sz, set_obj. simpl. apply list_sum_lt with (x := (a, d)).
        -- intros x _. unfold rest. simpl. destruct (unm x); [|lia].
           destruct (Z.eqb_spec (fst x) a) as [->|]; [|lia]. rewrite Em, M. rewrite wrap_small by lia. lia.
        -- rewrite Ec. eapply cell_In; eauto.
        -- unfold rest. simpl. rewrite Z.eqb_refl. unfold unm. simpl. rewrite GM. simpl. rewrite Em, M. rewrite wrap_small by lia. lia.
      * (* done *)
        set (h2 := set_obj h1 a (Some (OLisp data (WB * Z.of_nat (length elts)) elts 0))) in *.
        assert (C2 : cell h2 (f_ix c) = Some (a, d)) by (change (cell h2 (f_ix c)) with (cell h1 (f_ix c)); rewrite HC; auto).
        rewrite (mark_cell_ok _ _ _ C2) in B. cbn [bind] in B.
        destruct (gpop (inc_marked (mk h2 (f_ix c) (a, d)))) as [[hp vp]| |] eqn:Gp; cbn [bind fst] in B; try discriminate.
        injection B as <- <-. left.
        assert (Ep : Mz hp = Mz (mk h2 (f_ix c) (a, d))).
        { unfold gpop in Gp. destruct (gstack (inc_marked (mk h2 (f_ix c) (a, d)))); [discriminate|]. injection Gp as <- _. reflexivity. }
        rewrite Ep, <- ME.
        change (Mz h1) with (Mz h2). apply Mz_mk; auto. unfold unm. simpl. rewrite GM. reflexivity.
  - rewrite (mark_cell_ok _ _ _ C) in B. cbn [bind] in B. left.
    destruct (type_of c =? TYPE_CHANNEL).
    + destruct (negb (a =? NIL)).
      * destruct (mem _ a) as [[| |st dep| |]|]; try discriminate. injection B as <- <-. exact MD.
      * injection B as <- <-. exact MD.
    + destruct (type_of c =? TYPE_CONS).
      * destruct (is_ptr d).
        -- unfold gpush in B. destruct (_ =? _); injection B as <- <-; [congruence|exact MD].
        -- injection B as <- <-. exact MD.
      * injection B as <- <-. exact MD.
Qed.

Definition mu (h : heap) (pc : option Z) : nat := ((Mz h * (SB h0 + 1) + Sz h) * TB + Tz h pc)%nat.

Lemma mu_lt K S P h' pc' h pc : smaller h' pc' h pc -> Inv K h' S P -> stack_ok h' -> gsize h' = gsize h0 -> (mu h' pc' < mu h pc)%nat.
Proof.
  intros L I SO G. pose proof (Sz_bound _ _ _ _ I) as B1. pose proof (Tz_bound h' pc' SO G) as B2. unfold mu.
  destruct L as [L|[[E L]|(E1&E2&L)]].
  - assert (X : ((Mz h' * (SB h0 + 1) + Sz h' + 1) * TB <= (Mz h * (SB h0 + 1) + Sz h) * TB)%nat) by (apply Nat.mul_le_mono_r; nia). nia.
  - rewrite E. assert (X : ((Mz h * (SB h0 + 1) + Sz h' + 1) * TB <= (Mz h * (SB h0 + 1) + Sz h) * TB)%nat) by (apply Nat.mul_le_mono_r; lia). nia.
  - rewrite E1, E2. lia.
Qed.

Lemma mark_run_fuel K P fuel : forall h pc, Inv K h (opt pc ++ gstack h) P -> stack_ok h -> gsize h = gsize h0 ->
  (mu h pc < fuel)%nat -> mark_run fuel h pc <> Fuel.
Proof.
  induction fuel as [|fuel IH]; intros h pc I SO G L; [lia|]. cbn [mark_run].
  destruct pc as [w|].
  - simpl in I. destruct (body_inv h0 root RDY K h w P I SO) as (h'&nx&E&SO'&F&_&Nx). rewrite E. cbn [bind fst snd].
    assert (G' : gsize h' = gsize h0) by (destruct F as (_&_&_&_&_&_&->); auto).
    destruct nx as [|w'|]; [| |discriminate].
    + destruct Nx as [X|Nx]; [discriminate|]. apply IH; auto.
      pose proof (body_dec K h w P h' NPop I SO E ltac:(discriminate)) as Sm. simpl in Sm.
      pose proof (mu_lt _ _ _ _ _ _ _ Sm Nx SO' G'). lia.
    + destruct Nx as [X|Nx]; [discriminate|]. apply IH; auto.
      pose proof (body_dec K h w P h' (NGo w') I SO E ltac:(discriminate)) as Sm. simpl in Sm.
      pose proof (mu_lt _ _ _ _ _ _ _ Sm Nx SO' G'). lia.
  - simpl in I. destruct (gstack h) as [|v s] eqn:Eg; [discriminate|].
    assert (SO2 : stack_ok (set_gstack h s)) by (destruct SO as [s1 s2]; rewrite Eg in s1; simpl in s1; split; simpl; lia).
    assert (I2 : Inv K (set_gstack h s) (v :: s) P) by (eapply inv_ext; eauto).
    apply IH; auto.
    assert (Sm : smaller (set_gstack h s) (Some v) h None).
    { right; right. split; auto. split; auto. unfold Tz. rewrite Eg. simpl gstack. cbn [length].
      destruct (todo (set_gstack h s) v); [|lia]. pose proof (RKB (f_ix v)). destruct (type_of v =? TYPE_LISPARRAY); lia. }
    pose proof (mu_lt _ _ _ _ _ _ _ Sm I2 SO2 G). lia.
Qed.

(* enough fuel for any marking *)
Definition enough : nat := ((length (cells h0) * (SB h0 + 1) + SB h0 + 1) * TB)%nat.

Lemma Mz_bound K h S P : Inv K h S P -> (Mz h <= length (cells h0))%nat.
Proof.
  intros I. pose proof (iv_size _ _ _ _ _ _ I) as E. unfold hsize in E. unfold Mz.
  pose proof (filter_len unm (cells h)). lia.
Qed.

Lemma mu_bound K h S P pc : Inv K h S P -> stack_ok h -> gsize h = gsize h0 -> (mu h pc < enough)%nat.
Proof.
  intros I SO G. pose proof (Sz_bound _ _ _ _ I). pose proof (Tz_bound h pc SO G). pose proof (Mz_bound _ _ _ _ I).
  unfold mu, enough.
  assert (X : ((Mz h * (SB h0 + 1) + Sz h + 1) * TB <= (length (cells h0) * (SB h0 + 1) + SB h0 + 1) * TB)%nat)
    by (apply Nat.mul_le_mono_r; nia). nia.
Qed.

Lemma mark_phase_fuel K h P r fuel : Inv K h [] (r :: P) -> gstack h = [] -> gsize h = gsize h0 -> 1 <= gsize h ->
  (enough <= fuel)%nat -> mark_phase fuel h r <> Fuel.
Proof.
  intros I G GS S L. unfold mark_phase. rewrite G. cbn [length]. change (Z.of_nat 0) with 0.
  destruct (Z.ltb_spec 0 (gsize h)); [|lia].
  assert (I1 : Inv K (set_gstack h [r]) [r] P).
  { eapply inv_ext with (h := h); [|reflexivity|reflexivity|auto].
    eapply inv_weaken with (S := []) (P := r :: P); eauto.
    - intros _ p [].
    - apply (iv_pend _ _ _ _ _ _ I). }
  assert (SO : stack_ok (set_gstack h [r])) by (split; simpl; lia).
  eapply mark_run_fuel; eauto. pose proof (mu_bound _ _ _ _ None I1 SO GS). lia.
Qed.

Lemma mark_roots_fuel K fuel rs : (enough <= fuel)%nat -> forall h P, Inv K h [] (rs ++ P) -> gstack h = [] ->
  gsize h = gsize h0 -> 1 <= gsize h -> mark_roots fuel h rs <> Fuel.
Proof.
  intros L. induction rs as [|r rs IH]; intros h P I G GS S; [discriminate|]. cbn [mark_roots].
  pose proof (mark_phase_fuel K h _ r fuel I G GS S L) as NF.
  destruct (mark_phase_inv h0 root RDY K h _ r fuel I G S) as [X|(h1&b&->&F&_&N)]; [congruence|]. cbn [bind snd fst].
  destruct b; [|discriminate]. destruct (N eq_refl) as [G1 I1]. destruct F as (_&_&_&_&_&_&F).
  eapply IH; eauto; congruence.
Qed.

Lemma mark_aux_fuel K fuel xs : (enough <= fuel)%nat -> forall h P, Inv K h [] (auxs (hsize h0) xs ++ P) -> gstack h = [] ->
  gsize h = gsize h0 -> 1 <= gsize h -> mark_aux fuel h xs <> Fuel.
Proof.
  intros L. induction xs as [|r rs IH]; intros h P I G GS S; [discriminate|]. cbn [mark_aux]. cbn [auxs filter] in I.
  assert (E : aux_ok h r = is_ptr r && (POINTER_TYPE_FIRST <=? type_of r) && (type_of r <=? POINTER_TYPE_LAST) && (dec_ptr r <? hsize h0)).
  { unfold aux_ok. fold (hsize h). rewrite (iv_size _ _ _ _ _ _ I). reflexivity. }
  rewrite <- E in I. destruct (aux_ok h r); [|eapply IH; eauto].
  pose proof (mark_phase_fuel K h _ r fuel I G GS S L) as NF.
  destruct (mark_phase_inv h0 root RDY K h _ r fuel I G S) as [X|(h1&b&->&F&_&N)]; [congruence|]. cbn [bind snd fst].
  destruct b; [|discriminate]. destruct (N eq_refl) as [G1 I1]. destruct F as (_&_&_&_&_&_&F).
  eapply IH; eauto; congruence.
Qed.

(* an environment of [n] bindings *)
Inductive env_len : Z -> nat -> Prop :=
| el_nil e : is_ptr e = false -> env_len e 0
| el_cons e b d k v n : heap_ptr e -> type_of e = TYPE_CONS -> cell h0 (f_ix e) = Some (b, d) ->
    heap_ptr b -> type_of b = TYPE_CONS -> cell h0 (f_ix b) = Some (k, v) -> is_ptr k = false ->
    env_len d n -> env_len e (S n).

Lemma env_len_at e n : env_len e n -> env_at h0 e.
Proof. induction 1; [apply env_nil; auto|eapply env_cons; eauto]. Qed.
Lemma env_at_len e : env_at h0 e -> exists n, env_len e n.
Proof. induction 1 as [e Ne|e b d k v He Te Ce Hb Tb Cb Nk Ed (n&IH)]; [exists 0%nat; apply el_nil; auto|exists (S n); eapply el_cons; eauto]. Qed.

Lemma mark_env_fuel K e n : env_len e n -> forall fuel, (enough + n <= fuel)%nat -> forall h P c, Inv K h [] (c :: P) ->
  same_ptr e c -> gstack h = [] -> gsize h = gsize h0 -> 1 <= gsize h -> mark_env fuel h c <> Fuel.
Proof.
  induction 1 as [e Ne|e b d k v n He Te Ce Hb Tb Cb Nk Ed IH].
  - intros fuel _ h P c I SP _ _ _. destruct (same_ptr_facts _ _ SP) as (E1&_).
    destruct fuel; cbn [mark_env]; rewrite E1, Ne; discriminate.
  - intros fuel L h P c I SP G GS S. destruct (same_ptr_facts _ _ SP) as (E1&E2&E3&E4).
    destruct fuel as [|fuel]; [lia|]. cbn [mark_env]. destruct (is_ptr c) eqn:Pc; [|discriminate].
    destruct (mark_ref_inv h0 root RDY K h P c e b d I SP He Te Ce) as (h1&d1&->&Sd&C1&F1&L1&G1&I1). cbn [bind].
    assert (Cc : forall hh, ref_cell hh c = match cell hh (f_ix e) with Some x => Ok x | None => UB end).
    { intros hh. rewrite ref_cell_rw, E3; auto. rewrite E2. apply He. }
    rewrite Cc, C1. cbn [bind fst].
    destruct (mark_ref_inv h0 root RDY K h1 (d1 :: P) b b k v I1 (or_introl eq_refl) Hb Tb Cb) as (h2&v1&->&Sv&C2&F2&L2&G2&I2). cbn [bind].
    rewrite ref_cell_rw by apply Hb. rewrite C2. cbn [bind fst snd].
    assert (I2' : Inv K h2 [] (v1 :: d1 :: P)) by (apply (inv_drop h0 root K h2 (v1 :: d1 :: P) k I2); intros [X _]; congruence).
    pose proof (gframe_trans _ _ _ F1 F2) as F12.
    assert (GS2 : gsize h2 = gsize h) by (destruct F12 as (_&_&_&_&_&_&->); auto).
    assert (G2' : gstack h2 = []) by congruence.
    assert (GS2' : gsize h2 = gsize h0) by congruence.
    assert (S2 : 1 <= gsize h2) by lia.
    pose proof (mark_phase_fuel K h2 _ v1 (Datatypes.S fuel) I2' G2' GS2' S2 ltac:(lia)) as NF.
    destruct (mark_phase_inv h0 root RDY K h2 (d1 :: P) v1 (Datatypes.S fuel) I2' G2' S2)
      as [X|(h3&bb&->&F3&L3&G3)]; [congruence|]. cbn [bind fst snd]. destruct bb; [|discriminate].
    destruct (G3 eq_refl) as [G3' I3]. clear G3.
    set (h4 := set_counts h3 _ _ _).
    assert (GS4 : gsize h4 = gsize h0) by (change (gsize h4) with (gsize h3); destruct F3 as (_&_&_&_&_&_&->); auto).
    assert (STEP : forall c', same_ptr d c' -> mark_env fuel h4 c' <> Fuel).
    { intros c' SP'.
      assert (I4 : Inv K h4 [] (c' :: P)).
      { eapply inv_ext with (h := h3); [|reflexivity|reflexivity|auto]. exact (inv_swap h0 root K h3 P d d1 c' Sd SP' I3). }
      eapply IH; eauto; [lia|]. rewrite GS4, <- GS. auto. }
    destruct (iv_cells _ _ _ _ _ _ I3 _ _ _ Ce) as [C3|C3].
    all: rewrite Cc; change (cell h4 (f_ix e)) with (cell h3 (f_ix e)); rewrite C3; cbn [bind snd].
    all: eapply STEP; unfold same_ptr; destruct (gr_cdr _ _ RDY _ _ _ Ce); auto.
Qed.

Lemma mark_envs_fuel K es n : Forall (fun e => exists m, env_len e m /\ (m <= n)%nat) es -> forall fuel, (enough + n <= fuel)%nat -> forall h P,
  Inv K h [] (es ++ P) -> gstack h = [] -> gsize h = gsize h0 -> 1 <= gsize h -> mark_envs fuel h es <> Fuel.
Proof.
  intros FE fuel L. induction FE as [|e es (m&He&Hm) Hes IH]; [discriminate|].
  intros h P I G GS S. cbn [mark_envs].
  pose proof (mark_env_fuel K e m He fuel ltac:(lia) h _ e I (or_introl eq_refl) G GS S) as NF.
  destruct (mark_env_inv h0 root RDY K fuel h _ e e I G S (env_len_at _ _ He) (or_introl eq_refl)) as [X|(h1&b&->&F&_&N)]; [congruence|].
  cbn [bind snd fst]. destruct b; [|discriminate]. destruct (N eq_refl) as [G1 I1]. destruct F as (_&_&_&_&_&_&F).
  eapply IH; eauto; congruence.
Qed.

Lemma mark_contexts_fuel K cs n : Forall (fun c => exists m, env_len (c_env c) m /\ (m <= n)%nat) cs -> forall fuel, (enough + n <= fuel)%nat -> forall h P,
  Inv K h [] (flat_map (ctx_words (hsize h0)) cs ++ P) -> gstack h = [] -> gsize h = gsize h0 -> 1 <= gsize h ->
  mark_contexts fuel h cs <> Fuel.
Proof.
  intros FE fuel L. induction FE as [|c cs (m&He0&Hm) Hes IH]; [discriminate|].
  pose proof (env_len_at _ _ He0) as He. intros h P I G GS S. cbn [mark_contexts].
  cbn [flat_map] in I. rewrite <- app_assoc in I.
  destruct (mark_context_inv h0 root RDY K fuel h _ c I G S He) as [X|(h1&b&->&F&_&N)].
  - exfalso. revert X. unfold mark_context. unfold ctx_words in I. cbn [app] in I. rewrite <- app_assoc in I.
    pose proof (mark_env_fuel K (c_env c) m He0 fuel ltac:(lia) h _ (c_env c) I (or_introl eq_refl) G GS S) as NF.
    destruct (mark_env_inv h0 root RDY K fuel h _ _ _ I G S He (or_introl eq_refl)) as [X|(h1&b&->&F&_&N)]; [congruence|].
    cbn [bind snd fst]. destruct b; [|discriminate]. destruct (N eq_refl) as [G1 I1]. destruct F as (_&_&_&_&_&_&F).
    assert (GS1 : gsize h1 = gsize h0) by congruence. assert (S1 : 1 <= gsize h1) by lia.
    pose proof (mark_roots_fuel K fuel _ ltac:(lia) h1 _ I1 G1 GS1 S1) as NF1.
    destruct (mark_roots_inv h0 root RDY K fuel _ h1 _ I1 G1 S1) as [X|(h2&b&->&F2&_&N2)]; [congruence|].
    cbn [bind snd fst]. destruct b; [|discriminate]. destruct (N2 eq_refl) as [G2 I2]. destruct F2 as (_&_&_&_&_&_&F2).
    eapply mark_aux_fuel; eauto; [lia|congruence|congruence].
  - cbn [bind snd fst]. destruct b; [|discriminate]. destruct (N eq_refl) as [G1 I1]. destruct F as (_&_&_&_&_&_&F).
    eapply IH; eauto; congruence.
Qed.

End Mark.
End Arch.
