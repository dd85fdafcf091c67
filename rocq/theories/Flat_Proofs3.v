(* The whole of flattening and unflattening a value. *)
From Verif Require Import Base Value_Model Value_Proofs Value_Proofs2 Value_Props Heap_Model Heap_Spec Heap_Proofs List_Proofs GC_Model
  Eq_Model Eq_Spec Eq_Props Set_Props Sym_Model Sym_Props Flat_Model Flat_Spec Flat_Proofs Flat_Proofs2.
Local Open Scope Z_scope.

Section Arch.
Context {A : Arch}.

Lemma repeat_at n : mkF (repeat 0 n) 0 = at_pos [] (repeat 0 n ++ []).
Proof. unfold at_pos. rewrite app_nil_r. reflexivity. Qed.

Lemma flatten_value_ok nm u v t i fl a b rest fuel maxd : heap_ok (uh u) (i :: fl) -> no_null (uh u) -> den (i :: fl) (uh u) v t ->
  flat_ok (named_in (us u) nm) t -> (depth t <= fuel)%nat -> Z.of_nat (depth t) <= maxd + 1 -> Z.of_nat (length (ser nm t)) < 2 ^ 31 ->
  up u = a :: b :: rest -> a <> 0 -> b <> 0 ->
  exists u1 w, flatten_value fuel maxd u v = Ok (u1, w) /\ heap_ok (uh u1) fl /\ same_but (i :: fl) (uh u) (uh u1) /\
    ccells (uh u1) = ccells (uh u) /\ (forall x, x <> a -> mem (uh u1) x = mem (uh u) x) /\ us u1 = us u /\ up u1 = rest /\ uk u1 = uk u /\
    den fl (uh u1) w (Bytes (ser nm t)).
Proof.
  intros OK N0 D FO DF DM B U NA NB.
  destruct (alloc_cell_ok (uh u) i fl TYPE_CONS NIL (enc_sym SYM_ARRAY_TYPE) OK tag_cons) as (h1&E&OK1&C&S&Sz&Cc&M&_&I&R&_).
  assert (R8 : 0 <= i < 2 ^ (W - 8)) by (pose proof (ok_size _ _ OK); lia). rewrite cons_enc in E by auto.
  pose proof (ok_nodup _ _ OK) as ND. inversion ND as [|? ? NI ND']; subst.
  assert (D1 : den fl h1 v t).
  { eapply den_grows; [|apply incl_tl, incl_refl|exact D]. split; [|split; [auto|rewrite M; auto]].
    intros j J. apply S. intros [->|[]]. apply J. left; auto. }
  assert (N1 : no_null h1) by (unfold no_null; rewrite M; auto).
  destruct (tagged_facts i TYPE_CONS R8 good_cons) as (_&_&_&_&NM). rewrite cons_enc in NM by auto.
  assert (SZ : value_size maxd (us u) h1 v = Ok (Z.of_nat (length (ser nm t)))) by (eapply value_size_ok; eauto).
  pose proof (ser_pos nm t) as SP.
  assert (FC : flatten_c fuel (us u) h1 (at_pos [] (repeat 0 (length (ser nm t)) ++ [])) v = Ok (F_OK, at_pos (ser nm t) [])).
  { eapply (flatten_ok (us u) nm fl h1 N1 t v fuel [] _ []); eauto. apply repeat_length. }
  unfold flatten_value. rewrite E. cbn [bind]. rewrite merror_neq by auto. cbv zeta. rewrite SZ. cbn [bind].
  destruct (Z.of_nat (length (ser nm t)) >? 0) eqn:GT; [|lia].
  unfold malloc. cbn [up set_h]. rewrite U. cbn [up]. destruct (Z.eqb_spec a 0); [congruence|]. destruct (Z.eqb_spec b 0); [congruence|].
  cbn [uh set_h us uk]. rewrite Nat2Z.id, repeat_at, FC. cbn [bind]. change (F_OK =? F_OK) with true. cbv iota.
  unfold set_car. pose proof (enc_rw i R8) as RW. unfold is_cons_rw in RW. rewrite RW.
  assert (C' : cell (set_obj h1 a (Some (OByte b (buf (at_pos (ser nm t) []))))) i = Some (NIL, enc_sym SYM_ARRAY_TYPE)) by exact C.
  rewrite ref_cell_rw, enc_ix, C' by auto using enc_not_const. cbn [bind]. rewrite put_cell_rw, enc_ix, C' by auto using enc_not_const. cbn [bind fst snd].
  do 2 eexists. split; [reflexivity|]. cbn [uh us up uk set_h].
  destruct (tagged_facts i TYPE_ARRAY R8 good_array) as (P'&I'&K'&T'&NM').
  split; [apply heap_ok_put; auto using set_obj_ok; lia|]. split.
  { intros j J. rewrite cell_hput_neq; [|lia|intros ->; apply J; left; auto]. apply S. intros [->|[]]. apply J. left; auto. }
  split; [auto|]. split. { intros x X. cbn. destruct (Z.eqb_spec x a); [congruence|]. rewrite M. reflexivity. }
  split; [auto|split; [auto|split; [auto|]]].
  eapply den_bytes with (p := a) (q := enc_sym SYM_ARRAY_TYPE); auto.
  - intros _ _. rewrite I'. auto.
  - rewrite ref_cell_rw, I' by auto. rewrite cell_hput_eq with (c := (NIL, enc_sym SYM_ARRAY_TYPE)); auto.
  - cbn. rewrite Z.eqb_refl. rewrite app_nil_r. reflexivity.
Qed.

Lemma hide_none fl h v t : den fl (hide (fun _ => false) h) v t -> den fl h v t.
Proof.
  intros D. eapply den_grows; [|apply incl_refl|exact D]. split; [intros ? ?; reflexivity|split; [reflexivity|]]. cbn. auto.
Qed.

Lemma unflatten_value_ok nm u t fl ads rest fuel gc : heap_ok (uh u) fl -> flat_ok (interned (us u) nm) t -> (depth t <= fuel)%nat ->
  (cells_of t <= length fl)%nat -> up u = ads ++ rest -> length ads = blocks_of t -> Forall (fun a => a <> 0) ads -> NoDup ads ->
  Z.of_nat (length (ser nm t)) < 2 ^ 31 ->
  exists u' v fl', unflatten_value fuel gc u (mkF (ser nm t) 0) = Ok (u', true, v) /\ gives t u u' v ads rest fl fl' /\ den fl' (uh u') v t.
Proof.
  intros OK FO DF CL U LA NZ ND B.
  destruct (un_ok (us u) nm t fuel FO DF u [] [] fl ads rest eq_refl OK CL U LA NZ ND B) as (u'&v&fl'&E&G).
  exists u', v, fl'. split; [|split; [auto|apply hide_none, (g_den _ _ _ _ _ _ _ _ G); auto]].
  unfold unflatten_value. replace (mkF (ser nm t) 0) with (at_pos [] (ser nm t ++ [])) by (unfold at_pos; rewrite app_nil_r; reflexivity).
  rewrite E. cbn [bind]. reflexivity.
Qed.

End Arch.
