(* C69: after the tail of a dotted list there must be the closing parenthesis. *)
From Coq Require Import String.
From Verif Require Import Base Value_Model Heap_Model Value_Proofs Value_Proofs2 Value_Props Heap_Spec Heap_Proofs Heap_Proofs2 List_Proofs Env_Proofs
  GC_Model Eq_Model Eq_Spec Eq_Props Sym_Model Sym_Props Flat_Model Flat_Spec Flat_Proofs Flat_Proofs2 Flat_Proofs3 QQ_Model Tok_Model Print_Spec
  Read_Model Read_Spec Read_Proofs Read_Proofs2 Read_Proofs3 Read_Proofs4 Read_Proofs5 Read_Props.
Import List Read_Spec.
Local Open Scope Z_scope.

Section Props.
Context {A : Arch} {L : Libc}.

(* ( e1 . e2 e3 ... is refused *)
Theorem read_dot_more b c0 o1 s1 e1 c1 c2 o2 s2 e2 c3 o3 s3 e3 rest u fl :
  blank b -> blank c0 -> blank c1 -> blank c2 -> blank c3 -> spell o1 s1 e1 -> spell o2 s2 e2 -> spell o3 s3 e3 ->
  (o1 = true -> ends (c1 ++ codes "." ++ c2 ++ s2 ++ c3 ++ s3 ++ rest)) -> (o2 = true -> ends (c3 ++ s3 ++ rest)) -> (o3 = true -> ends rest) ->
  ready (Cn e1 (Cn e2 e3)) u fl ->
  exists n, forall fuel, read Expression (n + fuel) u (b ++ codes "(" ++ c0 ++ s1 ++ c1 ++ codes "." ++ c2 ++ s2 ++ c3 ++ s3 ++ rest) = Ok RErr.
Proof.
  intros B B0 B1 B2 B3 S1 S2 S3 E1 E2 E3 R. pose proof (ready_wf _ _ _ R) as Wf. pose proof (y_names _ _ _ R) as N. pose proof (y_array _ _ _ R) as Rm.
  destruct reads_all as (RA&_). set (K := [FDone Expression]).
  cbn [cells blocks symbols all_names Nat.add] in Wf, N. destruct N as (N1&N2&N3). change (room (Cn e1 (Cn e2 e3))) in Rm.
  pose proof (room_l _ _ Rm) as Rm1. pose proof (room_r _ _ Rm) as Rm'. pose proof (room_l _ _ Rm') as Rm2. pose proof (room_r _ _ Rm') as Rm3.
  set (t1 := c1 ++ codes "." ++ c2 ++ s2 ++ c3 ++ s3 ++ rest) in *.
  destruct (RA _ _ _ S1 (S (cells e2 + cells e3)) (blocks e2 + blocks e3)%nat (symbols e2 + symbols e3)%nat u fl c0 (FItems NIL NIL :: K) (enc_sym SYM_OPENPAR) t1 B0) as (u1&fl1&v1&G1&Bu1); auto.
  { eapply wf_weak; [..|exact Wf]; lia. }
  destruct (append_first (cells e2 + cells e3) (blocks e2 + blocks e3) (symbols e2 + symbols e3) u1 fl1 v1 t1 K) as (i&fl2&u2&F1&G2&W2&Ci&Gr&Us&Ri).
  { apply Bu1. } { apply Bu1. }
  pose proof (ok_nodup _ _ (w_heap _ _ _ _ _ (p_wf _ _ _ _ _ _ _ _ _ Bu1))) as ND1. rewrite F1 in ND1. inversion ND1 as [|? ? NIi ND2]; subst x l.
  assert (G3 : goes u2 t1 (FNext :: FItems (enc_cons_ptr i) (enc_cons_ptr i) :: K) v1 u2 (c2 ++ s2 ++ c3 ++ s3 ++ rest) (FNext :: FDot (enc_cons_ptr i) (enc_cons_ptr i) :: K) DOT).
  { eapply goes_trans.
    { apply (syntax_goes c1 46 5 (c2 ++ s2 ++ c3 ++ s3 ++ rest) u2 _ v1 (FItems (enc_cons_ptr i) (enc_cons_ptr i) :: K) DOT B1); [cbn; tauto|]. intros s0 _. reflexivity. }
    apply goes_step. intros f fr. exists fr. split; [auto|]. unfold rstep. cbn [rk]. unfold read_append. cbn [rr ru]. rewrite dot_type, dot_not_close, Z.eqb_refl. reflexivity. }
  assert (K1 : kept (us u) (us u2)) by (rewrite Us; apply Bu1).
  destruct names_good as (NG&_).
  destruct (RA _ _ _ S2 (cells e3) (blocks e3) (symbols e3) u2 fl2 c2 (FDot (enc_cons_ptr i) (enc_cons_ptr i) :: K) DOT (c3 ++ s3 ++ rest) B2) as (u3&fl3&v2&G4&Bu2); auto.
  { eapply wf_weak; [..|exact W2]; lia. }
  { eapply addable_kept; [exact K1|apply names_ok; eauto|auto]. }
  destruct (not_marker v2 (p_plain _ _ _ _ _ _ _ _ _ Bu2)) as (_&_&NM).
  assert (C3 : cell (uh u3) i = Some (v1, NIL)) by (destruct (p_grows _ _ _ _ _ _ _ _ _ Bu2) as (Sb&_); rewrite Sb; auto).
  set (u4 := set_h u3 (hput (uh u3) i (v1, v2))).
  assert (G5 : goes u3 (c3 ++ s3 ++ rest) (FDot (enc_cons_ptr i) (enc_cons_ptr i) :: K) v2 u4 (c3 ++ s3 ++ rest) (FNext :: FClose (enc_cons_ptr i) :: K) (enc_cons_ptr i)).
  { apply goes_step. intros f fr. exists fr. split; [auto|]. unfold rstep. cbn [rk]. unfold read_dot. cbn [rr ru]. rewrite NM.
    rewrite rw_is_cons by (auto using enc_rw, enc_word). rewrite (set_cdr_enc _ i v1 NIL _ Ri C3). reflexivity. }
  assert (NI3 : ~ In i fl3) by (intros H; apply NIi; apply (p_incl _ _ _ _ _ _ _ _ _ Bu2); auto).
  assert (W4 : wf (cells e3) (blocks e3) (symbols e3) u4 fl3) by (apply put_wf; auto; [apply Bu2|lia]).
  destruct (RA _ _ _ S3 0%nat 0%nat 0%nat u4 fl3 c3 (FClose (enc_cons_ptr i) :: K) (enc_cons_ptr i) rest B3) as (u5&fl5&v3&G6&Bu3); auto.
  { cbn [us set_h]. eapply addable_kept; [apply (p_kept _ _ _ _ _ _ _ _ _ Bu2)|apply names_ok; eauto|].
    eapply addable_kept; [exact K1|apply names_ok; eauto|auto]. }
  destruct (not_marker v3 (p_plain _ _ _ _ _ _ _ _ _ Bu3)) as (NC&_).
  destruct (goes_trans _ _ _ _ _ _ _ _ _ _ _ _ G1 (goes_trans _ _ _ _ _ _ _ _ _ _ _ _ G2 (goes_trans _ _ _ _ _ _ _ _ _ _ _ _ G3 (goes_trans _ _ _ _ _ _ _ _ _ _ _ _ G4 (goes_trans _ _ _ _ _ _ _ _ _ _ _ _ G5 G6)))) false) as (n&fr&_&X).
  exists (S (n + 1)). intros fuel. unfold read, read_start. cbn [app Nat.add read_run].
  destruct (syntax_token 40 1 (c0 ++ s1 ++ t1) ltac:(cbn; tauto)) as (Tk&St).
  rewrite (next_step b [40] (c0 ++ s1 ++ t1) (KSyntax 1)); auto; [|exists 40, []; auto]. cbn [bind].
  replace (n + 1 + fuel)%nat with (n + S fuel)%nat by lia.
  etransitivity; [apply X|]. cbn [read_run]. unfold rstep. cbn [rk]. unfold read_expect_close. cbn [rr]. rewrite NC. reflexivity.
Qed.
End Props.

(* (1 . 2 3) *)
Lemma num_text {A : Arch} c k : codes c = [48 + k] -> k = 1 \/ k = 2 \/ k = 3 -> spell true (codes c) (Nu KI k).
Proof.
  intros -> [->|[->| ->]]; apply sp_num.
  - apply (nt_dec false (codes "1") [] KI 1); [discriminate|unfold digit; all_of|cbn; lia|left; reflexivity|reflexivity|ranged].
  - apply (nt_dec false (codes "2") [] KI 2); [discriminate|unfold digit; all_of|cbn; lia|left; reflexivity|reflexivity|ranged].
  - apply (nt_dec false (codes "3") [] KI 3); [discriminate|unfold digit; all_of|cbn; lia|left; reflexivity|reflexivity|ranged].
Qed.
Example dot_more_case {A : Arch} : exists u n, start 30 8 = Ok u /\ forall fuel, read (L := libc0) Expression (n + fuel) u (codes "(1 . 2 3)") = Ok RErr.
Proof.
  destruct (start_ready (Cn (Nu KI 1) (Cn (Nu KI 2) (Nu KI 3)))) as (u&E&R); [destruct A; cbn; lia..|apply plain_names; cbn; repeat split; lia|]. exists u.
  destruct (read_dot_more (L := libc0) [] [] true (codes "1") (Nu KI 1) (codes " ") (codes " ") true (codes "2") (Nu KI 2) (codes " ") true (codes "3") (Nu KI 3) (codes ")") u (zseq 32)) as (n&H);
    try exact R; try apply b_nil; try apply space_blank; try (apply num_text; [reflexivity|lia]).
  - intros _. left. left. reflexivity.
  - intros _. left. left. reflexivity.
  - intros _. right. cbn. auto.
  - exists n. split; [exact E|exact H].
Qed.
Print Assumptions read_dot_more.
