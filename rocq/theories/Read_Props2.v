(* C70: reading the text printed for a value gives the value back. *)
From Coq Require Import String.
From Verif Require Import Base Value_Model Heap_Model Value_Proofs Value_Proofs2 Value_Props Heap_Spec Heap_Proofs Heap_Proofs2 List_Proofs Env_Proofs
  GC_Model Eq_Model Eq_Spec Eq_Props Sym_Model Sym_Props Flat_Model Flat_Spec Flat_Proofs Flat_Proofs2 Flat_Proofs3 QQ_Model Tok_Model Stack_Model Print_Model Print_Spec
  Read_Model Read_Spec Read_Proofs Read_Proofs2 Read_Proofs3 Read_Proofs4 Read_Proofs5.
From Verif Require Flat_Props Print_Props.
From Verif Require Import Read_Props.
Import List Read_Spec.
Local Open Scope Z_scope.

Section Arch.
Context {A : Arch}.

(* ---- Specification ---- *)
(* The trees whose text can be read back: the symbols have the name of a symbol
   without capitals, and the name leads back to the symbol; there are no floats
   and no arrays of values, and no string is longer than 256. *)
Inductive readable (sy : syms) (nm : Z -> name) : tree -> Prop :=
| ra_sym n : symbol_text (nm n) -> map lower (nm n) = nm n -> get_symbol_by_name sy (nm n) = Ok (Some n) -> readable sy nm (Leaf KSym n)
| ra_num k n : k <> KSym -> k <> KFloat -> k <> Eq_Spec.KDouble -> in_range k n -> readable sy nm (Leaf k n)
| ra_pair a d : readable sy nm a -> readable sy nm d -> readable sy nm (Pair a d)
| ra_bytes bs : Forall (fun b => 0 <= b < 256) bs -> (stringy bs -> (List.length bs <= 257)%nat) -> readable sy nm (Bytes bs).
(* the tree as an expression: symbols by name *)
Fixpoint expression (nm : Z -> name) (t : tree) : sexp :=
  match t with
  | Leaf KSym n => Sy (nm n)
  | Leaf k n => Nu k n
  | Pair a d => Cn (expression nm a) (expression nm d)
  | Bytes bs => By bs
  | Arr _ => empty
  end.

(* ---- Proofs ---- *)
Lemma digits_grow s : forall a, Forall (fun c => 48 <= c <= 57) s -> 0 <= a ->
  a * 10 ^ Z.of_nat (List.length s) <= fold_left (fun a c => a * 10 + (c - 48)) s a.
Proof.
  induction s as [|c s IH]; intros a F P; cbn [List.length fold_left].
  - rewrite Z.pow_0_r. lia.
  - apply Forall_cons_iff in F. destruct F as (C&F). specialize (IH (a * 10 + (c - 48)) F ltac:(lia)).
    replace (Z.of_nat (S (List.length s))) with (Z.of_nat (List.length s) + 1) by lia. rewrite Z.pow_add_r by lia. rewrite Z.pow_1_r.
    assert (0 < 10 ^ Z.of_nat (List.length s)) by (apply Z.pow_pos_nonneg; lia). nia.
Qed.
Lemma decimal_short n s : decimal n s -> n < 10 ^ 20 -> (List.length s <= 20)%nat.
Proof.
  intros (NE&F&V&Z0) R. destruct s as [|c s]; [congruence|]. destruct s as [|c1 s]; [cbn; lia|].
  assert (C : c <> 48) by (intros ->; specialize (Z0 _ eq_refl); discriminate).
  apply Forall_cons_iff in F. destruct F as (C0&F). cbn [fold_left] in V.
  pose proof (digits_grow (c1 :: s) (0 * 10 + (c - 48)) F ltac:(lia)) as G. cbn [fold_left] in G. rewrite V in G.
  destruct (Nat.le_gt_cases (List.length (c :: c1 :: s)) 20) as [|Gt]; auto. exfalso.
  assert (10 ^ 20 <= 10 ^ Z.of_nat (List.length (c1 :: s))) by (apply Z.pow_le_mono_r; cbn [List.length] in *; lia).
  assert (0 < 10 ^ Z.of_nat (List.length (c1 :: s))) by (apply Z.pow_pos_nonneg; lia). nia.
Qed.
Lemma positional_fold s : forall a, fold_left (fun a v => a * 10 + v) (map (fun c => c - 48) s) a = fold_left (fun a c => a * 10 + (c - 48)) s a.
Proof. induction s as [|c s IH]; intros a; cbn; auto. Qed.

Lemma numeral_text k n s : k <> KSym -> k <> KFloat -> k <> Eq_Spec.KDouble -> in_range k n -> numeral n s -> number_text (s ++ suffix k) k n.
Proof.
  intros K1 K2 K3 R N. assert (B : - 10 ^ 20 < n < 10 ^ 20) by (destruct k; try congruence; unfold in_range, payload in R; destruct A; cbn in R; lia).
  assert (S : suffixes k (suffix k)) by (destruct k; cbn; auto; congruence).
  unfold numeral in N. destruct (Z.ltb_spec n 0) as [Ne|Po].
  - destruct N as (t&->&D). pose proof (decimal_short _ _ D ltac:(lia)) as Ln. destruct D as (NE&F&V&_).
    rewrite <- app_assoc. apply (nt_dec true t (suffix k) k n); auto; [lia|]. cbn [signed]. unfold positional. rewrite positional_fold. lia.
  - pose proof (decimal_short _ _ N ltac:(lia)) as Ln. destruct N as (NE&F&V&_).
    apply (nt_dec false s (suffix k) k n); auto; [lia|]. cbn [signed]. unfold positional. rewrite positional_fold. lia.
Qed.

Lemma byte_text n s : 0 <= n < 256 -> numeral n s -> number_text s KI n.
Proof.
  intros R N. rewrite <- (app_nil_r s). apply (numeral_text KI n s); try discriminate; auto.
  unfold in_range, payload. destruct A; cbn; lia.
Qed.
Lemma bytes_text bs ss : Forall (fun b => 0 <= b < 256) bs -> Forall2 numeral bs ss -> array_text (spaced ss ++ codes "]") bs.
Proof.
  intros F N. revert F. assert (G : forall b bs s ss, blank b -> Forall2 numeral bs ss -> 0 <= s < 256 -> forall txt, numeral s txt ->
    Forall (fun b => 0 <= b < 256) bs -> array_text (b ++ spaced (txt :: ss) ++ codes "]") (s :: bs)).
  { intros b bs0 n ss0 B F2. revert b n B. induction F2 as [|m s' bs1 ss1 N1 F2 IH]; intros b n B R txt T F.
    - cbn [spaced]. rewrite <- (Z.mod_small n 256) by lia. apply (at_item b txt KI n (codes "]") []); auto using byte_text; [right; cbn; auto|apply (at_close []), b_nil].
    - change (spaced (txt :: s' :: ss1)) with (txt ++ codes " " ++ spaced (s' :: ss1)). rewrite <- !app_assoc. apply Forall_cons_iff in F. destruct F as (R1&F).
      rewrite <- (Z.mod_small n 256) at 1 by lia. apply (at_item b txt KI n (codes " " ++ spaced (s' :: ss1) ++ codes "]") (m :: bs1)); auto using byte_text; [left; left; reflexivity|].
      apply IH; auto. apply space_blank. }
  intros F. destruct N as [|n s bs0 ss0 N1 N].
  - apply (at_close []), b_nil.
  - apply Forall_cons_iff in F. destruct F as (R&F). apply (G [] bs0 n ss0); auto. apply b_nil.
Qed.

Lemma visible_quotes s : Forall visible s -> flat_map esc s = flat_map in_quotes s.
Proof.
  induction 1 as [|c s V F IH]; cbn; auto. rewrite IH. f_equal. unfold in_quotes. destruct (Z.eqb_spec c 0) as [->|]; auto. unfold visible in V. lia.
Qed.

Lemma expression_num nm k n : k <> KSym -> expression nm (Leaf k n) = Nu k n. Proof. destruct k; cbn; congruence. Qed.

Lemma rest_spell nm ff fd t : nm 0 = codes "nil" -> (forall a d, t <> Pair a d) -> (forall s, shows nm ff fd t s -> exists o, spell o s (expression nm t)) ->
  forall r, shows_rest nm ff fd t r -> tail 41 (r ++ codes ")") (expression nm t) /\ ends (r ++ codes ")").
Proof.
  intros N0 NP H r S. inversion S as [E1 E2|a d s r0 S1 S2 E1 E2|t0 s N1 N2 S1 E1 E2]; subst.
  - cbn [expression]. rewrite N0. split; [apply (ta_close 41 []), b_nil|right; cbn; auto].
  - destruct (NP _ _ eq_refl).
  - destruct (H _ S1) as (o&Sp). split; [|left; left; reflexivity].
    change (codes " . " ++ s) with (codes " " ++ codes "." ++ codes " " ++ s). rewrite <- !app_assoc.
    apply (ta_dot 41 (codes " ") (codes " ") o s _ []); auto using space_blank, b_nil. intros _. right. cbn. auto.
Qed.
Lemma shows_spell sy nm ff fd t : nm 0 = codes "nil" -> readable sy nm t ->
  (forall s, shows nm ff fd t s -> exists o, spell o s (expression nm t)) /\
  (forall r, shows_rest nm ff fd t r -> tail 41 (r ++ codes ")") (expression nm t) /\ ends (r ++ codes ")")).
Proof.
  intros N0 R. induction R as [n T Lo G|k n K1 K2 K3 Ra|a d Ra (IHa&_) Rd (_&IHd)|bs F Ln].
  - assert (H : forall s, shows nm ff fd (Leaf KSym n) s -> exists o, spell o s (expression nm (Leaf KSym n))).
    { intros s S. inversion S; subst; try congruence. exists true. cbn [expression]. rewrite <- Lo at 2. apply sp_sym; auto. }
    split; auto. apply rest_spell; auto. discriminate.
  - assert (H : forall s, shows nm ff fd (Leaf k n) s -> exists o, spell o s (expression nm (Leaf k n))).
    { intros s S. inversion S; subst; try congruence. exists true. rewrite expression_num by auto. apply sp_num. apply numeral_text; auto. }
    split; auto. apply rest_spell; auto. discriminate.
  - split.
    + intros s S. inversion S as [| | | |a0 d0 sa r S1 S2 E1 E2| | |]; subst. destruct (IHa _ S1) as (o&Sp). destruct (IHd _ S2) as (Tl&En).
      exists false. cbn [expression]. apply (sp_list [] o sa _ (r ++ codes ")")); auto. apply b_nil.
    + intros r0 S. inversion S as [|a0 d0 sa r S1 S2 E1 E2|t0 s N1 N2 S1 E1 E2]; subst.
      * destruct (IHa _ S1) as (o&Sp). destruct (IHd _ S2) as (Tl&En). split; [|left; left; reflexivity]. rewrite <- !app_assoc.
        cbn [expression]. apply (ta_item 41 (codes " ") o sa _ (r ++ codes ")")); auto. apply space_blank.
      * destruct (N2 _ _ eq_refl).
  - assert (H : forall s, shows nm ff fd (Bytes bs) s -> exists o, spell o s (expression nm (Bytes bs))).
    { intros s S. exists false. cbn [expression]. inversion S as [| | | | |s0 NE V E1 E2|bs0 ss NS F2 E1 E2|]; subst.
      - rewrite visible_quotes by auto. apply sp_string.
        + specialize (Ln ltac:(exists s0; auto)). rewrite app_length in Ln. cbn in Ln. lia.
        + apply Forall_app in F. apply F.
      - apply (sp_array (spaced ss ++ codes "]")). apply bytes_text; auto. }
    split; auto. apply rest_spell; auto. discriminate.
Qed.
Lemma readable_meant sy nm t : readable sy nm t -> forall t0, meant sy (expression nm t) t0 -> t0 = t.
Proof.
  induction 1 as [n T Lo G|k n K1 K2 K3 Ra|a d Ra IHa Rd IHd|bs F Ln]; intros t0 M.
  - inversion M; subst. congruence.
  - rewrite expression_num in M by auto. inversion M; auto.
  - inversion M; subst. f_equal; auto.
  - inversion M; auto.
Qed.
Lemma readable_names sy nm t : readable sy nm t -> all_names (fun n => name_ok n /\ exists i, get_symbol_by_name sy n = Ok (Some i)) (expression nm t).
Proof.
  induction 1 as [n T Lo G|k n K1 K2 K3 Ra|a d Ra IHa Rd IHd|bs F Ln]; cbn; auto.
  - split; [|eauto]. destruct (symbol_good _ T) as (N&_). rewrite Lo in N. auto.
  - destruct k; cbn; auto. congruence.
Qed.
Lemma readable_kept s s' nm t : (forall n i, name_ok n -> get_symbol_by_name s n = Ok (Some i) -> get_symbol_by_name s' n = Ok (Some i)) -> readable s nm t -> readable s' nm t.
Proof.
  intros K. induction 1 as [n T Lo G|k n K1 K2 K3 Ra|a d Ra IHa Rd IHd|bs F Ln]; try (constructor; auto; fail).
  constructor; auto. apply K; auto. destruct (symbol_good _ T) as (N&_). rewrite Lo in N. auto.
Qed.

Lemma readable_no_nan s nm t : readable s nm t -> no_nan t.
Proof. induction 1 as [n T Lo G|k n K1 K2 K3 Ra|a d Ra IHa Rd IHd|bs F Ln]; constructor; auto; try congruence. Qed.

(* ---- Theorem ---- *)
(* The text of a tree is read as that tree. *)
Theorem text_read {L : Libc} nm ff fd t s u fl : nm 0 = codes "nil" -> readable (us u) nm t -> shows nm ff fd t s -> ready (expression nm t) u fl ->
  exists n u' v' fl', (forall fuel, read Expression (n + fuel) u s = Ok (RDone u' [] v')) /\
    heap_ok (uh u') fl' /\ den fl' (uh u') v' t /\ (forall v0 t0, den fl (uh u) v0 t0 -> den fl' (uh u') v0 t0).
Proof.
  intros N0 R S Rd. destruct (proj1 (shows_spell (us u) nm ff fd t N0 R) s S) as (o&Sp).
  destruct (read_correct o s _ [] [] u fl Sp b_nil (fun _ => I) Rd) as (n&u'&v&E&V). destruct (o_value _ _ _ _ _ V) as (fl'&t'&H&In&M&D&K).
  exists n, u', v, fl'. split; [intros fuel; rewrite <- (app_nil_r s); apply E|]. split; auto.
  apply (readable_meant (us u') nm t) in M; [subst; auto|]. eapply readable_kept; [apply (o_names _ _ _ _ _ V)|exact R].
Qed.

(* What the printer prints, if all of it is there, is read back, in any state
   in which the names mean the same. *)
Theorem print_read {L : Libc} {F : Fmt} h sy nm fl v t st len u flu :
  den fl h v t -> no_null h -> printable_tree (Print_Props.has_name sy nm) fmt_float fmt_double t -> nm 0 = codes "nil" ->
  s_size st = Z.of_nat (List.length (s_data st)) -> Z.of_nat (4 * nest t + 2) < s_size st < 2 ^ 31 -> 1 <= len < 2 ^ 32 ->
  readable (us u) nm t -> ready (expression nm t) u flu ->
  exists m, forall fuel b, print_value (m + fuel) h sy st len v = Ok (b, true) ->
    exists s z n u' v' fl', b = s ++ 0 :: repeat 0 z /\ (forall fuel, read Expression (n + fuel) u s = Ok (RDone u' [] v')) /\
      heap_ok (uh u') fl' /\ den fl' (uh u') v' t /\ (forall v0 t0, den flu (uh u) v0 t0 -> den fl' (uh u') v0 t0).
Proof.
  intros D NN P N0 SZ ST Ln R Rd. destruct (Print_Props.print_whole h sy nm fl v t st len D NN P SZ ST Ln) as (m&E).
  exists m. intros fuel b Pr. destruct (E _ _ Pr) as (s&z&Sh&->&_). destruct (text_read nm _ _ t s u flu N0 R Sh Rd) as (n&u'&v'&fl'&H).
  exists s, z, n, u', v', fl'. split; auto.
Qed.

(* In the same state: the value read is equal to the value printed. *)
Theorem print_read_equal {L : Libc} {F : Fmt} u nm fl v t st len :
  den fl (uh u) v t -> no_null (uh u) -> printable_tree (Print_Props.has_name (us u) nm) fmt_float fmt_double t -> nm 0 = codes "nil" ->
  s_size st = Z.of_nat (List.length (s_data st)) -> Z.of_nat (4 * nest t + 2) < s_size st < 2 ^ 31 -> 1 <= len < 2 ^ 32 ->
  readable (us u) nm t -> ready (expression nm t) u fl ->
  exists m, forall fuel b, print_value (m + fuel) (uh u) (us u) st len v = Ok (b, true) ->
    exists s z n u' v', b = s ++ 0 :: repeat 0 z /\ (forall fuel, read Expression (n + fuel) u s = Ok (RDone u' [] v')) /\
      forall f, (depth t <= f)%nat -> struct_eq f (uh u') v v' = Ok true.
Proof.
  intros D NN P N0 SZ ST Ln R Rd. destruct (print_read (uh u) (us u) nm fl v t st len u fl D NN P N0 SZ ST Ln R Rd) as (m&E).
  exists m. intros fuel b Pr. destruct (E _ _ Pr) as (s&z&n&u'&v'&fl'&Eb&Er&H&D'&K). exists s, z, n, u', v'. split; auto. split; auto.
  intros f Df. destruct (struct_eq_correct fl' (uh u') f v v' t t (K _ _ D) D' Df) as (r&Es&Q). rewrite Es. f_equal. apply Q, same_refl. eapply readable_no_nan; eauto.
Qed.
End Arch.

(* ---- Cases ---- *)
Definition nm0 {A : Arch} (n : Z) : name := match get_name_by_symbol Flat_Props.table0 n with Ok (Some s) => s | _ => [] end.
Lemma foo_named {A : Arch} : nm0 0x40002 = codes "foo" /\ nm0 0 = codes "nil" /\
  get_symbol_by_name Flat_Props.table0 (codes "foo") = Ok (Some 0x40002) /\ get_symbol_by_name Flat_Props.table0 (codes "nil") = Ok (Some 0).
Proof. destruct A; vm_compute; auto. Qed.
Lemma nil_text : symbol_text (codes "nil") /\ symbol_text (codes "foo").
Proof.
  split.
  - exists 110, (codes "il"). split; [reflexivity|]. unfold sym_first, sym_next, letter. split; [lia|]. split; [all_of|]. split; [cbn; lia|intros; lia].
  - exists 102, (codes "oo"). split; [reflexivity|]. unfold sym_first, sym_next, letter. split; [lia|]. split; [all_of|]. split; [cbn; lia|intros; lia].
Qed.
Lemma readable0 {A : Arch} : readable Flat_Props.table0 nm0 (Leaf KSym 0) /\ readable Flat_Props.table0 nm0 (Leaf KSym 0x40002).
Proof.
  destruct foo_named as (N1&N0&G1&G0). destruct nil_text as (T0&T1).
  split; apply ra_sym; try rewrite N0; try rewrite N1; auto.
Qed.
Lemma has_name0 {A : Arch} n : n = 0 \/ n = 0x40002 -> Print_Props.has_name Flat_Props.table0 nm0 n.
Proof.
  intros [->| ->]; unfold Print_Props.has_name; split; try (destruct A; vm_compute; reflexivity);
  destruct foo_named as (N1&N0&_&_); try rewrite N0; try rewrite N1; (split; [discriminate|all_of]).
Qed.

(* print_read: -5, a string, bytes, a 64 bit number and foo in an improper list;
   printed from any heap, read in the state of [start] *)
Definition tree2 : tree := Pair (Leaf KI (-5)) (Pair (Bytes [97; 10; 34; 0]) (Pair (Bytes [65; 0; 255]) (Pair (Leaf KU64 (2 ^ 64 - 1)) (Leaf KSym 0x40002)))).
Example print_read_case {A : Arch} {F : Fmt} : exists u fl, us u = Flat_Props.table0 /\ readable (us u) nm0 tree2 /\ nm0 0 = codes "nil" /\
  printable_tree (Print_Props.has_name (us u) nm0) fmt_float fmt_double tree2 /\ ready (L := libc0) (expression nm0 tree2) u fl /\
  shows nm0 fmt_float fmt_double tree2 (codes "(-5 ""a\n\"""" [65 0 255] 18446744073709551615u64 . foo)").
Proof.
  destruct readable0 as (R0&R1). destruct foo_named as (N1&N0&G1&_).
  destruct (start_ready (expression nm0 tree2)) as (u&E&R).
  1-4: destruct A; vm_compute; lia.
  { unfold tree2. cbn [expression]. rewrite N1. apply plain_names. cbn. repeat split; lia. }
  assert (T : us u = Flat_Props.table0). { destruct (Flat_Props.start_ok (Flat_Props.blocks 1 30)) as (u0&E0&_&_&T&_). unfold start in E. rewrite E0 in E. cbn [bind] in E. injection E as <-. exact T. }
  exists u, (zseq 32). rewrite T. split; auto. split; [|split; [auto|split; [|split; [auto|]]]].
  - unfold tree2. repeat apply ra_pair; auto; try (apply ra_num; try discriminate; destruct A; vm_compute; split; congruence).
    + apply ra_bytes; [all_of|cbn; lia].
    + apply ra_bytes; [all_of|cbn; lia].
  - unfold tree2. repeat apply pt_pair; try (apply pt_leaf; try discriminate; try (destruct A; vm_compute; split; congruence); intros _; apply has_name0; auto).
    + apply pt_bytes; [all_of|]. exists 97, [10; 34; 0]. split; auto. left. unfold visible. lia.
    + apply pt_bytes; [all_of|]. exists 65, [0; 255]. split; auto. left. unfold visible. lia.
  - assert (DEC : forall n s, 0 <= n -> decimal n s -> numeral n s) by (intros n s P D; unfold numeral; destruct (Z.ltb_spec n 0); [lia|auto]).
    assert (D1 : forall a, 48 <= a <= 57 -> decimal (a - 48) [a]) by (intros a Ra; split; [discriminate|split; [all_of|split; [cbn; lia|intros t [= -> <-]; auto]]]).
    apply (sh_pair _ _ _ _ _ (codes "-5") (codes " ""a\n\"""" [65 0 255] 18446744073709551615u64 . foo")).
    { apply (sh_num _ _ _ KI (-5) (codes "-5")); try discriminate. exists (codes "5"). split; auto. apply (D1 53). lia. }
    apply (sr_pair _ _ _ _ _ (codes """a\n\""""") (codes " [65 0 255] 18446744073709551615u64 . foo")).
    { apply (sh_string _ _ _ [97; 10; 34]); [discriminate|]. unfold visible. all_of. }
    apply (sr_pair _ _ _ _ _ (codes "[65 0 255]") (codes " 18446744073709551615u64 . foo")).
    { apply (sh_bytes _ _ _ [65; 0; 255] [codes "65"; codes "0"; codes "255"]).
      - intros (s&_&_&E1). apply (f_equal (fun l => last l 0)) in E1. rewrite last_last in E1. discriminate.
      - repeat apply Forall2_cons; try apply Forall2_nil; (apply DEC; [lia|]); (split; [discriminate|split; [all_of|split; [cbn; lia|intros t; cbn; intros Q; injection Q; intros; subst; auto; discriminate]]]). }
    apply (sr_pair _ _ _ _ _ (codes "18446744073709551615u64") (codes " . foo")).
    { apply (sh_num _ _ _ KU64 (2 ^ 64 - 1) (codes "18446744073709551615")); try discriminate. apply DEC; [lia|]. split; [discriminate|split; [all_of|split; [vm_compute; reflexivity|intros t; cbn; intros [=]]]]. }
    apply (sr_dot _ _ _ (Leaf KSym 0x40002) (codes "foo")); [discriminate|discriminate|]. rewrite <- N1. apply sh_sym.
Qed.

(* print_read_equal: the list (foo) *)
Example print_read_equal_case {A : Arch} {F : Fmt} : exists u fl v, den fl (uh u) v (Pair (Leaf KSym 0x40002) (Leaf KSym 0)) /\ no_null (uh u) /\
  printable_tree (Print_Props.has_name (us u) nm0) fmt_float fmt_double (Pair (Leaf KSym 0x40002) (Leaf KSym 0)) /\
  readable (us u) nm0 (Pair (Leaf KSym 0x40002) (Leaf KSym 0)) /\ ready (L := libc0) (expression nm0 (Pair (Leaf KSym 0x40002) (Leaf KSym 0))) u fl.
Proof.
  destruct readable0 as (R0&R1). destruct foo_named as (N1&N0&G1&G0).
  destruct (Flat_Props.start_ok (Flat_Props.blocks 1 30)) as (u&E&H&P&T&M).
  destruct (cons_ok (uh u) 0 (map Z.of_nat (seq 1 31)) (enc_sym 0x40002) NIL H) as (h&Ec&OK&C&Sb&Sz&Cc&Mm&_&R).
  exists (mkU h (up u) (us u) (repeat true 8)), (map Z.of_nat (seq 1 31)), (enc_cons_ptr 0). cbn [uh us]. rewrite T.
  split.
  { apply (den_cell _ h 0 (enc_sym 0x40002) NIL); auto.
    - rewrite in_map_iff. intros (k&Ek&I). apply in_seq in I. lia.
    - apply den_sym. lia.
    - change NIL with (enc_sym 0). apply den_sym. lia. }
  split; [unfold no_null; rewrite Mm; apply M|]. split; [apply pt_pair; apply pt_leaf; try discriminate; try (destruct A; vm_compute; split; congruence); intros _; apply has_name0; auto|].
  split; [apply ra_pair; auto|]. cbn [expression]. rewrite N1, N0. split; cbn [uh up us uk].
  - exact OK.
  - cbn. lia.
  - exists [], (up u). split; [reflexivity|]. cbn. split; [lia|split; [apply NoDup_nil|apply Forall_nil]].
  - intros u1. cbn. lia.
  - intros k K. assert (K8 : (k < 2)%nat) by (cbn in K; lia). clear - K8. do 2 (destruct k; [reflexivity|]). lia.
  - destruct Flat_Props.table0_reachable as (hist&Re). exists 4%nat, hist. exact Re.
  - assert (Y : y_next Flat_Props.table0 <= 0x40003) by (destruct A; vm_compute; discriminate). change (2 ^ 28) with 268435456. cbn [symbols]. lia.
  - cbn. split; left; eauto.
Qed.

(* C70 fails in general: two values with the same text *)
Theorem print_ambiguous_refuted {A : Arch} nm ff fd named : exists t1 t2 s, t1 <> t2 /\ printable_tree named ff fd t1 /\ printable_tree named ff fd t2 /\
  shows nm ff fd t1 s /\ shows nm ff fd t2 s.
Proof.
  exists (Bytes [65; 1]), (Arr [Leaf KI 65; Leaf KI 1]), (codes "[65 1]").
  assert (N : numeral 65 (codes "65") /\ numeral 1 (codes "1")).
  { split; (split; [discriminate|split; [all_of|split; [reflexivity|intros t; cbn; intros [=]]]]). }
  destruct N as (N65&N1). split; [discriminate|]. split; [|split; [|split]].
  - apply pt_bytes; [all_of|]. exists 65, [1]. split; auto. left. unfold visible. lia.
  - apply pt_arr; [discriminate|cbn; lia|]. repeat apply Forall_cons; try apply Forall_nil; apply pt_leaf; try discriminate; destruct A; vm_compute; split; congruence.
  - apply (sh_bytes _ _ _ [65; 1] [codes "65"; codes "1"]); [|repeat apply Forall2_cons; auto].
    intros (s&_&_&E). apply (f_equal (fun l => last l 0)) in E. rewrite last_last in E. discriminate.
  - apply (sh_arr _ _ _ [Leaf KI 65; Leaf KI 1] [codes "65"; codes "1"]). repeat apply Forall2_cons; auto.
    + apply (sh_num _ _ _ KI 65 (codes "65")); auto; discriminate.
    + apply (sh_num _ _ _ KI 1 (codes "1")); auto; discriminate.
Qed.

(* C70 fails for names with capitals: the symbol Foo is printed as Foo and read
   as foo, another symbol *)
Definition table1 {A : Arch} : syms := fst (after 4 [OSym Memory (codes "foo") true; OSym Memory (codes "Foo") true]).
Theorem print_capitals_refuted {A : Arch} : exists n m, n <> m /\ get_name_by_symbol table1 n = Ok (Some (codes "Foo")) /\
  forall L, exists u', read (L := L) Expression 9 (mkU (mkHeap [] [] 0 0 [] 0 0 0 0 (fun _ => None) [] false) [] table1 []) (codes "Foo") = Ok (RDone u' [] (enc_sym m)).
Proof.
  exists 0x40003, 0x40002. split; [discriminate|]. split; [destruct A; vm_compute; reflexivity|]. intros L. eexists. destruct A; vm_compute; reflexivity.
Qed.

Print Assumptions text_read.
Print Assumptions print_read.
Print Assumptions print_read_equal.
Print Assumptions print_read_case.
Print Assumptions print_ambiguous_refuted.
Print Assumptions print_capitals_refuted.
