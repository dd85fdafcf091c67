(* C68: reading the text of an expression, or of a program, gives the value the
   text denotes.
   C69: text that is not the text of an expression. *)
From Coq Require Import String.
From Verif Require Import Base Value_Model Heap_Model Value_Proofs Value_Proofs2 Value_Props Heap_Spec Heap_Proofs Heap_Proofs2 List_Proofs Env_Proofs
  GC_Model Eq_Model Eq_Spec Eq_Props Sym_Model Sym_Props Flat_Model Flat_Spec Flat_Proofs Flat_Proofs2 Flat_Proofs3 QQ_Model Tok_Model Print_Spec
  Read_Model Read_Spec Read_Proofs Read_Proofs2 Read_Proofs3 Read_Proofs4 Read_Proofs5.
From Verif Require Tok_Props Flat_Props.
Import List Read_Spec.
Local Open Scope Z_scope.

Section Arch.
Context {A : Arch} {L : Libc}.

(* ---- Specification (with Read_Spec) ---- *)
(* there are cells, memory and symbol numbers enough for [e] *)
Record ready (e : sexp) (u : ust) (fl : list Z) : Prop := {
  y_heap : heap_ok (uh u) fl;
  y_cells : (cells e <= length fl)%nat;
  y_blocks : exists blk rest, up u = blk ++ rest /\ (blocks e <= length blk)%nat /\ NoDup blk /\ Forall (fun a => a <> 0 /\ mem (uh u) a = None) blk;
  y_array : forall u1, Z.of_nat (longest e) + 2 <= array_room u1;
  y_answers : forall k, (k < symbols e)%nat -> nth k (uk u) false = true;
  y_table : exists max hist, reachable max hist (us u);
  y_numbers : y_next (us u) + Z.of_nat (symbols e) < 2 ^ 28;
  y_names : all_names (addable (us u)) e }.

(* the value [v] of the new state is [e]; everything old is as it was *)
Record value_of (e : sexp) (u u' : ust) (fl : list Z) (v : Z) : Prop := {
  o_value : exists fl' t, heap_ok (uh u') fl' /\ incl fl' fl /\ meant (us u') e t /\ den fl' (uh u') v t /\
      (forall v0 t0, den fl (uh u) v0 t0 -> den fl' (uh u') v0 t0);
  o_names : forall n i, name_ok n -> get_symbol_by_name (us u) n = Ok (Some i) -> get_symbol_by_name (us u') n = Ok (Some i) }.

(* ---- Theorems ---- *)
Lemma ready_wf e u fl : ready e u fl -> wf (0 + cells e) (0 + blocks e) (0 + symbols e) u fl.
Proof.
  intros R. split.
  - apply (y_heap _ _ _ R).
  - apply (y_cells _ _ _ R).
  - apply (y_blocks _ _ _ R).
  - apply (y_answers _ _ _ R).
  - destruct (y_table _ _ _ R) as (mx&hist&Re). exists (y_next (us u)). split; [|apply (y_numbers _ _ _ R)].
    apply reachable_inv in Re. destruct Re. constructor; auto. lia.
Qed.

Lemma built_value e c m y u u' fl fl' v : wf c m y u fl -> built e 0 0 0 u u' fl fl' v -> value_of e u u' fl v.
Proof.
  intros Wf B. split; [|apply (p_kept _ _ _ _ _ _ _ _ _ B)]. destruct (p_means _ _ _ _ _ _ _ _ _ B) as (t&M&D).
  exists fl', t. split; [apply (w_heap _ _ _ _ _ (p_wf _ _ _ _ _ _ _ _ _ B))|]. split; [apply (p_incl _ _ _ _ _ _ _ _ _ B)|]. split; auto. split.
  - apply (D []). intros x [].
  - intros v0 t0 D0. eapply den_grows; [apply (p_grows _ _ _ _ _ _ _ _ _ B)|apply (p_incl _ _ _ _ _ _ _ _ _ B)|exact D0].
Qed.

(* 1. An expression is read, and nothing behind it. *)
Theorem read_correct o s e b rest u fl : spell o s e -> blank b -> (o = true -> ends rest) -> ready e u fl ->
  exists n u' v, (forall fuel, read Expression (n + fuel) u (b ++ s ++ rest) = Ok (RDone u' rest v)) /\ value_of e u u' fl v.
Proof.
  intros Sp B En R. pose proof (ready_wf _ _ _ R) as Wf.
  destruct (proj1 reads_all o s e Sp 0%nat 0%nat 0%nat u fl b [FDone Expression] NIL rest B En Wf (y_names _ _ _ R) (y_array _ _ _ R)) as (u'&fl'&v&G&Bu).
  destruct (G true) as (n&fr&_&E). exists (n + 1)%nat, u', v. split; [|eapply built_value; eauto].
  intros fuel. unfold read, read_start. replace (n + 1 + fuel)%nat with (n + S fuel)%nat by lia. cbn [app]. rewrite E.
  cbn [read_run rstep rk bind]. unfold read_done. cbn [rr]. rewrite (p_plain _ _ _ _ _ _ _ _ _ Bu). reflexivity.
Qed.

(* 2. A program is read to its end. *)
Theorem read_program_correct s d u fl : program_text s d -> ready d u fl ->
  exists n u' v, (forall fuel, read Program (n + fuel) u s = Ok (RDone u' [] v)) /\ value_of d u u' fl v.
Proof.
  intros Sp R. pose proof (ready_wf _ _ _ R) as Wf.
  destruct (programs s d Sp 0%nat 0%nat 0%nat u fl [] Wf (y_names _ _ _ R) (y_array _ _ _ R)) as (u'&fl'&v&G&Bu).
  destruct (G true) as (n&fr&_&E). exists (n + 1)%nat, u', v. split; [|eapply built_value; eauto].
  intros fuel. unfold read, read_start. replace (n + 1 + fuel)%nat with (n + S fuel)%nat by lia. cbn [app]. rewrite E.
  cbn [read_run rstep rk bind]. unfold read_done. cbn [rr]. rewrite (p_plain _ _ _ _ _ _ _ _ _ Bu). reflexivity.
Qed.

(* 3. A list that is not closed is refused. *)
Theorem read_open_list s d b u fl : program_text s d -> blank b -> ready d u fl ->
  exists n, forall fuel, read Expression (n + fuel) u (b ++ codes "(" ++ s) = Ok RErr.
Proof.
  intros Sp B R. pose proof (ready_wf _ _ _ R) as Wf.
  apply (open_list s d b Sp B 0%nat 0%nat 0%nat u fl [FDone Expression] NIL true eq_refl Wf (y_names _ _ _ R) (y_array _ _ _ R)).
Qed.

(* 4. In a text of an expression without strings, characters and comments the
   brackets are balanced. *)
Definition plain (s : list Z) : Prop := ~ In 34 s /\ ~ In 92 s /\ ~ In 59 s.
Definition count (c : Z) (s : list Z) : nat := count_occ Z.eq_dec s c.
Definition brackets : list (Z * Z) := [(40, 41); (91, 93); (123, 125)].
Definition balanced (s : list Z) : Prop := forall l r, In (l, r) brackets -> count l s = count r s.

Lemma plain_app a b : plain (a ++ b) <-> plain a /\ plain b.
Proof. unfold plain. rewrite !in_app_iff. tauto. Qed.
Lemma count_app c a b : count c (a ++ b) = (count c a + count c b)%nat. Proof. apply count_occ_app. Qed.
Lemma count_none c s : Forall (fun x => x <> c) s -> count c s = 0%nat.
Proof. intros F. apply count_occ_not_In. intros I. rewrite Forall_forall in F. exact (F _ I eq_refl). Qed.
Definition flat (s : list Z) : Prop := forall l r, In (l, r) brackets -> count l s = 0%nat /\ count r s = 0%nat.
Lemma flat_intro s : Forall (fun x => ~ In x (codes "()[]{}")) s -> flat s.
Proof.
  intros F l r I. cbn in I.
  assert (H : Forall (fun x => x <> l) s /\ Forall (fun x => x <> r) s).
  { split; (eapply Forall_impl; [|exact F]); cbn; intros x H; repeat destruct I as [[= <- <-]|I]; try destruct I; lia. }
  destruct H. auto using count_none.
Qed.
Lemma flat_app a b : flat a -> flat b -> flat (a ++ b).
Proof. intros F1 F2 l r I. destruct (F1 _ _ I), (F2 _ _ I). rewrite !count_app. lia. Qed.
Lemma flat_balanced s : flat s -> balanced s. Proof. intros F l r I. destruct (F _ _ I). lia. Qed.
Lemma balanced_app a b : balanced a -> balanced b -> balanced (a ++ b).
Proof. intros F1 F2 l r I. specialize (F1 _ _ I). specialize (F2 _ _ I). rewrite !count_app. lia. Qed.
Lemma blank_flat b : blank b -> plain b -> flat b.
Proof.
  intros B P. apply flat_intro. induction B as [|c t S B IH|txt t N B IH].
  - constructor.
  - change (c :: t) with ([c] ++ t) in P. apply plain_app in P. constructor; [cbn; unfold space in S; lia|apply IH, P].
  - destruct P as (_&_&P). destruct P. left. reflexivity.
Qed.
Lemma symbol_flat s : symbol_text s -> flat s.
Proof.
  intros (c&cs&->&F&N&_&_). apply flat_intro. constructor.
  - unfold sym_first, letter, mark in F. cbn in *. lia.
  - eapply Forall_impl; [|exact N]. intros x H. unfold sym_next, letter, digit, mark in H. cbn in *. lia.
Qed.
Lemma suffix_flat k s : suffixes k s -> flat s.
Proof.
  destruct k; cbn; intros H; try destruct H as [H|H]; try (destruct H; fail); subst; apply flat_intro; repeat constructor; cbn; lia.
Qed.
Lemma digits_flat s : Forall digit s -> flat s.
Proof. intros F. apply flat_intro. eapply Forall_impl; [|exact F]. unfold digit. cbn. intros; lia. Qed.
Lemma number_flat s k n : number_text s k n -> flat s.
Proof.
  assert (M : forall neg, flat (minus neg)) by (intros []; apply flat_intro; repeat constructor; cbn; lia).
  intros [neg ds suf k0 n0 _ D _ S _ _|neg x ds vs suf k0 n0 X _ D S _ _ _].
  - repeat apply flat_app; eauto using digits_flat, suffix_flat.
  - apply flat_app; auto. change (48 :: x :: ds ++ suf) with ([48; x] ++ ds ++ suf). repeat apply flat_app; eauto using suffix_flat.
    + apply flat_intro. repeat constructor; cbn; lia.
    + apply flat_intro. clear - D. induction D as [|c v cs vs H D IH]; constructor; auto. unfold hex_digit in H. cbn. lia.
Qed.
Lemma array_counts s bs : array_text s bs -> plain s -> count 93 s = S (count 91 s) /\ count 40 s = count 41 s /\ count 123 s = count 125 s.
Proof.
  induction 1 as [b B|b s k n rest bs B T K E T' IH]; intros P; repeat (apply plain_app in P; destruct P as (?&P)).
  - assert (F : flat b) by (apply blank_flat; auto). pose proof (F 40 41). pose proof (F 91 93). pose proof (F 123 125). cbn in *. rewrite !count_app. cbn. intuition lia.
  - assert (F : flat (b ++ s)) by (apply flat_app; eauto using blank_flat, number_flat). specialize (IH P).
    pose proof (F 40 41). pose proof (F 91 93). pose proof (F 123 125). cbn in *. rewrite app_assoc, !(count_app _ (b ++ s)). intuition lia.
Qed.
Definition closes (cl : Z) (s : list Z) : Prop := (cl = 41 -> balanced (codes "(" ++ s)) /\ (cl = 125 -> balanced (codes "{" ++ s)).
Lemma closes_close cl b : flat b -> closes cl (b ++ [cl]).
Proof.
  intros F. split; intros ->; intros l r I; destruct (F _ _ I) as (F1&F2); cbn in I; rewrite !count_app, F1, F2; repeat destruct I as [[= <- <-]|I]; try destruct I; reflexivity.
Qed.
Lemma closes_app cl s t : balanced s -> closes cl t -> closes cl (s ++ t).
Proof.
  intros F (H1&H2). split; intros E; [specialize (H1 E)|specialize (H2 E)]; intros l r I; specialize (F _ _ I);
  [specialize (H1 _ _ I)|specialize (H2 _ _ I)]; rewrite !count_app in *; lia.
Qed.

Theorem spell_balanced :
  (forall o s e, spell o s e -> plain s -> balanced s) /\ (forall cl s d, tail cl s d -> plain s -> closes cl s).
Proof.
  apply spell_tail.
  - intros s T _. apply flat_balanced, symbol_flat; auto.
  - intros s k n T _. eapply flat_balanced, number_flat; eauto.
  - intros c _ _ (_&P&_). destruct P. left; reflexivity.
  - intros c x _ (_&P&_). destruct P. left; reflexivity.
  - intros s _ _ (P&_). destruct P. left; reflexivity.
  - intros s bs T P. apply plain_app in P. destruct P as (_&P). destruct (array_counts _ _ T P) as (C1&C2&C3).
    intros l r I. cbn in I. repeat destruct I as [[= <- <-]|I]; try destruct I; rewrite !count_app; cbn; lia.
  - intros _. apply flat_balanced, flat_intro. repeat constructor. cbn; lia.
  - intros _. apply flat_balanced, flat_intro. repeat constructor. cbn; lia.
  - intros b B P. apply plain_app in P. destruct P as (_&P). apply plain_app in P. apply closes_close; auto. apply blank_flat; tauto.
  - intros b o s e rest d B _ IH _ _ IH' P. apply plain_app in P. destruct P as (_&P). apply plain_app in P. destruct P as (P1&P). apply plain_app in P. destruct P as (P2&P).
    apply (closes_app 41 b); auto using flat_balanced, blank_flat. apply closes_app; auto.
  - intros rest d _ IH P. apply plain_app in P. apply IH; tauto.
  - intros b o s e B _ IH P. apply plain_app in P. destruct P as (_&P). apply plain_app in P. destruct P as (P1&P).
    apply balanced_app; [|apply balanced_app; auto using flat_balanced, blank_flat]. apply flat_balanced, flat_intro. repeat constructor. cbn; lia.
  - intros cl b B P. apply plain_app in P. apply closes_close, blank_flat; tauto.
  - intros cl b b1 o s e b2 B B1 _ IH B2 _ P. repeat (apply plain_app in P; destruct P as (?&P)).
    apply closes_app; auto using flat_balanced, blank_flat. apply (closes_app cl (codes ".")).
    { apply flat_balanced, flat_intro. repeat constructor. cbn; lia. }
    apply closes_app; auto using flat_balanced, blank_flat. apply closes_app; auto. apply closes_close, blank_flat; auto.
  - intros cl b o s e rest d B _ IH _ _ IH' P. apply plain_app in P. destruct P as (P1&P). apply plain_app in P. destruct P as (P2&P).
    apply closes_app; auto using flat_balanced, blank_flat. apply closes_app; auto.
Qed.

End Arch.

(* ---- Cases ---- *)
Definition libc0 : Libc := {| to_f32 := fun _ => 0x3FC00000; to_f64 := fun _ => 0x3FF8000000000000; f32_u32 := fun _ => None; f64_u32 := fun _ => None; array_room := fun _ => 64 |}.
(* 32 cells, [pool] free blocks, the table of symbols with foo added, and memory for [n] more names *)
Definition start {A : Arch} (pool n : nat) : res ust := let! u := Flat_Props.start (Flat_Props.blocks 1 pool) in Ok (mkU (uh u) (up u) (us u) (repeat true n)).
Definition after_read {A : Arch} (m : mode) (pool : nat) (s : string) : res (option (ust * list Z * Z)) :=
  let! u := start pool 8 in
  let! o := read (L := libc0) m 400 u (codes s) in
  Ok (match o with RDone u' rest v => Some (u', rest, v) | _ => None end).
(* the rest, and the value printed as what it is *)
Fixpoint shape {A : Arch} (fuel : nat) (h : heap) (v : Z) : res tree :=
  match fuel with
  | O => Fuel
  | S n =>
    if is_cons v then let! c := ref_cell h v in let! a := shape n h (fst c) in let! d := shape n h (snd c) in Ok (Pair a d)
    else if is_symbol v then Ok (Leaf KSym (dec_sym v)) else Ok (Leaf KI (dec_i v))
  end.
Definition reading {A : Arch} (m : mode) (pool : nat) (s : string) : res (option (list Z * tree)) :=
  let! o := after_read m pool s in
  match o with
  | Some (u, rest, v) => let! t := shape 20 (uh u) v in Ok (Some (rest, t))
  | None => Ok None
  end.

(* Texts whose brackets do not match are read to the end; "]", ")" and "." become
   values of the program. *)
Theorem read_brackets_refuted {A : Arch} s t :
  In (s, t)
    [("(1 2}", Pair (Leaf KI 1) (Pair (Leaf KI 2) (Leaf KSym 0)));
     ("{1)", Pair (Leaf KSym SYM_PROGN) (Pair (Leaf KI 1) (Leaf KSym 0)));
     ("(1 ] 2)", Pair (Leaf KI 1) (Pair (Leaf KSym SYM_CLOSEBRACK) (Pair (Leaf KI 2) (Leaf KSym 0))));
     ("(1 . ])", Pair (Leaf KI 1) (Leaf KSym SYM_CLOSEBRACK));
     ("')", Pair (Leaf KSym SYM_QUOTE) (Pair (Leaf KSym SYM_CLOSEPAR) (Leaf KSym 0)))]%string ->
  reading Expression 8 s = Ok (Some ([], t)) /\ ~ exists o e, spell o (codes s) e.
Proof.
  intros I. cbn in I. repeat destruct I as [[= <- <-]|I]; try destruct I;
  (split; [destruct A; vm_compute; reflexivity|]);
  intros (o&e&Sp); apply (proj1 spell_balanced) in Sp; try (unfold plain; cbn; repeat split; lia);
  pose proof (Sp 40 41); pose proof (Sp 91 93); pose proof (Sp 123 125); cbn in *; intuition lia.
Qed.

(* A dot is quoted. *)
Theorem read_dot_refuted {A : Arch} : reading Expression 8 "'. 5" = Ok (Some (codes " 5", Pair (Leaf KSym SYM_QUOTE) (Pair (Leaf KSym SYM_DOT) (Leaf KSym 0)))).
Proof. destruct A; vm_compute; reflexivity. Qed.

(* The program ends at a closing parenthesis too many: what is behind it is lost. *)
Theorem read_program_rest_refuted {A : Arch} : reading Program 8 "1 2) 3" = Ok (Some (codes " 3", Pair (Leaf KI 1) (Pair (Leaf KI 2) (Leaf KSym 0)))).
Proof. destruct A; vm_compute; reflexivity. Qed.

(* Without memory a double in a list becomes the symbol out_of_memory: no error,
   and no collection. *)
Theorem read_double_refuted : reading (A := A32) Expression 0 "(1 2.5f64)" = Ok (Some ([], Pair (Leaf KI 1) (Pair (Leaf KSym SYM_MERROR) (Leaf KSym 0)))).
Proof. vm_compute. reflexivity. Qed.

(* the hypotheses of read_correct, read_program_correct and read_open_list are met *)
Definition text0 : list Z := codes "(Foo (-12 . 0x1Fu32) ""a"" [7 255b] 'bar)".
Definition sexp0 : sexp :=
  Cn (Sy (codes "foo")) (Cn (Cn (Nu KI (-12)) (Nu KU32 31)) (Cn (By [97; 0]) (Cn (By [7; 255]) (Cn (Cn (Sy (codes "quote")) (Cn (Sy (codes "bar")) empty)) empty)))).

Ltac all_of := cbn; repeat (apply Forall_cons; [lia|]); apply Forall_nil.
Ltac ranged := match goal with B : Arch |- _ => destruct B end; split; vm_compute; (reflexivity || discriminate).
Lemma symbol_ok {A : Arch} s : symbol_text s -> spell true s (Sy (map lower s)). Proof. apply sp_sym. Qed.
Lemma foo_text : symbol_text (codes "Foo").
Proof. exists 70, (codes "oo"). split; [reflexivity|]. unfold sym_first, sym_next, letter. split; [lia|]. split; [all_of|]. split; [cbn; lia|intros; lia]. Qed.
Lemma bar_text : symbol_text (codes "bar").
Proof. exists 98, (codes "ar"). split; [reflexivity|]. unfold sym_first, sym_next, letter. split; [lia|]. split; [all_of|]. split; [cbn; lia|intros; lia]. Qed.
Lemma space_blank : blank (codes " "). Proof. apply b_space; [left; reflexivity|apply b_nil]. Qed.
Lemma text0_spells {A : Arch} : spell false text0 sexp0.
Proof.
  assert (N12 : number_text (codes "-12") KI (-12)).
  { apply (nt_dec true (codes "12") [] KI (-12)); [discriminate|unfold digit; all_of|cbn; lia|left; reflexivity|reflexivity|ranged]. }
  assert (N1F : number_text (codes "0x1Fu32") KU32 31).
  { apply (nt_hex false 120 (codes "1F") [1; 15] (codes "u32") KU32 31); [auto|discriminate| |reflexivity|discriminate|reflexivity|ranged].
    cbn; unfold hex_digit; repeat (apply Forall2_cons; [lia|]); apply Forall2_nil. }
  assert (N7 : number_text (codes "7") KI 7).
  { apply (nt_dec false (codes "7") [] KI 7); [discriminate|unfold digit; all_of|cbn; lia|left; reflexivity|reflexivity|ranged]. }
  assert (N255 : number_text (codes "255b") KChar 255).
  { apply (nt_dec false (codes "255") (codes "b") KChar 255); [discriminate|unfold digit; all_of|cbn; lia|reflexivity|reflexivity|ranged]. }
  apply (sp_list [] true (codes "Foo") _ (codes " (-12 . 0x1Fu32) ""a"" [7 255b] 'bar)")); [apply b_nil|apply (sp_sym (codes "Foo")), foo_text|left; left; reflexivity|].
  apply (ta_item 41 (codes " ") false (codes "(-12 . 0x1Fu32)") _ (codes " ""a"" [7 255b] 'bar)")); [apply space_blank| |discriminate|].
  { apply (sp_list [] true (codes "-12") _ (codes " . 0x1Fu32)")); [apply b_nil|apply sp_num; auto|left; left; reflexivity|].
    apply (ta_dot 41 (codes " ") (codes " ") true (codes "0x1Fu32") _ []); [apply space_blank..|apply sp_num; auto|apply b_nil|intros _; right; cbn; auto]. }
  apply (ta_item 41 (codes " ") false (codes """a""") _ (codes " [7 255b] 'bar)")); [apply space_blank|apply (sp_string (codes "a"))|discriminate|].
  { cbn; lia. } { all_of. }
  apply (ta_item 41 (codes " ") false (codes "[7 255b]") _ (codes " 'bar)")); [apply space_blank|apply (sp_array (codes "7 255b]"))|discriminate|].
  { apply (at_item [] (codes "7") KI 7 (codes " 255b]") [255]); [apply b_nil|auto|auto|left; left; reflexivity|].
    apply (at_item (codes " ") (codes "255b") KChar 255 (codes "]") []); [apply space_blank|auto|auto|right; cbn; auto|apply (at_close []), b_nil]. }
  apply (ta_item 41 (codes " ") true (codes "'bar") _ (codes ")")); [apply space_blank|apply (sp_quote [] true (codes "bar")); [apply b_nil|apply (sp_sym (codes "bar")), bar_text]|right; cbn; auto|].
  apply (ta_close 41 []), b_nil.
Qed.

Lemma start_ready {A : Arch} e : (cells e <= 32)%nat -> (blocks e <= 30)%nat -> (longest e <= 62)%nat -> (symbols e <= 8)%nat -> all_names (addable Flat_Props.table0) e ->
  exists u, start 30 8 = Ok u /\ ready (L := libc0) e u (zseq 32).
Proof.
  intros C B Lo Sy N. destruct (Flat_Props.start_ok (Flat_Props.blocks 1 30)) as (u&E&H&P&T&M). unfold start. rewrite E. cbn [bind].
  eexists. split; [reflexivity|]. split; cbn [uh up us uk].
  - exact H.
  - exact C.
  - exists (Flat_Props.blocks 1 30), []. rewrite P, app_nil_r. split; [reflexivity|]. split; [exact B|]. split.
    + unfold Flat_Props.blocks. apply FinFun.Injective_map_NoDup; [intros x y; lia|apply seq_NoDup].
    + apply Forall_forall. intros a I. unfold Flat_Props.blocks in I. apply in_map_iff in I. destruct I as (k&<-&I). apply in_seq in I. split; [lia|apply M].
  - intros u1. cbn. lia.
  - intros k K. assert (K8 : (k < 8)%nat) by lia. clear - K8. do 8 (destruct k; [reflexivity|]). lia.
  - rewrite T. destruct Flat_Props.table0_reachable as (hist&R). exists 4%nat, hist. exact R.
  - rewrite T. assert (Y : y_next Flat_Props.table0 <= 0x40003) by (destruct A; vm_compute; discriminate). change (2 ^ 28) with 268435456. lia.
  - rewrite T. exact N.
Qed.
Lemma plain_names {A : Arch} e : all_names (fun n => hd 0 n <> 101) e -> all_names (addable Flat_Props.table0) e.
Proof. apply names_weak. intros n H. right. intros (r&->). apply H. reflexivity. Qed.

Example read_case {A : Arch} : exists u fl, spell false text0 sexp0 /\ ready (L := libc0) sexp0 u fl.
Proof.
  destruct (start_ready sexp0) as (u&_&R); [destruct A; cbn; lia..|apply plain_names; cbn; repeat split; lia|]. exists u, (zseq 32). split; [apply text0_spells|exact R].
Qed.
Example read_program_case {A : Arch} : exists u fl, program_text (codes "; hi" ++ 10 :: text0 ++ codes " ") (Cn sexp0 empty) /\ ready (L := libc0) (Cn sexp0 empty) u fl.
Proof.
  destruct (start_ready (Cn sexp0 empty)) as (u&_&R); [destruct A; cbn; lia..|apply plain_names; cbn; repeat split; lia|]. exists u, (zseq 32). split; [|exact R].
  change (codes "; hi" ++ 10 :: text0 ++ codes " ") with ((codes ";" ++ codes " hi" ++ 10 :: []) ++ text0 ++ codes " ").
  apply (pt_item _ false); [apply b_comment; [cbn; lia|apply b_nil]|apply text0_spells|discriminate|apply pt_end, space_blank].
Qed.

Print Assumptions read_correct.
Print Assumptions read_program_correct.
Print Assumptions read_open_list.
Print Assumptions read_brackets_refuted.
Print Assumptions read_case.
