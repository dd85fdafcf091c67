(* C17: symbol interning.  C50: the extension table. *)
From Coq Require Import String.
From Verif Require Import Base Value_Model Value_Props Sym_Model.
Local Open Scope Z_scope.

(* ---- Specification ---- *)
Definition name_ok (n : name) : Prop := Forall (fun c => c <> 0) n.

(* Operations on the two tables and their answers *)
Inductive op :=
| OSym (w : store) (n : name) (ok : bool)      (* lbm_add_symbol and friends *)
| OStr (n : name) (ok : bool)                  (* lbm_str_to_symbol *)
| OExt (n : name) (f : fn)                     (* lbm_add_extension *)
| OClr (sym : Z).                              (* lbm_clr_extension *)
Inductive ans := Sym (i : option Z) | Done (b : bool).

Definition op_ok (o : op) : Prop :=
  match o with OSym _ n _ | OStr n _ | OExt n _ => name_ok n | OClr i => 0 <= i end.

Section Arch.
Context {A : Arch}.

Definition step (s : syms) (o : op) : res (syms * ans) :=
  match o with
  | OSym w n ok => let! (s1, i) := add_symbol s w n ok in Ok (s1, Sym i)
  | OStr n ok => let! (s1, i) := str_to_symbol s n ok in Ok (s1, Sym i)
  | OExt n f => let! (s1, b) := add_extension s n f in Ok (s1, Done b)
  | OClr i => let! (s1, b) := clr_extension s i in Ok (s1, Done b)
  end.

Inductive steps : syms -> list (op * ans) -> syms -> Prop :=
| steps_nil s : steps s [] s
| steps_cons s o a s1 h s2 : op_ok o -> step s o = Ok (s1, a) -> steps s1 h s2 -> steps s ((o, a) :: h) s2.

(* Every state reachable from initialisation with an extension table of [max]
   entries, by operations [h]; fewer than 2^27 of them, so that symbol numbers
   do not run out. *)
Definition reachable (max : nat) (h : list (op * ans)) (s : syms) : Prop :=
  Z.of_nat max <= 2 ^ 16 /\ Z.of_nat (length h) < 2 ^ 27 /\
  exists okx oky s0, symrepr_init max okx oky = Ok s0 /\ steps s0 h s.

(* the symbol of a name, the name of a symbol, the function of a symbol *)
Definition symbol_of (s : syms) (n : name) : option Z :=
  match get_symbol_by_name s n with Ok r => r | _ => None end.
Definition name_of (s : syms) (i : Z) : option name :=
  match get_name_by_symbol s i with Ok r => r | _ => None end.
Definition function_of (s : syms) (i : Z) : option fn :=
  match get_extension s i with Ok r => r | _ => None end.

Definition is_special (n : name) : Prop := In n (map (fun p => chars (fst p)) special_symbols).
(* numbers in the extension range *)
Definition ext_id (i : Z) : Prop := 0x10000 <= i < 0x20000.

(* ---- Proofs ---- *)
Lemma str_eq_ok a b : name_ok a -> name_ok b ->
  str_eq (cstr a) (cstr b) = Ok (if list_eq_dec Z.eq_dec a b then true else false).
Proof.
  unfold cstr. intros HA. revert b. induction HA as [|x a NX HA IH]; intros b HB.
  - destruct HB as [|y b NY HB]; cbn [app str_eq].
    + rewrite Z.eqb_refl. reflexivity.
    + destruct (Z.eqb_spec 0 y); [lia|]. destruct (list_eq_dec _ _ _); [discriminate|reflexivity].
  - destruct HB as [|y b NY HB]; cbn [app str_eq].
    + destruct (Z.eqb_spec x 0); [lia|]. destruct (list_eq_dec _ _ _); [discriminate|reflexivity].
    + destruct (Z.eqb_spec x y) as [->|NE].
      * destruct (Z.eqb_spec y 0); [lia|]. rewrite IH by auto.
        destruct (list_eq_dec Z.eq_dec a b) as [->|N]; destruct (list_eq_dec _ _ _); congruence.
      * destruct (list_eq_dec _ _ _); congruence.
Qed.

Definition sentry (n : name) (i : Z) : Prop := exists str, In (str, i) special_symbols /\ chars str = n.
Definition xentry (s : syms) (n : name) (i : Z) : Prop :=
  exists k f, nth_error (x_tab s) k = Some (Some n, f) /\ i = EXTENSION_SYMBOLS_START + Z.of_nat k.
Definition lentry (s : syms) (n : name) (i : Z) : Prop := In (n, i) (y_list s).
Definition entry s n i : Prop := sentry n i \/ xentry s n i \/ lentry s n i.

Definition entry_okb (p : string * Z) : bool :=
  let (n, i) := p in
  forallb (fun c => negb (c =? 0)) (chars n) && (0 <=? i) && (i <? 0x40000) &&
  negb (SYMBOL_KIND i =? 1) && (Z.of_nat (length (chars n)) <=? 256) && (1 <=? Z.of_nat (length (chars n))).
Lemma specials_ok : forallb entry_okb special_symbols = true.
Proof. vm_compute. reflexivity. Qed.
Fixpoint nodupb (l : list name) : bool :=
  match l with
  | [] => true
  | n :: t => negb (existsb (fun m => if list_eq_dec Z.eq_dec n m then true else false) t) && nodupb t
  end.
Lemma specials_nodup : NoDup (map (fun p => chars (fst p)) special_symbols).
Proof.
  assert (H : nodupb (map (fun p => chars (fst p)) special_symbols) = true) by (vm_compute; reflexivity).
  revert H. generalize (map (fun p => chars (fst p)) special_symbols).
  induction l as [|n t IH]; intros H; constructor; cbn [nodupb] in H; apply andb_true_iff in H; destruct H as [H1 H2]; auto.
  intros I. apply negb_true_iff in H1. assert (existsb (fun m => if list_eq_dec Z.eq_dec n m then true else false) t = true); [|congruence].
  apply existsb_exists. exists n. split; auto. destruct (list_eq_dec Z.eq_dec n n); auto.
Qed.

Lemma sentry_ok n i : sentry n i -> name_ok n /\ 0 <= i < 0x40000 /\ SYMBOL_KIND i <> 1.
Proof.
  intros (str&I&<-). pose proof specials_ok as H. rewrite forallb_forall in H. specialize (H _ I).
  unfold entry_okb in H. rewrite !andb_true_iff in H. destruct H as [[[[[H1 H2] H3] H4] _] _].
  split; [|split; [lia|intros E; rewrite E in H4; discriminate]].
  rewrite forallb_forall in H1. apply Forall_forall. intros c IC. specialize (H1 c IC). lia.
Qed.

Lemma kind_div i : SYMBOL_KIND i = i / 65536.
Proof. unfold SYMBOL_KIND. rewrite Z.shiftr_div_pow2 by lia. reflexivity. Qed.
Lemma ix_mod i : SYMBOL_IX i = i mod 65536.
Proof. unfold SYMBOL_IX. change 0xFFFF with (Z.ones 16). rewrite Z.land_ones by lia. reflexivity. Qed.

Lemma sentry_noext n i : sentry n i -> ~ ext_id i /\ i < 0x40000 /\ 0 <= i.
Proof.
  intros H. apply sentry_ok in H. destruct H as (_&B&K). rewrite kind_div in K.
  split; [|lia]. unfold ext_id. intros E. apply K. symmetry. apply Z.div_unique with (i - 65536); lia.
Qed.

Lemma sentry_fun n i j : sentry n i -> sentry n j -> i = j.
Proof.
  intros (s1&I1&E1) (s2&I2&E2). pose proof specials_nodup as ND.
  revert I1 I2 ND. generalize special_symbols. induction l as [|[str k] t IH]; cbn [map fst In]; [tauto|].
  intros I1 I2 ND. inversion ND as [|x y N1 N2]; subst.
  assert (Q : forall s m, In (s, m) t -> In (chars s) (map (fun p => chars (fst p)) t)).
  { intros s m I. apply in_map_iff. exists (s, m). auto. }
  destruct I1 as [I1|I1], I2 as [I2|I2].
  - congruence.
  - injection I1 as -> ->. exfalso. apply N1. rewrite <- E2. eauto.
  - injection I2 as -> ->. exfalso. apply N1. rewrite E2. eauto.
  - auto.
Qed.

Lemma find_special_ok n : name_ok n ->
  match find_special special_symbols n with
  | Ok (Some i) => sentry n i
  | Ok None => forall i, ~ sentry n i
  | _ => False
  end.
Proof.
  intros N. unfold sentry.
  assert (F : Forall (fun p => name_ok (chars (fst p))) special_symbols).
  { apply Forall_forall. intros [str i] I. apply (sentry_ok (chars str) i). exists str. auto. }
  induction F as [|[m i] t F1 F IH]; cbn [find_special].
  - intros i (s&[]&_).
  - cbn [fst] in F1. rewrite str_eq_ok by auto. cbn [bind].
    destruct (list_eq_dec Z.eq_dec n (chars m)) as [->|NE].
    + exists m. split; [left|]; auto.
    + destruct (find_special t n) as [[j|]| |]; auto.
      * destruct IH as (s&I&E). exists s. split; [right|]; auto.
      * intros j (s&[I|I]&E); [injection I as -> ->; congruence|]. apply (IH j). eauto.
Qed.

Lemma find_ext_ok n t : name_ok n -> Forall (fun p => match fst p with Some m => name_ok m | None => True end) t -> forall b,
  match find_ext t b n with
  | Ok (Some i) => exists k f, nth_error t k = Some (Some n, f) /\ i = EXTENSION_SYMBOLS_START + b + Z.of_nat k
  | Ok None => forall k f, nth_error t k <> Some (Some n, f)
  | _ => False
  end.
Proof.
  intros N F. induction F as [|[o f] t F1 F IH]; intros b; cbn [find_ext].
  - intros [|k] f; discriminate.
  - specialize (IH (b + 1)).
    assert (ST : o <> Some n -> match find_ext t (b + 1) n with
      | Ok (Some i) => exists k f0, nth_error ((o, f) :: t) k = Some (Some n, f0) /\ i = EXTENSION_SYMBOLS_START + b + Z.of_nat k
      | Ok None => forall k f0, nth_error ((o, f) :: t) k <> Some (Some n, f0) | _ => False end).
    { intros NE. destruct (find_ext t (b + 1) n) as [[i|]| |]; auto.
      - destruct IH as (k&g&E&->). exists (S k), g. split; auto. lia.
      - intros [|k] g E; [cbn in E; congruence|]. exact (IH k g E). }
    destruct o as [m|]; [|apply ST; discriminate].
    cbn [fst] in F1. rewrite str_eq_ok by auto. cbn [bind].
    destruct (list_eq_dec Z.eq_dec n m) as [->|NE]; [|apply ST; congruence].
    exists 0%nat, f. split; auto. lia.
Qed.

Lemma find_list_ok n l : name_ok n -> Forall (fun p => name_ok (fst p)) l ->
  match find_list l n with
  | Ok (Some i) => In (n, i) l
  | Ok None => forall i, ~ In (n, i) l
  | _ => False
  end.
Proof.
  intros N F. induction F as [|[m i] t F1 F IH]; cbn [find_list].
  - intros i [].
  - cbn [fst] in F1. rewrite str_eq_ok by auto. cbn [bind].
    destruct (list_eq_dec Z.eq_dec n m) as [->|NE]; [left; auto|].
    destruct (find_list t n) as [[j|]| |]; auto.
    + right; auto.
    + intros j [E|I]; [congruence|]. exact (IH j I).
Qed.

(* invariant; [b] bounds the symbol numbers *)
Record inv (b : Z) (s : syms) : Prop := {
  i_tab : Z.of_nat (length (x_tab s)) <= 2 ^ 16;
  i_next : 0 <= x_next s <= Z.of_nat (length (x_tab s));
  i_free : forall k e, nth_error (x_tab s) k = Some e -> x_next s <= Z.of_nat k -> fst e = None;
  i_ids : forall n i, In (n, i) (y_list s) -> 0x40000 <= i < y_next s;
  i_ynext : 0x40000 <= y_next s <= b;
  i_fun : forall n i j, entry s n i -> entry s n j -> i = j;
  i_inj : forall n m i, In (n, i) (y_list s) -> In (m, i) (y_list s) -> n = m;
  i_names : forall n i, entry s n i -> name_ok n }.

Lemma xentry_id s b n i : inv b s -> xentry s n i -> ext_id i.
Proof.
  intros I (k&f&E&->). pose proof (i_tab _ _ I).
  assert (k < length (x_tab s))%nat by (apply nth_error_Some; congruence).
  unfold ext_id, EXTENSION_SYMBOLS_START. lia.
Qed.

Lemma lookup_ok b s n : inv b s -> name_ok n ->
  match get_symbol_by_name s n with
  | Ok (Some i) => entry s n i
  | Ok None => forall i, ~ entry s n i
  | _ => False
  end.
Proof.
  intros I N. unfold get_symbol_by_name, entry.
  assert (FX : Forall (fun p => match fst p with Some m => name_ok m | None => True end) (x_tab s)).
  { apply Forall_forall. intros [[m|] f] IN; cbn; auto. apply In_nth_error in IN. destruct IN as (k&E).
    apply (i_names _ _ I m (EXTENSION_SYMBOLS_START + Z.of_nat k)). right; left. exists k, f. auto. }
  assert (FL : Forall (fun p => name_ok (fst p)) (y_list s)).
  { apply Forall_forall. intros [m i] IN; cbn. apply (i_names _ _ I m i). right; right. auto. }
  pose proof (find_special_ok n N) as S1. destruct (find_special special_symbols n) as [[i|]| |]; cbn [bind]; auto.
  pose proof (find_ext_ok n _ N FX 0) as S2. destruct (find_ext (x_tab s) 0 n) as [[i|]| |]; cbn [bind]; auto.
  pose proof (find_list_ok n _ N FL) as S3. destruct (find_list (y_list s) n) as [[i|]| |]; auto.
  intros i [E|[E|E]]; [eapply S1; eauto| |eapply S3; eauto]. destruct E as (k&f&E&_). exact (S2 k f E).
Qed.

Lemma symbol_entry b s n i : inv b s -> name_ok n -> (symbol_of s n = Some i <-> entry s n i).
Proof.
  intros I N. pose proof (lookup_ok b s n I N) as L. unfold symbol_of.
  destruct (get_symbol_by_name s n) as [[j|]| |]; try tauto.
  - split; [intros [= ->]; auto|]. intros E. f_equal. apply (i_fun _ _ I n); auto.
  - split; [discriminate|]. intros E. exfalso. eapply L; eauto.
Qed.

Lemma lookup_total b s n : inv b s -> name_ok n -> get_symbol_by_name s n = Ok (symbol_of s n).
Proof.
  intros I N. pose proof (lookup_ok b s n I N) as L. unfold symbol_of.
  destruct (get_symbol_by_name s n) as [r| |]; tauto.
Qed.

Lemma symbol_none b s n : inv b s -> name_ok n -> symbol_of s n = None -> forall i, ~ entry s n i.
Proof. intros I N E i H. apply (symbol_entry b s n i I N) in H. congruence. Qed.

(* adding a runtime symbol *)
Lemma push_inv b s n : inv b s -> name_ok n -> b + 1 < 2 ^ 28 -> (forall i, ~ entry s n i) ->
  exists s', push_symbol s n = (s', Some (y_next s)) /\ inv (b + 1) s' /\
    (forall m i, entry s' m i <-> entry s m i \/ (m = n /\ i = y_next s)) /\
    x_tab s' = x_tab s /\ x_next s' = x_next s /\ y_list s' = (n, y_next s) :: y_list s.
Proof.
  intros I N B NE. eexists. split; [reflexivity|].
  assert (ENT : forall m i, entry (mksy ((n, y_next s) :: y_list s) (wrap W (y_next s + 1)) (x_tab s) (x_num s) (x_next s)) m i
     <-> entry s m i \/ (m = n /\ i = y_next s)).
  { intros m i. unfold entry, lentry, xentry. cbn [y_list x_tab In]. split.
    - intros [E|[E|[E|E]]]; auto. injection E as <- <-. auto.
    - intros [[E|[E|E]]|[-> ->]]; auto. }
  assert (WR : wrap W (y_next s + 1) = y_next s + 1).
  { apply wrap_small. pose proof (i_ynext _ _ I). assert (2 ^ 32 <= 2 ^ W) by (unfold W, sel; destruct A; cbn; lia). lia. }
  assert (FRESH : forall m, ~ entry s m (y_next s)).
  { intros m [E|[E|E]].
    - apply sentry_noext in E. pose proof (i_ynext _ _ I). lia.
    - eapply xentry_id in E; eauto. unfold ext_id in E. pose proof (i_ynext _ _ I). lia.
    - apply (i_ids _ _ I) in E. lia. }
  split; [|auto]. destruct I as [I1 I2 I3 I4 I5 I6 I7 I8]. rewrite WR in *.
  constructor; cbn [y_list y_next x_tab x_num x_next]; auto.
  - intros m i [E|E]; [injection E as <- <-; lia|]. apply I4 in E. lia.
  - lia.
  - intros m i j E1 E2. apply ENT in E1, E2. destruct E1 as [E1|[-> ->]], E2 as [E2|[E3 E4]]; subst; auto.
    + eauto. + exfalso. eapply NE; eauto. + exfalso. eapply NE; eauto.
  - intros m k i [E1|E1] [E2|E2]; try congruence.
    + injection E1 as <- <-. apply I4 in E2. lia.
    + injection E2 as <- <-. apply I4 in E1. lia.
    + eauto.
  - intros m i E. apply ENT in E. destruct E as [E|[-> _]]; eauto.
Qed.

(* changing one slot of the extension table *)
Lemma slot_entries b s k e o' f' : inv b s -> nth_error (x_tab s) k = Some e -> forall yn num nx m i,
  (entry (mksy (y_list s) yn (upd (x_tab s) k (o', f')) num nx) m i <->
   (entry s m i /\ i <> EXTENSION_SYMBOLS_START + Z.of_nat k) \/
   (o' = Some m /\ i = EXTENSION_SYMBOLS_START + Z.of_nat k)).
Proof.
  intros I E yn num nx m i. assert (LK : (k < length (x_tab s))%nat) by (apply nth_error_Some; congruence).
  pose proof (i_tab _ _ I) as LT.
  assert (XI : ext_id (EXTENSION_SYMBOLS_START + Z.of_nat k)) by (unfold ext_id, EXTENSION_SYMBOLS_START; lia).
  unfold entry, lentry. cbn [y_list]. split.
  - intros [H|[H|H]].
    + left. split; auto. apply sentry_noext in H. intros ->. tauto.
    + destruct H as (j&g&E1&->). cbn [x_tab] in E1. destruct (Nat.eq_dec k j) as [<-|NE].
      * rewrite nth_error_upd_eq in E1 by auto. injection E1 as -> _. auto.
      * rewrite nth_error_upd_neq in E1 by auto. left. split; [right; left; exists j, g; auto|lia].
    + left. split; auto. apply (i_ids _ _ I) in H. intros ->. unfold ext_id in XI. lia.
  - intros [[[H|[H|H]] NE]|[-> ->]]; auto.
    + destruct H as (j&g&E1&->). right; left. exists j, g. cbn [x_tab]. rewrite nth_error_upd_neq by lia. auto.
    + right; left. exists k, f'. cbn [x_tab]. rewrite nth_error_upd_eq by auto. auto.
Qed.

Lemma slot_inv b s k e o' f' yn num nx : inv b s -> nth_error (x_tab s) k = Some e ->
  (forall m, o' = Some m -> name_ok m /\ forall i, entry s m i -> i = EXTENSION_SYMBOLS_START + Z.of_nat k) ->
  yn = y_next s -> x_next s <= nx <= Z.of_nat (length (x_tab s)) -> (o' <> None -> Z.of_nat k < nx) ->
  inv b (mksy (y_list s) yn (upd (x_tab s) k (o', f')) num nx).
Proof.
  intros I E NM -> NX OK. pose proof (slot_entries b s k e o' f' I E (y_next s) num nx) as ENT.
  pose proof I as [I1 I2 I3 I4 I5 I6 I7 I8].
  constructor; cbn [y_list y_next x_tab x_num x_next]; rewrite ?length_upd; auto.
  - lia.
  - intros j g E1 LE. destruct (Nat.eq_dec k j) as [<-|NE].
    + rewrite nth_error_upd_eq in E1 by (apply nth_error_Some; congruence). injection E1 as <-. cbn.
      destruct o' as [m|]; auto. specialize (OK ltac:(discriminate)). lia.
    + rewrite nth_error_upd_neq in E1 by auto. apply (I3 _ _ E1). lia.
  - intros m i j E1 E2. apply ENT in E1, E2.
    destruct E1 as [[E1 N1]|[E1 ->]], E2 as [[E2 N2]|[E2 ->]]; auto.
    + eauto.
    + destruct (NM _ E2) as [_ Q]. exfalso. apply N1. auto.
    + destruct (NM _ E1) as [_ Q]. exfalso. apply N2. auto.
  - intros m i E1. apply ENT in E1. destruct E1 as [[E1 _]|[E1 _]]; eauto. apply NM; auto.
Qed.

Lemma inv_weak b b' s : b <= b' -> inv b s -> inv b' s.
Proof. intros L [I1 I2 I3 I4 I5 I6 I7 I8]. constructor; auto. lia. Qed.

Lemma ext_id_dec i : 0 <= i -> ext_id i -> SYMBOL_IX i = i - EXTENSION_SYMBOLS_START.
Proof.
  intros P [L U]. rewrite ix_mod. unfold EXTENSION_SYMBOLS_START. symmetry. apply Z.mod_unique with 1; lia.
Qed.

Lemma get_extension_eq b s i : inv b s -> 0 <= i < 2 ^ 28 ->
  get_extension s i = Ok (match nth_error (x_tab s) (Z.to_nat (i - EXTENSION_SYMBOLS_START)) with
                          | Some (_, f) => if EXTENSION_SYMBOLS_START <=? i then Some f else None
                          | None => None end).
Proof.
  intros I B. unfold get_extension, x_max. pose proof (i_tab _ _ I) as LT.
  assert (WB : 2 ^ 32 <= 2 ^ W) by (unfold W, sel; destruct A; cbn; lia).
  unfold EXTENSION_SYMBOLS_START. destruct (Z.leb_spec 0x10000 i).
  - rewrite wrap_small by lia. destruct (nth_error (x_tab s) (Z.to_nat (i - 65536))) as [[o f]|] eqn:E.
    + assert (Z.to_nat (i - 65536) < length (x_tab s))%nat by (apply nth_error_Some; congruence).
      rewrite Z.geb_leb. destruct (Z.leb_spec (Z.of_nat (length (x_tab s))) (i - 65536)); [lia|].
      rewrite (rd_nth _ _ (o, f)) by (auto; lia). reflexivity.
    + apply nth_error_None in E. rewrite Z.geb_leb.
      destruct (Z.leb_spec (Z.of_nat (length (x_tab s))) (i - 65536)); [|lia]. reflexivity.
  - assert (wrap W (i - 65536) = i - 65536 + 2 ^ W).
    { unfold wrap. symmetry. apply Z.mod_unique with (-1); lia. }
    rewrite H0, Z.geb_leb. destruct (Z.leb_spec (Z.of_nat (length (x_tab s))) (i - 65536 + 2 ^ W)); [|lia].
    destruct (nth_error _ _) as [[o f]|]; reflexivity.
Qed.

Lemma dec_enc i : 0 <= i < 2 ^ 28 -> dec_sym (enc_sym i) = i.
Proof.
  intros B. apply enc_sym_roundtrip. assert (2 ^ 28 <= 2 ^ payload A) by (unfold payload; destruct A; cbn; lia). lia.
Qed.

(* the four operations on a state satisfying the invariant *)
Lemma add_symbol_ok b s w n ok : inv b s -> name_ok n -> b + 1 < 2 ^ 28 ->
  match symbol_of s n with
  | Some i => add_symbol s w n ok = Ok (s, Some i)
  | None =>
    if storable w n ok then exists s', add_symbol s w n ok = Ok (s', Some (y_next s)) /\ inv (b + 1) s' /\
      (forall m i, entry s' m i <-> entry s m i \/ (m = n /\ i = y_next s)) /\
      x_tab s' = x_tab s /\ x_next s' = x_next s /\ y_list s' = (n, y_next s) :: y_list s
    else add_symbol s w n ok = Ok (s, None)
  end.
Proof.
  intros I N B. unfold add_symbol. rewrite (lookup_total b s n I N). cbn [bind].
  destruct (symbol_of s n) as [i|] eqn:E; auto.
  unfold add_symbol_base. destruct (storable w n ok); auto.
  destruct (push_inv b s n I N B (symbol_none b s n I N E)) as (s'&EP&Q). rewrite EP. eauto.
Qed.

Lemma str_to_symbol_eq b s n ok : inv b s -> name_ok n ->
  str_to_symbol s n ok = add_symbol s Memory n ok.
Proof.
  intros I N. unfold str_to_symbol, add_symbol. rewrite (lookup_total b s n I N). cbn [bind].
  destruct (symbol_of s n); auto.
Qed.

Lemma clr_ok b s i : inv b s -> 0 <= i ->
  if SYMBOL_IX i >=? x_max s then clr_extension s i = Ok (s, false) else
  exists s', clr_extension s i = Ok (s', true) /\ inv b s' /\
    s' = mksy (y_list s) (y_next s) (upd (x_tab s) (Z.to_nat (SYMBOL_IX i)) (None, default_fn)) (x_num s) (x_next s) /\
    (forall m j, entry s' m j <-> entry s m j /\ j <> EXTENSION_SYMBOLS_START + SYMBOL_IX i).
Proof.
  intros I P. unfold clr_extension. destruct (SYMBOL_IX i >=? x_max s) eqn:E; auto.
  assert (IB : 0 <= SYMBOL_IX i) by (rewrite ix_mod; apply Z.mod_pos_bound; lia).
  rewrite Z.geb_leb in E. apply Z.leb_gt in E. unfold x_max in E.
  rewrite wr_ok by lia. cbn [bind]. eexists. split; [reflexivity|].
  destruct (nth_error (x_tab s) (Z.to_nat (SYMBOL_IX i))) as [e|] eqn:EN; [|apply nth_error_None in EN; lia].
  split; [|split; auto].
  - apply slot_inv with e; auto; try discriminate; try tauto. pose proof (i_next _ _ I). lia.
  - intros m j. rewrite (slot_entries b s _ e None default_fn I EN). rewrite Z2Nat.id by lia.
    split; [intros [H|[H _]]; [auto|discriminate]|auto].
Qed.

Lemma add_ext_ok b s n f : inv b s -> b < 2 ^ 28 -> name_ok n ->
  match symbol_of s n with
  | Some i =>
    (ext_id i /\ exists s' g, add_extension s n f = Ok (s', true) /\ inv b s' /\
      nth_error (x_tab s) (Z.to_nat (i - EXTENSION_SYMBOLS_START)) = Some (Some n, g) /\
      s' = mksy (y_list s) (y_next s) (upd (x_tab s) (Z.to_nat (i - EXTENSION_SYMBOLS_START)) (Some n, f)) (x_num s) (x_next s) /\
      (forall m j, entry s' m j <-> entry s m j)) \/
    (~ ext_id i /\ add_extension s n f = Ok (s, false))
  | None =>
    if x_next s <? x_max s then exists s', add_extension s n f = Ok (s', true) /\ inv b s' /\
      x_tab s' = upd (x_tab s) (Z.to_nat (x_next s)) (Some n, f) /\ x_next s' = x_next s + 1 /\
      y_list s' = y_list s /\ y_next s' = y_next s /\
      (forall m j, entry s' m j <-> entry s m j \/ (m = n /\ j = EXTENSION_SYMBOLS_START + x_next s))
    else add_extension s n f = Ok (s, false)
  end.
Proof.
  intros I B N. unfold add_extension. rewrite (lookup_total b s n I N). cbn [bind].
  destruct (symbol_of s n) as [i|] eqn:E.
  - apply (symbol_entry b s n i I N) in E. pose proof E as E0. destruct E as [E|[E|E]].
    + right. apply sentry_noext in E. split; [tauto|]. rewrite dec_enc by lia.
      rewrite (get_extension_eq b) by (auto; lia). cbn [bind].
      destruct (nth_error _ _) as [[o g]|] eqn:EN; auto.
      destruct (Z.leb_spec EXTENSION_SYMBOLS_START i); auto. exfalso.
      assert (Z.to_nat (i - EXTENSION_SYMBOLS_START) < length (x_tab s))%nat by (apply nth_error_Some; congruence).
      pose proof (i_tab _ _ I). unfold ext_id, EXTENSION_SYMBOLS_START in *. lia.
    + left. pose proof (xentry_id s b n i I E) as X. split; auto. destruct E as (k&g&EN&EI).
      assert (KI : Z.to_nat (i - EXTENSION_SYMBOLS_START) = k) by lia.
      pose proof (i_tab _ _ I) as LT. unfold ext_id in X. rewrite dec_enc by lia.
      rewrite (get_extension_eq b) by (auto; lia). cbn [bind]. rewrite KI, EN.
      destruct (Z.leb_spec EXTENSION_SYMBOLS_START i); [|unfold EXTENSION_SYMBOLS_START in *; lia].
      rewrite ext_id_dec by (unfold ext_id; lia).
      rewrite (rd_nth _ _ (Some n, g)) by (rewrite ?KI; auto; lia). cbn [bind].
      rewrite str_eq_ok by auto. destruct (list_eq_dec Z.eq_dec n n); [|congruence]. cbn [bind].
      assert (k < length (x_tab s))%nat by (apply nth_error_Some; congruence).
      rewrite wr_ok by lia. cbn [bind]. rewrite KI. eexists _, g. split; [reflexivity|]. split; [|split; [auto|split; [auto|]]].
      * apply slot_inv with (Some n, g); auto.
        -- intros m [= <-]. split; auto. intros j Ej. rewrite (i_fun _ _ I n j i Ej E0). auto.
        -- pose proof (i_next _ _ I). lia.
        -- intros _. destruct (Z.lt_ge_cases (Z.of_nat k) (x_next s)) as [|GE]; auto.
           pose proof (i_free _ _ I _ _ EN GE). discriminate.
      * intros m j. rewrite (slot_entries b s k _ _ _ I EN). split.
        -- intros [[H1 _]|[[= <-] ->]]; auto. rewrite <- EI. auto.
        -- intros H1. destruct (Z.eq_dec j (EXTENSION_SYMBOLS_START + Z.of_nat k)) as [->|NE]; auto.
           right. split; auto. f_equal. destruct H1 as [H1|[H1|H1]].
           ++ apply sentry_noext in H1. unfold ext_id, EXTENSION_SYMBOLS_START in *. lia.
           ++ destruct H1 as (k2&g2&E2&E3). assert (k2 = k) by lia. subst k2. congruence.
           ++ apply (i_ids _ _ I) in H1. unfold EXTENSION_SYMBOLS_START in *. lia.
    + right. apply (i_ids _ _ I) in E. pose proof (i_ynext _ _ I). split; [unfold ext_id; lia|].
      rewrite dec_enc by lia. rewrite (get_extension_eq b) by (auto; lia). cbn [bind].
      destruct (nth_error _ _) as [[o g]|] eqn:EN; auto. exfalso.
      assert (Z.to_nat (i - EXTENSION_SYMBOLS_START) < length (x_tab s))%nat by (apply nth_error_Some; congruence).
      pose proof (i_tab _ _ I). unfold EXTENSION_SYMBOLS_START in *. lia.
  - pose proof (symbol_none b s n I N E) as NE. pose proof (i_next _ _ I) as NX. pose proof (i_tab _ _ I) as LT.
    assert (WB : 2 ^ 32 <= 2 ^ W) by (unfold W, sel; destruct A; cbn; lia).
    destruct (Z.ltb_spec (x_next s) (x_max s)) as [L|L]; auto. unfold x_max in L.
    rewrite wr_ok by lia. cbn [bind]. rewrite (wrap_small W (x_next s + 1)) by lia.
    eexists. split; [reflexivity|].
    destruct (nth_error (x_tab s) (Z.to_nat (x_next s))) as [e|] eqn:EN; [|apply nth_error_None in EN; lia].
    split; [|split; [auto|split; [auto|split; [auto|split; [auto|]]]]].
    + apply slot_inv with e; auto; try lia. intros m [= <-]. split; auto. intros i H. exfalso. eapply NE; eauto.
    + intros m j. rewrite (slot_entries b s _ e _ _ I EN). rewrite Z2Nat.id by lia. split.
      * intros [[H _]|[[= <-] ->]]; auto.
      * intros [H|[-> ->]]; auto. left. split; auto. intros ->.
        destruct H as [H|[H|H]].
        -- apply sentry_noext in H. unfold ext_id, EXTENSION_SYMBOLS_START in *. lia.
        -- destruct H as (k&g&E1&E2). assert (Z.of_nat k = x_next s) by lia.
           pose proof (i_free _ _ I _ _ E1 ltac:(lia)) as Q. discriminate.
        -- apply (i_ids _ _ I) in H. unfold EXTENSION_SYMBOLS_START in *. lia.
Qed.

Lemma step_inv b s o : inv b s -> op_ok o -> b + 1 < 2 ^ 28 ->
  exists s' a, step s o = Ok (s', a) /\ inv (b + 1) s' /\
  (forall m i, entry s m i -> (forall c, o = OClr c -> i <> EXTENSION_SYMBOLS_START + SYMBOL_IX c) -> entry s' m i).
Proof.
  intros I OK B. assert (IW := inv_weak b (b + 1) s ltac:(lia) I).
  assert (SYM : forall w n ok, name_ok n -> exists s' i, add_symbol s w n ok = Ok (s', i) /\ inv (b + 1) s' /\
     (forall m i, entry s m i -> entry s' m i)).
  { intros w n ok N. pose proof (add_symbol_ok b s w n ok I N B) as Q. destruct (symbol_of s n); [eauto 6|].
    destruct (storable w n ok); [|eauto 6]. destruct Q as (s'&E&I'&EN&_). exists s', (Some (y_next s)). split; auto. split; auto.
    intros m i H. apply EN. auto. }
  destruct o as [w n ok|n ok|n f|c]; cbn [step op_ok] in *.
  - destruct (SYM w n ok OK) as (s'&i&E&I'&M). rewrite E. cbn [bind]. eauto 6.
  - rewrite (str_to_symbol_eq b) by auto. destruct (SYM Memory n ok OK) as (s'&i&E&I'&M). rewrite E. cbn [bind]. eauto 6.
  - pose proof (add_ext_ok b s n f I ltac:(lia) OK) as Q. destruct (symbol_of s n).
    + destruct Q as [(X&s'&g&E&I'&_&_&EN)|(X&E)]; rewrite E; cbn [bind].
      * eexists _, _. split; [reflexivity|]. split; [apply inv_weak with b; auto; lia|]. intros m i H _. apply EN. auto.
      * eauto 6.
    + destruct (x_next s <? x_max s); [|rewrite Q; cbn [bind]; eauto 6].
      destruct Q as (s'&E&I'&_&_&_&_&EN). rewrite E. cbn [bind]. eexists _, _. split; [reflexivity|].
      split; [apply inv_weak with b; auto; lia|]. intros m i H _. apply EN. auto.
  - pose proof (clr_ok b s c I OK) as Q. destruct (_ >=? _); [rewrite Q; cbn [bind]; eauto 6|].
    destruct Q as (s'&E&I'&_&EN). rewrite E. cbn [bind]. eexists _, _. split; [reflexivity|].
    split; [apply inv_weak with b; auto; lia|]. intros m i H NC. apply EN. split; auto.
Qed.

Lemma steps_inv s h s' : steps s h s' -> forall b, inv b s -> b + Z.of_nat (length h) < 2 ^ 28 ->
  inv (b + Z.of_nat (length h)) s' /\
  (forall m i, entry s m i -> (forall c a, In (OClr c, a) h -> i <> EXTENSION_SYMBOLS_START + SYMBOL_IX c) -> entry s' m i).
Proof.
  induction 1 as [s|s o a s1 h s2 OK E ST IH]; intros b I B; cbn [length] in *.
  - rewrite Z.add_0_r. auto.
  - destruct (step_inv b s o I OK ltac:(lia)) as (s1'&a'&E'&I1&M). rewrite E in E'. injection E' as <- <-.
    destruct (IH (b + 1) I1 ltac:(lia)) as [I2 M2].
    replace (b + Z.of_nat (S (length h))) with (b + 1 + Z.of_nat (length h)) by lia. split; auto.
    intros m i H NC. apply M2; [apply M; auto|].
    + intros c ->. eapply NC. left. reflexivity.
    + intros c a0 IN. eapply NC. right. eauto.
Qed.

Lemma init_inv n : Z.of_nat n <= 2 ^ 16 -> inv 0x40000 (tables_init n).
Proof.
  intros L. constructor; cbn [tables_init y_list y_next x_tab x_num x_next]; rewrite ?repeat_length; auto; try lia.
  - intros k e E _. apply nth_error_In, repeat_spec in E. subst e. reflexivity.
  - intros m i [].
  - unfold RUNTIME_SYMBOLS_START. lia.
  - intros m i j E1 E2.
    assert (Q : forall i, entry (tables_init n) m i -> sentry m i).
    { intros k [H|[H|[]]]; auto. destruct H as (q&f&H&_). cbn in H. apply nth_error_In, repeat_spec in H. discriminate. }
    apply Q in E1, E2. eapply sentry_fun; eauto.
  - intros m k i [].
  - intros m i [H|[H|[]]]; [apply sentry_ok in H; tauto|].
    destruct H as (q&f&H&_). cbn in H. apply nth_error_In, repeat_spec in H. discriminate.
Qed.

Lemma reachable_inv max h s : reachable max h s -> inv (2 ^ 28 - 1) s.
Proof.
  intros (L&LH&okx&oky&s0&E&ST). pose proof (init_inv max L) as I. unfold symrepr_init in E.
  assert (NX : name_ok (chars "x")) by (repeat constructor; discriminate).
  assert (NY : name_ok (chars "y")) by (repeat constructor; discriminate).
  destruct (step_inv _ _ (OSym Memory (chars "x") okx) I NX ltac:(lia)) as (s1&a1&E1&I1&_).
  cbn [step] in E1. destruct (add_symbol (tables_init max) Memory (chars "x") okx) as [[s1' i1]| |]; try discriminate.
  cbn [bind] in E1, E. injection E1 as <- _.
  destruct (step_inv _ _ (OSym Memory (chars "y") oky) I1 NY ltac:(lia)) as (s2&a2&E2&I2&_).
  cbn [step] in E2. destruct (add_symbol s1' Memory (chars "y") oky) as [[s2' i2]| |]; try discriminate.
  cbn [bind] in E2, E. injection E2 as <- _. injection E as <-.
  destruct (steps_inv _ _ _ ST _ I2 ltac:(lia)) as [I3 _]. apply inv_weak with (2 := I3). lia.
Qed.

Lemma reachable_steps max h s h' s' : reachable max h s -> steps s h' s' ->
  Z.of_nat (length h + length h') < 2 ^ 27 -> reachable max (h ++ h') s'.
Proof.
  intros (L&LH&okx&oky&s0&E&ST) ST' B. split; auto. split; [rewrite app_length; auto|].
  exists okx, oky, s0. split; auto. clear - ST ST'. induction ST; cbn; auto. econstructor; eauto.
Qed.

(* ---- C17 ---- *)

(* No operation goes wrong in a reachable state. *)
Theorem tables_safe : forall max h s o, reachable max h s -> op_ok o ->
  Z.of_nat (length h) + 1 < 2 ^ 27 -> exists s' a, step s o = Ok (s', a) /\ reachable max (h ++ [(o, a)]) s'.
Proof.
  intros max h s o R OK B. assert (RI := R). destruct RI as (L&LH&okx&oky&s0&E0&ST0).
  assert (I : inv (2 ^ 28 - 1) s) by (eapply reachable_inv; eauto).
  assert (YB : inv (0x40000 + 2 + 2 ^ 27) s).
  { pose proof (init_inv max L) as I0. unfold symrepr_init in E0.
    assert (NX : name_ok (chars "x")) by (repeat constructor; discriminate).
    assert (NY : name_ok (chars "y")) by (repeat constructor; discriminate).
    destruct (step_inv _ _ (OSym Memory (chars "x") okx) I0 NX ltac:(lia)) as (s1&a1&E1&I1&_).
    cbn [step] in E1. destruct (add_symbol (tables_init max) Memory (chars "x") okx) as [[s1' i1]| |]; try discriminate.
    cbn [bind] in E1, E0. injection E1 as <- _.
    destruct (step_inv _ _ (OSym Memory (chars "y") oky) I1 NY ltac:(lia)) as (s2&a2&E2&I2&_).
    cbn [step] in E2. destruct (add_symbol s1' Memory (chars "y") oky) as [[s2' i2]| |]; try discriminate.
    cbn [bind] in E2, E0. injection E2 as <- _. injection E0 as <-.
    destruct (steps_inv _ _ _ ST0 _ I2 ltac:(lia)) as [I3 _]. apply inv_weak with (2 := I3). lia. }
  destruct (step_inv _ s o YB OK ltac:(lia)) as (s'&a&E&_). exists s', a. split; auto.
  eapply reachable_steps; eauto. econstructor; eauto. constructor. cbn. lia.
Qed.

(* Creating a symbol answers with the symbol of that name, now and, unless an
   extension is cleared, forever. *)
Theorem symbol_created : forall max h s w n ok i s', reachable max h s -> name_ok n ->
  Z.of_nat (length h) + 1 < 2 ^ 27 ->
  step s (OSym w n ok) = Ok (s', Sym (Some i)) \/ (w = Memory /\ step s (OStr n ok) = Ok (s', Sym (Some i))) ->
  symbol_of s' n = Some i.
Proof.
  intros max h s w n ok i s' R N B E0.
  assert (I := reachable_inv _ _ _ R).
  assert (E : step s (OSym w n ok) = Ok (s', Sym (Some i))).
  { destruct E0 as [E|[-> E]]; auto. cbn [step] in *. rewrite (str_to_symbol_eq (2 ^ 28 - 1)) in E by auto. auto. }
  destruct (tables_safe max h s (OSym w n ok) R N B) as (s1&a&E1&R1).
  rewrite E in E1. injection E1 as <- <-. assert (I1 := reachable_inv _ _ _ R1).
  assert (Q : match symbol_of s n with
    | Some i => add_symbol s w n ok = Ok (s, Some i)
    | None => if storable w n ok then add_symbol s w n ok = Ok (push_symbol s n) else add_symbol s w n ok = Ok (s, None) end).
  { unfold add_symbol. rewrite (lookup_total _ s n I N). cbn [bind]. destruct (symbol_of s n); auto.
    unfold add_symbol_base. destruct (storable w n ok); auto. }
  cbn [step] in E. destruct (symbol_of s n) as [j|] eqn:EJ.
  - rewrite Q in E. cbn [bind] in E. injection E as <- <-. auto.
  - destruct (storable w n ok); rewrite Q in E; cbn [bind push_symbol] in E; [|discriminate].
    injection E as <- <-. apply (symbol_entry _ _ n _ I1 N). right; right. left. reflexivity.
Qed.

Theorem symbol_stable : forall max h s h' s' n i, reachable max h s -> name_ok n ->
  steps s h' s' -> Z.of_nat (length h + length h') < 2 ^ 27 ->
  (forall c a, In (OClr c, a) h' -> i <> EXTENSION_SYMBOLS_START + SYMBOL_IX c) ->
  symbol_of s n = Some i -> symbol_of s' n = Some i.
Proof.
  intros max h s h' s' n i R N ST B NC E.
  assert (I := reachable_inv _ _ _ R). assert (R' := reachable_steps _ _ _ _ _ R ST B).
  assert (I' := reachable_inv _ _ _ R'). apply (symbol_entry _ _ n i I N) in E.
  apply (symbol_entry _ _ n i I' N).
  clear - ST E NC R R' B. revert h R B R' E NC. induction ST as [s|s o a s1 hh s2 OK E1 ST IH]; intros h R B R' E NC; auto.
  cbn [length] in B.
  destruct (tables_safe max h s o R OK ltac:(lia)) as (s1'&a'&E2&R1). rewrite E1 in E2. injection E2 as <- <-.
  apply (IH (h ++ [(o, a)])); auto.
  - rewrite app_length. cbn. lia.
  - rewrite <- app_assoc. exact R'.
  - assert (I := reachable_inv _ _ _ R). clear IH.
    destruct o as [w n0 ok|n0 ok|n0 f|c]; cbn [step op_ok] in *.
    + pose proof (lookup_total _ s n0 I OK) as L. unfold add_symbol in E1. rewrite L in E1. cbn [bind] in E1.
      destruct (symbol_of s n0); [cbn [bind] in E1; injection E1 as <- _; auto|]. unfold add_symbol_base in E1.
      destruct (storable w n0 ok); cbn [bind push_symbol] in E1; injection E1 as <- _; auto.
      destruct E as [E|[E|E]]; [left|right;left|right;right;right]; auto.
    + rewrite (str_to_symbol_eq _ _ _ _ I OK) in E1.
      pose proof (lookup_total _ s n0 I OK) as L. unfold add_symbol in E1. rewrite L in E1. cbn [bind] in E1.
      destruct (symbol_of s n0); [cbn [bind] in E1; injection E1 as <- _; auto|]. unfold add_symbol_base in E1.
      destruct (storable Memory n0 ok); cbn [bind push_symbol] in E1; injection E1 as <- _; auto.
      destruct E as [E|[E|E]]; [left|right;left|right;right;right]; auto.
    + pose proof (add_ext_ok _ s n0 f I ltac:(lia) OK) as Q. destruct (symbol_of s n0).
      * destruct Q as [(X&s'&g&EA&_&_&_&EN)|(X&EA)]; rewrite EA in E1; cbn [bind] in E1; injection E1 as <- _; auto.
        apply EN; auto.
      * destruct (x_next s <? x_max s).
        -- destruct Q as (s'&EA&_&_&_&_&_&EN). rewrite EA in E1. cbn [bind] in E1. injection E1 as <- _. apply EN; auto.
        -- rewrite Q in E1. cbn [bind] in E1. injection E1 as <- _. auto.
    + pose proof (clr_ok _ s c I OK) as Q. destruct (_ >=? _).
      * rewrite Q in E1. cbn [bind] in E1. injection E1 as <- _. auto.
      * destruct Q as (s'&EA&_&_&EN). rewrite EA in E1. cbn [bind] in E1. injection E1 as <- _.
        apply EN. split; auto. eapply NC. left. reflexivity.
  - intros c a0 IN. eapply NC. right; eauto.
Qed.

(* Two names that are not built in get the same symbol only if they are the
   same name, and never that of a built-in name. *)
Theorem symbol_injective : forall max h s n m i, reachable max h s -> name_ok n -> name_ok m ->
  ~ is_special n -> symbol_of s n = Some i -> symbol_of s m = Some i -> n = m.
Proof.
  intros max h s n m i R N M NS E1 E2. assert (I := reachable_inv _ _ _ R).
  apply (symbol_entry _ _ n i I N) in E1. apply (symbol_entry _ _ m i I M) in E2.
  assert (NSE : ~ sentry n i).
  { intros (str&IN&<-). apply NS. apply in_map_iff. exists (str, i). auto. }
  destruct E1 as [E1|[E1|E1]]; [tauto| |]; destruct E2 as [E2|[E2|E2]].
  - apply sentry_noext in E2. apply (xentry_id _ _ _ _ I) in E1. tauto.
  - destruct E1 as (k&f&H1&->). destruct E2 as (k'&f'&H2&EQ). assert (k' = k) by lia. subst k'. congruence.
  - apply (xentry_id _ _ _ _ I) in E1. apply (i_ids _ _ I) in E2. unfold ext_id in E1. lia.
  - apply sentry_noext in E2. apply (i_ids _ _ I) in E1. lia.
  - apply (xentry_id _ _ _ _ I) in E2. apply (i_ids _ _ I) in E1. unfold ext_id in E2. lia.
  - eapply (i_inj _ _ I); eauto.
Qed.

Lemma special_name_ok l id : forall n, special_name l id = Some n -> exists str, In (str, id) l /\ chars str = n.
Proof.
  induction l as [|[m i] t IH]; intros n E; cbn [special_name] in E; [discriminate|].
  destruct (Z.eqb_spec id i) as [->|NE].
  - injection E as <-. exists m. split; [left|]; auto.
  - destruct (IH n E) as (str&IN&EQ). exists str. split; [right|]; auto.
Qed.
Lemma special_name_some l id str : In (str, id) l -> special_name l id <> None.
Proof.
  induction l as [|[m i] t IH]; cbn [special_name In]; [tauto|]. intros [E|E].
  - injection E as -> ->. rewrite Z.eqb_refl. discriminate.
  - destruct (id =? i); [discriminate|auto].
Qed.
Lemma name_of_id_ok l n i : In (n, i) l -> (forall n m i, In (n, i) l -> In (m, i) l -> n = m) -> name_of_id l i = Some n.
Proof.
  induction l as [|[m j] t IH]; cbn [name_of_id In]; [tauto|]. intros IN INJ.
  destruct (Z.eqb_spec i j) as [->|NE].
  - f_equal. apply (INJ m n j); auto.
  - apply IH; [destruct IN; [congruence|auto]|]. intros. eapply INJ; eauto.
Qed.

(* The name of the symbol of a name is that name, and for a built-in name one
   of the names with the same symbol. *)
Theorem symbol_name : forall max h s n i, reachable max h s -> name_ok n -> symbol_of s n = Some i ->
  exists m, name_ok m /\ name_of s i = Some m /\ symbol_of s m = Some i /\ (~ is_special n -> m = n).
Proof.
  intros max h s n i R N E. assert (I := reachable_inv _ _ _ R). pose proof E as E0.
  apply (symbol_entry _ _ n i I N) in E.
  assert (Q : exists m, name_of s i = Some m /\ entry s m i).
  { unfold name_of, get_name_by_symbol. rewrite kind_div. destruct E as [E|[E|E]].
    - pose proof (sentry_noext _ _ E) as [X B]. 
      assert ((i / 65536 =? 0) || (i / 65536 =? 2) || (i / 65536 =? 3) = true) as ->.
      { assert (0 <= i / 65536 < 4) by (split; [apply Z.div_pos|apply Z.div_lt_upper_bound]; lia).
        assert (i / 65536 <> 1); [|lia]. intros K. apply X. unfold ext_id.
        pose proof (Z.div_mod i 65536). pose proof (Z.mod_pos_bound i 65536). lia. }
      destruct E as (str&IN&_). destruct (special_name special_symbols i) as [m|] eqn:SN.
      + exists m. split; auto. left. apply special_name_ok; auto.
      + exfalso. eapply special_name_some; eauto.
    - pose proof (xentry_id _ _ _ _ I E) as X. destruct E as (k&f&EN&EI). unfold ext_id in X.
      assert (i / 65536 = 1) as -> by (symmetry; apply Z.div_unique with (i - 65536); lia). cbn [Z.eqb orb Pos.eqb].
      exists n. cbv zeta. assert (k < length (x_tab s))%nat by (apply nth_error_Some; congruence).
      unfold x_max. destruct (Z.ltb_spec (i - EXTENSION_SYMBOLS_START) (Z.of_nat (length (x_tab s)))); [|lia].
      replace (i - EXTENSION_SYMBOLS_START) with (Z.of_nat k) by lia.
      rewrite (rd_nth _ _ (Some n, f)) by (rewrite ?Nat2Z.id; auto; lia). cbn [bind]. split; auto.
      right; left. exists k, f. auto.
    - pose proof (i_ids _ _ I _ _ E) as B. 
      assert (4 <= i / 65536) by (apply Z.div_le_lower_bound; lia).
      destruct (Z.eqb_spec (i / 65536) 0); [lia|]. destruct (Z.eqb_spec (i / 65536) 2); [lia|].
      destruct (Z.eqb_spec (i / 65536) 3); [lia|]. destruct (Z.eqb_spec (i / 65536) 1); [lia|]. cbn [orb].
      exists n. split; [|right; right; auto]. apply name_of_id_ok; auto. apply (i_inj _ _ I). }
  destruct Q as (m&Q1&Q2). assert (M := i_names _ _ I _ _ Q2). exists m. split; auto. split; auto.
  apply (symbol_entry _ _ m i I M) in Q2. split; auto. intros NS.
  symmetry. eapply symbol_injective with (n := n); eauto.
Qed.

Lemma special_in str i :
  existsb (fun p => String.eqb (fst p) str && (snd p =? i)) special_symbols = true -> In (str, i) special_symbols.
Proof.
  intros H. apply existsb_exists in H. destruct H as ([a b]&IN&E). apply andb_true_iff in E. destruct E as [E1 E2].
  apply String.eqb_eq in E1. apply Z.eqb_eq in E2. cbn in *. subst. auto.
Qed.

(* The built-in table has ten pairs of names for one symbol, such as car and
   first, so interning is not injective on all names. *)
Theorem symbol_injective_refuted : exists max h s n m i, reachable max h s /\ name_ok n /\ name_ok m /\
  symbol_of s n = Some i /\ symbol_of s m = Some i /\ n <> m.
Proof.
  assert (R : exists s, reachable 1 [] s).
  { pose proof (init_inv 1 ltac:(cbn; lia)) as I0.
    assert (NX : name_ok (chars "x")) by (repeat constructor; discriminate).
    assert (NY : name_ok (chars "y")) by (repeat constructor; discriminate).
    destruct (step_inv _ _ (OSym Memory (chars "x") true) I0 NX ltac:(lia)) as (s1&a1&E1&I1&_).
    destruct (step_inv _ _ (OSym Memory (chars "y") true) I1 NY ltac:(lia)) as (s2&a2&E2&I2&_).
    exists s2. split; [cbn; lia|]. split; [cbn; lia|]. exists true, true, s2. split; [|constructor].
    unfold symrepr_init. cbn [step] in E1, E2.
    destruct (add_symbol (tables_init 1) Memory (chars "x") true) as [[s1' i1]| |]; try discriminate.
    cbn [bind] in *. injection E1 as <- _.
    destruct (add_symbol s1' Memory (chars "y") true) as [[s2' i2]| |]; try discriminate.
    cbn [bind] in *. injection E2 as <- _. reflexivity. }
  destruct R as (s&R).
  exists 1%nat, [], s, (chars "car"), (chars "first"), 0x20012.
  assert (I := reachable_inv _ _ _ R).
  assert (N1 : name_ok (chars "car")) by (repeat constructor; discriminate).
  assert (N2 : name_ok (chars "first")) by (repeat constructor; discriminate).
  split; auto. split; auto. split; auto. split; [|split; [|discriminate]].
  - apply (symbol_entry _ _ _ _ I N1). left. exists "car"%string. split; auto.
    apply special_in. vm_compute. reflexivity.
  - apply (symbol_entry _ _ _ _ I N2). left. exists "first"%string. split; auto.
    apply special_in. vm_compute. reflexivity.
Qed.

(* ---- C50 ---- *)
(* the functions of all symbols other than [i] *)
Definition same_elsewhere (s s' : syms) (i : Z) : Prop :=
  (forall j, 0 <= j < 2 ^ 28 -> j <> i -> function_of s' j = function_of s j) /\
  (forall m j, name_ok m -> j <> i -> (symbol_of s' m = Some j <-> symbol_of s m = Some j)).

Lemma function_eq b s i : inv b s -> 0 <= i < 2 ^ 28 ->
  function_of s i = match nth_error (x_tab s) (Z.to_nat (i - EXTENSION_SYMBOLS_START)) with
                          | Some (_, f) => if EXTENSION_SYMBOLS_START <=? i then Some f else None
                          | None => None end.
Proof. intros I B. unfold function_of. rewrite (get_extension_eq b) by auto. reflexivity. Qed.

Lemma function_upd b b' s s' k e : inv b s -> inv b' s' -> x_tab s' = upd (x_tab s) k e ->
  (k < length (x_tab s))%nat ->
  function_of s' (EXTENSION_SYMBOLS_START + Z.of_nat k) = Some (snd e) /\
  forall j, 0 <= j < 2 ^ 28 -> j <> EXTENSION_SYMBOLS_START + Z.of_nat k -> function_of s' j = function_of s j.
Proof.
  intros I I' T L. pose proof (i_tab _ _ I) as LT. split.
  - rewrite (function_eq b') by (auto; unfold EXTENSION_SYMBOLS_START; lia).
    replace (Z.to_nat (EXTENSION_SYMBOLS_START + Z.of_nat k - EXTENSION_SYMBOLS_START)) with k by lia.
    rewrite T, nth_error_upd_eq by auto. destruct e as [o f]. cbn [snd].
    destruct (Z.leb_spec EXTENSION_SYMBOLS_START (EXTENSION_SYMBOLS_START + Z.of_nat k)); [auto|lia].
  - intros j B NE. rewrite (function_eq b') by auto. rewrite (function_eq b) by auto. rewrite T.
    destruct (Z.leb_spec EXTENSION_SYMBOLS_START j).
    + rewrite nth_error_upd_neq by lia. reflexivity.
    + destruct (nth_error _ _) as [[? ?]|], (nth_error _ _) as [[? ?]|]; auto.
Qed.

(* Registering succeeds exactly when the name is that of an extension already,
   or is unknown and the table has a slot never used.  Then the name's symbol
   has that function and nothing else changes; a name that was an extension
   keeps its symbol. *)
Theorem extension_added : forall max h s n f, reachable max h s -> name_ok n ->
  exists s' b, step s (OExt n f) = Ok (s', Done b) /\
  (b = true <-> (exists i, symbol_of s n = Some i /\ ext_id i) \/
                (symbol_of s n = None /\ x_next s < x_max s)) /\
  (b = false -> s' = s) /\
  (b = true -> exists i, ext_id i /\ symbol_of s' n = Some i /\ name_of s' i = Some n /\
     function_of s' i = Some f /\ same_elsewhere s s' i /\
     (forall i0, symbol_of s n = Some i0 -> i0 = i)).
Proof.
  intros max h s n f R N. assert (I := reachable_inv _ _ _ R).
  assert (NM : forall s' i g, inv (2 ^ 28 - 1) s' -> ext_id i ->
    nth_error (x_tab s') (Z.to_nat (i - EXTENSION_SYMBOLS_START)) = Some (Some n, g) -> name_of s' i = Some n).
  { intros s' i g I' X EN. unfold name_of, get_name_by_symbol. rewrite kind_div. unfold ext_id in X.
    assert (i / 65536 = 1) as -> by (symmetry; apply Z.div_unique with (i - 65536); lia). cbn [Z.eqb orb Pos.eqb]. cbv zeta.
    assert (Z.to_nat (i - EXTENSION_SYMBOLS_START) < length (x_tab s'))%nat by (apply nth_error_Some; congruence).
    unfold x_max. destruct (Z.ltb_spec (i - EXTENSION_SYMBOLS_START) (Z.of_nat (length (x_tab s')))); [|unfold EXTENSION_SYMBOLS_START in *; lia].
    rewrite (rd_nth _ _ (Some n, g)); auto. unfold EXTENSION_SYMBOLS_START; lia. }
  pose proof (add_ext_ok _ s n f I ltac:(lia) N) as Q. cbn [step]. destruct (symbol_of s n) as [i|] eqn:ES.
  - destruct Q as [(X&s'&g&E&I'&EN&ES'&ENT)|(X&E)]; rewrite E; cbn [bind].
    + exists s', true. split; auto. split; [split; eauto|]. split; [discriminate|]. intros _. exists i. split; auto.
      assert (XI := X). unfold ext_id in X.
      assert (LK : (Z.to_nat (i - EXTENSION_SYMBOLS_START) < length (x_tab s))%nat) by (apply nth_error_Some; congruence).
      assert (T : x_tab s' = upd (x_tab s) (Z.to_nat (i - EXTENSION_SYMBOLS_START)) (Some n, f)) by (rewrite ES'; auto).
      destruct (function_upd _ _ s s' _ _ I I' T LK) as [F1 F2].
      replace (EXTENSION_SYMBOLS_START + Z.of_nat (Z.to_nat (i - EXTENSION_SYMBOLS_START))) with i in F1, F2 by (unfold EXTENSION_SYMBOLS_START; lia).
      split; [|split; [|split; [exact F1|split; [split; [exact F2|]|congruence]]]].
      * apply (symbol_entry _ _ n i I' N). apply ENT. apply (symbol_entry _ _ n i I N). auto.
      * apply NM with f; auto. rewrite T. apply nth_error_upd_eq. auto.
      * intros m j M _. rewrite (symbol_entry _ _ m j I' M), (symbol_entry _ _ m j I M). apply ENT.
    + exists s, false. split; auto. split; [|split; [auto|discriminate]]. split; [discriminate|].
      intros [(i0&E0&X0)|[E0 _]]; [|discriminate]. injection E0 as <-. tauto.
  - destruct (Z.ltb_spec (x_next s) (x_max s)) as [L|L].
    + destruct Q as (s'&E&I'&T&NX&YL&YN&ENT). rewrite E. cbn [bind]. exists s', true. split; auto.
      split; [split; auto|]. split; [discriminate|]. intros _. pose proof (i_next _ _ I) as B. pose proof (i_tab _ _ I) as LT.
      exists (EXTENSION_SYMBOLS_START + x_next s). unfold x_max in L.
      assert (XI : ext_id (EXTENSION_SYMBOLS_START + x_next s)) by (unfold ext_id, EXTENSION_SYMBOLS_START; lia).
      split; auto. assert (LK : (Z.to_nat (x_next s) < length (x_tab s))%nat) by lia.
      destruct (function_upd _ _ s s' _ _ I I' T LK) as [F1 F2]. rewrite Z2Nat.id in F1, F2 by lia.
      split; [|split; [|split; [exact F1|split; [split; [exact F2|]|discriminate]]]].
      * apply (symbol_entry _ _ n _ I' N). apply ENT. auto.
      * apply NM with f; auto. rewrite T. replace (Z.to_nat (EXTENSION_SYMBOLS_START + x_next s - EXTENSION_SYMBOLS_START)) with (Z.to_nat (x_next s)) by lia.
        apply nth_error_upd_eq. auto.
      * intros m j M NE. rewrite (symbol_entry _ _ m j I' M), (symbol_entry _ _ m j I M), ENT.
        split; [intros [H|[_ H]]; [auto|contradiction]|auto].
    + rewrite Q. cbn [bind]. exists s, false. split; auto. split; [|split; [auto|discriminate]]. split; [discriminate|].
      intros [(i0&E0&X0)|[_ X]]; [discriminate|lia].
Qed.

(* Clearing an extension removes its name and function and nothing else. *)
Theorem extension_cleared : forall max h s i n, reachable max h s -> name_ok n ->
  ext_id i -> symbol_of s n = Some i ->
  exists s', step s (OClr i) = Ok (s', Done true) /\
    symbol_of s' n = None /\ name_of s' i = None /\ function_of s' i = Some default_fn /\
    same_elsewhere s s' i.
Proof.
  intros max h s i n R N X E. assert (I := reachable_inv _ _ _ R). assert (XI := X). unfold ext_id in X.
  apply (symbol_entry _ _ n i I N) in E.
  assert (XE : xentry s n i).
  { destruct E as [E|[E|E]]; auto. apply sentry_noext in E. tauto. apply (i_ids _ _ I) in E. lia. }
  destruct XE as (k&f&EN&EI). assert (LK : (k < length (x_tab s))%nat) by (apply nth_error_Some; congruence).
  assert (SI : SYMBOL_IX i = Z.of_nat k) by (rewrite ext_id_dec by (auto; lia); lia).
  pose proof (clr_ok _ s i I ltac:(lia)) as Q. rewrite SI in Q. unfold x_max in Q.
  destruct (Z.of_nat k >=? Z.of_nat (length (x_tab s))) eqn:G; [lia|].
  destruct Q as (s'&EC&I'&ES&ENT). exists s'. cbn [step]. rewrite EC. cbn [bind]. split; auto.
  rewrite Nat2Z.id in ES.
  assert (T : x_tab s' = upd (x_tab s) k (None, default_fn)) by (rewrite ES; auto).
  destruct (function_upd _ _ s s' _ _ I I' T LK) as [F1 F2]. rewrite <- EI in F1, F2, ENT.
  split; [|split; [|split; [exact F1|split; [exact F2|]]]].
  - destruct (symbol_of s' n) as [j|] eqn:EJ; auto. apply (symbol_entry _ _ n j I' N) in EJ. apply ENT in EJ.
    destruct EJ as [EJ NE]. exfalso. apply NE. eapply (i_fun _ _ I); eauto.
  - unfold name_of, get_name_by_symbol. rewrite kind_div.
    assert (i / 65536 = 1) as -> by (symmetry; apply Z.div_unique with (i - 65536); lia). cbn [Z.eqb orb Pos.eqb]. cbv zeta.
    destruct (_ <? _); auto. replace (i - EXTENSION_SYMBOLS_START) with (Z.of_nat k) by lia.
    rewrite (rd_nth _ _ (None, default_fn)); [auto|lia|]. rewrite T, Nat2Z.id. apply nth_error_upd_eq. auto.
  - intros m j M NE. rewrite (symbol_entry _ _ m j I' M), (symbol_entry _ _ m j I M), ENT. tauto.
Qed.

(* replay of a concrete sequence *)
Fixpoint replay (s : syms) (l : list op) : res (syms * list ans) :=
  match l with
  | [] => Ok (s, [])
  | o :: t => let! (s1, a) := step s o in let! (s2, r) := replay s1 t in Ok (s2, a :: r)
  end.
Lemma replay_steps l : Forall op_ok l -> forall s s' r, replay s l = Ok (s', r) -> steps s (combine l r) s'.
Proof.
  induction 1 as [|o t OK F IH]; intros s s' r E; cbn [replay] in E.
  - injection E as <- <-. constructor.
  - apply bind_ok in E. destruct E as ([s1 a]&E1&E). apply bind_ok in E. destruct E as ([s2 r2]&E2&E).
    injection E as <- <-. cbn. econstructor; eauto.
Qed.

End Arch.

Lemma replay_length {A : Arch} l : forall s s' r, replay s l = Ok (s', r) -> length r = length l.
Proof.
  induction l as [|o t IH]; intros s s' r E; cbn [replay] in E.
  - injection E as _ <-. reflexivity.
  - apply bind_ok in E. destruct E as ([s1 a]&E1&E). apply bind_ok in E. destruct E as ([s2 r2]&E2&E).
    injection E as _ <-. cbn. f_equal. eauto.
Qed.
Lemma replay_reachable {A : Arch} max s0 l s r :
  symrepr_init max true true = Ok s0 -> (Z.of_nat max <=? 2 ^ 16) = true -> (Z.of_nat (length l) <? 2 ^ 27) = true ->
  Forall op_ok l -> replay s0 l = Ok (s, r) -> reachable max (combine l r) s.
Proof.
  intros E B1 B2 F ER. split; [lia|]. split.
  - rewrite combine_length, (replay_length _ _ _ _ ER). lia.
  - exists true, true, s0. split; auto. apply replay_steps; auto.
Qed.

Definition foo := chars "foo".
Definition bar := chars "bar".
Lemma foo_ok : name_ok foo. Proof. repeat constructor; discriminate. Qed.
Lemma bar_ok : name_ok bar. Proof. repeat constructor; discriminate. Qed.

(* states after initialisation and some operations *)
Definition after {A : Arch} (max : nat) (l : list op) : syms * list ans :=
  match (let! s := symrepr_init max true true in replay s l) with Ok x => x | _ => (tables_init 0, []) end.
Definition answersb {A : Arch} (max : nat) (l : list op) : bool :=
  match (let! s := symrepr_init max true true in replay s l) with Ok x => true | _ => false end.
Lemma after_reachable {A : Arch} max l : (Z.of_nat max <=? 2 ^ 16) = true -> (Z.of_nat (length l) <? 2 ^ 27) = true ->
  Forall op_ok l -> answersb max l = true ->
  reachable max (combine l (snd (after max l))) (fst (after max l)).
Proof.
  intros B1 B2 F V. unfold answersb, after in *.
  destruct (symrepr_init max true true) as [s0| |] eqn:E0; try discriminate. cbn [bind] in *.
  destruct (replay s0 l) as [[s r]| |] eqn:ER; try discriminate. cbn [fst snd].
  apply replay_reachable with s0; auto.
Qed.

(* "Clearing removes only that one": lbm_clr_extension looks at the low 16
   bits only, so clearing the symbol of foo, which is not an extension,
   removes the extension bar. *)
Definition ops1 := [OSym Memory foo true; OExt (chars "a") 1; OExt (chars "b") 2; OExt bar 3].
Theorem clear_other_symbol_refuted : exists max h s i s',
  @reachable A32 max h s /\ symbol_of s foo = Some i /\ ~ ext_id i /\
  @step A32 s (OClr i) = Ok (s', Done true) /\
  symbol_of s bar <> None /\ symbol_of s' bar = None.
Proof.
  pose (s := fst (@after A32 3 ops1)).
  pose (s' := mksy (y_list s) (y_next s) (upd (x_tab s) 2 (None, default_fn)) (x_num s) (x_next s)).
  exists 3%nat, (combine ops1 (snd (@after A32 3 ops1))), s, 0x40002, s'. split.
  { apply after_reachable; auto. repeat constructor; cbn; discriminate. }
  split; [vm_compute; reflexivity|].
  split; [unfold ext_id; lia|]. split; [vm_compute; reflexivity|].
  split; vm_compute; [discriminate|reflexivity].
Qed.

(* A cleared slot is never used again: in a table of one, after clearing its
   only extension, registering another fails although none is registered. *)
Definition ops2 := [OExt foo 1; OClr 0x10000].
Theorem cleared_slot_lost_refuted : exists h s,
  @reachable A32 1 h s /\ (forall n i, name_ok n -> symbol_of s n = Some i -> ~ ext_id i) /\
  symbol_of s bar = None /\ @step A32 s (OExt bar 7) = Ok (s, Done false).
Proof.
  pose (s := fst (@after A32 1 ops2)).
  exists (combine ops2 (snd (@after A32 1 ops2))), s.
  assert (R : @reachable A32 1 (combine ops2 (snd (@after A32 1 ops2))) s).
  { apply after_reachable; auto. repeat constructor; cbn; try discriminate; lia. }
  split; [exact R|]. split; [|split; vm_compute; reflexivity].
  intros n i N E X. assert (I := reachable_inv _ _ _ R).
  apply (symbol_entry _ _ n i I N) in E. destruct E as [E|[E|E]].
  - apply sentry_noext in E. destruct E as [E _]. exact (E X).
  - destruct E as (k&f&E&_). assert (T : x_tab s = [(None, 0)]) by (vm_compute; reflexivity).
    rewrite T in E. destruct k as [|[|k]]; cbn in E; discriminate.
  - apply (i_ids _ _ I) in E. unfold ext_id in X. lia.
Qed.

(* concrete: intern, register, replace, look up both ways *)
Definition ops3 := [OExt foo 5; OSym Flash bar true; OStr bar true; OExt foo 9; OExt bar 1].
Example sym_case : exists h s,
  @reachable A64 4 h s /\ symbol_of s foo = Some 0x10000 /\ @function_of A64 s 0x10000 = Some 9 /\
  symbol_of s bar = Some 0x40002 /\ name_of s 0x40002 = Some bar /\ ~ is_special bar.
Proof.
  exists (combine ops3 (snd (@after A64 4 ops3))), (fst (@after A64 4 ops3)). split.
  { apply after_reachable; auto. repeat constructor; cbn; discriminate. }
  repeat (split; [vm_compute; reflexivity|]).
  intros H. assert (existsb (fun p => if list_eq_dec Z.eq_dec bar (chars (fst p)) then true else false) special_symbols = true).
  { apply existsb_exists. apply in_map_iff in H. destruct H as (p&E&IN). exists p. split; auto.
    rewrite E. destruct (list_eq_dec Z.eq_dec bar bar); congruence. }
  vm_compute in H0. discriminate.
Qed.

Print Assumptions tables_safe.
Print Assumptions symbol_created.
Print Assumptions symbol_stable.
Print Assumptions symbol_injective.
Print Assumptions symbol_name.
Print Assumptions symbol_injective_refuted.
Print Assumptions extension_added.
Print Assumptions extension_cleared.
Print Assumptions clear_other_symbol_refuted.
Print Assumptions cleared_slot_lost_refuted.
