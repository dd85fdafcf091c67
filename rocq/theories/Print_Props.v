(* Printing (src/print.c): the theorems. *)
From Verif Require Import Base Value_Model Heap_Model Stack_Model Sym_Model Chan_Model Eq_Model.
From Verif Require Import Value_Proofs Value_Proofs2 Value_Props Heap_Spec List_Proofs Heap_Proofs Stack_Props Eq_Spec Eq_Props Flat_Spec Flat_Proofs.
From Verif Require Import Print_Model Print_Spec Print_Proofs.
From Coq Require Import String.
Import List.
Local Open Scope Z_scope.

(* the name the printer finds for a symbol: not empty, no zero in it *)
Definition has_name (sy : syms) (nm : Z -> name) (n : Z) : Prop :=
  get_name_by_symbol sy n = Ok (Some (nm n)) /\ nm n <> [] /\ Forall (fun c => c <> 0) (nm n).

(* C66: printing a value into a buffer of [len] bytes leaves the text of the
   value there, cut off after len - 1 characters, and a zero after it; the
   answer tells whether all of it is there. *)
Theorem print_correct {A : Arch} {F : Fmt} : forall h sy nm fl v t st len,
  den fl h v t -> no_null h -> printable_tree (has_name sy nm) fmt_float fmt_double t ->
  s_size st = Z.of_nat (List.length (s_data st)) -> Z.of_nat (4 * nest t + 2) < s_size st < 2 ^ 31 -> 1 <= len < 2 ^ 32 ->
  exists s n, shows nm fmt_float fmt_double t s /\
    forall fuel, print_value (n + fuel) h sy st len v = Ok (buffer len s, Z.of_nat (List.length s) <=? len - 1).
Proof.
  intros h sy nm fl v t st len D NN PT SZ ST L. set (cap := List.length (s_data st)) in *.
  assert (CAP : Z.of_nat cap < 2 ^ 31) by lia.
  destruct (value_prints cap CAP len L h sy nm NN fl t v D PT) as ((s&Sh&G)&_).
  assert (R0 : rep cap (stack_clear st) [] (s_data st)) by (constructor; simpl; auto; lia).
  destruct (push_n_ok cap _ _ _ [v; PRINT] R0) as (st1&r1&E1&R1); [simpl; lia|].
  destruct (G [] [] ltac:(simpl; lia)) as (_&G'). destruct (G' st1 r1 false R1) as (n&C). exists s, n. split; auto. intros fuel.
  unfold print_value, print_internal. rewrite E1. cbn [bind].
  replace (string_create_size (repeat 0 (Z.to_nat len)) len) with (chan_at len []).
  - destruct C as [(st2&r2&R2&E2)|(NF&E2)].
    + rewrite E2. destruct R2 as [_ SP _ _]. simpl in SP. destruct fuel; cbn [print_loop]; rewrite SP; reflexivity.
    + rewrite E2. cbn [bind]. rewrite app_nil_l in *. unfold fits in NF. rewrite NF. reflexivity.
  - unfold chan_at, string_create_size, buffer. rewrite firstn_nil. cbv zeta. simpl List.length. rewrite Nat.sub_0_r. reflexivity.
Qed.

(* so a buffer that is long enough holds the text and a zero *)
Theorem print_whole {A : Arch} {F : Fmt} : forall h sy nm fl v t st len,
  den fl h v t -> no_null h -> printable_tree (has_name sy nm) fmt_float fmt_double t ->
  s_size st = Z.of_nat (List.length (s_data st)) -> Z.of_nat (4 * nest t + 2) < s_size st < 2 ^ 31 -> 1 <= len < 2 ^ 32 ->
  exists n, forall fuel b, print_value (n + fuel) h sy st len v = Ok (b, true) ->
    exists s z, shows nm fmt_float fmt_double t s /\ b = s ++ 0 :: repeat 0 z /\ Z.of_nat (List.length b) = len.
Proof.
  intros h sy nm fl v t st len D NN PT SZ ST L. destruct (print_correct h sy nm fl v t st len) as (s&n&Sh&E); auto.
  exists n. intros fuel b H. rewrite E in H. injection H as <- H. apply Z.leb_le in H.
  assert (X : exists z, (Z.to_nat len - List.length s)%nat = S z) by (exists (Z.to_nat len - List.length s - 1)%nat; lia). destruct X as (z&X).
  exists s, z. split; auto. unfold buffer. rewrite firstn_all2 by lia. cbv zeta. rewrite X. split; [reflexivity|]. rewrite app_length, repeat_length. lia.
Qed.

(* C67 fails: an empty byte array, or one of two or more bytes starting with a
   byte that is not a visible character, makes the printer read the byte before
   the array. *)
Theorem print_bytes_refuted {A : Arch} {F : Fmt} : forall h sy fl v bs st len,
  den fl h v (Bytes bs) -> no_null h -> (bs = [] \/ exists b t, bs = b :: t /\ ~ visible b /\ t <> []) ->
  s_size st = Z.of_nat (List.length (s_data st)) -> 2 < s_size st < 2 ^ 31 ->
  forall fuel, print_value (S fuel) h sy st len v = UB.
Proof.
  intros h sy fl v bs st len D NN B SZ ST fuel. set (cap := List.length (s_data st)) in *.
  assert (CAP : Z.of_nat cap < 2 ^ 31) by lia.
  assert (R0 : rep cap (stack_clear st) [] (s_data st)) by (constructor; simpl; auto; lia).
  destruct (push_n_ok cap _ _ _ [v; PRINT] R0) as (st1&r1&E1&R1); [simpl; lia|].
  unfold print_value, print_internal. rewrite E1. cbn [bind]. rewrite (loop_step cap h sy _ _ _ _ _ _ R1) by discriminate.
  unfold print_step. destruct (pop_ok cap CAP _ _ _ _ R1) as (st2&r2&E2&R2). rewrite E2. cbn [bind]. simpl (_ =? _). cbv iota.
  destruct (pop_ok cap CAP _ _ _ _ R2) as (st3&r3&E3&R3). rewrite E3. cbn [bind].
  inversion D as [| |v0 p q bs0 x P Hd T Rc M|]; subst.
  unfold print_value_step. rewrite print_type_functional, T. clear T. cbv zeta.
  repeat match goal with
  | |- context [?a =? ?b] =>
    first [replace (a =? b) with false by (clear; destruct A; reflexivity)
          |replace (a =? b) with true by (clear; destruct A; reflexivity)]
  end. cbv iota.
  unfold emit_bytearray. rewrite (car_ptr _ _ _ _ P Rc). cbn [bind]. unfold is_symbol_nil.
  destruct (Z.eqb_spec p 0) as [->|_]; [unfold no_null in NN; congruence|]. rewrite M.
  assert (U : is_printable_string bs = UB).
  { destruct B as [->|(b&t&->&NV&NE)]; [reflexivity|]. unfold is_printable_string.
    assert (S0 : exists r, (if b =? 0 then (0, false) else scan (b :: t) 0) = (0, r)).
    { destruct (Z.eqb_spec b 0); [eauto|]. cbn [scan]. destruct (Z.eqb_spec b 0); [congruence|].
      destruct (printable b) eqn:PB; [exfalso; apply NV, printable_visible; auto|eauto]. }
    destruct S0 as (r&S0). rewrite S0. destruct t as [|b2 t]; [congruence|]. cbn [List.length].
    destruct (Z.eqb_spec 0 (Z.of_nat (S (S (List.length t))) - 1)); [lia|]. reflexivity. }
  rewrite U. reflexivity.
Qed.

(* ---- a case ---- *)
#[local] Instance FMT : Fmt := {| fmt_float _ := codes "1.500000"; fmt_double _ := codes "2.500000"; custom_descriptor _ := None |}.
Definition no_syms : syms := mksy [] 0 [] 0 0.
Definition names (n : Z) : name := match get_name_by_symbol no_syms n with Ok (Some s) => s | _ => [] end.

(* (lambda 97b "hi\n" [200i32 (2.5f64)] . -5) on 32 bits *)
Definition mem1 (p : Z) : option obj :=
  if p =? 400 then Some (OByte 404 [104; 105; 10; 0])
  else if p =? 500 then Some (OLisp 504 8 [Z.lor (set_ptr_type (A := A32) (enc_cons_ptr (A := A32) 5) (TYPE_I32 (A := A32))) 0; enc_cons_ptr (A := A32) 6] 0)
  else if p =? 600 then Some (OBox 4612811918334230528) else None.
Definition heap1 : heap :=
  mkHeap [(enc_sym (A := A32) 0x103, enc_cons_ptr (A := A32) 1); (enc_char (A := A32) 97, enc_cons_ptr (A := A32) 2);
    (set_ptr_type (A := A32) (enc_cons_ptr (A := A32) 8) (TYPE_ARRAY (A := A32)), enc_cons_ptr (A := A32) 3);
    (set_ptr_type (A := A32) (enc_cons_ptr (A := A32) 4) (TYPE_LISPARRAY (A := A32)), enc_i (A := A32) (-5));
    (500, enc_sym (A := A32) SYM_LISPARRAY_TYPE); (200, enc_sym (A := A32) SYM_RAW_I_TYPE);
    (set_ptr_type (A := A32) (enc_cons_ptr (A := A32) 7) (TYPE_DOUBLE (A := A32)), 0); (600, enc_sym (A := A32) SYM_IND_F_TYPE);
    (400, enc_sym (A := A32) SYM_ARRAY_TYPE)]
    [] 0 9 [] 0 0 0 0 mem1 [] false.
Definition tree1 : tree :=
  Pair (Leaf KSym 0x103) (Pair (Leaf KChar 97) (Pair (Bytes [104; 105; 10; 0])
    (Pair (Arr [Leaf KI32 200; Pair (Leaf KDouble 4612811918334230528) (Leaf KSym 0)]) (Leaf KI (-5))))).
Definition value1 : Z := enc_cons_ptr (A := A32) 0.

Ltac here := first [reflexivity | intros ?; discriminate | (intros ? ?; tauto)].
Example print_case : den (A := A32) [] heap1 value1 tree1 /\ no_null heap1 /\
  printable_tree (A := A32) (has_name no_syms names) fmt_float fmt_double tree1 /\ Z.of_nat (4 * nest tree1 + 2) < 32 /\
  print_value (A := A32) 100 heap1 no_syms (stack_create (A := A32) 32) 64 value1 =
    Ok (buffer 64 (codes "(lambda 97b ""hi\n"" [200i32 (2.500000f64)] . -5)"), true) /\
  print_value (A := A32) 100 heap1 no_syms (stack_create (A := A32) 32) 16 value1 = Ok (codes "(lambda 97b ""hi" ++ [0], false).
Proof.
  split; [|split; [reflexivity|split; [|split; [vm_compute; reflexivity|split; vm_compute; reflexivity]]]].
  - repeat first [eapply den_pair; [here|intros ? ?; tauto|here|here| |] | eapply den_bytes; [here|intros ? ?; tauto|here|here|here]
      | eapply den_arr; [here|intros ? ?; tauto|here|here|here|here|constructor; [|constructor; [|constructor]]]
      | apply den_leaf; [intros ? ?; tauto|here|here|cbn [reads]; first [reflexivity | (split; [reflexivity|split; vm_compute; [discriminate|reflexivity]]) | (eexists; split; [reflexivity|reflexivity])]]].
  - assert (LF : forall k n, in_range (A := A32) k n -> k <> KFloat -> (k = KSym -> has_name no_syms names n) ->
      printable_tree (A := A32) (has_name no_syms names) fmt_float fmt_double (Leaf k n)).
    { intros k n R K N. constructor; auto; [congruence|]. intros _. split; [vm_compute; lia|]. repeat constructor; discriminate. }
    assert (NM : forall n, n = 0x103 \/ n = 0 -> has_name no_syms names n).
    { intros n [->| ->]; (split; [reflexivity|split; [discriminate|]]); repeat constructor; discriminate. }
    unfold tree1. repeat (apply pt_pair).
    all: try (apply LF; [vm_compute; split; discriminate || reflexivity|discriminate|try discriminate; intros _; apply NM; auto]).
    + apply pt_bytes; [repeat constructor; lia|]. exists 104, [105; 10; 0]. split; [reflexivity|]. left. unfold visible. lia.
    + apply pt_arr; [discriminate|reflexivity|]. constructor; [|constructor; [|constructor]]; repeat (apply pt_pair).
      all: apply LF; [vm_compute; split; discriminate || reflexivity|discriminate|try discriminate; intros _; apply NM; auto].
Qed.
(* the hypotheses of print_bytes_refuted: the bytes 1 2 *)
Definition heap2 (o : obj) (ty sym : Z) : heap :=
  mkHeap [(400, enc_sym (A := A32) sym)] [] 0 1 [] 0 0 0 0 (fun p => if p =? 400 then Some o else None) [] false.
Definition value2 (ty : Z) : Z := set_ptr_type (A := A32) (enc_cons_ptr (A := A32) 0) ty.
Example print_bytes_case : let h := heap2 (OByte 404 [1; 2]) (TYPE_ARRAY (A := A32)) SYM_ARRAY_TYPE in
  den (A := A32) [] h (value2 (TYPE_ARRAY (A := A32))) (Bytes [1; 2]) /\ no_null h /\
  (exists b t, [1; 2] = b :: t /\ ~ visible b /\ t <> []) /\ 2 < s_size (stack_create (A := A32) 32).
Proof.
  cbv zeta. split; [eapply den_bytes; [reflexivity|intros ? ?; tauto|reflexivity..]|]. split; [reflexivity|]. split; [|reflexivity].
  exists 1, [2]. split; [reflexivity|]. split; [unfold visible; lia|discriminate].
Qed.

(* C67 fails: an array of no values is printed as [) *)
Theorem print_empty_array_refuted {A : Arch} {F : Fmt} : forall h sy fl v st len,
  den fl h v (Arr []) -> s_size st = Z.of_nat (List.length (s_data st)) -> 2 < s_size st < 2 ^ 31 -> 1 <= len < 2 ^ 32 ->
  exists n, forall fuel, print_value (n + fuel) h sy st len v = Ok (buffer len (codes "[)"), 3 <=? len).
Proof.
  intros h sy fl v st len D SZ ST L. set (cap := List.length (s_data st)) in *.
  assert (CAP : Z.of_nat cap < 2 ^ 31) by lia.
  assert (R0 : rep cap (stack_clear st) [] (s_data st)) by (constructor; simpl; auto; lia).
  destruct (push_n_ok cap _ _ _ [v; PRINT] R0) as (st1&r1&E1&R1); [simpl; lia|].
  assert (G : goes cap len h sy [] (PRINT :: v :: []) ([] ++ codes "[)") []).
  { inversion D as [| | |v0 p q x size elts ix ts0 P Hd T Rc M SZ' F2]; subst. inversion F2; subst.
    eapply (prints_compound cap CAP len h sy (fun _ => [])); [exact D|right; eauto|simpl; lia|].
    eapply goes_trans; [exact L| |apply (end_list cap CAP len L h sy (codes "[") [])].
    apply (goes_step cap len h sy [] (codes "[") _ [END_LIST]); [discriminate|].
    intros st2 rs r R. unfold print_step. destruct (pop_ok cap CAP _ _ _ _ R) as (st3&rest1&E3&R3). rewrite E3. cbn [bind]. simpl (_ =? _). cbv iota.
    destruct (pop_ok cap CAP _ _ _ _ R3) as (st4&rest2&E4&R4). rewrite E4. cbn [bind]. rewrite emit_char_ok by auto. cbn [bind].
    rewrite (car_ptr _ _ _ _ P Rc). cbn [bind]. unfold lisp_array. rewrite M. simpl (_ <=? _). cbn [bind]. replace (1 <=? 0 * WB / WB) with false by (clear; destruct A; reflexivity).
    destruct (push_ok cap CAP st4 [] rest2 END_LIST R4) as (st5&rest3&E5&R5); [simpl; lia|]. simpl Z.of_nat.
    replace (1 <=? 0 * WB / WB) with false by (clear; destruct A; reflexivity).
    rewrite E5. exists st5, rest3. split; auto. }
  destruct G as (_&G). destruct (G st1 r1 false R1) as (n&C). exists n. intros fuel.
  unfold print_value, print_internal. rewrite E1. cbn [bind].
  replace (string_create_size (repeat 0 (Z.to_nat len)) len) with (chan_at len []).
  - assert (FE : fits len (codes "[)") = (3 <=? len)) by (unfold fits; simpl List.length; destruct (Z.leb_spec 3 len); destruct (Z.leb_spec (Z.of_nat 2) (len - 1)); auto; lia).
    rewrite app_nil_l, FE in C. destruct C as [(st2&r2&R2&E2)|(NF&E2)].
    + rewrite E2. destruct R2 as [_ SP _ _]. simpl in SP. destruct fuel; cbn [print_loop]; rewrite SP; reflexivity.
    + rewrite E2. cbn [bind]. rewrite NF. reflexivity.
  - unfold chan_at, string_create_size, buffer. rewrite firstn_nil. cbv zeta. simpl List.length. rewrite Nat.sub_0_r. reflexivity.
Qed.
Example print_empty_array_case : let h := heap2 (OLisp 404 0 [] 0) (TYPE_LISPARRAY (A := A32)) SYM_LISPARRAY_TYPE in
  den (A := A32) [] h (value2 (TYPE_LISPARRAY (A := A32))) (Arr []) /\
  print_value (A := A32) 9 h no_syms (stack_create (A := A32) 32) 8 (value2 (TYPE_LISPARRAY (A := A32))) = Ok (codes "[)" ++ repeat 0 6, true).
Proof. cbv zeta. split; [eapply den_arr; [reflexivity|intros ? ?; tauto|reflexivity..|constructor]|reflexivity]. Qed.

(* C67 fails: the list of 1 and a symbol without name is printed as (1 ) with
   answer 1 *)
Theorem print_unnamed_refuted : exists h v n, den (A := A32) [] h v (Pair (Leaf KI 1) (Pair (Leaf KSym n) (Leaf KSym 0))) /\
  get_name_by_symbol no_syms n = Ok None /\
  print_value (A := A32) 20 h no_syms (stack_create (A := A32) 32) 16 v = Ok (buffer 16 (codes "(1 )"), true).
Proof.
  exists (mkHeap [(enc_i (A := A32) 1, enc_cons_ptr (A := A32) 1); (enc_sym (A := A32) 0x40000, 0)] [] 0 2 [] 0 0 0 0 (fun _ => None) [] false),
    (enc_cons_ptr (A := A32) 0), 0x40000.
  split; [|split; reflexivity].
  repeat first [eapply den_pair; [here|intros ? ?; tauto|here|here| |] | apply den_leaf; [intros ? ?; tauto|here|here|reflexivity]].
Qed.

Print Assumptions print_correct.
Print Assumptions print_whole.
Print Assumptions print_bytes_refuted.
Print Assumptions print_empty_array_refuted.
Print Assumptions print_unnamed_refuted.
