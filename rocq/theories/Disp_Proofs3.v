(* Lemmas on clearing and allocating images. *)
From Verif Require Import Base Disp_Model Disp_Spec Disp_Proofs.
Local Open Scope Z_scope.

Definition like (w h fmt : Z) (bs bs' : list Z) : Prop := length bs' = length bs /\ image bs' w h fmt.

Lemma set_bytes_ok w h fmt c n : 0 <= c < 256 -> forall bs i, image bs w h fmt -> 0 <= i -> i + Z.of_nat n <= Z.of_nat (length bs) - 5 ->
  exists bs', set_bytes bs i c n = Ok bs' /\ like w h fmt bs bs' /\
    forall j, 0 <= j -> byte_at bs' (5 + j) = if (i <=? j) && (j <? i + Z.of_nat n) then c else byte_at bs (5 + j).
Proof.
  intros Hc. induction n as [|n IH]; intros bs i I Hi Hn.
  - exists bs. split; [reflexivity|]. split; [split; auto|]. intros j Hj. destruct (Z.leb_spec i j), (Z.ltb_spec j (i + Z.of_nat 0)); try lia; reflexivity.
  - cbn [set_bytes]. rewrite wrd_ok by lia. cbn [bind].
    destruct (IH (put bs i c) (i + 1)) as (b' & R & (L & I') & B); [apply put_image; auto|lia|rewrite length_put; lia|].
    exists b'. split; [auto|]. split; [split; [rewrite L; apply length_put|auto]|].
    intros j Hj. rewrite B by auto. rewrite byte_at_put by lia.
    destruct (Z.leb_spec i j), (Z.leb_spec (i + 1) j), (Z.ltb_spec j (i + 1 + Z.of_nat n)), (Z.ltb_spec j (i + Z.of_nat (S n))), (Z.eqb_spec j i); try lia; reflexivity.
Qed.
Lemma set_pairs_ok w h fmt c1 c2 n : 0 <= c1 < 256 -> 0 <= c2 < 256 -> forall bs i, image bs w h fmt -> 0 <= i -> i + 2 * Z.of_nat n <= Z.of_nat (length bs) - 5 ->
  exists bs', set_pairs bs i c1 c2 n = Ok bs' /\ like w h fmt bs bs' /\
    forall j, 0 <= j -> byte_at bs' (5 + j) = if (i <=? j) && (j <? i + 2 * Z.of_nat n) then (if (j - i) mod 2 =? 0 then c1 else c2) else byte_at bs (5 + j).
Proof.
  intros H1 H2. induction n as [|n IH]; intros bs i I Hi Hn.
  - exists bs. split; [reflexivity|]. split; [split; auto|]. intros j Hj. destruct (Z.leb_spec i j), (Z.ltb_spec j (i + 2 * Z.of_nat 0)); try lia; reflexivity.
  - cbn [set_pairs]. rewrite wrd_ok by lia. cbn [bind]. rewrite wrd_ok by (rewrite length_put; lia). cbn [bind].
    destruct (IH (put (put bs i c1) (i + 1) c2) (i + 2)) as (b' & R & (L & I') & B);
      [apply put_image; [apply put_image; auto|lia|auto]|lia|rewrite !length_put; lia|].
    exists b'. split; [auto|]. split; [split; [rewrite L, !length_put; auto|auto]|].
    intros j Hj. rewrite B by auto. rewrite !byte_at_put by (rewrite ?length_put; lia).
    replace ((j - (i + 2)) mod 2) with ((j - i) mod 2) by (rewrite <- (Z.mod_add (j - (i + 2)) 1 2) by lia; f_equal; lia).
    destruct (Z.eqb_spec j i) as [->|]; [|destruct (Z.eqb_spec j (i + 1)) as [->|]].
    + rewrite Z.sub_diag, Z.mod_0_l by lia.
      destruct (Z.leb_spec i i), (Z.leb_spec (i + 2) i), (Z.ltb_spec i (i + 2 * Z.of_nat (S n))), (Z.eqb_spec i (i + 1)); try lia; reflexivity.
    + replace (i + 1 - i) with 1 by lia. change (1 mod 2) with 1.
      destruct (Z.leb_spec i (i + 1)), (Z.leb_spec (i + 2) (i + 1)), (Z.ltb_spec (i + 1) (i + 2 * Z.of_nat (S n))); try lia; reflexivity.
    + destruct (Z.leb_spec i j), (Z.leb_spec (i + 2) j), (Z.ltb_spec j (i + 2 + 2 * Z.of_nat n)), (Z.ltb_spec j (i + 2 * Z.of_nat (S n))); try lia; reflexivity.
Qed.
Lemma set_triples_ok w h fmt c1 c2 c3 n : 0 <= c1 < 256 -> 0 <= c2 < 256 -> 0 <= c3 < 256 -> forall bs i, image bs w h fmt -> 0 <= i -> i + 3 * Z.of_nat n <= Z.of_nat (length bs) - 5 ->
  exists bs', set_triples bs i c1 c2 c3 n = Ok bs' /\ like w h fmt bs bs' /\
    forall j, 0 <= j -> byte_at bs' (5 + j) = if (i <=? j) && (j <? i + 3 * Z.of_nat n) then (if (j - i) mod 3 =? 0 then c1 else if (j - i) mod 3 =? 1 then c2 else c3) else byte_at bs (5 + j).
Proof.
  intros H1 H2 H3. induction n as [|n IH]; intros bs i I Hi Hn.
  - exists bs. split; [reflexivity|]. split; [split; auto|]. intros j Hj. destruct (Z.leb_spec i j), (Z.ltb_spec j (i + 3 * Z.of_nat 0)); try lia; reflexivity.
  - cbn [set_triples]. rewrite wrd_ok by lia. cbn [bind]. rewrite wrd_ok by (rewrite length_put; lia). cbn [bind]. rewrite wrd_ok by (rewrite !length_put; lia). cbn [bind].
    destruct (IH (put (put (put bs i c1) (i + 1) c2) (i + 2) c3) (i + 3)) as (b' & R & (L & I') & B);
      [apply put_image; [apply put_image; [apply put_image; auto|lia|auto]|lia|auto]|lia|rewrite !length_put; lia|].
    exists b'. split; [auto|]. split; [split; [rewrite L, !length_put; auto|auto]|].
    intros j Hj. rewrite B by auto. rewrite !byte_at_put by (rewrite ?length_put; lia).
    replace ((j - (i + 3)) mod 3) with ((j - i) mod 3) by (rewrite <- (Z.mod_add (j - (i + 3)) 1 3) by lia; f_equal; lia).
    destruct (Z.eqb_spec j i) as [->|]; [|destruct (Z.eqb_spec j (i + 1)) as [->|]; [|destruct (Z.eqb_spec j (i + 2)) as [->|]]].
    + rewrite Z.sub_diag, Z.mod_0_l by lia.
      destruct (Z.leb_spec i i), (Z.leb_spec (i + 3) i), (Z.ltb_spec i (i + 3 * Z.of_nat (S n))), (Z.eqb_spec i (i + 1)), (Z.eqb_spec i (i + 2)); try lia; reflexivity.
    + replace (i + 1 - i) with 1 by lia. change (1 mod 3) with 1.
      destruct (Z.leb_spec i (i + 1)), (Z.leb_spec (i + 3) (i + 1)), (Z.ltb_spec (i + 1) (i + 3 * Z.of_nat (S n))), (Z.eqb_spec (i + 1) (i + 2)); try lia; reflexivity.
    + replace (i + 2 - i) with 2 by lia. change (2 mod 3) with 2.
      destruct (Z.leb_spec i (i + 2)), (Z.leb_spec (i + 3) (i + 2)), (Z.ltb_spec (i + 2) (i + 3 * Z.of_nat (S n))); try lia; reflexivity.
    + destruct (Z.leb_spec i j), (Z.leb_spec (i + 3) j), (Z.ltb_spec j (i + 3 + 3 * Z.of_nat n)), (Z.ltb_spec j (i + 3 * Z.of_nat (S n))); try lia; reflexivity.
Qed.

Lemma fill2 j : 0 <= j < 8 -> get2 0 j = 0 /\ get2 255 j = 1.
Proof.
  intros H. assert (forallb (fun j => (get2 0 j =? 0) && (get2 255 j =? 1)) (upto 8) = true) as E by (vm_compute; reflexivity).
  pose proof (upto_all _ _ E j H). cbv beta in *. lia.
Qed.
Lemma fill4 j i : 0 <= j < 4 -> 0 <= i < 4 -> get4 (if i =? 0 then 0 else if i =? 1 then 0x55 else if i =? 2 then 0xAA else 0xFF) j = i.
Proof.
  intros Hj Hi. assert (forallb (fun j => forallb (fun i => get4 (if i =? 0 then 0 else if i =? 1 then 0x55 else if i =? 2 then 0xAA else 0xFF) j =? i) (upto 4)) (upto 4) = true) as E by (vm_compute; reflexivity).
  apply Z.eqb_eq. apply (upto_all _ _ (upto_all _ _ E j Hj) i Hi).
Qed.
Lemma fill16 j i : 0 <= j < 2 -> 0 <= i < 16 -> get16 (wrap 8 (Z.lor i (Z.shiftl i 4))) j = i.
Proof.
  intros Hj Hi. assert (forallb (fun j => forallb (fun i => get16 (wrap 8 (Z.lor i (Z.shiftl i 4))) j =? i) (upto 16)) (upto 2) = true) as E by (vm_compute; reflexivity).
  apply Z.eqb_eq. apply (upto_all _ _ (upto_all _ _ E j Hj) i Hi).
Qed.

Lemma part_eq size n : 0 <= size < 2 ^ 32 -> 0 < n ->
  wrap 32 (size / n + (if size mod n =? 0 then 0 else 1)) = (size + n - 1) / n.
Proof.
  intros H Hn.
  assert (size / n + (if size mod n =? 0 then 0 else 1) = (size + n - 1) / n) as ->.
  { pose proof (Z.div_mod size n ltac:(lia)). pose proof (Z.mod_pos_bound size n Hn).
    destruct (Z.eqb_spec (size mod n) 0); apply (Z.div_unique _ _ _ (if size mod n =? 0 then n - 1 else size mod n - 1)); destruct (Z.eqb_spec (size mod n) 0); try lia. }
  apply wrap_small. split; [apply Z.div_pos; lia|]. apply Z.div_lt_upper_bound; [lia|]. nia.
Qed.

Lemma clear_ok bs w h fmt cc : image bs w h fmt -> fmt <> 16 -> 0 <= cc < 2 ^ 32 ->
  exists bs', clear bs cc = Ok bs' /\ like w h fmt bs bs' /\
    (forall p, 0 <= p < w * h -> pixel fmt bs' p = cleared fmt cc) /\
    (forall j, bytes_of w h fmt <= j -> byte_at bs' (5 + j) = byte_at bs (5 + j)).
Proof.
  intros I N Hc. unfold clear. rewrite (image_width _ _ _ _ I), (image_height _ _ _ _ I), (image_format _ _ _ _ I). cbn [bind].
  pose proof (image_dims _ _ _ _ I) as (Dw & Dh). assert (I' := I). destruct I' as (B & L & _ & _ & _ & F & S1 & S2). apply in_formats in F.
  assert (0 <= w * h <= 65535 * 65535) by nia. rewrite (wrap_small 32 (w * h)) by lia. unfold bytes_of. set (M := w * h) in *.
  rewrite !part_eq by lia. rewrite !land_mod with (k := 4) (m := 15), !land_mod with (k := 2) (m := 3), !land_mod with (k := 1) (m := 1) by (lia || reflexivity).
  change (2 ^ 1) with 2. change (2 ^ 2) with 4. change (2 ^ 4) with 16.
  destruct F as [->|[->|[->|[->|[->| ->]]]]]; try congruence; cbn [Z.eqb Pos.eqb indexed2 indexed4 indexed16 rgb332 rgb565 rgb888].
  - destruct (set_bytes_ok w h 1 (if cc mod 2 =? 0 then 0 else 0xFF) (Z.to_nat ((M + 8 - 1) / 8)) ltac:(destruct (cc mod 2 =? 0); lia) bs 0 I ltac:(lia)) as (b' & R & K & G);
      [divs|]. exists b'. split; [auto|]. split; [auto|]. split.
    + intros p P. unfold pixel, cleared. cbn [Z.ltb Z.compare Pos.compare Pos.compare_cont]. cbv zeta. change (8 / 1) with 8.
      rewrite G by divs. destruct (Z.leb_spec 0 (p / 8)); [|divs]. destruct (Z.ltb_spec (p / 8) (0 + Z.of_nat (Z.to_nat ((M + 8 - 1) / 8)))); [|divs]. cbn [andb].
      destruct (fill2 (p mod 8)) as (E0 & E1); [apply Z.mod_pos_bound; lia|]. unfold get2 in *. pose proof (Z.mod_pos_bound cc 2).
      change (2 ^ 1) with 2 in *. destruct (Z.eqb_spec (cc mod 2) 0); [rewrite E0|rewrite E1]; lia.
    + intros j Hj. assert (0 <= j) by divs. rewrite G by auto. destruct (Z.leb_spec 0 j), (Z.ltb_spec j (0 + Z.of_nat (Z.to_nat ((M + 8 - 1) / 8)))); try reflexivity. divs.
  - destruct (set_bytes_ok w h 2 (if cc mod 4 =? 0 then 0 else if cc mod 4 =? 1 then 0x55 else if cc mod 4 =? 2 then 0xAA else 0xFF) (Z.to_nat ((M + 4 - 1) / 4))
      ltac:(destruct (cc mod 4 =? 0); [lia|]; destruct (cc mod 4 =? 1); [lia|]; destruct (cc mod 4 =? 2); lia) bs 0 I ltac:(lia)) as (b' & R & K & G);
      [divs|]. exists b'. split; [auto|]. split; [auto|]. split.
    + intros p P. unfold pixel, cleared. cbn [Z.ltb Z.compare Pos.compare Pos.compare_cont]. cbv zeta. change (8 / 2) with 4.
      rewrite G by divs. destruct (Z.leb_spec 0 (p / 4)); [|divs]. destruct (Z.ltb_spec (p / 4) (0 + Z.of_nat (Z.to_nat ((M + 4 - 1) / 4)))); [|divs]. cbn [andb].
      apply (fill4 (p mod 4) (cc mod 4)); apply Z.mod_pos_bound; lia.
    + intros j Hj. assert (0 <= j) by divs. rewrite G by auto. destruct (Z.leb_spec 0 j), (Z.ltb_spec j (0 + Z.of_nat (Z.to_nat ((M + 4 - 1) / 4)))); try reflexivity. divs.
  - destruct (set_bytes_ok w h 4 (wrap 8 (Z.lor (cc mod 16) (Z.shiftl (cc mod 16) 4))) (Z.to_nat ((M + 2 - 1) / 2))
      ltac:(unfold wrap; apply Z.mod_pos_bound; lia) bs 0 I ltac:(lia)) as (b' & R & K & G);
      [divs|]. exists b'. split; [auto|]. split; [auto|]. split.
    + intros p P. unfold pixel, cleared. cbn [Z.ltb Z.compare Pos.compare Pos.compare_cont]. cbv zeta. change (8 / 4) with 2.
      rewrite G by divs. destruct (Z.leb_spec 0 (p / 2)); [|divs]. destruct (Z.ltb_spec (p / 2) (0 + Z.of_nat (Z.to_nat ((M + 2 - 1) / 2)))); [|divs]. cbn [andb].
      apply (fill16 (p mod 2) (cc mod 16)); apply Z.mod_pos_bound; lia.
    + intros j Hj. assert (0 <= j) by divs. rewrite G by auto. destruct (Z.leb_spec 0 j), (Z.ltb_spec j (0 + Z.of_nat (Z.to_nat ((M + 2 - 1) / 2)))); try reflexivity. divs.
  - rewrite to332_eq by auto. destruct (set_bytes_ok w h 8 (packed 8 cc) (Z.to_nat M) ltac:(apply packed8_range) bs 0 I ltac:(lia)) as (b' & R & K & G);
      [lia|]. exists b'. split; [auto|]. split; [auto|]. split.
    + intros p P. unfold pixel, cleared. cbn [Z.eqb Z.ltb Z.compare Pos.compare Pos.compare_cont Pos.eqb].
      rewrite G by lia. destruct (Z.leb_spec 0 p); [|lia]. destruct (Z.ltb_spec p (0 + Z.of_nat (Z.to_nat M))); [|lia]. reflexivity.
    + intros j Hj. assert (M <= j) by divs. rewrite G by lia. destruct (Z.leb_spec 0 j), (Z.ltb_spec j (0 + Z.of_nat (Z.to_nat M))); try reflexivity. lia.
  - rewrite (wrap_small 32 (M * 3)) by lia. replace ((M * 3 + 2) / 3) with M by (apply (Z.div_unique _ _ _ 2); lia).
    destruct (set_triples_ok w h 24 (wrap 8 (Z.shiftr cc 16)) (wrap 8 (Z.shiftr cc 8)) (wrap 8 cc) (Z.to_nat M)
      ltac:(unfold wrap; apply Z.mod_pos_bound; lia) ltac:(unfold wrap; apply Z.mod_pos_bound; lia) ltac:(unfold wrap; apply Z.mod_pos_bound; lia) bs 0 I ltac:(lia)) as (b' & R & K & G);
      [lia|]. exists b'. split; [auto|]. split; [auto|]. split.
    + intros p P. unfold pixel, cleared. cbn [Z.eqb Z.ltb Z.compare Pos.compare Pos.compare_cont Pos.eqb].
      rewrite !G by lia. rewrite !Z.sub_0_r.
      replace ((3 * p) mod 3) with 0 by (apply (Z.mod_unique _ _ p); lia).
      replace ((3 * p + 1) mod 3) with 1 by (apply (Z.mod_unique _ _ p); lia).
      replace ((3 * p + 2) mod 3) with 2 by (apply (Z.mod_unique _ _ p); lia). cbn [Z.eqb Pos.eqb].
      destruct (Z.leb_spec 0 (3 * p)), (Z.leb_spec 0 (3 * p + 1)), (Z.leb_spec 0 (3 * p + 2)); try lia.
      destruct (Z.ltb_spec (3 * p) (0 + 3 * Z.of_nat (Z.to_nat M))), (Z.ltb_spec (3 * p + 1) (0 + 3 * Z.of_nat (Z.to_nat M))), (Z.ltb_spec (3 * p + 2) (0 + 3 * Z.of_nat (Z.to_nat M))); try lia.
      cbn [andb]. unfold packed, wrap. cbn [Z.eqb Pos.eqb]. rewrite !Z.shiftr_div_pow2 by lia. change (2 ^ 24) with (65536 * 256). clear -Hc. divs.
    + intros j Hj. assert (3 * M <= j) by divs. rewrite G by lia. destruct (Z.leb_spec 0 j), (Z.ltb_spec j (0 + 3 * Z.of_nat (Z.to_nat M))); try reflexivity. lia.
Qed.
(* two bytes per pixel: only so many pixels *)
Lemma clear565_ok bs w h cc : image bs w h 16 -> 0 <= cc < 2 ^ 32 ->
  exists bs', clear bs cc = Ok bs' /\ like w h 16 bs bs' /\
    forall p, 0 <= p -> pixel 16 bs' p = if p <? (w * h / 2 + 1) / 2 then packed 16 cc else pixel 16 bs p.
Proof.
  intros I Hc. unfold clear. rewrite (image_width _ _ _ _ I), (image_height _ _ _ _ I), (image_format _ _ _ _ I). cbn [bind].
  pose proof (image_dims _ _ _ _ I) as (Dw & Dh). assert (I' := I). destruct I' as (B & L & _ & _ & _ & F & S1 & S2).
  assert (0 <= w * h <= 65535 * 65535) by nia. rewrite (wrap_small 32 (w * h)) by lia. set (M := w * h) in *.
  cbn [Z.eqb Pos.eqb indexed2 indexed4 indexed16 rgb332 rgb565 rgb888]. rewrite to565_eq by auto. pose proof (packed16_range cc).
  set (n := (M / 2 + 1) / 2). assert (0 <= n <= M) by (unfold n; divs).
  destruct (set_pairs_ok w h 16 (wrap 8 (Z.shiftr (packed 16 cc) 8)) (wrap 8 (packed 16 cc)) (Z.to_nat n)
    ltac:(unfold wrap; apply Z.mod_pos_bound; lia) ltac:(unfold wrap; apply Z.mod_pos_bound; lia) bs 0 I ltac:(lia)) as (b' & R & K & G); [lia|].
  exists b'. split; [auto|]. split; [auto|].
  intros p P. unfold pixel. cbn [Z.eqb Z.ltb Z.compare Pos.compare Pos.compare_cont Pos.eqb]. rewrite !G by lia. rewrite !Z.sub_0_r.
  replace ((2 * p) mod 2) with 0 by (apply (Z.mod_unique _ _ p); lia).
  replace ((2 * p + 1) mod 2) with 1 by (apply (Z.mod_unique _ _ p); lia). cbn [Z.eqb Pos.eqb].
  destruct (Z.leb_spec 0 (2 * p)), (Z.leb_spec 0 (2 * p + 1)); try lia.
  destruct (Z.ltb_spec (2 * p) (0 + 2 * Z.of_nat (Z.to_nat n))), (Z.ltb_spec (2 * p + 1) (0 + 2 * Z.of_nat (Z.to_nat n))), (Z.ltb_spec p n); try lia; cbn [andb]; [|reflexivity].
  unfold wrap. rewrite Z.shiftr_div_pow2 by lia. change (2 ^ 8) with 256. set (q := packed 16 cc) in *. clearbody q. divs.
Qed.

(* ---- new images ---- *)
Lemma dims_to_size_eq fmt w h : In fmt formats -> 0 <= w < 32000 -> 0 <= h < 32000 -> dims_to_size fmt w h = bytes_of w h fmt.
Proof.
  intros F Hw Hh. unfold dims_to_size, bytes_of. cbv zeta. assert (0 <= w * h <= 31999 * 31999) by nia. set (M := w * h) in *.
  rewrite (wrap_small 32 M) by lia. apply in_formats in F.
  destruct F as [->|[->|[->|[->|[->| ->]]]]]; cbn [Z.eqb Pos.eqb indexed2 indexed4 indexed16 rgb332 rgb565 rgb888];
    [destruct (Z.eqb_spec (M mod 8) 0) | destruct (Z.eqb_spec (M mod 4) 0) | destruct (Z.eqb_spec (M mod 2) 0) | | |];
    cbn [negb]; try rewrite wrap_small; divs.
Qed.
Lemma image_buffer_ok fmt w h : In fmt formats -> 0 < w < 32000 -> 0 < h < 32000 ->
  exists bs, image_buffer fmt w h = Some bs /\ Z.of_nat (length bs) = 5 + bytes_of w h fmt /\
    Forall (fun b => 0 <= b < 256) bs /\
    byte_at bs 0 * 256 + byte_at bs 1 = w /\ byte_at bs 2 * 256 + byte_at bs 3 = h /\ byte_at bs 4 = fmt /\
    forall j, 0 <= j -> byte_at bs (5 + j) = 0.
Proof.
  intros F Hw Hh. unfold image_buffer. destruct (Z.gtb_spec w 0), (Z.gtb_spec h 0), (Z.ltb_spec w 32000), (Z.ltb_spec h 32000); try lia.
  cbn [andb]. rewrite !(wrap_small 16) by lia. eexists. split; [reflexivity|]. unfold new_image.
  rewrite dims_to_size_eq by (auto; lia).
  assert (0 <= bytes_of w h fmt) as P. { apply in_formats in F. unfold bytes_of. apply Z.div_pos; [|lia]. nia. }
  assert (0 <= fmt < 256) as Q by (apply in_formats in F; lia).
  rewrite !Z.shiftr_div_pow2 by lia.
  split. { rewrite app_length, repeat_length. cbn [length]. lia. }
  split. { apply Forall_app. split; [repeat constructor; unfold wrap; apply Z.mod_pos_bound; lia|]. apply Forall_forall. intros z Hz. apply repeat_spec in Hz. lia. }
  unfold byte_at. cbn [app nth Z.to_nat Pos.to_nat Pos.iter_op Nat.add]. unfold wrap. change (2 ^ 8) with 256.
  assert (forall z, 0 <= z < 32000 -> z / 256 mod 256 * 256 + z mod 256 = z) as G.
  { intros z Hz. rewrite (Z.mod_small (z / 256)) by divs. pose proof (Z.div_mod z 256 ltac:(lia)). lia. }
  split; [apply G; lia|]. split; [apply G; lia|]. split; [apply Z.mod_small; lia|].
  intros j Hj. replace (Z.to_nat (5 + j)) with (S (S (S (S (S (Z.to_nat j)))))) by lia. cbn [nth].
  destruct (Nat.ltb_spec (Z.to_nat j) (Z.to_nat (bytes_of w h fmt))); [apply nth_repeat|apply nth_overflow; rewrite repeat_length; auto].
Qed.
