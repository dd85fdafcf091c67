(* What a CRC is: bits, polynomials over GF(2), remainders. *)
From Verif Require Import Base.
Local Open Scope Z_scope.

Definition byte (b : Z) : Prop := 0 <= b < 256.

(* the bits of a byte and of a message, most significant first *)
Definition bits8 (b : Z) : list bool := map (Z.testbit b) [7; 6; 5; 4; 3; 2; 1; 0].
Definition bits (l : list Z) : list bool := flat_map bits8 l.

(* the bitwise CRC-16/CCITT (XMODEM) register: polynomial x^16 + x^12 + x^5 + 1 *)
Definition lfsr (s : Z) (b : bool) : Z :=
  Z.lxor (wrap 16 (Z.shiftl s 1)) (if xorb (Z.testbit s 15) b then 4129 (* 0x1021 *) else 0).
Definition crc_bits (s : Z) (l : list bool) : Z := fold_left lfsr l s.

(* polynomials over GF(2) as integers; [value l] has coefficients [l], highest first;
   [times l g] is the product of [value l] and [g] without carries *)
Definition value (l : list bool) : Z := fold_left (fun v b => 2 * v + Z.b2z b) l 0.
Definition times (l : list bool) (g : Z) : Z := fold_left (fun p b => Z.lxor (2 * p) (if b : bool then g else 0)) l 0.
Definition CCITT : Z := 69665. (* 0x11021 *)

(* positions at which two bit strings differ *)
Definition differ (x y : list bool) (j : nat) : Prop := nth_error x j <> nth_error y j.
Fixpoint count_diff (x y : list bool) : nat :=
  match x, y with
  | a :: x', b :: y' => ((if eqb a b then 0 else 1) + count_diff x' y')%nat
  | _, _ => O
  end.
