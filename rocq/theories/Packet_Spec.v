(* What a packet looks like on the wire. *)
From Verif Require Import Base Crc_Model Crc_Spec.
Local Open Scope Z_scope.

Definition len (p : list Z) : Z := Z.of_nat (length p).

(* start byte and length, most significant byte first *)
Inductive header : Z -> list Z -> Prop :=
| hd8 n : 1 <= n <= 255 -> header n [2; n]
| hd16 a b : byte a -> byte b -> 255 <= a * 256 + b -> header (a * 256 + b) [3; a; b]
| hd24 a b c : byte a -> byte b -> byte c -> 65535 <= a * 65536 + b * 256 + c -> header (a * 65536 + b * 256 + c) [4; a; b; c].

(* header, payload, checksum, stop byte *)
Inductive frame (p : list Z) : list Z -> Prop :=
| frame_intro h c1 c2 : header (len p) h -> byte c1 -> byte c2 -> crc16 p = c1 * 256 + c2 -> frame p (h ++ p ++ [c1; c2; 3]).

(* what arrives between packets: bytes that start no packet *)
Inductive item := Packet (p : list Z) | Noise (b : Z).
Definition good (MAX : Z) (i : item) : Prop :=
  match i with
  | Packet p => 1 <= len p <= MAX /\ Forall byte p
  | Noise b => byte b /\ b <> 2 /\ b <> 3 /\ b <> 4
  end.
Definition payloads (is : list item) : list (list Z) :=
  flat_map (fun i => match i with Packet p => [p] | Noise _ => [] end) is.
