(* src/extensions/random_extensions.c: seed and random. *)
From Verif Require Import Base Value_Model Heap_Model Sym_Model Flat_Model Fund_Model Read_Model.
Local Open Scope Z_scope.

(* 21-23 *)
Definition M := 268435183.
Definition MUL := 268435043.
Definition INC := 268434949.
(* 26: random_seed at the start *)
Definition first_seed := 177739.

Section Arch.
Context {A : Arch} {LC : Libc}.

(* 36-41 ext_random, in words of the machine: the new random_seed and the value *)
Definition next (seed : Z) : Z := wrap W (wrap W (MUL * seed) + INC) mod M.
Definition ext_random (seed : Z) : Z * Z := (next seed, enc_u (next seed)).

(* 28-34 ext_seed, extensions.h 129 LBM_CHECK_ARGN_NUMBER; the new random_seed and the value *)
Definition ext_seed (h : heap) (args : list Z) (seed : Z) : res (Z * Z) :=
  match args with
  | [a] => if is_number a then let! s := dec_as_u32 h a in Ok (s, enc_sym SYM_TRUE) else Ok (seed, EERROR)
  | _ => Ok (seed, EERROR)
  end.

(* (random) called [n] times: random_seed, which is the number returned last *)
Fixpoint calls (n : nat) (seed : Z) : Z := match n with O => seed | S k => fst (ext_random (calls k seed)) end.

End Arch.
