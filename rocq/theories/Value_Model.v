(* Model of lbm_value words: tags, encoders, decoders, predicates.
   include/lbm_defines.h and include/heap.h, for 32 bit and 64 bit builds.
   A word is a Z in [0, 2^W). *)
From Verif Require Import Base.
Local Open Scope Z_scope.

(* Which build: true for LBM64. *)
Class Arch := b64 : bool.
Definition A32 : Arch := false.
Definition A64 : Arch := true.

Section Arch.
Context {A : Arch}.

Definition sel (x32 x64 : Z) : Z := if b64 then x64 else x32.

(* lbm_defines.h 26-139 *)
Definition W := sel 32 64.                         (* bits in lbm_uint *)
(* lbm_types.h 48 and 74: sizeof(lbm_uint) *)
Definition WB := sel 4 8.                          (* sizeof(lbm_uint) *)
(* lbm_defines.h 28-82 (32 bit) and 86-139 (64 bit): LBM_ADDRESS_SHIFT to
   LBM_TYPE_CHAR *)
Definition ADDRESS_SHIFT := 2.
Definition VAL_SHIFT := sel 4 8.
Definition PTR_BIT := 1.
Definition PTR_VAL_MASK := sel 0x03FFFFFC 0x03FFFFFFFFFFFFFC.
Definition PTR_TYPE_MASK := sel 0xFC000000 0xFC00000000000000.
Definition PTR_NULL := sel 0x00FFFFFF 0x00FFFFFFFFFFFFFF.   (* PTR_VAL_MASK >> 2 *)
Definition PTR_TO_CONSTANT_BIT := sel 0x04000000 0x0400000000000000.
Definition PTR_TO_CONSTANT_SHIFT := sel 26 58.
Definition TYPE_CONS := sel 0x10000000 0x1000000000000000.
Definition NON_CONS_POINTER_TYPE_FIRST := sel 0x20000000 0x2000000000000000.
Definition POINTER_TYPE_FIRST := sel 0x10000000 0x1000000000000000.
Definition TYPE_I64 := sel 0x48000000 0x2800000000000000.
Definition TYPE_U64 := sel 0x58000000 0x3800000000000000.
Definition TYPE_DOUBLE := sel 0x78000000 0x4800000000000000.
Definition TYPE_ARRAY := sel 0x80000000 0x5000000000000000.
Definition TYPE_CHANNEL := sel 0x90000000 0x7000000000000000.
Definition TYPE_CUSTOM := sel 0xA0000000 0x8000000000000000.
Definition TYPE_LISPARRAY := sel 0xB0000000 0x9000000000000000.
Definition TYPE_DEFRAG_MEM := sel 0xC0000000 0xA000000000000000.
Definition POINTER_TYPE_LAST := sel 0xCC000000 0xAC00000000000000.
Definition CONS_TYPE_MASK := sel 0xF0000000 0xF000000000000000.
Definition CONTINUATION_INTERNAL := sel 0xF8000001 0xF800000000000001.
Definition GC_MASK := 2.
Definition GC_MARKED := 2.
Definition VAL_TYPE_MASK := sel 0x0C 0xFC.
Definition LOW_RESERVED_BITS := sel 0x0F 0xFF.
Definition NUMBER_MASK := sel 0x08000000 0x0800000000000000.
Definition TYPE_SYMBOL := 0.
Definition TYPE_CHAR := 4.
(* boxed on 32 bit, immediate on 64 bit *)
Definition TYPE_I32 := sel 0x28000000 0x8.
Definition TYPE_U32 := sel 0x38000000 0xC.
Definition TYPE_FLOAT := sel 0x68000000 0x1C.
Definition TYPE_I := sel 0x8 0x14.
Definition TYPE_U := sel 0xC 0x18.

(* C: ~m on an unsigned word *)
Definition wnot (m : Z) : Z := 2 ^ W - 1 - m.

(* heap.h 663-665 lbm_type_of *)
Definition type_of (x : Z) : Z :=
  if Z.land x PTR_BIT =? 0 then Z.land x VAL_TYPE_MASK else Z.land x PTR_TYPE_MASK.

(* heap.h 668-672 lbm_type_of_functional *)
Definition type_of_functional (x : Z) : Z :=
  if Z.land x PTR_BIT =? 0 then Z.land x VAL_TYPE_MASK
  else Z.land x (Z.land (wnot PTR_TO_CONSTANT_BIT) PTR_TYPE_MASK).

(* heap.h 674-676 lbm_enc_cons_ptr *)
Definition enc_cons_ptr (x : Z) : Z :=
  Z.lor (Z.lor (wrap W (Z.shiftl x ADDRESS_SHIFT)) TYPE_CONS) PTR_BIT.

(* heap.h 678-680 lbm_dec_ptr *)
Definition dec_ptr (p : Z) : Z := Z.shiftr (Z.land PTR_VAL_MASK p) ADDRESS_SHIFT.

(* (p & LBM_PTR_TO_CONSTANT_BIT) != 0, e.g. heap.c 775 *)
Definition is_const_ptr (p : Z) : bool := negb (Z.land p PTR_TO_CONSTANT_BIT =? 0).

(* heap.h 684-687 lbm_dec_cons_cell_ptr *)
Definition dec_cons_cell_ptr (p : Z) : Z :=
  Z.shiftr (dec_ptr p) (Z.shiftr (Z.land p PTR_TO_CONSTANT_BIT) PTR_TO_CONSTANT_SHIFT).

(* heap.h 694-696 lbm_set_ptr_type *)
Definition set_ptr_type (p t : Z) : Z := Z.lor (Z.lor (Z.land PTR_VAL_MASK p) t) PTR_BIT.

(* heap.h 698-700 lbm_enc_sym; the macro ENC_SYM of lbm_defines.h 394 is the
   same *)
Definition enc_sym (s : Z) : Z := Z.lor (wrap W (Z.shiftl s VAL_SHIFT)) TYPE_SYMBOL.
(* heap.h 702-704 lbm_enc_i: the argument is a signed lbm_int *)
Definition enc_i (x : Z) : Z := Z.lor (wrap W (Z.shiftl (wrap W x) VAL_SHIFT)) TYPE_I.
(* heap.h 706-708 lbm_enc_u *)
Definition enc_u (x : Z) : Z := Z.lor (wrap W (Z.shiftl x VAL_SHIFT)) TYPE_U.
(* heap.h 746-748 lbm_enc_char *)
Definition enc_char (x : Z) : Z := Z.lor (wrap W (Z.shiftl x VAL_SHIFT)) TYPE_CHAR.
(* heap.h 751-765 *)
Definition dec_i (x : Z) : Z := Z.shiftr (sgn W x) VAL_SHIFT.
Definition dec_u (x : Z) : Z := Z.shiftr x VAL_SHIFT.
Definition dec_char (x : Z) : Z := wrap 8 (Z.shiftr x VAL_SHIFT).
Definition dec_sym (x : Z) : Z := Z.shiftr x VAL_SHIFT.

(* The 64 bit immediate forms of 32 bit numbers: heap.c 94-126 (LBM64 branch)
   and heap.h 780-797.  x is an int32_t; the float is its bit pattern. *)
Definition enc_i32_imm (x : Z) : Z := Z.lor (wrap W (Z.shiftl (wrap W x) VAL_SHIFT)) TYPE_I32.
Definition enc_u32_imm (x : Z) : Z := Z.lor (wrap W (Z.shiftl x VAL_SHIFT)) TYPE_U32.
Definition enc_float_imm (x : Z) : Z := Z.lor (wrap W (Z.shiftl x VAL_SHIFT)) TYPE_FLOAT.
Definition dec_i32_imm (x : Z) : Z := sgn 32 (Z.shiftr x VAL_SHIFT).
Definition dec_u32_imm (x : Z) : Z := wrap 32 (Z.shiftr x VAL_SHIFT).

(* heap.h 804-806 *)
Definition is_ptr (x : Z) : bool := negb (Z.land x PTR_BIT =? 0).
(* heap.h 821-823 lbm_is_cons_rw *)
Definition is_cons_rw (x : Z) : bool := type_of x =? TYPE_CONS.
(* heap.h 830-832 lbm_is_cons *)
Definition is_cons (x : Z) : bool := is_ptr x && (Z.land x CONS_TYPE_MASK =? TYPE_CONS).
(* heap.h 834-836 lbm_is_symbol_nil *)
Definition is_symbol_nil (x : Z) : bool := x =? 0.
(* heap.h 842-847 lbm_is_number *)
Definition is_number (x : Z) : bool :=
  if Z.land x PTR_BIT =? 0 then negb (Z.land x VAL_TYPE_MASK =? 0)
  else Z.land x NUMBER_MASK =? NUMBER_MASK.
(* heap.h 878-880 *)
Definition is_char (x : Z) : bool := type_of x =? TYPE_CHAR.
(* heap.h 924-926 lbm_is_symbol *)
Definition is_symbol (x : Z) : bool := Z.land x LOW_RESERVED_BITS =? 0.
(* heap.h 936-942 *)
Definition is_list (x : Z) : bool := is_cons x || is_symbol_nil x.
Definition is_list_rw (x : Z) : bool := is_cons_rw x || is_symbol_nil x.
(* heap.h 852-856, the tag part *)
Definition is_lisp_array_r (x : Z) : bool :=
  Z.land (type_of x) (wnot PTR_TO_CONSTANT_BIT) =? TYPE_LISPARRAY.

(* heap.c 39-62: GC mark (in the cdr) and flag (in the car) *)
Definition set_gc_mark (x : Z) : Z := Z.lor x GC_MARKED.
Definition clr_gc_mark (x : Z) : Z := Z.land x (wnot GC_MASK).
Definition get_gc_mark (x : Z) : bool := negb (Z.land x GC_MASK =? 0).

(* lbm_defines.h 147-181 *)
Definition SYM_NIL := 0x0.
Definition SYM_TRUE := 0x2.
Definition SYM_DONTCARE := 0x9.
Definition SYM_TIMEOUT := 0xA.
Definition SYM_RERROR := 0x20.
Definition SYM_TERROR := 0x21.
Definition SYM_EERROR := 0x22.
Definition SYM_MERROR := 0x23.
Definition SYM_NOT_FOUND := 0x24.
Definition SYM_DIVZERO := 0x25.
Definition SYM_FATAL_ERROR := 0x26.
Definition SYM_STACK_ERROR := 0x27.
Definition SYM_RECOVERED := 0x28.
Definition SYM_ARRAY_TYPE := 0x30.
Definition SYM_RAW_I_TYPE := 0x31.
Definition SYM_RAW_U_TYPE := 0x32.
Definition SYM_RAW_F_TYPE := 0x33.
Definition SYM_IND_I_TYPE := 0x34.
Definition SYM_IND_U_TYPE := 0x35.
Definition SYM_IND_F_TYPE := 0x36.
Definition SYM_CHANNEL_TYPE := 0x37.
Definition SYM_CUSTOM_TYPE := 0x38.
Definition SYM_LISPARRAY_TYPE := 0x39.
Definition SYM_DEFRAG_MEM_TYPE := 0x3A.
Definition SYM_DEFRAG_ARRAY_TYPE := 0x3B.
Definition SYM_NO_MATCH := 0x40.
Definition SYM_MATCH_ANY := 0x41.
End Arch.
