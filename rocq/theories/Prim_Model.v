(* Model of some functions of src/fundamental.c as the evaluator calls them: the
   arguments and the result are words.

   Numbers in boxes (i32, u32, i64, u64, float, double) are not modelled: such an
   argument gives eval_error here, and so does any function not listed.  Signed
   overflow is undefined. *)
From Verif Require Import Base Value_Model Heap_Model Arith_Model Eval_Model.
Local Open Scope Z_scope.

Section Arch.
Context {A : Arch}.

(* the type and the value of an immediate number: heap.h 668-672, 750-760 *)
Definition num_of (x : Z) : option num :=
  let t := type_of x in
  if t =? TYPE_CHAR then Some (TChar, dec_char x)
  else if t =? TYPE_I then Some (TI, dec_i x)
  else if t =? TYPE_U then Some (TU, dec_u x)
  else None.
Fixpoint nums_of (xs : list Z) : option (list num) :=
  match xs with
  | [] => Some []
  | x :: t => match num_of x, nums_of t with Some n, Some ns => Some (n :: ns) | _, _ => None end
  end.

(* heap.h 702-704, 719-721, 746-748 *)
Definition num_word (r : nres) : Z :=
  match r with
  | Num (TChar, n) => enc_char n
  | Num (TI, n) => enc_i n
  | Num (TU, n) => enc_u n
  | TypeErr => TERROR
  | _ => EERROR
  end.
Definition bool_word (r : bres) : Z :=
  match r with BTrue => TRUE | BNil => NIL | BTypeErr => TERROR end.

Definition arith (op : list num -> res nres) (h : heap) (args : list Z) : res (heap * Z) :=
  match nums_of args with
  | Some ns => let! r := op ns in Ok (h, num_word r)
  | None => Ok (h, EERROR)
  end.
Definition compare (op : option num -> list (option num) -> bres) (h : heap) (args : list Z) : res (heap * Z) :=
  match map num_of args with
  | a :: bs => Ok (h, bool_word (op a bs))
  | [] => Ok (h, EERROR)
  end.

(* 604-611 fundamental_not *)
Definition fundamental_not (h : heap) (args : list Z) : res (heap * Z) :=
  match args with
  | [a] => Ok (h, if a =? 0 then TRUE else NIL)
  | _ => Ok (h, EERROR)
  end.
(* 645-654 fundamental_cons *)
Definition fundamental_cons (h : heap) (args : list Z) : res (heap * Z) :=
  match args with
  | [a; b] => cons h a b
  | _ => Ok (h, EERROR)
  end.
(* 656-670 fundamental_car, 672-686 fundamental_cdr *)
Definition fundamental_car (h : heap) (args : list Z) : res (heap * Z) :=
  match args with
  | [a] =>
    if is_cons a then let! c := ref_cell h a in Ok (h, fst c)
    else if is_symbol_nil a then Ok (h, NIL) else Ok (h, TERROR)
  | _ => Ok (h, EERROR)
  end.
Definition fundamental_cdr (h : heap) (args : list Z) : res (heap * Z) :=
  match args with
  | [a] =>
    if is_cons a then let! c := ref_cell h a in Ok (h, snd c)
    else if is_symbol_nil a then Ok (h, NIL) else Ok (h, TERROR)
  | _ => Ok (h, EERROR)
  end.

(* lbm_defines.h 272-291: the numbers of the functions; 1440-1500: the table *)
Definition fundamental_table (f : Z) (h : heap) (args : list Z) : res (heap * Z) :=
  if f =? 0x20000 then arith (fundamental_add false) h args
  else if f =? 0x20001 then arith (fundamental_sub false) h args
  else if f =? 0x20002 then arith (fundamental_mul false) h args
  else if f =? 0x20007 then compare fundamental_numeq h args
  else if f =? 0x20009 then compare fundamental_lt h args
  else if f =? 0x2000A then compare fundamental_gt h args
  else if f =? 0x2000D then fundamental_not h args
  else if f =? 0x20011 then fundamental_cons h args
  else if f =? 0x20012 then fundamental_car h args
  else if f =? 0x20013 then fundamental_cdr h args
  else Ok (h, EERROR).

End Arch.
