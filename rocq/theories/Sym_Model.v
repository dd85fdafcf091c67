(* Model of the symbol table of src/symrepr.c and of the extension table of
   src/extensions.c; the two call each other.
   A name is the list of its characters, none of them zero; where the C code
   walks a string the terminating zero is there too.  The symbol list is kept
   as a list of (name, id) instead of linked blocks; whether an allocation or
   a flash write succeeds is an input of the step. *)
From Coq Require Import String Ascii.
From Verif Require Import Base Value_Model.
Local Open Scope Z_scope.

Definition name := list Z.
Fixpoint chars (s : string) : name :=
  match s with
  | EmptyString => []
  | String a t => Z.of_nat (nat_of_ascii a) :: chars t
  end.

(* include/lbm_utils.h 50-59 str_eq on two character arrays *)
Fixpoint str_eq (a b : list Z) : res bool :=
  match a, b with
  | x :: a', y :: b' => if x =? y then if x =? 0 then Ok true else str_eq a' b' else Ok false
  | _, _ => UB
  end.
Definition cstr (n : name) : list Z := n ++ [0].

(* src/symrepr.c 41-248 special_symbols, with the numbers of
   include/lbm_defines.h 146-367 *)
Definition special_symbols : list (string * Z) := [
  ("nil", 0x0);
  ("quote", 0x100);
  ("t", 0x2);
  ("if", 0x104);
  ("cond", 0x110);
  ("lambda", 0x103);
  ("closure", 0x10f);
  ("let", 0x105);
  ("define", 0x101);
  ("progn", 0x102);
  ("read", 0x30001);
  ("read-program", 0x30002);
  ("read-eval-program", 0x30003);
  ("match", 0x108);
  ("_", 0x9);
  ("send", 0x3000a);
  ("recv", 0x109);
  ("recv-to", 0x10a);
  ("macro", 0x10d);
  ("call-cc", 0x10b);
  ("continuation", 0x10e);
  ("var", 0x112);
  ("timeout", 0xa);
  ("set", 0x30000);
  ("setq", 0x113);
  ("move-to-flash", 0x114);
  ("exit-ok", 0x3000b);
  ("exit-error", 0x3000c);
  ("map", 0x3000d);
  ("reverse", 0x3000e);
  ("flatten", 0x3000f);
  ("unflatten", 0x30010);
  ("kill", 0x30011);
  ("sleep", 0x30012);
  ("merge", 0x30013);
  ("sort", 0x30014);
  ("gc", 0x2000e);
  ("loop", 0x115);
  ("trap", 0x116);
  ("rest-args", 0x30015);
  ("rotate", 0x30016);
  ("?", 0x41);
  ("no_match", 0x40);
  ("read_error", 0x20);
  ("type_error", 0x21);
  ("eval_error", 0x22);
  ("out_of_memory", 0x23);
  ("fatal_error", 0x26);
  ("out_of_stack", 0x27);
  ("division_by_zero", 0x25);
  ("variable_not_bound", 0x24);
  ("flash_full", 0x29);
  ("$barray", 0x30);
  ("$raw_i", 0x31);
  ("$raw_u", 0x32);
  ("$raw_f", 0x33);
  ("$ind_i", 0x34);
  ("$ind_u", 0x35);
  ("$ind_f", 0x36);
  ("$channel", 0x37);
  ("$recovered", 0x28);
  ("$placeholder", 0x2a);
  ("$custom", 0x38);
  ("$array", 0x39);
  ("$nonsense", 0x3c);
  ("$dm-array", 0x3b);
  ("$dm", 0x3a);
  ("[openpar]", 0x70);
  ("[closepar]", 0x71);
  ("[backquote]", 0x72);
  ("[comma]", 0x73);
  ("[commaat]", 0x74);
  ("[dot]", 0x76);
  ("[done]", 0x75);
  ("[quote_it]", 0x77);
  ("[colon]", 0x78);
  ("[wait]", 0x79);
  ("[openbrack]", 0x80);
  ("[closebrack]", 0x81);
  ("[rerror]", 0x82);
  ("[appcont]", 0x111);
  ("type-list", 0x50);
  ("type-i", 0x51);
  ("type-u", 0x52);
  ("type-float", 0x53);
  ("type-i32", 0x54);
  ("type-u32", 0x55);
  ("type-double", 0x56);
  ("type-i64", 0x57);
  ("type-u64", 0x58);
  ("type-array", 0x59);
  ("type-symbol", 0x5a);
  ("type-char", 0x5b);
  ("type-byte", 0x5c);
  ("type-channel", 0x5e);
  ("type-lisparray", 0x5f);
  ("type-dm", 0x60);
  ("type-custom", 0x61);
  ("+", 0x20000);
  ("-", 0x20001);
  ("*", 0x20002);
  ("/", 0x20003);
  ("//", 0x20041);
  ("mod", 0x20004);
  ("=", 0x20007);
  ("!=", 0x20008);
  ("<", 0x20009);
  (">", 0x2000a);
  ("<=", 0x2000b);
  (">=", 0x2000c);
  ("eval", 0x30008);
  ("eval-program", 0x30009);
  ("and", 0x106);
  ("or", 0x107);
  ("not", 0x2000d);
  ("yield", 0x30006);
  ("wait", 0x30007);
  ("spawn", 0x30004);
  ("atomic", 0x10c);
  ("self", 0x2000f);
  ("spawn-trap", 0x30005);
  ("set-mailbox-size", 0x20010);
  ("eq", 0x20005);
  ("not-eq", 0x20006);
  ("car", 0x20012);
  ("cdr", 0x20013);
  ("cons", 0x20011);
  ("list", 0x20014);
  ("append", 0x20015);
  ("undefine", 0x20016);
  ("bufcreate", 0x20017);
  ("type-of", 0x20034);
  ("sym2str", 0x20018);
  ("str2sym", 0x20019);
  ("sym2u", 0x2001a);
  ("u2sym", 0x2001b);
  ("setcar", 0x2001c);
  ("setcdr", 0x2001d);
  ("setix", 0x2001e);
  ("length", 0x20035);
  ("range", 0x20036);
  ("assoc", 0x2001f);
  ("cossa", 0x20022);
  ("acons", 0x20020);
  ("setassoc", 0x20021);
  ("shl", 0x2002d);
  ("shr", 0x2002e);
  ("bitwise-and", 0x2002f);
  ("bitwise-or", 0x20030);
  ("bitwise-xor", 0x20031);
  ("bitwise-not", 0x20032);
  ("custom-destruct", 0x20033);
  ("to-i", 0x20024);
  ("to-i32", 0x20025);
  ("to-u", 0x20026);
  ("to-u32", 0x20027);
  ("to-float", 0x20028);
  ("to-i64", 0x20029);
  ("to-u64", 0x2002a);
  ("to-double", 0x2002b);
  ("to-byte", 0x2002c);
  ("event-register-handler", 0x20037);
  ("take", 0x20038);
  ("drop", 0x20039);
  ("mkarray", 0x2003a);
  ("array-to-list", 0x2003b);
  ("list-to-array", 0x2003c);
  ("dm-create", 0x2003d);
  ("dm-alloc", 0x2003e);
  ("list?", 0x2003f);
  ("number?", 0x20040);
  ("ix", 0x20023);
  ("first", 0x20012);
  ("rest", 0x20013);
  ("fn", 0x103);
  ("def", 0x101);
  ("true", 0x2);
  ("false", 0x0);
  ("setvar", 0x30000);
  ("type-f32", 0x53);
  ("type-f64", 0x56);
  ("array-create", 0x20017)]%string.

(* include/lbm_defines.h 369-385 *)
Definition SYMBOL_KIND (x : Z) : Z := Z.shiftr x 16.
Definition SYMBOL_IX (x : Z) : Z := Z.land x 0xFFFF.
Definition EXTENSION_SYMBOLS_START : Z := 0x10000.
Definition RUNTIME_SYMBOLS_START : Z := 0x40000.

(* A registered C function; [default_fn] is lbm_extensions_default.
   Registering a NULL pointer is not modelled. *)
Definition fn := Z.
Definition default_fn : fn := 0.

(* The globals of symrepr.c 250-251 and extensions.c 29-33 *)
Record syms := mksy {
  y_list : list (name * Z);              (* symlist, newest first *)
  y_next : Z;                            (* next_symbol_id *)
  x_tab : list (option name * fn);       (* extension_table[0 .. ext_max) *)
  x_num : Z; x_next : Z }.               (* ext_num, next_extension_ix *)

(* extensions.c 41-56 lbm_extensions_init with storage for [n] > 0 entries,
   then symrepr.c 260-264 (the list starts empty) *)
Definition tables_init (n : nat) : syms :=
  mksy [] RUNTIME_SYMBOLS_START (repeat (None, default_fn) n) 0 0.

Definition x_max (s : syms) : Z := Z.of_nat (length (x_tab s)).

(* symrepr.c 286-296 lookup_symrepr_name_memory *)
Fixpoint name_of_id (l : list (name * Z)) (id : Z) : option name :=
  match l with
  | [] => None
  | (n, i) :: t => if id =? i then Some n else name_of_id t id
  end.

Fixpoint special_name (l : list (string * Z)) (id : Z) : option name :=
  match l with
  | [] => None
  | (n, i) :: t => if id =? i then Some (chars n) else special_name t id
  end.

(* symrepr.c 299-322 lbm_get_name_by_symbol; None is NULL *)
Definition get_name_by_symbol (s : syms) (id : Z) : res (option name) :=
  let k := SYMBOL_KIND id in
  if (k =? 0) || (k =? 2) || (k =? 3) then Ok (special_name special_symbols id)
  else if k =? 1 then
    let e := id - EXTENSION_SYMBOLS_START in
    if e <? x_max s then let! (n, _) := rd (x_tab s) e in Ok n else Ok None
  else Ok (name_of_id (y_list s) id).

(* the three loops of symrepr.c 337-365 lbm_get_symbol_by_name *)
Fixpoint find_special (l : list (string * Z)) (n : name) : res (option Z) :=
  match l with
  | [] => Ok None
  | (m, i) :: t => let! b := str_eq (cstr n) (cstr (chars m)) in if b then Ok (Some i) else find_special t n
  end.
Fixpoint find_ext (l : list (option name * fn)) (i : Z) (n : name) : res (option Z) :=
  match l with
  | [] => Ok None
  | (None, _) :: t => find_ext t (i + 1) n
  | (Some m, _) :: t =>
    let! b := str_eq (cstr n) (cstr m) in
    if b then Ok (Some (EXTENSION_SYMBOLS_START + i)) else find_ext t (i + 1) n
  end.
Fixpoint find_list (l : list (name * Z)) (n : name) : res (option Z) :=
  match l with
  | [] => Ok None
  | (m, i) :: t => let! b := str_eq (cstr n) (cstr m) in if b then Ok (Some i) else find_list t n
  end.

(* symrepr.c 337-365 lbm_get_symbol_by_name *)
Definition get_symbol_by_name (s : syms) (n : name) : res (option Z) :=
  let! r := find_special special_symbols n in
  match r with
  | Some i => Ok (Some i)
  | None =>
    let! r := find_ext (x_tab s) 0 n in
    match r with
    | Some i => Ok (Some i)
    | None => find_list (y_list s) n
    end
  end.

Section Arch.
Context {A : Arch}.

Definition push_symbol (s : syms) (n : name) : syms * option Z :=
  (mksy ((n, y_next s) :: y_list s) (wrap W (y_next s + 1)) (x_tab s) (x_num s) (x_next s),
   Some (y_next s)).

(* How the entry is stored: symrepr.c 406-426 add_symbol_to_symtab (in memory,
   names of 1 to 256 characters), 371-390 and 429-440 (both in flash: name,
   then entry), 478-488 lbm_add_symbol_const_base (name not copied).
   [ok]: the allocation or the flash writes succeed. *)
Inductive store := Memory | Flash | Const.
Definition storable (w : store) (n : name) (ok : bool) : bool :=
  let len := Z.of_nat (length n) + 1 in
  match w with
  | Memory => (len >? 1) && (len <=? 257) && ok
  | Flash => negb (len =? 1) && ok
  | Const => ok
  end.

(* symrepr.c 442-454 lbm_add_symbol_base, 478-488 lbm_add_symbol_const_base *)
Definition add_symbol_base (s : syms) (w : store) (n : name) (ok : bool) : syms * option Z :=
  if storable w n ok then push_symbol s n else (s, None).

(* symrepr.c 456-465 lbm_add_symbol, 467-476 lbm_add_symbol_flash, 490-499
   lbm_add_symbol_const *)
Definition add_symbol (s : syms) (w : store) (n : name) (ok : bool) : res (syms * option Z) :=
  let! r := get_symbol_by_name s n in
  match r with
  | None => Ok (add_symbol_base s w n ok)
  | Some i => Ok (s, Some i)
  end.

(* symrepr.c 501-507 lbm_str_to_symbol *)
Definition str_to_symbol (s : syms) (n : name) (ok : bool) : res (syms * option Z) :=
  let! r := get_symbol_by_name s n in
  match r with
  | Some i => Ok (s, Some i)
  | None => add_symbol s Memory n ok
  end.

(* symrepr.c 260-275 lbm_symrepr_init: the list is emptied and x and y are
   interned *)
Definition symrepr_init (n : nat) (okx oky : bool) : res syms :=
  let! (s, _) := add_symbol (tables_init n) Memory (chars "x") okx in
  let! (s, _) := add_symbol s Memory (chars "y") oky in
  Ok s.

(* extensions.c 66-72 lbm_get_extension; None is NULL *)
Definition get_extension (s : syms) (sym : Z) : res (option fn) :=
  let e := wrap W (sym - EXTENSION_SYMBOLS_START) in
  if e >=? x_max s then Ok None else let! (_, f) := rd (x_tab s) e in Ok (Some f).

(* extensions.c 74-82 lbm_clr_extension *)
Definition clr_extension (s : syms) (sym : Z) : res (syms * bool) :=
  let e := SYMBOL_IX sym in
  if e >=? x_max s then Ok (s, false) else
  let! t := wr (x_tab s) e (None, default_fn) in
  Ok (mksy (y_list s) (y_next s) t (x_num s) (x_next s), true).

(* extensions.c 84-94 lbm_lookup_extension_id *)
Definition lookup_extension_id (s : syms) (n : name) : res (option Z) := find_ext (x_tab s) 0 n.

(* extensions.c 96-120 lbm_add_extension; lbm_is_extension (extensions.h 96-99)
   of an encoded symbol is get_extension of the symbol it decodes to *)
Definition add_extension (s : syms) (n : name) (f : fn) : res (syms * bool) :=
  let! r := get_symbol_by_name s n in
  match r with
  | Some sym =>
    let! e := get_extension s (dec_sym (enc_sym sym)) in
    match e with
    | Some _ =>
      let! (m, _) := rd (x_tab s) (SYMBOL_IX sym) in
      match m with
      | None => UB                                  (* str_eq on NULL *)
      | Some m =>
        let! b := str_eq (cstr m) (cstr n) in
        if b then
          let! t := wr (x_tab s) (SYMBOL_IX sym) (Some m, f) in
          Ok (mksy (y_list s) (y_next s) t (x_num s) (x_next s), true)
        else Ok (s, false)
      end
    | None => Ok (s, false)
    end
  | None =>
    if x_next s <? x_max s then
      let! t := wr (x_tab s) (x_next s) (Some n, f) in
      Ok (mksy (y_list s) (y_next s) t (wrap W (x_num s + 1)) (wrap W (x_next s + 1)), true)
    else Ok (s, false)
  end.

End Arch.
