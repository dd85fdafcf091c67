(* Model of /repo/src/lbm_memory.c: the word allocator.

   A configuration is the number [sh] of bits needed to index a bit in a
   machine word: 5 on the 32 bit build, 6 on the LBM64 build.  All constants
   that the C code selects with #ifdef LBM64 follow from it:
     word width in bits        2^sh
     sizeof(lbm_uint)          2^(sh-3)
     WORD_IX_SHIFT             sh          (lbm_memory.c:125-133)
     WORD_MOD_MASK             2^sh - 1
     BITMAP_SIZE_SHIFT         sh-1
     address shift             sh-3        (lbm_memory.c:106-112)

   Simplifications: the mutex is not modelled (each API call is one atomic
   step); [memory_min_free] statistics are not modelled; the loop counters of
   type [unsigned int] in longest_free and shrink are taken to be wide enough
   (memories of 2^32 words and more on 64 bit machines are out of scope). *)
From Verif Require Import Base.
Open Scope Z_scope.

(* Static variables, lbm_memory.c:42-52. *)
Record mem := mkMem {
  bm      : list Z;   (* bitmap words *)
  bsize   : Z;        (* bitmap_size *)
  base    : Z;        (* memory_base_address, also [memory] *)
  msize   : Z;        (* memory_size, in words *)
  nfree   : Z;        (* memory_num_free *)
  reserve : Z;        (* memory_reserve_level *)
  off     : Z;        (* alloc_offset *)
  gcreq   : bool      (* lbm_request_gc() was called *)
}.

(* assignments to one of the variables of lbm_memory.c 42-52 *)
Definition set_bm (m : mem) (b : list Z) : mem :=
  mkMem b (bsize m) (base m) (msize m) (nfree m) (reserve m) (off m) (gcreq m).
Definition set_off (m : mem) (o : Z) : mem :=
  mkMem (bm m) (bsize m) (base m) (msize m) (nfree m) (reserve m) o (gcreq m).
Definition set_nfree (m : mem) (n : Z) : mem :=
  mkMem (bm m) (bsize m) (base m) (msize m) n (reserve m) (off m) (gcreq m).
Definition set_res (m : mem) (r : Z) : mem :=
  mkMem (bm m) (bsize m) (base m) (msize m) (nfree m) r (off m) (gcreq m).
Definition set_gcreq (m : mem) : mem :=
  mkMem (bm m) (bsize m) (base m) (msize m) (nfree m) (reserve m) (off m) true.

Section Cfg.
Variable sh : Z.

Definition W : Z := 2 ^ sh.              (* bits per word *)
Definition wbytes : Z := 2 ^ (sh - 3).   (* sizeof(lbm_uint) *)
Definition wr_w (x : Z) : Z := wrap W x.

(* lbm_memory.c:54-96 (lbm_memory_init).  The NULL checks and the alignment of
   the two pointers are in the first test; the initial reserve level is
   0.1*data_size truncated, computed here as data_size/10 (float rounding of
   0.1*data_size not modelled; nothing depends on the initial value). *)
Definition mem_init (data data_size bits bits_size : Z) : option mem :=
  if (data =? 0) || (bits =? 0) then None else
  if negb (data mod wbytes =? 0)
     || negb (wr_w (data_size * 2) =? wr_w (bits_size * wbytes * 8))
     || negb (data_size mod 4 =? 0)
     || negb (bits mod wbytes =? 0)
     || (bits_size <? 1)
     || negb (bits_size mod 4 =? 0)
  then None
  else Some (mkMem (repeat 0 (Z.to_nat bits_size)) bits_size data data_size
                   data_size (data_size / 10) 0 false).

(* lbm_memory.c:106-112 *)
Definition addr_to_ix (m : mem) (p : Z) : Z := Z.shiftr (wr_w (p - base m)) (sh - 3).

(* lbm_memory.c:122-124 *)
Definition ix_to_addr (m : mem) (ix : Z) : Z := base m + ix * wbytes.

(* lbm_memory.c:136-147 (status) *)
Definition status (m : mem) (i : Z) : res Z :=
  let ix := wr_w (Z.shiftl i 1) in
  let word_ix := Z.shiftr ix sh in
  let bit_ix := Z.land ix (Z.ones sh) in
  let mask := wr_w (Z.shiftl 3 bit_ix) in
  if bsize m <? word_ix then Ok 0
  else let! w := rd (bm m) word_ix in
       Ok (Z.shiftr (Z.land w mask) bit_ix).

(* lbm_memory.c:149-159 (set_status) *)
Definition set_status (m : mem) (i st : Z) : res mem :=
  let ix := wr_w (Z.shiftl i 1) in
  let word_ix := Z.shiftr ix sh in
  let bit_ix := Z.land ix (Z.ones sh) in
  let clr_mask := wr_w (Z.lnot (wr_w (Z.shiftl 3 bit_ix))) in
  let mask := wr_w (Z.shiftl st bit_ix) in
  let! w := rd (bm m) word_ix in
  let! b1 := wr (bm m) word_ix (Z.land w clr_mask) in
  let! w1 := rd b1 word_ix in
  let! b2 := wr b1 word_ix (Z.lor w1 mask) in
  Ok (set_bm m b2).

(* lbm_memory.c 129-133, 187: bitmap_size << BITMAP_SIZE_SHIFT *)
Definition loop_max (m : mem) : Z := wr_w (Z.shiftl (bsize m) (sh - 1)).

(* States of the search automaton, lbm_memory.c:36-40. *)
Inductive ast := INIT | FREE_LENGTH_CHECK | SKIP.

(* lbm_memory.c:178-227 (lbm_memory_longest_free): the scan ... *)
Fixpoint longest_loop (k : nat) (m : mem) (i : Z) (st : ast) (cur mx : Z) : res (option Z) :=
  match k with
  | O => Ok (Some mx)
  | S k' =>
    let! s := status m i in
    match s with
    | 0 => match st with
           | INIT => let cur' := 1 in
                     longest_loop k' m (i + 1) FREE_LENGTH_CHECK cur'
                       (if mx <? cur' then cur' else mx)
           | FREE_LENGTH_CHECK =>
                     let cur' := cur + 1 in
                     longest_loop k' m (i + 1) FREE_LENGTH_CHECK cur'
                       (if mx <? cur' then cur' else mx)
           | SKIP => longest_loop k' m (i + 1) SKIP cur mx
           end
    | 1 => longest_loop k' m (i + 1) INIT cur mx
    | 2 => longest_loop k' m (i + 1) SKIP cur mx
    | 3 => longest_loop k' m (i + 1) INIT cur mx
    | _ => Ok None
    end
  end.

(* ... and the correction for the reserve (lines 221-226). *)
Definition longest_free (m : mem) : res Z :=
  let! r := longest_loop (Z.to_nat (loop_max m)) m 0 INIT 0 0 in
  match r with
  | None => Ok 0
  | Some mx =>
    if wr_w (nfree m - mx) <? reserve m
    then Ok (wr_w (mx - wr_w (reserve m - wr_w (nfree m - mx))))
    else Ok mx
  end.

(* lbm_memory.c:229-289: the search loop of lbm_memory_allocate_internal.
   Result: the (start_ix, end_ix) pair if the automaton reached ALLOC_DONE,
   and the final alloc_offset. *)
Fixpoint alloc_loop (k : nat) (m : mem) (n : Z) (st : ast) (start flen o : Z)
  : res (option (Z * Z) * Z) :=
  let next k' st' start' flen' :=
    if o + 1 =? loop_max m then alloc_loop k' m n INIT start' 0 0
    else alloc_loop k' m n st' start' flen' (o + 1) in
  match k with
  | O => Ok (None, o)
  | S k' =>
    let! s := status m o in
    match s with
    | 0 => match st with
           | INIT => if n =? 1 then Ok (Some (o, o), o)
                     else next k' FREE_LENGTH_CHECK o 1
           | FREE_LENGTH_CHECK =>
                     if flen + 1 =? n then Ok (Some (start, o), o)
                     else next k' FREE_LENGTH_CHECK start (flen + 1)
           | SKIP => next k' SKIP start flen
           end
    | 1 => next k' INIT start flen
    | 2 => next k' SKIP start flen
    | 3 => next k' INIT start flen
    | _ => Ok (None, o)
    end
  end.

(* lbm_memory.c:229-307 (lbm_memory_allocate_internal).  NULL is address 0. *)
Definition allocate_internal (m : mem) (n : Z) : res (Z * mem) :=
  let! (r, o) := alloc_loop (Z.to_nat (loop_max m)) m n INIT 0 0 (off m) in
  let m1 := set_off m o in
  match r with
  | None => Ok (0, m1)
  | Some (s, e) =>
    let! m2 := (if s =? e then set_status m1 s 3
                else let! m' := set_status m1 s 2 in set_status m' e 1) in
    Ok (ix_to_addr m2 s, set_nfree m2 (wr_w (nfree m2 - n)))
  end.

(* lbm_memory.c:309-315 *)
Definition allocate (m : mem) (n : Z) : res (Z * mem) :=
  if wr_w (nfree m - n) <? reserve m then Ok (0, set_gcreq m)
  else allocate_internal m n.

(* lbm_memory.c:443-446 *)
Definition ptr_inside (m : mem) (p : Z) : bool :=
  (base m <=? p) && (p <? wr_w (base m + msize m * wbytes)).

(* lbm_memory.c:327-334: the loop looking for END in lbm_memory_free. *)
Fixpoint free_loop (k : nat) (m : mem) (i cnt : Z) : res (bool * Z * mem) :=
  match k with
  | O => Ok (false, cnt, m)
  | S k' =>
    let! s := status m i in
    if s =? 1 then let! m' := set_status m i 0 in Ok (true, cnt + 1, m')
    else free_loop k' m (i + 1) (cnt + 1)
  end.

(* lbm_memory.c:344-348: walk alloc_offset back to the start of the free run.
   At most [k] steps are needed when k is the current alloc_offset. *)
Fixpoint back_loop (k : nat) (m : mem) (o : Z) : res Z :=
  match k with
  | O => if 0 <? o then Fuel else Ok o
  | S k' =>
    if 0 <? o then
      let! s := status m (o - 1) in
      if s =? 0 then back_loop k' m (o - 1) else Ok o
    else Ok o
  end.

(* lbm_memory.c:317-353 (lbm_memory_free) *)
Definition mfree (m : mem) (p : Z) : res (Z * mem) :=
  if ptr_inside m p then
    let ix := addr_to_ix m p in
    let m0 := set_off m ix in
    let! s := status m0 ix in
    let! (r, cnt, m1) :=
      (if s =? 2 then
         let! m' := set_status m0 ix 0 in
         free_loop (Z.to_nat (loop_max m - ix)) m' ix 0
       else if s =? 3 then
         let! m' := set_status m0 ix 0 in Ok (true, 1, m')
       else Ok (false, 0, m0)) in
    let! m2 := (if r then let! o := back_loop (Z.to_nat (off m1)) m1 (off m1) in
                          Ok (set_off m1 o)
                else Ok m1) in
    Ok ((if r then 1 else 0), set_nfree m2 (wr_w (nfree m2 + cnt)))
  else Ok (0, m).

(* size in bytes to size in words, lbm_memory.c:359-360 and 373-374 *)
Definition bytes_to_words (size : Z) : Z :=
  size / wbytes + (if size mod wbytes =? 0 then 0 else 1).

(* lbm_memory.c:355-367 (lbm_malloc) *)
Definition malloc (m : mem) (size : Z) : res (Z * mem) :=
  if size =? 0 then Ok (0, m) else
  let n := bytes_to_words size in
  if wr_w (nfree m - n) <? reserve m then Ok (0, set_gcreq m)
  else allocate_internal m n.

(* lbm_memory.c:369-380 (lbm_malloc_reserve) *)
Definition malloc_reserve (m : mem) (size : Z) : res (Z * mem) :=
  if size =? 0 then Ok (0, m) else
  let n := bytes_to_words size in
  let m' := if wr_w (nfree m - n) <? reserve m then set_gcreq m else m in
  allocate_internal m' n.

(* lbm_memory.c:403-422: first loop of lbm_memory_shrink.  [None]: return 0.
   [Some (done, i, m)]: loop left with this i. *)
Fixpoint shrink_loop1 (k : nat) (m : mem) (ix n i : Z) : res (option (bool * Z * mem)) :=
  match k with
  | O => Ok (Some (false, i, m))
  | S k' =>
    let! s := status m (ix + i) in
    if (s =? 1) && (i <? n) then
      Ok None
    else if i =? n - 1 then
      let done := (s =? 1) || (s =? 3) in
      let! m' := (if i =? 0 then set_status m (ix + i) 3
                  else set_status m (ix + i) 1) in
      Ok (Some (done, i, m'))
    else shrink_loop1 k' m ix n (i + 1)
  end.

(* lbm_memory.c:427-434: second loop of lbm_memory_shrink. *)
Fixpoint shrink_loop2 (k : nat) (m : mem) (ix i cnt : Z) : res (Z * mem) :=
  match k with
  | O => Ok (cnt, m)
  | S k' =>
    let! s := status m (ix + i) in
    if s =? 1 then let! m' := set_status m (ix + i) 0 in Ok (cnt + 1, m')
    else shrink_loop2 k' m ix (i + 1) (cnt + 1)
  end.

(* lbm_memory.c:386-441 (lbm_memory_shrink) *)
Definition shrink (m : mem) (p n : Z) : res (Z * mem) :=
  if negb (ptr_inside m p) || (n =? 0) then Ok (0, m) else
  let ix := addr_to_ix m p in
  let! s := status m ix in
  if s =? 3 then Ok (1, m) else
  if negb (s =? 2) then Ok (0, m) else
  let! r := shrink_loop1 (Z.to_nat (loop_max m - ix)) m ix n 0 in
  match r with
  | None => Ok (0, m)
  | Some (done, i, m1) =>
    let m2 := set_off m1 (ix + i) in
    let! (cnt, m3) :=
      (if done then Ok (0, m2)
       else shrink_loop2 (Z.to_nat (loop_max m - ix - (i + 1))) m2 ix (i + 1) 0) in
    Ok (1, set_nfree m3 (wr_w (nfree m3 + cnt)))
  end.

(* The API seen by a client. *)
Inductive op :=
| OAlloc (n : Z)          (* lbm_memory_allocate *)
| OMalloc (size : Z)      (* lbm_malloc *)
| OMallocR (size : Z)     (* lbm_malloc_reserve *)
| OFree (p : Z)           (* lbm_memory_free / lbm_free *)
| OShrink (p n : Z)       (* lbm_memory_shrink *)
| OSetReserve (n : Z).    (* lbm_memory_set_reserve, lbm_memory.c:98-100 *)

Definition step (m : mem) (o : op) : res (Z * mem) :=
  match o with
  | OAlloc n => allocate m n
  | OMalloc s => malloc m s
  | OMallocR s => malloc_reserve m s
  | OFree p => mfree m p
  | OShrink p n => shrink m p n
  | OSetReserve n => Ok (0, set_res m n)
  end.

End Cfg.
