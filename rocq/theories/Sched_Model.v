(* Model of the evaluator's thread bookkeeping: contexts and the two doubly
   linked context queues, mailboxes, blocking, waking, killing, and the
   dispatch branch of the evaluator loop.

   /repo/src/eval_cps.c and /repo/include/eval_cps.h.

   Simplifications.
   - A context lives in a numbered slot of a store.  A slot that holds [None]
     is free memory: dereferencing it is undefined behaviour, so use after
     free is visible.  The slot number plays the part of the address.
   - Expression, environment and stack of a context are not modelled, except
     the top stack word when KILL or TERMINATE is written there ([c_tos]).
   - Values are integers (words).  Allocation failure while a thread is being
     created makes the creation return -1 before anything is enqueued, and is
     not modelled as an operation.
   - Mutexes are not modelled: every operation below holds qmutex throughout,
     so operations are atomic steps. *)
From Verif Require Import Base.
Local Open Scope Z_scope.

(* eval_cps.h:51-56 thread states, as bit flags *)
Definition ST_READY : Z := 0.
Definition ST_BLOCKED : Z := 1.
Definition ST_TIMEOUT : Z := 2.
Definition ST_SLEEPING : Z := 4.
Definition ST_RECV_BL : Z := 8.
Definition ST_RECV_TO : Z := 16.

(* eval_cps.h:59-62 LBM_IS_STATE_TIMEOUT, _WAKE_UP_WAKABLE, _UNBLOCKABLE, _RECV *)
Definition is_timeout (s : Z) : bool := negb (Z.land s (Z.lor ST_TIMEOUT ST_RECV_TO) =? 0).
Definition is_wakable (s : Z) : bool :=
  negb (Z.land s (Z.lor ST_SLEEPING (Z.land s (Z.lor ST_TIMEOUT ST_RECV_TO))) =? 0).
Definition is_unblockable (s : Z) : bool := negb (Z.land s (Z.lor ST_BLOCKED ST_TIMEOUT) =? 0).
Definition is_recv (s : Z) : bool := negb (Z.land s (Z.lor ST_RECV_BL ST_RECV_TO) =? 0).

(* lbm_defines.h 147-150: the symbols written into [r] and mailboxes, as opaque words *)
Definition V_TIMEOUT : Z := 0xA * 16.
Definition V_TRUE : Z := 0x2 * 16.
Definition V_NIL : Z := 0.

(* what sits on top of a context's stack; eval_cps.c KILL / TERMINATE (87, 75) *)
Inductive tos := TosNormal | TosKill | TosTerminate.

(* eval_cps.h:63-88 eval_context_t *)
Record ctx := mkctx {
  c_id : Z;
  c_prev : option nat;
  c_next : option nat;
  c_state : Z;
  c_ts : Z;
  c_sleep : Z;
  c_mbox : list Z;      (* the allocated mailbox array *)
  c_mbsize : Z;
  c_nmail : Z;
  c_r : Z;
  c_tos : tos;
  c_trap : bool;
  c_parent : Z
}.

Definition set_prev p c := mkctx (c_id c) p (c_next c) (c_state c) (c_ts c) (c_sleep c)
  (c_mbox c) (c_mbsize c) (c_nmail c) (c_r c) (c_tos c) (c_trap c) (c_parent c).
Definition set_next n c := mkctx (c_id c) (c_prev c) n (c_state c) (c_ts c) (c_sleep c)
  (c_mbox c) (c_mbsize c) (c_nmail c) (c_r c) (c_tos c) (c_trap c) (c_parent c).
Definition set_links p n c := set_next n (set_prev p c).
Definition set_state s c := mkctx (c_id c) (c_prev c) (c_next c) s (c_ts c) (c_sleep c)
  (c_mbox c) (c_mbsize c) (c_nmail c) (c_r c) (c_tos c) (c_trap c) (c_parent c).
Definition set_wait s t us c := mkctx (c_id c) (c_prev c) (c_next c) s t us
  (c_mbox c) (c_mbsize c) (c_nmail c) (c_r c) (c_tos c) (c_trap c) (c_parent c).
Definition set_r r c := mkctx (c_id c) (c_prev c) (c_next c) (c_state c) (c_ts c) (c_sleep c)
  (c_mbox c) (c_mbsize c) (c_nmail c) r (c_tos c) (c_trap c) (c_parent c).
Definition set_tos t c := mkctx (c_id c) (c_prev c) (c_next c) (c_state c) (c_ts c) (c_sleep c)
  (c_mbox c) (c_mbsize c) (c_nmail c) (c_r c) t (c_trap c) (c_parent c).
Definition set_mail m n c := mkctx (c_id c) (c_prev c) (c_next c) (c_state c) (c_ts c) (c_sleep c)
  m (c_mbsize c) n (c_r c) (c_tos c) (c_trap c) (c_parent c).
Definition set_mbox m sz c := mkctx (c_id c) (c_prev c) (c_next c) (c_state c) (c_ts c) (c_sleep c)
  m sz (c_nmail c) (c_r c) (c_tos c) (c_trap c) (c_parent c).

(* ---------------------------------------------------------------- *)
(* Store: the memory in which the contexts (eval_context_t, eval_cps.h 63-87) live *)

Definition store := list (option ctx).

Definition at_ (st : store) (p : nat) : option ctx :=
  match nth_error st p with Some o => o | None => None end.

Definition get (st : store) (p : nat) : res ctx :=
  match at_ st p with Some c => Ok c | None => UB end.

Definition put (st : store) (p : nat) (c : ctx) : store := upd st p (Some c).

(* write through a pointer *)
Definition modify (st : store) (p : nat) (f : ctx -> ctx) : res store :=
  let! c := get st p in Ok (put st p (f c)).

(* write through a pointer that may be NULL *)
Definition modify_o (st : store) (o : option nat) (f : ctx -> ctx) : res store :=
  match o with None => UB | Some p => modify st p f end.

(* ---------------------------------------------------------------- *)
(* Queues; eval_cps.c:176-179 eval_context_queue_t *)

Record queue := mkq { q_first : option nat; q_last : option nat }.

Definition q_empty : queue := mkq None None.

(* eval_cps.c:918-930 enqueue_ctx_nm *)
Definition enqueue (st : store) (q : queue) (x : nat) : res (store * queue) :=
  match q_last q with
  | None =>
    let! st1 := modify st x (set_links None None) in
    Ok (st1, mkq (Some x) (Some x))
  | Some l =>
    let! st1 := modify st x (set_links (Some l) None) in
    let! st2 := modify st1 l (set_next (Some x)) in
    Ok (st2, mkq (q_first q) (Some x))
  end.

(* eval_cps.c:938-948 lookup_ctx_nm, the loop from [curr] *)
Fixpoint lookup_from (fuel : nat) (st : store) (curr : option nat) (cid : Z)
  : res (option nat) :=
  match fuel with
  | O => Fuel
  | S fuel' =>
    match curr with
    | None => Ok None
    | Some p =>
      let! c := get st p in
      if c_id c =? cid then Ok (Some p)
      else lookup_from fuel' st (c_next c) cid
    end
  end.

Definition lookup (st : store) (q : queue) (cid : Z) : res (option nat) :=
  lookup_from (S (length st)) st (q_first q) cid.

(* eval_cps.c:968-985: unlink [p] (holding [c]) from [q], as drop does it *)
Definition unlink_drop (st : store) (q : queue) (p : nat) (c : ctx)
  : res (store * queue) :=
  match c_prev c with
  | None =>
    match c_next c with
    | None => Ok (st, mkq None None)
    | Some t =>
      let! st1 := modify st t (set_prev None) in
      Ok (st1, mkq (Some t) (q_last q))
    end
  | Some pr =>
    match c_next c with
    | None =>
      let! st1 := modify st pr (set_next None) in
      Ok (st1, mkq (q_first q) (Some pr))
    | Some t =>
      let! st1 := modify st pr (set_next (Some t)) in
      let! st2 := modify st1 t (set_prev (Some pr)) in
      Ok (st2, q)
    end
  end.

(* eval_cps.c:950-989 drop_ctx_nm, the loop from [curr] *)
Fixpoint drop_from (fuel : nat) (st : store) (q : queue) (curr : option nat) (cid : Z)
  : res (store * queue * bool) :=
  match fuel with
  | O => Fuel
  | S fuel' =>
    match curr with
    | None => Ok (st, q, false)
    | Some p =>
      let! c := get st p in
      if c_id c =? cid then
        let! (st1, q1) := unlink_drop st q p c in Ok (st1, q1, true)
      else drop_from fuel' st q (c_next c) cid
    end
  end.

Definition drop (st : store) (q : queue) (x : nat) : res (store * queue * bool) :=
  match q_first q, q_last q with
  | None, _ | _, None => Ok (st, q, false)
  | Some f, Some _ =>
    let! cx := get st x in
    drop_from (S (length st)) st q (Some f) (c_id cx)
  end.

(* eval_cps.c:1104-1121 dequeue_ctx_nm *)
Definition opt_eqb (a b : option nat) : bool :=
  match a, b with
  | None, None => true
  | Some x, Some y => Nat.eqb x y
  | _, _ => false
  end.

Definition dequeue (st : store) (q : queue) : res (store * queue * option nat) :=
  match q_last q with
  | None => Ok (st, q, None)
  | Some _ =>
    match q_first q with
    | None => UB
    | Some f =>
      let! (st1, q1) :=
        (if opt_eqb (q_first q) (q_last q) then Ok (st, mkq None None)
         else
           let! c := get st f in
           let! st1 := modify_o st (c_next c) (set_prev None) in
           Ok (st1, mkq (c_next c) (q_last q))) in
      let! st2 := modify st1 f (set_links None None) in
      Ok (st2, q1, Some f)
    end
  end.

(* ---------------------------------------------------------------- *)
(* Mailboxes.  mailbox_size and num_mail are uint32_t (eval_cps.h:68-69). *)

(* eval_cps.c:1358-1360, the shifting loop from index [i] *)
Fixpoint shift_mail (fuel : nat) (m : list Z) (i n : Z) : res (list Z) :=
  match fuel with
  | O => Fuel
  | S fuel' =>
    if i <? wrap 32 (n - 1) then
      let! x := rd m (i + 1) in
      let! m1 := wr m i x in
      shift_mail fuel' m1 (i + 1) n
    else Ok m
  end.

(* eval_cps.c:1356-1362 mailbox_remove_mail *)
Definition mailbox_remove_mail (c : ctx) (ix : Z) : res ctx :=
  let! m := shift_mail (S (length (c_mbox c))) (c_mbox c) ix (c_nmail c) in
  Ok (set_mail m (wrap 32 (c_nmail c - 1)) c).

(* eval_cps.c:1364-1373 mailbox_add_mail *)
Definition mailbox_add_mail (c : ctx) (mail : Z) : res ctx :=
  let! c1 := (if c_mbsize c <=? c_nmail c then mailbox_remove_mail c 0 else Ok c) in
  let! m := wr (c_mbox c1) (c_nmail c1) mail in
  Ok (set_mail m (wrap 32 (c_nmail c1 + 1)) c1).

(* eval_cps.c:1344-1346, the copying loop *)
Fixpoint copy_mail (fuel : nat) (dst src : list Z) (i n : Z) : res (list Z) :=
  match fuel with
  | O => Fuel
  | S fuel' =>
    if i <? n then
      let! x := rd src i in
      let! d := wr dst i x in
      copy_mail fuel' d src (i + 1) n
    else Ok dst
  end.

(* eval_cps.c:1332-1354 lbm_mailbox_change_size, once [lbm_memory_allocate]
   has returned an array of [new_size] words with arbitrary contents [fresh] *)
Definition mailbox_change_size (c : ctx) (fresh : list Z) : res ctx :=
  let! m := copy_mail (S (length (c_mbox c))) fresh (c_mbox c) 0 (c_nmail c) in
  Ok (set_mbox m (wrap 32 (Z.of_nat (length fresh))) c).

(* ---------------------------------------------------------------- *)
(* Waking sleepers *)

(* eval_cps.c:1138-1150: elapsed time as the code computes it on [w]-bit words *)
Definition t_diff (w ts now : Z) : Z :=
  if now <? ts then wrap w (wrap w (2 ^ w - 1 - ts) + now)
  else now - ts.

(* eval_cps.c:1153-1170: unlink [p] from the blocked queue, as wake-up does it *)
Definition unlink_wake (st : store) (q : queue) (p : nat) (c : ctx)
  : res (store * queue) :=
  if opt_eqb (Some p) (q_last q) then
    match c_prev c with
    | Some pr =>
      let! st1 := modify st pr (set_next None) in
      Ok (st1, mkq (q_first q) (Some pr))
    | None => Ok (st, mkq None None)
    end
  else
    match c_prev c with
    | None =>
      let! st1 := modify_o st (c_next c) (set_prev None) in
      Ok (st1, mkq (c_next c) (q_last q))
    | Some pr =>
      let! st1 := modify st pr (set_next (c_next c)) in
      match c_next c with
      | None => Ok (st1, q)
      | Some n =>
        let! st2 := modify st1 n (set_prev (Some pr)) in
        Ok (st2, q)
      end
    end.

(* eval_cps.c:1134-1180 the body of the loop of wake_up_ctxs_nm for one
   context [p]; [b] is the blocked queue and [q] the ready queue *)
Definition wake_one (w now : Z) (st : store) (b q : queue) (p : nat) (c : ctx)
  : res (store * queue * queue) :=
  if is_wakable (c_state c) then
    if c_sleep c <=? t_diff w (c_ts c) now then
      let! (st1, b1) := unlink_wake st b p c in
      let! st2 := modify st1 p (set_links None None) in
      let! st3 :=
        (if is_timeout (c_state c) then
           let! c2 := get st2 p in
           let! c3 := mailbox_add_mail c2 V_TIMEOUT in
           Ok (put st2 p (set_r V_TIMEOUT c3))
         else Ok st2) in
      let! st4 := modify st3 p (set_state ST_READY) in
      let! (st5, q1) := enqueue st4 q p in
      Ok (st5, b1, q1)
    else Ok (st, b, q)
  else Ok (st, b, q).

Fixpoint wake_from (fuel : nat) (w now : Z) (st : store) (b q : queue)
    (curr : option nat) : res (store * queue * queue) :=
  match fuel with
  | O => Fuel
  | S fuel' =>
    match curr with
    | None => Ok (st, b, q)
    | Some p =>
      let! c := get st p in
      let next := c_next c in
      let! (st1, b1, q1) := wake_one w now st b q p c in
      wake_from fuel' w now st1 b1 q1 next
    end
  end.

(* eval_cps.c:1123-1181 wake_up_ctxs_nm *)
Definition wake_up (w now : Z) (st : store) (b q : queue)
  : res (store * queue * queue) :=
  wake_from (S (length st)) w now st b q (q_first b).

(* ---------------------------------------------------------------- *)
(* Scheduler state; eval_cps.c:404-408 and ctx_running *)

Record sched := mksched {
  s_st : store;
  s_queue : queue;            (* ready threads *)
  s_blocked : queue;
  s_running : option nat;     (* ctx_running *)
  s_atomic : bool             (* is_atomic *)
}.

(* eval_cps.c:1200-1320 lbm_create_ctx_parent: allocation gave slot [x]; the
   thread id is the memory index of the context, :1284 *)
Definition new_ctx (x : nat) (trap : bool) (parent : Z) : ctx :=
  mkctx (Z.of_nat x) None None ST_READY 0 0 (repeat 0 10) 10 0 V_NIL TosNormal trap parent.

Definition create_ctx (s : sched) (x : nat) (trap : bool) (parent : Z) : res sched :=
  let st1 := put (s_st s) x (new_ctx x trap parent) in
  let! (st2, q) := enqueue st1 (s_queue s) x in
  Ok (mksched st2 q (s_blocked s) (s_running s) (s_atomic s)).

(* eval_cps.c:1484-1489, 1494-1499, 1504-1509: put the message in [p]'s mailbox *)
Definition deliver (s : sched) (p : nat) (msg : Z) : res (sched * bool) :=
  let! c := get (s_st s) p in
  let! c1 := mailbox_add_mail c msg in
  Ok (mksched (put (s_st s) p c1) (s_queue s) (s_blocked s) (s_running s) (s_atomic s), true).

(* eval_cps.c:1473-1513 lbm_find_receiver_and_send: [true] iff a receiver was found *)
Definition send (s : sched) (cid msg : Z) : res (sched * bool) :=
  let! f := lookup (s_st s) (s_blocked s) cid in
  match f with
  | Some p =>
    let! c := get (s_st s) p in
    if is_recv (c_state c) then
      let! (st1, b1, _) := drop (s_st s) (s_blocked s) p in
      let! st2 := modify st1 p (set_state ST_READY) in
      let! (st3, q1) := enqueue st2 (s_queue s) p in
      deliver (mksched st3 q1 b1 (s_running s) (s_atomic s)) p msg
    else deliver s p msg
  | None =>
    let! f := lookup (s_st s) (s_queue s) cid in
    match f with
    | Some p => deliver s p msg
    | None =>
      match s_running s with
      | Some p =>
        let! c := get (s_st s) p in
        if c_id c =? cid then deliver s p msg else Ok (s, false)
      | None => Ok (s, false)
      end
    end
  end.

(* eval_cps.c:992-1007 finish_ctx: every part of the context is freed *)
Definition finish (s : sched) : res sched :=
  match s_running s with
  | None => Ok s
  | Some p =>
    let! _ := get (s_st s) p in
    Ok (mksched (upd (s_st s) p None) (s_queue s) (s_blocked s) None (s_atomic s))
  end.

(* eval_cps.c:1027-1102 error_ctx_base and ok_ctx: tell the parent if the
   thread traps its exit ([note] is the message; [None] when there is no heap
   left for one), then finish.  is_atomic is not touched.  The variant that
   unrolls the stack to an exception handler does not end the thread and is
   not modelled. *)
Definition exit_ctx (s : sched) (note : option Z) : res sched :=
  match s_running s with
  | None => UB
  | Some p =>
    let! c := get (s_st s) p in
    match c_trap c, note with
    | true, Some msg =>
      let! (s1, _) := send s (c_parent c) msg in
      finish s1
    | _, _ => finish s
    end
  end.

(* eval_cps.c:689-693 atomic_error *)
Definition atomic_error (s : sched) (note : option Z) : res sched :=
  exit_ctx (mksched (s_st s) (s_queue s) (s_blocked s) (s_running s) false) note.

(* eval_cps.c:698-706 block_current_ctx; and 1183-1198 yield_ctx, which is the
   same with state SLEEPING and [r] set.  [now] is the clock reading. *)
Definition block (s : sched) (state now us : Z) (note : option Z) : res sched :=
  if s_atomic s then atomic_error s note else
  match s_running s with
  | None => UB
  | Some p =>
    let! st1 := modify (s_st s) p (fun c =>
       let c1 := set_wait state now us c in
       if state =? ST_SLEEPING then set_r V_TRUE c1 else c1) in
    let! (st2, b) := enqueue st1 (s_blocked s) p in
    Ok (mksched st2 (s_queue s) b None (s_atomic s))
  end.

(* eval_cps.c:1399-1440 lbm_unblock_ctx_r / _unboxed and 5250-5266
   handle_event_unblock_ctx: [v] is the value given to the thread, [err] says
   whether it is an error symbol; lbm_unblock_ctx_r gives no value *)
Definition unblock (s : sched) (cid : Z) (v : option Z) (err : bool) : res (sched * bool) :=
  let! f := lookup (s_st s) (s_blocked s) cid in
  match f with
  | None => Ok (s, false)
  | Some p =>
    let! c := get (s_st s) p in
    if is_unblockable (c_state c) then
      let! (st1, b1, _) := drop (s_st s) (s_blocked s) p in
      let! st2 := modify st1 p (fun c =>
         let c1 := match v with Some x => set_r x c | None => c end in
         let c2 := if match v with Some _ => err | None => false end
                   then set_tos TosTerminate c1 else c1 in
         set_state ST_READY c2) in
      let! (st3, q1) := enqueue st2 (s_queue s) p in
      Ok (mksched st3 q1 b1 (s_running s) (s_atomic s), true)
    else Ok (s, false)
  end.

(* eval_cps.c:2747-2782 apply_kill *)
Definition kill (s : sched) (cid v : Z) : res sched :=
  match s_running s with
  | None => UB
  | Some me =>
    let! cme := get (s_st s) me in
    if c_id cme =? cid then finish s else
    let! f := lookup (s_st s) (s_blocked s) cid in
    let! (st1, b1, found) :=
      (match f with
       | Some p =>
         let! (st1, b1, _) := drop (s_st s) (s_blocked s) p in
         Ok (st1, b1, Some p)
       | None =>
         let! g := lookup (s_st s) (s_queue s) cid in
         Ok (s_st s, s_blocked s, g)
       end) in
    match found with
    | Some p =>
      let! (st2, q1, _) := drop st1 (s_queue s) p in
      let! st3 := modify st2 p (fun c => set_state ST_READY (set_r v (set_tos TosKill c))) in
      let! (st4, q2) := enqueue st3 q1 p in
      let! st5 := modify st4 me (set_r V_TRUE) in
      Ok (mksched st5 q2 b1 (s_running s) (s_atomic s))
    | None =>
      let! st2 := modify st1 me (set_r V_NIL) in
      Ok (mksched st2 (s_queue s) b1 (s_running s) (s_atomic s))
    end
  end.

(* eval_cps.c:1743-1748 eval_atomic, 3389-3392 cont_exit_atomic *)
Definition enter_atomic (s : sched) (note : option Z) : res sched :=
  if s_atomic s then atomic_error s note
  else Ok (mksched (s_st s) (s_queue s) (s_blocked s) (s_running s) true).
Definition exit_atomic (s : sched) : res sched :=
  Ok (mksched (s_st s) (s_queue s) (s_blocked s) (s_running s) false).

(* eval_cps.c:5389-5407, the scheduling branch of the loop, after
   process_events (whose effects are [unblock] and [send]) *)
Definition dispatch (w now : Z) (s : sched) : res sched :=
  if s_atomic s then Ok s else
  let! (st1, q1) :=
    (match s_running s with
     | Some p => enqueue (s_st s) (s_queue s) p
     | None => Ok (s_st s, s_queue s)
     end) in
  let! (st2, b2, q2) := wake_up w now st1 (s_blocked s) q1 in
  let! (st3, q3, r) := dequeue st2 q2 in
  Ok (mksched st3 q3 b2 r false).

(* eval_cps.c:2171, 4999, 5046: take message [ix] out of the mailbox *)
Definition take_mail (s : sched) (ix : Z) : res sched :=
  match s_running s with
  | None => UB
  | Some p =>
    let! c := get (s_st s) p in
    let! c1 := mailbox_remove_mail c ix in
    Ok (mksched (put (s_st s) p c1) (s_queue s) (s_blocked s) (s_running s) (s_atomic s))
  end.

(* fundamental.c:628-643 set-mailbox-size *)
Definition resize_mail (s : sched) (fresh : list Z) : res sched :=
  match s_running s with
  | None => UB
  | Some p =>
    let! c := get (s_st s) p in
    let! c1 := mailbox_change_size c fresh in
    Ok (mksched (put (s_st s) p c1) (s_queue s) (s_blocked s) (s_running s) (s_atomic s))
  end.

(* ---------------------------------------------------------------- *)
(* One interface: what the running thread, the outside world and the loop do *)

Inductive op :=
| OSpawn (x : nat) (trap : bool)              (* by the running thread *)
| OCreate (x : nat)                           (* lbm_create_ctx from C *)
| OYield (now us : Z) (note : option Z)
| OBlock (state now us : Z) (note : option Z)
| OExit (note : option Z)                     (* end of program or error *)
| OSend (cid msg : Z)
| OKill (cid v : Z)
| OEnter (note : option Z)
| OLeave
| OTake (ix : Z)
| OResize (fresh : list Z)
| OUnblock (cid : Z) (v : option Z) (err : bool)   (* from outside / events *)
| OEvent (cid msg : Z)                        (* event handler message *)
| ODispatch (now : Z).

Definition sstep (w : Z) (s : sched) (o : op) : res sched :=
  match o with
  | OSpawn x trap =>
    match s_running s with
    | None => UB
    | Some p =>
      let! c := get (s_st s) p in
      create_ctx s x trap (c_id c)
    end
  | OCreate x => create_ctx s x false (-1)
  | OYield now us note => block s ST_SLEEPING now us note
  | OBlock state now us note => block s state now us note
  | OExit note => exit_ctx s note
  | OSend cid msg => let! (s1, _) := send s cid msg in Ok s1
  | OKill cid v => kill s cid v
  | OEnter note => enter_atomic s note
  | OLeave => exit_atomic s
  | OTake ix => take_mail s ix
  | OResize fresh => resize_mail s fresh
  | OUnblock cid v err => let! (s1, _) := unblock s cid v err in Ok s1
  | OEvent cid msg => let! (s1, _) := send s cid msg in Ok s1
  | ODispatch now => dispatch w now s
  end.

(* the state after lbm_init: nothing anywhere; [n] slots of memory *)
Definition sinit (n : nat) : sched :=
  mksched (repeat None n) q_empty q_empty None false.

Fixpoint srun (w : Z) (s : sched) (l : list op) : res sched :=
  match l with
  | [] => Ok s
  | o :: t => let! s1 := sstep w s o in srun w s1 t
  end.
