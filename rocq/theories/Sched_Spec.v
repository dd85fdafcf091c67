(* Abstract scheduler: threads are numbered, each is in one of two plain lists
   or running, and each has a plain list of messages.  No links, no arrays. *)
From Verif Require Import Base Sched_Model.
Local Open Scope Z_scope.

Record thr := mkthr {
  t_state : Z;
  t_ts : Z;          (* when it blocked *)
  t_sleep : Z;       (* for how long *)
  t_mail : list Z;   (* oldest first *)
  t_cap : Z;         (* mailbox capacity *)
  t_r : Z;
  t_tos : tos;
  t_trap : bool;
  t_parent : Z
}.

Record ast := mkast {
  a_ready : list nat;      (* next to run first *)
  a_blocked : list nat;
  a_run : option nat;
  a_atomic : bool;
  a_th : nat -> option thr
}.

Definition tset (m : nat -> option thr) (p : nat) (t : option thr) : nat -> option thr :=
  fun q => if Nat.eqb q p then t else m q.

Definition tmod (m : nat -> option thr) (p : nat) (f : thr -> thr) : nat -> option thr :=
  tset m p (option_map f (m p)).

(* A new message goes last; when the box is full the oldest one is lost. *)
Definition push_mail (cap : Z) (l : list Z) (m : Z) : list Z :=
  (if cap <=? Z.of_nat (length l) then tl l else l) ++ [m].

Definition add_mail (m : Z) (t : thr) : thr :=
  mkthr (t_state t) (t_ts t) (t_sleep t) (push_mail (t_cap t) (t_mail t) m) (t_cap t)
        (t_r t) (t_tos t) (t_trap t) (t_parent t).
Definition with_state (s : Z) (t : thr) : thr :=
  mkthr s (t_ts t) (t_sleep t) (t_mail t) (t_cap t) (t_r t) (t_tos t) (t_trap t) (t_parent t).
Definition with_wait (s n us : Z) (t : thr) : thr :=
  mkthr s n us (t_mail t) (t_cap t) (t_r t) (t_tos t) (t_trap t) (t_parent t).
Definition with_r (r : Z) (t : thr) : thr :=
  mkthr (t_state t) (t_ts t) (t_sleep t) (t_mail t) (t_cap t) r (t_tos t) (t_trap t) (t_parent t).
Definition with_tos (k : tos) (t : thr) : thr :=
  mkthr (t_state t) (t_ts t) (t_sleep t) (t_mail t) (t_cap t) (t_r t) k (t_trap t) (t_parent t).
Definition with_mail (l : list Z) (cap : Z) (t : thr) : thr :=
  mkthr (t_state t) (t_ts t) (t_sleep t) l cap (t_r t) (t_tos t) (t_trap t) (t_parent t).

Definition remove_nth (n : nat) (l : list Z) : list Z := firstn n l ++ skipn (S n) l.

(* State sets, by name *)
Definition sleeping_kind (s : Z) : bool := (s =? ST_SLEEPING) || (s =? ST_TIMEOUT) || (s =? ST_RECV_TO).
Definition timeout_kind (s : Z) : bool := (s =? ST_TIMEOUT) || (s =? ST_RECV_TO).
Definition recv_kind (s : Z) : bool := (s =? ST_RECV_BL) || (s =? ST_RECV_TO).
Definition unblock_kind (s : Z) : bool := (s =? ST_BLOCKED) || (s =? ST_TIMEOUT).

(* Clock: [w]-bit microsecond counter that wraps. *)
Definition elapsed (w ts now : Z) : Z := (now - ts) mod 2 ^ w.

(* A blocked thread is woken when its time is up; when the counter wrapped in
   between, the code counts one microsecond too few. *)
Definition due (w now : Z) (t : thr) : bool :=
  sleeping_kind (t_state t) &&
  (t_sleep t <=? elapsed w (t_ts t) now - (if now <? t_ts t then 1 else 0)).

Definition wake_thr (t : thr) : thr :=
  with_state ST_READY
    (if timeout_kind (t_state t) then with_r V_TIMEOUT (add_mail V_TIMEOUT t) else t).

Definition memb (p : nat) (l : list nat) : bool := existsb (Nat.eqb p) l.

Definition due_in (w now : Z) (a : nat -> option thr) (p : nat) : bool :=
  match a p with Some t => due w now t | None => false end.

Definition a_wake (w now : Z) (a : ast) : ast :=
  mkast (a_ready a ++ filter (due_in w now (a_th a)) (a_blocked a))
        (filter (fun p => negb (due_in w now (a_th a) p)) (a_blocked a))
        (a_run a) (a_atomic a)
        (fun p => if memb p (a_blocked a) && due_in w now (a_th a) p
                  then option_map wake_thr (a_th a p) else a_th a p).

Definition a_dispatch (w now : Z) (a : ast) : ast :=
  if a_atomic a then a else
  let a1 := mkast (a_ready a ++ match a_run a with Some p => [p] | None => [] end)
                  (a_blocked a) None false (a_th a) in
  let a2 := a_wake w now a1 in
  mkast (tl (a_ready a2)) (a_blocked a2) (hd_error (a_ready a2)) false (a_th a2).

(* the thread with id [cid], wherever it is *)
Definition is_me (cid : Z) (p : nat) : bool := Z.of_nat p =? cid.

Definition a_send (a : ast) (cid msg : Z) : ast * bool :=
  match find (is_me cid) (a_blocked a ++ a_ready a ++ match a_run a with Some p => [p] | None => [] end) with
  | None => (a, false)
  | Some p =>
    let waiting := memb p (a_blocked a) &&
                   match a_th a p with Some t => recv_kind (t_state t) | None => false end in
    if waiting then
      (mkast (a_ready a ++ [p]) (remove Nat.eq_dec p (a_blocked a)) (a_run a) (a_atomic a)
             (tmod (a_th a) p (fun t => add_mail msg (with_state ST_READY t))), true)
    else
      (mkast (a_ready a) (a_blocked a) (a_run a) (a_atomic a)
             (tmod (a_th a) p (add_mail msg)), true)
  end.

Definition a_finish (a : ast) : ast :=
  match a_run a with
  | None => a
  | Some p => mkast (a_ready a) (a_blocked a) None (a_atomic a) (tset (a_th a) p None)
  end.

Definition a_exit (a : ast) (note : option Z) : ast :=
  match a_run a with
  | None => a
  | Some p =>
    match a_th a p, note with
    | Some t, Some msg => if t_trap t then a_finish (fst (a_send a (t_parent t) msg)) else a_finish a
    | _, _ => a_finish a
    end
  end.

Definition a_block (a : ast) (state now us : Z) (note : option Z) : ast :=
  if a_atomic a then
    a_exit (mkast (a_ready a) (a_blocked a) (a_run a) false (a_th a)) note
  else
  match a_run a with
  | None => a
  | Some p =>
    mkast (a_ready a) (a_blocked a ++ [p]) None false
      (tmod (a_th a) p (fun t =>
         if state =? ST_SLEEPING then with_r V_TRUE (with_wait state now us t)
         else with_wait state now us t))
  end.

Definition a_unblock (a : ast) (cid : Z) (v : option Z) (err : bool) : ast * bool :=
  match find (is_me cid) (a_blocked a) with
  | None => (a, false)
  | Some p =>
    if match a_th a p with Some t => unblock_kind (t_state t) | None => false end then
      (mkast (a_ready a ++ [p]) (remove Nat.eq_dec p (a_blocked a)) (a_run a) (a_atomic a)
        (tmod (a_th a) p (fun t =>
           let t1 := match v with Some x => with_r x t | None => t end in
           with_state ST_READY
             (match v with
              | Some _ => if err then with_tos TosTerminate t1 else t1
              | None => t1 end))), true)
    else (a, false)
  end.

Definition a_kill (a : ast) (cid v : Z) : ast :=
  match a_run a with
  | None => a
  | Some me =>
    if is_me cid me then a_finish a else
    match find (is_me cid) (a_blocked a ++ a_ready a) with
    | Some p =>
      mkast (remove Nat.eq_dec p (a_ready a) ++ [p]) (remove Nat.eq_dec p (a_blocked a))
            (a_run a) (a_atomic a)
            (tmod (tmod (a_th a) p (fun t => with_state ST_READY (with_r v (with_tos TosKill t))))
                  me (with_r V_TRUE))
    | None =>
      mkast (a_ready a) (a_blocked a) (a_run a) (a_atomic a) (tmod (a_th a) me (with_r V_NIL))
    end
  end.

Definition a_create (a : ast) (x : nat) (trap : bool) (parent : Z) : ast :=
  mkast (a_ready a ++ [x]) (a_blocked a) (a_run a) (a_atomic a)
        (tset (a_th a) x (Some (mkthr ST_READY 0 0 [] 10 V_NIL TosNormal trap parent))).

Definition a_step (w : Z) (a : ast) (o : op) : ast :=
  let self f := match a_run a with
                | Some p => mkast (a_ready a) (a_blocked a) (a_run a) (a_atomic a) (tmod (a_th a) p f)
                | None => a end in
  match o with
  | OSpawn x trap => match a_run a with Some p => a_create a x trap (Z.of_nat p) | None => a end
  | OCreate x => a_create a x false (-1)
  | OYield now us note => a_block a ST_SLEEPING now us note
  | OBlock state now us note => a_block a state now us note
  | OExit note => a_exit a note
  | OSend cid msg => fst (a_send a cid msg)
  | OKill cid v => a_kill a cid v
  | OEnter note =>
    if a_atomic a then
      a_exit (mkast (a_ready a) (a_blocked a) (a_run a) false (a_th a)) note
    else mkast (a_ready a) (a_blocked a) (a_run a) true (a_th a)
  | OLeave => mkast (a_ready a) (a_blocked a) (a_run a) false (a_th a)
  | OTake ix => self (fun t => with_mail (remove_nth (Z.to_nat ix) (t_mail t)) (t_cap t) t)
  | OResize fresh => self (fun t => with_mail (t_mail t) (Z.of_nat (length fresh)) t)
  | OUnblock cid v err => fst (a_unblock a cid v err)
  | OEvent cid msg => fst (a_send a cid msg)
  | ODispatch now => a_dispatch w now a
  end.

(* What callers guarantee.  [OSpawn]/[OCreate] get a free block from the
   allocator (C01); the rest only happen while a thread runs. *)
Definition is_word (w x : Z) : Prop := 0 <= x < 2 ^ w.

Definition free_slot (s : sched) (x : nat) : Prop :=
  (x < length (s_st s))%nat /\ at_ (s_st s) x = None.

(* number of messages waiting for the running thread *)
Definition my_mail (s : sched) : Z :=
  match s_running s with
  | Some p => match at_ (s_st s) p with Some c => c_nmail c | None => 0 end
  | None => 0
  end.

Definition svalid (w : Z) (s : sched) (o : op) : Prop :=
  match o with
  | OSpawn x _ => s_running s <> None /\ free_slot s x
  | OCreate x => free_slot s x
  | OYield now us _ => s_running s <> None /\ is_word w now /\ is_word w us
  | OBlock state now us _ =>
      s_running s <> None /\ is_word w now /\ is_word w us /\
      In state [ST_BLOCKED; ST_TIMEOUT; ST_RECV_BL; ST_RECV_TO]
  | OExit _ | OSend _ _ | OKill _ _ | OEnter _ | OLeave => s_running s <> None
  | OTake ix => s_running s <> None /\ 0 <= ix < my_mail s
  | OResize fresh =>
      s_running s <> None /\
      my_mail s <= Z.of_nat (length fresh) /\ 1 <= Z.of_nat (length fresh) < 2 ^ 32
  | OUnblock _ _ _ | OEvent _ _ => True
  | ODispatch now => is_word w now
  end.

(* Everything that can happen, in any order, from a fresh evaluator. *)
Inductive SReach (w : Z) (n : nat) : sched -> Prop :=
| sreach_init : SReach w n (sinit n)
| sreach_step s o s' :
    SReach w n s -> svalid w s o -> sstep w s o = Ok s' -> SReach w n s'.

(* What an observer sees in the C structures: the threads met by following
   [next] from the head of a queue, or [prev] from its tail. *)
Inductive walk_next (st : store) : option nat -> list nat -> Prop :=
| wn_nil : walk_next st None []
| wn_cons p c l : at_ st p = Some c -> walk_next st (c_next c) l -> walk_next st (Some p) (p :: l).

Inductive walk_prev (st : store) : option nat -> list nat -> Prop :=
| wp_nil : walk_prev st None []
| wp_cons p c l : at_ st p = Some c -> walk_prev st (c_prev c) l -> walk_prev st (Some p) (p :: l).

(* the messages in a context's mailbox array *)
Definition mail_of (c : ctx) : list Z := firstn (Z.to_nat (c_nmail c)) (c_mbox c).

(* An execution from [s], counting how many times the loop really reschedules
   (inside an atomic block the scheduling branch does nothing). *)
Definition reschedules (s : sched) (o : op) : nat :=
  match o with ODispatch _ => if s_atomic s then 0%nat else 1%nat | _ => 0%nat end.

Inductive SRun (w : Z) : sched -> list op -> nat -> sched -> Prop :=
| srun_nil s : SRun w s [] 0 s
| srun_cons s o s1 l d s2 :
    svalid w s o -> sstep w s o = Ok s1 -> SRun w s1 l d s2 ->
    SRun w s (o :: l) (reschedules s o + d) s2.

(* [p] ends itself by this operation: end of program, error, self-kill, or an
   operation that is an error inside an atomic block *)
Definition ends (s : sched) (o : op) (p : nat) : Prop :=
  s_running s = Some p /\
  match o with
  | OExit _ => True
  | OKill cid _ => cid = Z.of_nat p
  | OYield _ _ _ | OBlock _ _ _ _ | OEnter _ => s_atomic s = true
  | _ => False
  end.

(* Queue operations on their own. *)
Inductive qop := QEnq (x : nat) | QDeq | QDrop (x : nat).

Definition qstep (st : store) (q : queue) (o : qop) : res (store * queue * option nat) :=
  match o with
  | QEnq x => let! (st1, q1) := enqueue st q x in Ok (st1, q1, None)
  | QDeq => dequeue st q
  | QDrop x => let! (st1, q1, b) := drop st q x in Ok (st1, q1, if b then Some x else None)
  end.

Definition lstep (l : list nat) (o : qop) : list nat * option nat :=
  match o with
  | QEnq x => (l ++ [x], None)
  | QDeq => (tl l, hd_error l)
  | QDrop x => (remove Nat.eq_dec x l, if memb x l then Some x else None)
  end.

(* callers only enqueue a context that exists and is not in the queue *)
Definition qvalid (st : store) (l : list nat) (o : qop) : Prop :=
  match o with
  | QEnq x => at_ st x <> None /\ ~ In x l
  | QDeq => True
  | QDrop x => at_ st x <> None
  end.

Fixpoint qvalid_all (st : store) (l : list nat) (ops : list qop) : Prop :=
  match ops with
  | [] => True
  | o :: t => qvalid st l o /\ qvalid_all st (fst (lstep l o)) t
  end.

(* run a sequence, collecting the results *)
Fixpoint qrun (st : store) (q : queue) (ops : list qop) : res (store * queue * list (option nat)) :=
  match ops with
  | [] => Ok (st, q, [])
  | o :: t =>
    let! (st1, q1, r) := qstep st q o in
    let! (st2, q2, rs) := qrun st1 q1 t in
    Ok (st2, q2, r :: rs)
  end.

Fixpoint lrun (l : list nat) (ops : list qop) : list nat * list (option nat) :=
  match ops with
  | [] => (l, [])
  | o :: t =>
    let (l1, r) := lstep l o in
    let (l2, rs) := lrun l1 t in (l2, r :: rs)
  end.

(* Mailbox operations on their own. *)
Inductive mop := MAdd (m : Z) | MTake (ix : Z).

Definition mstep (c : ctx) (o : mop) : res ctx :=
  match o with MAdd m => mailbox_add_mail c m | MTake ix => mailbox_remove_mail c ix end.

Fixpoint mrun (c : ctx) (l : list mop) : res ctx :=
  match l with [] => Ok c | o :: t => let! c1 := mstep c o in mrun c1 t end.

(* the same on a list; taking a message that is not there is not allowed *)
Fixpoint lmrun (cap : Z) (l : list Z) (ops : list mop) : option (list Z) :=
  match ops with
  | [] => Some l
  | MAdd m :: t => lmrun cap (push_mail cap l m) t
  | MTake ix :: t =>
    if (0 <=? ix) && (ix <? Z.of_nat (length l))
    then lmrun cap (remove_nth (Z.to_nat ix) l) t else None
  end.

Definition lastn (n : nat) (l : list Z) : list Z := skipn (length l - n) l.
