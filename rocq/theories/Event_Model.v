(* Model of the event ring of src/eval_cps.c. *)
From Verif Require Import Base.
Local Open Scope Z_scope.

(* include/eval_cps.h 96-101 lbm_event_t: type, parameter, buf_ptr, buf_len *)
Record event := mkev { ev_type : Z; ev_param : Z; ev_ptr : Z; ev_len : Z }.

(* src/eval_cps.c 304-308: the ring's globals.  Modelled without the mutex:
   every function below runs wholly inside it, so calls from different C
   threads are some interleaving of these steps. *)
Record ring := mkring {
  r_buf : option (list event);      (* lbm_events; None is NULL *)
  r_head : Z; r_tail : Z; r_max : Z; r_full : bool }.

(* initial values, lines 304-308 *)
Definition ring_null : ring := mkring None 0 0 0 false.

(* src/eval_cps.c 5455-5470 lbm_eval_init_events.  [mem]: what lbm_malloc
   returned (None: out of memory), an array of num_events elements of unknown
   contents. *)
Definition init_events (r : ring) (mem : option (list event)) : ring * bool :=
  match mem with
  | Some b => (mkring (Some b) 0 0 (Z.of_nat (length b)) false, true)
  | None => (mkring None (r_head r) (r_tail r) (r_max r) (r_full r), false)
  end.

(* C's % on unsigned operands; modulo 0 is undefined *)
Definition umod (a b : Z) : res Z := if b =? 0 then UB else Ok (a mod b).

(* src/eval_cps.c 326-344 event_internal; head is an unsigned int *)
Definition event_internal (r : ring) (e : event) : res (ring * bool) :=
  match r_buf r with
  | None => Ok (r, false)
  | Some b =>
    if r_full r then Ok (r, false) else
    let! b1 := wr b (r_head r) e in
    let! h := umod (wrap 32 (r_head r + 1)) (r_max r) in
    Ok (mkring (Some b1) h (r_tail r) (r_max r) (h =? r_tail r), true)
  end.

(* src/eval_cps.c 374-385 lbm_event_pop *)
Definition event_pop (r : ring) : res (ring * option event) :=
  if (r_head r =? r_tail r) && negb (r_full r) then Ok (r, None) else
  match r_buf r with
  | None => UB
  | Some b =>
    let! e := rd b (r_tail r) in
    let! t := umod (wrap 32 (r_tail r + 1)) (r_max r) in
    Ok (mkring (Some b) (r_head r) t (r_max r) false, Some e)
  end.

(* src/eval_cps.c 387-395 lbm_event_queue_is_empty *)
Definition queue_is_empty (r : ring) : bool :=
  if (r_head r =? r_tail r) && negb (r_full r) then true else false.

(* src/eval_cps.c 5299-5325 process_events: drain the ring, [handle] is the
   switch.  Fuel counts iterations. *)
Fixpoint process_events {A} (fuel : nat) (handle : A -> event -> A) (acc : A) (r : ring)
  : res (A * ring) :=
  match r_buf r with
  | None => Ok (acc, r)
  | Some _ =>
    match fuel with
    | O => Fuel
    | S f =>
      let! (r1, o) := event_pop r in
      match o with
      | None => Ok (acc, r1)
      | Some e => process_events f handle (handle acc e) r1
      end
    end
  end.
