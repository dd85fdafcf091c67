(* The loop macros at work, and where loopforeach goes wrong. *)
From Verif Require Import Base Value_Model Heap_Model Env_Model Match_Model QQ_Model GC_Model Eval_Model Sym_Model Flat_Model Fund_Model Prim_Model Eq_Model
  Eval_Spec Prim_Spec Value_Proofs Heap_Spec Heap_Proofs Heap_Proofs2 Env_Proofs Fund_Spec Eval_Props Ctl_Model Ctl_Props Loop_Model Loop_Spec Loop_Proofs Loop_Props.
From Verif Require Fund_Props6.
Local Open Scope Z_scope.

Definition nm : names := mkN 0x40010 0x40011 0x40012 0x40013 0x40014.

Lemma some_return {A : Arch} h fl c : heap_ok h fl -> exists h' v, returns h c h' v.
Proof. intros OK. destruct c as [r|e]; [exists h, r; split; reflexivity|]. destruct (loop_macros_end h fl e h e OK (none h e)) as (_&H). exact H. Qed.

(* (loopwhile 5 6) takes 27 cells; here there are 40 *)
Example loopwhile_case {A : Arch} : exists h h' v, heap_ok h (zseq 40) /\ returns h (me_loopwhile nm [enc_i 5; enc_i 6]) h' v /\
  heap_ok h' (skipn 27 (zseq 40)) /\ v <> MERROR.
Proof.
  destruct (heap_init_ok 40 20) as (h&_&OK&_); [destruct A; vm_compute; split; discriminate|].
  destruct (some_return h _ (me_loopwhile nm [enc_i 5; enc_i 6]) OK) as (h'&v&R). exists h, h', v. split; [exact OK|]. split; [exact R|].
  destruct (loopwhile_expands h _ nm (enc_i 5) (enc_i 6) h' v OK R) as (_&M). cbn -[zseq skipn] in M.
  change (27 <=? length (zseq 40))%nat with true in M. cbv iota in M. destruct M as (M1&M2). split; [exact M1|].
  inversion M2 as [| |i ? ? ? ? _ _ RG]; subst. intros E. apply (f_equal is_ptr) in E. rewrite enc_is_ptr in E by exact RG. destruct A; discriminate.
Qed.
(* and with 8 *)
Example loopwhile_full_case {A : Arch} : exists h' v, returns Fund_Props6.heap4 (me_loopwhile nm [enc_i 5; enc_i 6]) h' v /\ v = MERROR.
Proof.
  destruct (some_return _ _ (me_loopwhile nm [enc_i 5; enc_i 6]) Fund_Props6.ok4) as (h'&v&R). exists h', v. split; [exact R|].
  destruct (loopwhile_expands _ _ nm (enc_i 5) (enc_i 6) h' v Fund_Props6.ok4 R) as (_&M). cbn in M. apply M.
Qed.
Example loop_macros_refuse_case {A : Arch} : length [enc_i 5] <> 2%nat /\ returns Fund_Props6.heap4 (me_loopwhile nm [enc_i 5]) Fund_Props6.heap4 EERROR.
Proof. split; [discriminate|]. split; reflexivity. Qed.

(* the calls from left to right *)
Fixpoint in_order {A : Arch} (e : cexp) (h : heap) : res (heap * Z) :=
  match e with
  | Arg v => Ok (h, v)
  | MakeList es =>
    let! (h1, vs) := (fix go l h := match l with [] => Ok (h, []) | x :: t => let! (h1, v) := in_order x h in let! (h2, vs) := go t h1 in Ok (h2, v :: vs) end) es h in
    alloc_list_init h1 vs
  end.
Definition ordered {A : Arch} (c : Z + cexp) (h : heap) : res (heap * Z) := match c with inl r => Ok (h, r) | inr e => in_order e h end.

(* the functions with eq *)
Definition table {A : Arch} (f : Z) (h : heap) (args : list Z) : res (heap * Z) :=
  match args with
  | [a; b] => if f =? 0x20005 then let! q := struct_eq 64 h a b in Ok (h, if q then TRUE else NIL) else fundamental_table f h args
  | _ => fundamental_table f h args
  end.
Fixpoint go_on {A : Arch} (m : nat) (x : xst) : res xout :=
  match m with
  | O => Fuel
  | S k =>
    if e_app (x_e x) && (length (e_K (x_e x)) =? 1)%nat then Ok (Next x)
    else let! o := @xstep A alone exact table 64 x in match o with Next y | Jumped y | Caught y => go_on k y | _ => Ok o end
  end.
(* (progn before (macro it lst body) after), with the macro expanded *)
Definition with_loop {A : Arch} (macro : names -> list Z -> Z + cexp) (before : val) (args : list val) (after : list val) : res seen :=
  let! h0 := heap_init 300 20 in
  let! (h1, ws) := fold_right (fun x r => let! (h, l) := r in let! (h1, w) := load h x in Ok (h1, w :: l)) (Ok (h0, [])) args in
  let! (h2, v) := ordered (macro nm ws) h1 in
  let! (h3, p) := load h2 (progn (before :: VAtom v :: after)) in
  show (go_on 900 (mkX (mkE h3 (groots (init_env h0)) [CONT 0] 90 p NIL NIL false) 0 false [4; 8; 12; 16; 20; 24] (repeat 0 (Z.to_nat 90)))).
Definition quoted (l : list val) : val := vlist [VSym 0x100; vlist l].
Definition E_ : val := VSym 0x40006.
Definition define_ (a b : val) : val := vlist [VSym 0x101; a; b].
Definition plus_ (a b : val) : val := vlist [VSym 0x20000; a; b].
Definition setq_ (a b : val) : val := vlist [VSym 0x113; a; b].
Definition gives {A : Arch} (n : Z) : res seen := Ok (SValue (enc_i n) 0 false).

(* (define a 0), (looprange e 0 4 (setq a (+ a e))): a = 6; the value of loopforeach is that of the last body; break ends a loop *)
Example loops_case :
  with_loop (A := A32) (me_looprange (A := A32)) (define_ A_ (n32 0)) [E_; n32 0; n32 4; setq_ A_ (plus_ A_ E_)] [A_] = gives (A := A32) 6 /\
  with_loop (A := A32) (me_loopfor (A := A32)) (define_ A_ (n32 0)) [E_; n32 0; vlist [VSym 0x20009; E_; n32 4]; plus_ E_ (n32 2); setq_ A_ (plus_ A_ E_)] [A_] = gives (A := A32) 2 /\
  with_loop (A := A32) (me_loopwhile (A := A32)) (define_ A_ (n32 0)) [vlist [VSym 0x20009; A_; n32 3]; setq_ A_ (plus_ A_ (n32 1))] [A_] = gives (A := A32) 3 /\
  with_loop (A := A32) (me_loopforeach (A := A32)) (define_ A_ (n32 0)) [E_; quoted [n32 1; n32 3; n32 2]; setq_ A_ (plus_ A_ E_)] [A_] = gives (A := A32) 6 /\
  with_loop (A := A32) (me_looprange (A := A32)) (define_ A_ (n32 0)) [E_; n32 0; n32 4; vlist [VSym 0x40012; n32 9]] [] = gives (A := A32) 9.
Proof. vm_compute. auto 10. Qed.

(* The claims that the body is evaluated for every element, and the list once, are
   false: the loop ends at an element that is nil, since the test is (eq it nil); and
   the list expression is evaluated twice, once for its car and once for its cdr. *)
Theorem loopforeach_refuted :
  (* (loopforeach e '(1 nil 2) e) = 1 *)
  with_loop (A := A32) (me_loopforeach (A := A32)) (define_ A_ (n32 0)) [E_; quoted [n32 1; VSym 0; n32 2]; E_] [] = gives (A := A32) 1 /\
  (* (loopforeach e (progn (setq a (+ a 1)) '(1 3 2)) e), and then a = 2 *)
  with_loop (A := A32) (me_loopforeach (A := A32)) (define_ A_ (n32 0)) [E_; progn [setq_ A_ (plus_ A_ (n32 1)); quoted [n32 1; n32 3; n32 2]]; E_] [A_] = gives (A := A32) 2.
Proof. vm_compute. auto. Qed.

Print Assumptions loopfor_expands.
Print Assumptions loopwhile_expands.
Print Assumptions looprange_expands.
Print Assumptions loopforeach_expands.
Print Assumptions loop_macros_refuse.
Print Assumptions loop_macros_end.
Print Assumptions loopforeach_refuted.
