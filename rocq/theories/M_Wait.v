(** Model of cancellation_event + cancellation_resolver together with an arbitrary wait primitive.

    Modelled code: include/async/cancellation.hpp
      - cancellation_event::cancel            326-347
      - cancellation_resolver::listen         240-269
      - cancellation_resolver::complete       271-273
      - cancellation_resolver::call           276-282
      - cancellation_resolver::transition_    284-311
    and the way in which the five users of cancellation_resolver drive it:
      wait-group.hpp 102-142, recurring-event.hpp 95-143, queue.hpp 78-122, promise.hpp 253-303,
      post-ack.hpp 320-377 (start(): critical section, then either set_value or cr_.listen();
      try_cancel_fn; resume_fn; complete() = cr_.complete()).

    One step is one atomic access or one critical section of a platform mutex.  All activities
    (start() of each operation, the calls of complete() by a waker, the calls of call() by a canceller)
    interleave arbitrarily.  There is no bound on the number of operations, events, wakers, cancellers.

    Simplifications: sequentially consistent memory; operation identifiers are never re-used (a new
    operation object is a new identifier); [cancellation_event::reset] is modelled in M_Cancel instead. *)
From Coq Require Import List Arith Bool.
From Verif Require Import Lts.
Import ListNotations.

(** cancellation.hpp 313-318: the bits of state_ (done_listen, done_completion_path, done_cancellation_path),
    as a record of booleans instead of an unsigned int. *)
Record mask := Mask { mL : bool; mP : bool; mC : bool }.

(** state_ before the first transition (line 321), and the three bits (lines 313-318) *)
Definition no_bits := Mask false false false.
Definition bit_L := Mask true false false.
Definition bit_P := Mask false true false.
Definition bit_C := Mask false false true.

(** bitwise or / overlap test on such masks (cancellation.hpp 287-288, 292) *)
Definition mor (a b : mask) : mask := Mask (mL a || mL b) (mP a || mP b) (mC a || mC b).
Definition moverlap (a b : mask) : bool := (mL a && mL b) || (mP a && mP b) || (mC a && mC b).

(** Program counter of one activity that runs resolver code for one operation. *)
Inductive pc :=
| PIdle            (* not entered *)
| PFast            (* start(): fast path taken, about to call set_value *)
| PListen          (* start(): about to execute the critical section of listen(), cancellation.hpp 241-256 *)
| PTry             (* about to call tryCancel_, lines 264 resp. 277 *)
| PTrans (m : mask)(* about to execute the fetch_or of transition_(m), line 287 *)
| PUnreg           (* transition_: about to unregister from the event, lines 296-307 *)
| PResume          (* transition_: about to call resume_, line 310 *)
| PEnd.            (* returned *)

(** The three activities that may run resolver code of an operation: start()/listen(), complete(), call(). *)
Inductive path := PathL | PathP | PathC.

(** Ghost status of the operation's node in the primitive.  Never read by the step function. *)
Inductive nst := NFresh | NQueued | NTaken | NCancelled.

(** A wait primitive: what the users of cancellation_resolver do inside of their own critical sections. *)
Inductive start_out (S V E : Type) :=
| SQueued (s : S) (es : list E)          (* slow path: node linked, start() goes on with cr_.listen() *)
| SFast (s : S) (v : V) (es : list E)    (* fast path: start() goes on with set_value(r_, v) *)
| SFail (f : failure).
Arguments SQueued {S V E} s es.
Arguments SFast {S V E} s v es.
Arguments SFail {S V E} f.

Inductive prim_out (S E : Type) :=
| POk (s : S) (taken : list nat) (es : list E)  (* [taken]: nodes unlinked; their complete() is called afterwards, in order *)
| PNo                                           (* not applicable *)
| PFail (f : failure) (es : list E).
Arguments POk {S E} s taken es.
Arguments PNo {S E}.
Arguments PFail {S E} f es.

(** Result of try_cancel_fn: the answer; or a failure *)
Inductive try_out (S : Type) := TOk (s : S) (b : bool) | TFail (f : failure).
Arguments TOk {S} s b.
Arguments TFail {S} f.

(** Result of resume_fn: the value for the receiver; or a failure *)
Inductive resume_out (S V : Type) := ROk (s : S) (v : V) | RFail (f : failure).
Arguments ROk {S V} s v.
Arguments RFail {S V} f.

Record prim := Prim {
  PS : Type;                                    (* state of the primitive and its nodes *)
  PA : Type;                                    (* arguments of a wait operation *)
  PV : Type;                                    (* values passed to the receiver *)
  PL : Type;                                    (* labels of the primitive's other API steps *)
  PE : Type;                                    (* observable events of those steps *)
  p_init : PS;
  p_start : PS -> nat -> PA -> start_out PS PV PE; (* critical section of start() of operation [o] *)
  p_try : PS -> nat -> try_out PS;              (* try_cancel_fn of operation [o] *)
  p_resume : PS -> nat -> resume_out PS PV;     (* resume_fn of operation [o] up to set_value *)
  p_fast : PS -> PV -> PV;                      (* fast path: the value passed on when set_value is called, from the one
                                                   found in the critical section of start() *)
  p_step : PS -> PL -> prim_out PS PE           (* any other API step of the primitive *)
}.

Section Machine.
Variable P : prim.
(** If true, clients may destroy an operation as soon as its receiver was notified.  If false, they do so only
    after the library calls running on that operation have returned as well. *)
Variable eager : bool.

(** One wait operation: its cancellation_resolver (event_, state_) and the activities on it. *)
Record opst := Op {
  o_tok : option nat;      (* the event behind its cancellation_token; None = default token *)
  o_bits : mask;           (* cancellation_resolver::state_ *)
  o_l : pc; o_p : pc; o_c : pc;  (* the three activities *)
  o_fast : option (PV P);  (* value of the fast path *)
  o_done : bool;           (* the receiver was notified *)
  o_alive : bool;          (* the operation object still exists *)
  o_node : nst             (* ghost *)
}.

(** An operation after its construction: state_ is zero, nothing runs (members of cancellation_resolver, lines 313-321) *)
Definition op_init : opst := Op None no_bits PIdle PIdle PIdle None false true NFresh.

(** cancellation_event (cancellation.hpp 55-66): _was_requested and _cbs. *)
Record evst := Ev { e_req : bool; e_cbs : list nat }.
Definition ev_init : evst := Ev false [].

(** A loop that calls complete() resp. call() on a local list of nodes (cancellation.hpp 342-346;
    wait-group.hpp 69-73; recurring-event.hpp 67-71; queue.hpp 65-66; promise.hpp 100-104; post-ack.hpp 109-112):
    the node currently being processed and the nodes still in the list. *)
Record loop := Loop { lp_cur : option nat; lp_rest : list nat }.

Record cst := St {
  c_prim : PS P;
  c_op : nat -> opst;
  c_ev : nat -> evst;
  c_wk : list loop;    (* wakers *)
  c_cn : list loop     (* cancellers: cancellation_event::cancel() in flight *)
}.

(** Nothing started, no event cancelled *)
Definition c_init : cst := St (p_init P) (fun _ => op_init) (fun _ => ev_init) [] [].

Inductive label :=
| LStart (o : nat) (tok : option nat) (a : PA P) (* start() of operation o *)
| LPath (o : nat) (x : path)                     (* one step of activity x of operation o *)
| LCancel (e : nat)                              (* cancellation_event::cancel(), critical section *)
| LCanNext (k : nat)                             (* canceller k pops the next callback and enters call() *)
| LWakeNext (k : nat)                            (* waker k pops the next node and enters complete() *)
| LPrim (l : PL P)                               (* another step of the primitive *)
| LDestroy (o : nat).                            (* the client destroys operation o *)

Inductive event :=
| EStart (o : nat) (tok : option nat) (a : PA P)
| EDone (o : nat) (v : PV P)                     (* set_value on the receiver of operation o *)
| ECancel (e : nat)
| EDestroy (o : nat)
| EPrim (x : PE P).

(** Updates of one field of an operation, and of the program counter of one of its activities *)
Definition get_pc (x : path) (o : opst) : pc :=
  match x with PathL => o_l o | PathP => o_p o | PathC => o_c o end.

(** The updates: program counter, state_, receiver notified, destroyed, ghost status *)
Definition set_pc (x : path) (p : pc) (o : opst) : opst :=
  match x with
  | PathL => Op (o_tok o) (o_bits o) p (o_p o) (o_c o) (o_fast o) (o_done o) (o_alive o) (o_node o)
  | PathP => Op (o_tok o) (o_bits o) (o_l o) p (o_c o) (o_fast o) (o_done o) (o_alive o) (o_node o)
  | PathC => Op (o_tok o) (o_bits o) (o_l o) (o_p o) p (o_fast o) (o_done o) (o_alive o) (o_node o)
  end.
Definition set_bits (m : mask) (o : opst) : opst :=
  Op (o_tok o) m (o_l o) (o_p o) (o_c o) (o_fast o) (o_done o) (o_alive o) (o_node o).
Definition set_done (o : opst) : opst :=
  Op (o_tok o) (o_bits o) (o_l o) (o_p o) (o_c o) (o_fast o) true (o_alive o) (o_node o).
Definition set_dead (o : opst) : opst :=
  Op (o_tok o) (o_bits o) (o_l o) (o_p o) (o_c o) (o_fast o) (o_done o) false (o_node o).
Definition set_node (n : nst) (o : opst) : opst :=
  Op (o_tok o) (o_bits o) (o_l o) (o_p o) (o_c o) (o_fast o) (o_done o) (o_alive o) n.

(** The activity has returned, or was not entered; all activities of the operation have *)
Definition ended (p : pc) : bool := match p with PIdle | PEnd => true | _ => false end.
Definition all_ended (o : opst) : bool := ended (o_l o) && ended (o_p o) && ended (o_c o).

(** Update of one operation (helper) *)
Definition with_op (s : cst) (o : nat) (x : opst) : cst :=
  St (c_prim s) (upd (c_op s) o x) (c_ev s) (c_wk s) (c_cn s).

(** transition_(m), cancellation.hpp 284-296 and 310: the fetch_or and the decision where to go. *)
Definition do_trans (m : mask) (x : path) (o : opst) : option opst :=
  if moverlap (o_bits o) m then None (* assert(!(old_st & new_bits)) *)
  else
    let st := mor (o_bits o) m in
    let o' := set_bits st o in
    Some (set_pc x
      (if negb (mL st) || negb (mP st) then PEnd
       else if negb (mC st) then PUnreg
       else PResume) o').

(** the argument of transition_ after tryCancel_: lines 264-268 (listen) and 277-281 (call) *)
Definition try_mask (x : path) (b : bool) : mask :=
  match x with
  | PathL => if b then Mask true true true else Mask true false true
  | _ => if b then Mask false true true else bit_C
  end.

(** One step of one of the three activities of operation [o].  Every such step accesses the operation. *)
Definition path_step (s : cst) (o : nat) (x : path) : outcome cst event :=
  let r := c_op s o in
  match get_pc x r with
  | PIdle | PEnd => Disabled
  | p =>
    if negb (o_alive r) then Fail UseAfterFree [] else
    match p with
    | PFast => (* start(): set_value on the fast path *)
        match o_fast r with
        | Some v => Next (with_op s o (set_pc x PEnd (set_done r))) [EDone o (p_fast P (c_prim s) v)]
        | None => Fail NullDeref []
        end
    | PListen => (* listen(), lines 241-257 *)
        match o_tok r with
        | None => Next (with_op s o (set_pc x (PTrans (Mask true false true)) r)) []
        | Some e =>
            if e_req (c_ev s e)
            then Next (with_op s o (set_pc x PTry r)) []
            else Next (St (c_prim s) (upd (c_op s) o (set_pc x (PTrans bit_L) r))
                          (upd (c_ev s) e (Ev false (e_cbs (c_ev s e) ++ [o])))
                          (c_wk s) (c_cn s)) []
        end
    | PTry => (* tryCancel_(this), lines 264 / 277 *)
        match p_try P (c_prim s) o with
        | TOk ps b =>
            Next (St ps (upd (c_op s) o
                    (set_pc x (PTrans (try_mask x b)) (if b then set_node NCancelled r else r)))
                    (c_ev s) (c_wk s) (c_cn s)) []
        | TFail f => Fail f []
        end
    | PTrans m => (* lines 285-296 *)
        match do_trans m x r with
        | Some r' => Next (with_op s o r') []
        | None => Fail AssertFailed []
        end
    | PUnreg => (* lines 300-307 *)
        match o_tok r with
        | None => Fail AssertFailed [] (* assert(event_) *)
        | Some e =>
            if e_req (c_ev s e) then Next (with_op s o (set_pc x PEnd r)) []
            else if memb o (e_cbs (c_ev s e))
            then Next (St (c_prim s) (upd (c_op s) o (set_pc x PResume r))
                          (upd (c_ev s) e (Ev false (remove1 o (e_cbs (c_ev s e)))))
                          (c_wk s) (c_cn s)) []
            else Fail BadUnlink []
        end
    | PResume => (* line 310 *)
        match p_resume P (c_prim s) o with
        | ROk ps v =>
            Next (St ps (upd (c_op s) o (set_pc x PEnd (set_done r))) (c_ev s) (c_wk s) (c_cn s)) [EDone o v]
        | RFail f => Fail f []
        end
    | PIdle | PEnd => Disabled
    end
  end.

(** May the loop go on, i.e. did the complete()/call() of its current node return? *)
Definition loop_ready (get : opst -> pc) (s : cst) (lp : loop) : bool :=
  match lp_cur lp with
  | None => true
  | Some o => match get (c_op s o) with PEnd => true | _ => false end
  end.

Definition step (s : cst) (l : label) : outcome cst event :=
  match l with
  | LStart o tok a =>
      let r := c_op s o in
      match o_l r with
      | PIdle =>
          match p_start P (c_prim s) o a with
          | SQueued ps es =>
              Next (St ps (upd (c_op s) o (Op tok no_bits PListen (o_p r) (o_c r) None (o_done r) (o_alive r) NQueued))
                       (c_ev s) (c_wk s) (c_cn s)) (EStart o tok a :: map EPrim es)
          | SFast ps v es =>
              Next (St ps (upd (c_op s) o (Op tok no_bits PFast (o_p r) (o_c r) (Some v) (o_done r) (o_alive r) (o_node r)))
                       (c_ev s) (c_wk s) (c_cn s)) (EStart o tok a :: map EPrim es)
          | SFail f => Fail f [EStart o tok a]
          end
      | _ => Disabled
      end
  | LPath o x => path_step s o x
  | LCancel e => (* cancel(), lines 336-340 *)
      Next (St (c_prim s) (c_op s) (upd (c_ev s) e (Ev true [])) (c_wk s)
               (c_cn s ++ [Loop None (e_cbs (c_ev s e))])) [ECancel e]
  | LCanNext k => (* cancel(), lines 342-345 *)
      match nth_error (c_cn s) k with
      | Some lp =>
          if loop_ready o_c s lp then
            match lp_rest lp with
            | [] => Disabled
            | o :: rest =>
                let r := c_op s o in
                if negb (o_alive r) then Fail UseAfterFree [] else
                match o_c r with
                | PIdle => Next (St (c_prim s) (upd (c_op s) o (set_pc PathC PTry r)) (c_ev s) (c_wk s)
                                    (set_nth (c_cn s) k (Loop (Some o) rest))) []
                | _ => Fail AssertFailed [] (* a second call() would set done_cancellation_path again, line 288 *)
                end
            end
          else Disabled
      | None => Disabled
      end
  | LWakeNext k =>
      match nth_error (c_wk s) k with
      | Some lp =>
          if loop_ready o_p s lp then
            match lp_rest lp with
            | [] => Disabled
            | o :: rest =>
                let r := c_op s o in
                if negb (o_alive r) then Fail UseAfterFree [] else
                match o_p r with
                | PIdle => Next (St (c_prim s) (upd (c_op s) o (set_pc PathP (PTrans bit_P) r)) (c_ev s)
                                    (set_nth (c_wk s) k (Loop (Some o) rest)) (c_cn s)) []
                | _ => Fail AssertFailed [] (* a second complete() would set done_completion_path again, line 288 *)
                end
            end
          else Disabled
      | None => Disabled
      end
  | LPrim pl =>
      match p_step P (c_prim s) pl with
      | POk ps taken es =>
          Next (St ps (fun o => if memb o taken then set_node NTaken (c_op s o) else c_op s o) (c_ev s)
                   (c_wk s ++ [Loop None taken]) (c_cn s)) (map EPrim es)
      | PNo => Disabled
      | PFail f es => Fail f (map EPrim es)
      end
  | LDestroy o =>
      let r := c_op s o in
      if o_done r && o_alive r && (eager || all_ended r)
      then Next (with_op s o (set_dead r)) [EDestroy o]
      else Disabled
  end.

End Machine.

Arguments Op {P}. Arguments St {P}.
Arguments o_tok {P}. Arguments o_bits {P}. Arguments o_l {P}. Arguments o_p {P}. Arguments o_c {P}.
Arguments o_fast {P}. Arguments o_done {P}. Arguments o_alive {P}. Arguments o_node {P}.
Arguments c_prim {P}. Arguments c_op {P}. Arguments c_ev {P}. Arguments c_wk {P}. Arguments c_cn {P}.
Arguments LStart {P}. Arguments LPath {P}. Arguments LCancel {P}. Arguments LCanNext {P}.
Arguments LWakeNext {P}. Arguments LPrim {P}. Arguments LDestroy {P}.
Arguments EStart {P}. Arguments EDone {P}. Arguments ECancel {P}. Arguments EDestroy {P}. Arguments EPrim {P}.
Arguments get_pc {P}. Arguments set_pc {P}. Arguments set_bits {P}. Arguments set_done {P}.
Arguments set_dead {P}. Arguments set_node {P}. Arguments all_ended {P}. Arguments with_op {P}.
Arguments loop_ready {P}.
