(** Model of async::promise / async::future (include/async/promise.hpp): setting the value and waiting for it, as a wait
    primitive of M_Wait.  (The reference count of the shared state is modelled in M_Handles.) *)
From Coq Require Import List Arith Bool.
From Verif Require Import Lts M_Wait.
Import ListNotations.

Section Future.
Variable T : Type.       (* promise<T>; promise<void> is the instance T = unit (None = false, Some tt = true) *)

(** promise_state_base and promise_state, promise.hpp 23-141: has_value_ and stor_ together are [f_val], queue_ is [f_q],
    [f_can] is cancelled_ of each node (line 58). *)
Record fst_ := FS { f_val : option T; f_q : list nat; f_can : nat -> bool }.

Inductive flabel := FSet (x : T).      (* promise::set_value(x) *)
Inductive fevent := ESet (x : T).

(** the initial values of the members, lines 107-110: no value, no waits *)
Definition f_init : fst_ := FS None [] (fun _ => false).

(** get_operation::start(), lines 254-271 *)
Definition f_start (s : fst_) (o : nat) (_ : unit) : start_out fst_ (option T) fevent :=
  match f_val s with
  | None => SQueued (FS None (f_q s ++ [o]) (f_can s)) []
  | Some x => SFast s (Some x) []
  end.

(** try_cancel(), lines 70-80 *)
Definition f_try (s : fst_) (o : nat) : try_out fst_ :=
  match f_val s with
  | None =>
      if memb o (f_q s) then TOk (FS None (remove1 o (f_q s)) (upd (f_can s) o true)) true
      else TFail BadUnlink (* iterator_to / erase of a node that is not in queue_ *)
  | Some _ => TOk s false
  end.

(** resume_fn, lines 283-293; get() asserts has_value_ (line 120) *)
Definition f_resume (s : fst_) (o : nat) : resume_out fst_ (option T) :=
  if f_can s o then ROk s None
  else match f_val s with Some x => ROk s (Some x) | None => RFail AssertFailed end.

(** promise::set_value(), lines 367-376, with promise_state::set_value (lines 124-128) and wake (lines 82-105).
    Simplification: the critical section that stores the value (lines 369-372) and the one that takes the list
    (lines 94-98) are one step.  This loses no behaviour, because nothing changes queue_ in between: see [fine_step]
    below and C30_future_split.
    A second call fails: it trips the assertion of line 125 or, later, dereferences the null pointer state_ (line 370). *)
Definition f_step (s : fst_) (l : flabel) : prim_out fst_ fevent :=
  match l with
  | FSet x =>
      match f_val s with
      | None => POk (FS (Some x) [] (f_can s)) (f_q s) [ESet x]
      | Some _ => PFail AssertFailed [ESet x]
      end
  end.

(** get_operation as a user of cancellation_resolver, see M_Wait.v *)
Definition future_prim : prim :=
  Prim fst_ unit (option T) flabel fevent f_init f_start f_try f_resume (fun _ v => v) f_step.

(** *** The two critical sections of set_value() separately *)
Inductive flcall :=
| CStart (o : nat)       (* critical section of start() *)
| CTry (o : nat)         (* critical section of try_cancel() *)
| CSet (x : T)           (* lines 369-372 *)
| CWake.                 (* lines 94-98 *)

(** What the call observes: start(): whether it queued the node; try_cancel(): its result; wake(): the nodes taken. *)
Inductive fobs := OStart (queued : bool) | OTry (b : bool) | OSet | OWake (l : list nat) | OBad.

(** One critical section, with the code of f_start, f_try and of the two halves of f_step *)
Definition fine_step (s : fst_) (c : flcall) : fst_ * fobs :=
  match c with
  | CStart o => match f_start s o tt with SQueued s' _ => (s', OStart true) | _ => (s, OStart false) end
  | CTry o => match f_try s o with TOk s' b => (s', OTry b) | TFail _ => (s, OBad) end
  | CSet x => match f_val s with None => (FS (Some x) (f_q s) (f_can s), OSet) | Some _ => (s, OBad) end
  | CWake => (FS (f_val s) [] (f_can s), OWake (f_q s))
  end.

(** A sequence of critical sections and what the calls observe *)
Fixpoint fine_run (s : fst_) (cs : list flcall) : fst_ * list fobs :=
  match cs with
  | [] => (s, [])
  | c :: cs' => let (s', b) := fine_step s c in let (s'', bs) := fine_run s' cs' in (s'', b :: bs)
  end.

End Future.
Arguments FS {T}. Arguments f_val {T}. Arguments f_q {T}. Arguments f_can {T}. Arguments FSet {T}. Arguments ESet {T}.
Arguments f_start {T}. Arguments f_try {T}.
Arguments CStart {T}. Arguments CTry {T}. Arguments CSet {T}. Arguments CWake {T}. Arguments fine_step {T}. Arguments fine_run {T}.
