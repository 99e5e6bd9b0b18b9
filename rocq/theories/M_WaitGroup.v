(** Model of async::wait_group (include/async/wait-group.hpp) as a wait primitive of M_Wait, of wait_in_group
    (wait-group.hpp 188-251) and of async::oneshot_event (include/async/oneshot-event.hpp 11-25). *)
From Coq Require Import List Arith Bool.
From Verif Require Import Lts M_Wait.
Import ListNotations.

(** A call of done(), wait-group.hpp 41-74 *)
Inductive dpc :=
| DLoad                  (* about to load ctr_, line 53 *)
| DLoop (v : nat)        (* at the head of the while loop, line 54, with the local variable v *)
| DOut                   (* past the decrement, called by wait_in_group: about to notify the receiver, lines 205-208 *)
| DEnd.                  (* past the decrement; the wake-up loop of lines 69-73 is part of M_Wait *)

(** An operation wrapped by wait_in_group, lines 196-229 *)
Inductive inop :=
| INone                  (* not started *)
| IRun                   (* started: add(1) was called, the wrapped operation is running *)
| IFin (k : nat).        (* receiver_::set_value was called; its call of done() is number k *)

Section WaitGroup.
Variable V : Type.       (* values of operations wrapped by wait_in_group *)
Variable n0 : nat.       (* the count passed to the constructor, line 39 *)

(** wait-group.hpp 174-184: ctr_, queue_; [w_can]: cancelled_ of each node (line 35); [w_dn]: the calls of done() made so
    far, with the operation and value if made by receiver_::set_value (lines 203-211); [w_in]: the operations wrapped by wait_in_group.  Simplification: the counter is unbounded (no wrap-around of
    size_t on add). *)
Record wst := WG { w_ctr : nat; w_q : list nat; w_can : nat -> bool; w_dn : list (option (nat * V) * dpc); w_in : nat -> inop }.

Inductive wlabel :=
| WAdd (n : nat)          (* add(n) / lock() *)
| WDone                   (* a call of done() / unlock() begins *)
| WStep (k : nat)         (* one step of the k-th call of done(), or of the receiver_::set_value around it *)
| WInStart (i : nat)      (* start() of the wrapped operation i *)
| WInDone (i : nat) (v : V). (* the operation inside of i completes with v: receiver_::set_value(v) *)

(** add(); done() is called; the wrapped operation i is started; completes with v; its receiver gets v (lines 205-211) *)
Inductive wevent :=
| EAdd (n : nat) | EDoneCall | EInStart (i : nat) | EInDone (i : nat) (v : V) | EInOut (i : nat) (v : V).

(** wait_group(n0), line 39 *)
Definition wg_init : wst := WG n0 [] (fun _ => false) [] (fun _ => INone).

(** wait_operation::start(), lines 104-116 *)
Definition wg_start (s : wst) (o : nat) (_ : unit) : start_out wst bool wevent :=
  match w_ctr s with
  | 0 => SFast s true []
  | _ => SQueued (WG (w_ctr s) (w_q s ++ [o]) (w_can s) (w_dn s) (w_in s)) []
  end.

(** try_cancel(), lines 76-87 *)
Definition wg_try (s : wst) (o : nat) : try_out wst :=
  match w_ctr s with
  | 0 => TOk s false
  | _ =>
      if memb o (w_q s)
      then TOk (WG (w_ctr s) (remove1 o (w_q s)) (upd (w_can s) o true) (w_dn s) (w_in s)) true
      else TFail BadUnlink (* iterator_to / erase of a node that is not in queue_, lines 82-83 *)
  end.

(** resume_fn, lines 128-131 *)
Definition wg_resume (s : wst) (o : nat) : resume_out wst bool := ROk s (negb (w_can s o)).

(** Updates of one field of the state (of the model; no code corresponds to them); a new call of done() *)
Definition with_dn (s : wst) (k : nat) (d : option (nat * V) * dpc) : wst :=
  WG (w_ctr s) (w_q s) (w_can s) (set_nth (w_dn s) k d) (w_in s).
Definition with_in (s : wst) (i : nat) (x : inop) : wst :=
  WG (w_ctr s) (w_q s) (w_can s) (w_dn s) (upd (w_in s) i x).
Definition with_ctr (s : wst) (c : nat) : wst := WG c (w_q s) (w_can s) (w_dn s) (w_in s).
Definition call_done (s : wst) (w : option (nat * V)) : wst :=
  WG (w_ctr s) (w_q s) (w_can s) (w_dn s ++ [(w, DLoad)]) (w_in s).
(** where a call of done() continues after the decrement *)
Definition after (w : option (nat * V)) : option (nat * V) * dpc :=
  (w, match w with Some _ => DOut | None => DEnd end).

(** One step of done(), lines 53-67.  add() may run between the two accesses of the critical section (lines 61-66), but
    splicing the list does not depend on the counter, hence it is one step.
    Simplification: the notification of the receiver (DOut) waits for the decrement, but not for the wake-up loop that
    may follow it inside of done() (more interleavings than in the code). *)
Definition done_step (s : wst) (k : nat) : prim_out wst wevent :=
  match nth_error (w_dn s) k with
  | Some (w, DLoad) => POk (with_dn s k (w, DLoop (w_ctr s))) [] []
  | Some (_, DLoop 0) => PFail AssertFailed []  (* line 58 *)
  | Some (w, DLoop 1) =>                        (* lines 61-66 *)
      match w_ctr s with
      | 0 => PFail CounterUnderflow []
      | 1 => POk (WG 0 [] (w_can s) (set_nth (w_dn s) k (after w)) (w_in s)) (w_q s) []
      | S c => POk (with_dn (with_ctr s c) k (after w)) [] []
      end
  | Some (w, DLoop v) =>                        (* compare_exchange_strong, line 55 *)
      if Nat.eqb (w_ctr s) v then POk (with_dn (with_ctr s (v - 1)) k (after w)) [] []
      else POk (with_dn s k (w, DLoop (w_ctr s))) [] []
  | Some (w, DOut) =>                           (* lines 205-208 *)
      match w with Some (i, v) => POk (with_dn s k (w, DEnd)) [] [EInOut i v] | None => PNo end
  | Some (_, DEnd) | None => PNo
  end.

(** The other API steps.  WInDone is the contract of the wrapped sender: it completes at most once, after its start. *)
Definition wg_step (s : wst) (l : wlabel) : prim_out wst wevent :=
  match l with
  | WAdd n => POk (with_ctr s (w_ctr s + n)) [] [EAdd n]   (* lines 89-91 *)
  | WDone => POk (call_done s None) [] [EDoneCall]
  | WStep k => done_step s k
  | WInStart i =>                                          (* lines 226-229 *)
      match w_in s i with
      | INone => POk (with_in (with_ctr s (w_ctr s + 1)) i IRun) [] [EInStart i]
      | _ => PNo
      end
  | WInDone i v =>                                         (* line 204 *)
      match w_in s i with
      | IRun => POk (with_in (call_done s (Some (i, v))) i (IFin (length (w_dn s)))) [] [EInDone i v]
      | _ => PNo
      end
  end.

(** wait_operation as a user of cancellation_resolver, see M_Wait.v *)
Definition wait_group : prim :=
  Prim wst unit bool wlabel wevent wg_init wg_start wg_try wg_resume (fun _ v => v) wg_step.

End WaitGroup.
Arguments WG {V}. Arguments w_ctr {V}. Arguments w_q {V}. Arguments w_can {V}. Arguments w_dn {V}. Arguments w_in {V}.
Arguments WAdd {V}. Arguments WDone {V}. Arguments WStep {V}. Arguments WInStart {V}. Arguments WInDone {V}.
Arguments EAdd {V}. Arguments EDoneCall {V}. Arguments EInStart {V}. Arguments EInDone {V}. Arguments EInOut {V}.
Arguments with_dn {V}. Arguments with_in {V}. Arguments with_ctr {V}. Arguments call_done {V}. Arguments after {V}. Arguments done_step {V}.

(** oneshot_event (oneshot-event.hpp 11-25) is a wait_group constructed with 1; raise() is done() and wait() is wait().
    Its clients can only use [WDone]. *)
Notation oneshot := (wait_group Empty_set 1).
