(** Specification vocabulary for the weak-memory model of barrier. *)
From Coq Require Import List Arith Bool.
From Verif Require Import Lts M_Weak M_BarrierW.
Import ListNotations.

(** A wait on the token s that is notified by start(), or by the raise() of its phase or a later one: no arrival of its phase or an earlier one comes later,
    and what the callers of all of them did before the call happens before the notification. *)
Definition sees_arrivals (tr : list bevent) : Prop :=
  forall o by_ before s, In (BENotify o by_ before) tr -> In (BEWait o s) tr -> (forall p, by_ = Some p -> s <= p) ->
  forall s' n, s' <= s -> In (BEArrive s' n) tr -> In n before.
(** the same for waits notified by start() only *)
Definition sees_arrivals_inline (tr : list bevent) : Prop :=
  forall o before s, In (BENotify o None before) tr -> In (BEWait o s) tr -> forall s' n, s' <= s -> In (BEArrive s' n) tr -> In n before.
(** the same for waits notified by raise() only *)
Definition sees_arrivals_raise (tr : list bevent) : Prop :=
  forall o p before s, In (BENotify o (Some p) before) tr -> In (BEWait o s) tr -> s <= p -> forall s' n, s' <= s -> In (BEArrive s' n) tr -> In n before.
(** No call of raise() is running. *)
Definition b_quiet (s : bst) : Prop := forall r, In r (b_rs s) -> exists p v, r = BLoop p [] v.
Definition b_notified (o : nat) (tr : list bevent) : nat := length (filter (fun e => match e with BENotify o' _ _ => o' =? o | _ => false end) tr).
(** number of complete phases *)
Definition b_phases (tr : list bevent) : nat := length (filter (fun e => match e with BEPhase _ => true | _ => false end) tr).
