(** Specification vocabulary for the happens-before model of with_cancel_cb. *)
From Coq Require Import List Arith Bool.
From Verif Require Import Lts M_HB M_WithCancel.
Import ListNotations.

(** The call of start(), start and completion of the wrapped operation, call and return of the callback *)
Definition run_event (e : wevent) : bool := match e with WEStart | WEInnerStart | WEInner _ | WECb | WECbRet => true | _ => false end.
(** Whatever happens before one of these events happens before the notification of the receiver. *)
Definition sees_all (tr : list (wevent * hbs)) : Prop :=
  forall t1 x v t2, tr = t1 ++ (WEDone x, v) :: t2 -> forall e u, In (e, u) t1 -> run_event e = true -> incl u v.
(** v: what happens before a call of the callback.  What happened before a call of cancel(), and before the call of start(), is in v. *)
Definition sees_cancel (tr : list (wevent * hbs)) (v : hbs) : Prop := (exists u, In (WECancel, u) tr /\ incl u v) /\ forall u, In (WEStart, u) tr -> incl u v.
