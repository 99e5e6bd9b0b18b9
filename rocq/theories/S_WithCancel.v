(** Specification vocabulary for with_cancel_cb. *)
From Coq Require Import List Arith Bool.
From Verif Require Import Lts M_Suspend M_WithCancel.
Import ListNotations.

(** Number of calls of the callback, of returns from it, of starts of the wrapped operation, of notifications of the receiver *)
Definition w_cbs (tr : list wevent) : nat := length (filter (fun e => match e with WECb => true | _ => false end) tr).
Definition w_cbrets (tr : list wevent) : nat := length (filter (fun e => match e with WECbRet => true | _ => false end) tr).
Definition w_starts (tr : list wevent) : nat := length (filter (fun e => match e with WEInnerStart => true | _ => false end) tr).
Definition w_dones (tr : list wevent) : nat := length (filter (fun e => match e with WEDone _ => true | _ => false end) tr).
(** No call is in flight. *)
Definition w_quiet (s : wst) : Prop := forall a, In a (w_acts s) -> a = WEnd.
(** Steps of calls in flight and returns of callbacks *)
Definition w_internal (l : wlabel) : Prop := match l with WLStep _ | WLCbRet _ => True | _ => False end.
