(** Specification vocabulary for the weak-memory model of wait_group. *)
From Coq Require Import List Arith Bool.
From Verif Require Import Lts M_WaitGroupW.
Import ListNotations.

(** When the receiver of a wait is notified, done() was called for every unit whose add() happens before the start of the wait, and what the
    client did before that call happens before the notification. *)
Definition sees_units (tr : list gevent) : Prop :=
  forall t1 o before t2, tr = t1 ++ GENotify o before :: t2 ->
  forall known u, In (GEWait o known) t1 -> In u known -> exists n, In (GEDone u n) t1 /\ In n before.
(** No call of the library is running. *)
Definition g_quiet (s : gst) : Prop := (forall u pc v, In (u, pc, v) (g_dn s) -> pc = GEnd) /\ (forall os v, In (os, v) (g_wk s) -> os = []).
(** The units of the count: the n0 initial ones and the ones made by add() *)
Definition is_unit (n0 : nat) (tr : list gevent) (u : nat) : Prop := u < n0 \/ exists us, In (GEAdd us) tr /\ In u us.
(** done() was called for every unit *)
Definition all_done (n0 : nat) (tr : list gevent) : Prop := forall u, is_unit n0 tr u -> exists n, In (GEDone u n) tr.
(** How often the receiver of o was notified *)
Definition notified (o : nat) (tr : list gevent) : nat := length (filter (fun e => match e with GENotify o' _ => o' =? o | _ => false end) tr).
