(** Specification vocabulary for the happens-before model of when_all. *)
From Coq Require Import List Arith Bool.
From Verif Require Import Lts M_HB M_WhenAll.
Import ListNotations.

(** Whatever happens before the call of start(), before the start of an operation, before its completion or before the return of start() happens
    before the notification of the receiver, if it comes earlier in the execution. *)
Definition sees_senders (tr : list (aevent * hbs)) : Prop :=
  forall t1 v t2, tr = t1 ++ (AEDone, v) :: t2 -> forall e u, In (e, u) t1 -> incl u v.
