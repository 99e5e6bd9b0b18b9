(** Specification vocabulary for the happens-before model of race_and_cancel. *)
From Coq Require Import List Arith Bool.
From Verif Require Import Lts M_HB M_Race.
Import ListNotations.

(** The call of start(), and start and completion of the operations *)
Definition op_event (e : revent) : bool := match e with REStart | REChild _ | REComp _ => true | _ => false end.
(** Whatever happens before one of these events happens before the notification of the receiver. *)
Definition sees_operations (tr : list (revent * hbs)) : Prop :=
  forall t1 v t2, tr = t1 ++ (REDone, v) :: t2 -> forall e u, In (e, u) t1 -> op_event e = true -> incl u v.
