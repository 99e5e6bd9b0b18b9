(** Specification vocabulary for the happens-before model of suspend_indefinitely. *)
From Coq Require Import List Arith Bool.
From Verif Require Import Lts M_HB M_Suspend.
Import ListNotations.

(** v: what happens before the notification of the receiver that comes after tr.  It includes whatever happens before the call of start(), whatever happens before
    some call of cancel() of one of the events, and whatever happens before the calls of cancel() of these events that precede the call of start(). *)
Definition sees_start (tr : list (uevent * hbs)) (v : hbs) : Prop := forall u, In (EStart, u) tr -> incl u v.
Definition sees_cancel (toks : list (option nat)) (tr : list (uevent * hbs)) (v : hbs) : Prop :=
  exists e u, In (Some e) toks /\ In (ECancel e, u) tr /\ incl u v.
Definition sees_early (toks : list (option nat)) (tr : list (uevent * hbs)) (v : hbs) : Prop :=
  forall t1 u0 t2 e u, tr = t1 ++ (EStart, u0) :: t2 -> In (Some e) toks -> In (ECancel e, u) t1 -> incl u v.
