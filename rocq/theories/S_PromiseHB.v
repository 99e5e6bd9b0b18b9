(** Specification vocabulary for the happens-before model of promise / future. *)
From Coq Require Import List Arith Bool.
From Verif Require Import Lts M_HB M_PromiseHB.
Import ListNotations.

(** v: what happens before the notification of the receiver of o that comes after tr.  It includes whatever happens before the call of start(). *)
Definition sees_get (o : nat) (tr : list (pevent * hbs)) (v : hbs) : Prop := exists u, In (EGet o, u) tr /\ incl u v.
(** ... and whatever happens before the call of set_value(), of which there is exactly one *)
Definition sees_set (tr : list (pevent * hbs)) (v : hbs) : Prop := exists t1 u t2, tr = t1 ++ (ESet, u) :: t2 /\ ~ In ESet (map fst t1) /\ ~ In ESet (map fst t2) /\ incl u v.
(** v includes whatever happens before any of the events of tr *)
Definition sees_all (tr : list (pevent * hbs)) (v : hbs) : Prop := forall e u, In (e, u) tr -> incl u v.
