(** Specification vocabulary for suspend_indefinitely. *)
From Coq Require Import List Arith Bool.
From Verif Require Import Lts M_Suspend.
Import ListNotations.

(** Number of notifications of the receiver *)
Definition u_dones (tr : list uevent) : nat := length (filter (fun e => match e with EDone => true | _ => false end) tr).
(** No call is in flight. *)
Definition u_quiet (s : ust) : Prop := (u_main s = UIdle \/ u_main s = UEnd) /\ forall a, In a (u_acts s) -> a = UEnd.
(** Steps of calls in flight *)
Definition u_internal (l : ulabel) : Prop := match l with LStep _ => True | _ => False end.
