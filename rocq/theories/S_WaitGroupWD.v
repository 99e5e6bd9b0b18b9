(** Specification vocabulary for the destruction of a wait_group under the C++ memory model. *)
From Coq Require Import List Arith Bool.
From Verif Require Import Lts M_Weak M_WaitGroupW M_WaitGroupWD.
Import ListNotations.

(** What the clients of the group see, without its destruction *)
Definition gev (tr : list zevent) : list gevent := flat_map (fun e => match e with ZE x => [x] | ZEDel => [] end) tr.
(** Every access to the group by done() for the units that a wait knows, and by the start() of that wait, happens before its notification. *)
Definition over (z : zst) : Prop :=
  forall o us c, In (o, us, c) (z_not z) -> forall m,
  (forall u, nth_error (z_who z) m = Some (WDone u) -> In u us -> In m c) /\ (nth_error (z_who z) m = Some (WWait o) -> In m c).
(** done() has decremented the counter for these units; it does not access the group any more *)
Definition past (z : zst) : Prop :=
  forall o us c u k pc v, In (o, us, c) (z_not z) -> In u us -> nth_error (g_dn (z_g z)) k = Some (u, pc, v) -> pc = GEnd.
(** The record of notified waits is what the clients see *)
Definition recorded (z : zst) (tr : list zevent) : Prop :=
  (forall o b, In (GENotify o b) (gev tr) -> exists us c, In (o, us, c) (z_not z)) /\ (forall o us c, In (o, us, c) (z_not z) -> In (GEWait o us) (gev tr)).
