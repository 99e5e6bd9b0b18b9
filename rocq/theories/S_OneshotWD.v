(** Specification vocabulary for the destruction of a oneshot_primitive under the C++ memory model. *)
From Coq Require Import List Arith Bool.
From Verif Require Import Lts M_Weak M_OneshotW S_OneshotW M_OneshotWD.
Import ListNotations.

(** What the clients of the primitive see, without its destruction *)
Definition qev (tr : list jevent) : list qevent := flat_map (fun e => match e with JE x => [x] | JEDel => [] end) tr.
(** The accesses to the primitive by raise() and by the start() of a wait happen before the notification of that wait. *)
Definition j_over (z : jst) : Prop :=
  forall o c, In (o, c) (j_not z) -> forall m, (nth_error (j_who z) m = Some RRaise \/ nth_error (j_who z) m = Some (RWait o)) -> In m c.
(** The records of waits are what the clients see *)
Definition j_recorded (z : jst) (tr : list jevent) : Prop :=
  map fst (j_not z) = rev (q_done (qev tr)) /\ (forall o, In o (j_ops z) <-> exists n, In (QEStart o n) (qev tr)) /\
  (forall m, nth_error (j_who z) m = Some RRaise -> q_raises (qev tr) <> 0) /\ (forall m o, nth_error (j_who z) m = Some (RWait o) -> In o (j_ops z)).
