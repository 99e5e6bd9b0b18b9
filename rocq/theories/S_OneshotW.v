(** Specification vocabulary for the weak-memory model of oneshot_primitive. *)
From Coq Require Import List Arith Bool.
From Verif Require Import Lts M_Mutex M_OneshotPrim M_Weak M_OneshotW.
Import ListNotations.

(** A wait completes after raise() was called, and what the caller of raise() did before that happens before the completion ... *)
Definition sees_raise (tr : list qevent) : Prop :=
  forall t1 o before t2, tr = t1 ++ QEDone o before :: t2 -> exists n, In (QERaise n) t1 /\ In n before.
(** ... as well as what the caller of start() did before, also if raise() on another thread notifies the receiver. *)
Definition sees_start (tr : list qevent) : Prop :=
  forall t1 o before t2, tr = t1 ++ QEDone o before :: t2 -> exists n, In (QEStart o n) t1 /\ In n before.

Definition q_raises (tr : list qevent) : nat := length (filter (fun e => match e with QERaise _ => true | _ => false end) tr).
(** the waits that were notified, in order *)
Definition q_done (tr : list qevent) : list nat := flat_map (fun e => match e with QEDone o _ => [o] | _ => [] end) tr.
(** all calls have returned *)
Definition q_quiet (s : qst) : Prop := forall a v, In (a, v) (q_act s) -> a = QEnd.
