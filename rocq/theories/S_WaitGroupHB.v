(** Specification vocabulary for wait_group with happens-before. *)
From Coq Require Import List Arith Bool.
From Verif Require Import Lts M_Wait M_WaitHB M_WaitGroupC.
Import ListNotations.

Section Spec.
Context {n0 : nat} {pick : nat -> nat}.
Notation P := (wait_group_c n0 pick).

(** d is the access that the client made just before it called done() for the unit u; before it called the add() that makes u *)
Definition done_access (tr : list (hevent P)) (u d : nat) : Prop :=
  exists t1 c os w t2, tr = t1 ++ HCall c d os :: HE (EPrim (P := P) (EYDone u)) w :: t2.
Definition add_access (tr : list (hevent P)) (u d : nat) : Prop :=
  exists t1 c os us w t2, tr = t1 ++ HCall c d os :: HE (EPrim (P := P) (EYAdd us)) w :: t2 /\ In u us.

(** The add() of the unit u happens before a call that is made after the accesses v: u is an initial unit, or the access before the add() is in v or happens before an access in v.
    (There is nothing between that access and the add().) *)
Definition knows_unit (g : log) (tr : list (hevent P)) (v : hb) (u : nat) : Prop :=
  u < n0 \/ exists d, add_access tr u d /\ (In d v \/ exists i, In i v /\ In d (before g i)).

(** What was done before done() was called for each unit that the wait o counts happens before the notification that it is over *)
Definition sees_units (tr : list (hevent P)) : Prop :=
  forall t1 o w t2, tr = t1 ++ HE (EDone (P := P) o true) w :: t2 ->
  forall kn v u, In (HE (EPrim (P := P) (EYWait o kn)) v) t1 -> In u kn -> exists d, done_access t1 u d /\ In d w.
End Spec.
