(** Specification vocabulary for wait_group with cancellation under the C++ memory model: predicates on traces. *)
From Coq Require Import List Arith Bool.
From Verif Require Import Lts M_Wait S_Wait M_WaitGroupC.
Import ListNotations.

Section Spec.
Context {n0 : nat} {pick : nat -> nat}.
Notation P := (wait_group_c n0 pick).
Notation trace := (list (event P)).
Definition py (e : yevent) : event P := EPrim (e : PE P).

(** The units of the count: the n0 initial ones and the ones made by add() *)
Definition is_unit (tr : trace) (u : nat) : Prop := u < n0 \/ exists us, In (py (EYAdd us)) tr /\ In u us.
(** done() was called for the unit u *)
Definition unit_done (tr : trace) (u : nat) : Prop := In (py (EYDone u)) tr.
(** Client rule: a group whose units are all gone is only used again when all of its waits are over. *)
Definition reuse_rule (tr : trace) : Prop := forall t1 us t2, tr = t1 ++ py (EYAdd us) :: t2 -> us <> [] ->
  (forall u, is_unit t1 u -> unit_done t1 u) -> forall o, started o t1 -> notified o t1 = 1.
(** All calls of done() are past the decrement. *)
Definition done_returned (s : cst P) : Prop := forall u pc p, In (u, pc, p) (y_dn (c_prim s)) -> pc = YEnd.
End Spec.
