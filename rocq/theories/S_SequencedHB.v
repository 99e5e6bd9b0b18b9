(** Specification vocabulary for sequenced_event with cancellation under the C++ memory model. *)
From Coq Require Import List Arith Bool.
From Verif Require Import Lts M_Wait S_Wait M_WaitHB S_WaitHB M_Recurring M_SequencedHB.
Import ListNotations.

(** The events of M_WaitHB; those of M_Wait *)
Fixpoint hapi (tr : list qevent) : list (hevent sequenced_c) :=
  match tr with
  | [] => []
  | QE e :: tr' => e :: hapi tr'
  | _ :: tr' => hapi tr'
  end.
Definition qapi (tr : list qevent) : list (event sequenced_c) := api (hapi tr).

(** How many calls of raise() have incremented the number *)
Fixpoint q_raises (tr : list qevent) : nat :=
  match tr with
  | [] => 0
  | QERaise _ _ :: tr' => S (q_raises tr')
  | _ :: tr' => q_raises tr'
  end.

(** async_wait(t) was started as operation o *)
Definition q_waits (o t : nat) (tr : list qevent) : Prop := exists tok x, In (EStart (P := sequenced_c) o tok (t, x)) (qapi tr).

(** A wait that returns x sees what was done before the calls of raise() that made the numbers up to x; so does next_sequence(). *)
Definition q_sees (tr : list qevent) : Prop :=
  forall o r x w, In (QEDone o r x w) tr -> forall j v, j <= x -> In (QERaise j v) tr -> incl v w.
Definition q_next_sees (tr : list qevent) : Prop :=
  forall x w, In (QENext x w) tr -> forall j v, j < x -> In (QERaise j v) tr -> incl v w.

(** All calls have returned: those of M_Wait, and no raise() is between its two steps *)
Definition q_quiet (s : qst) : Prop := all_returned (h_s (q_h s)) /\ forall y, In y (q_rs s) -> y = None.
