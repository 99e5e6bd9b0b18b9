(** Specification vocabulary for the weak-memory model of sequenced_event. *)
From Coq Require Import List Arith Bool.
From Verif Require Import Lts M_Weak M_SequencedW.
Import ListNotations.

(** When a wait returns the number x, the calls of raise() that made the numbers up to x were called, and what the callers did before happens before that. *)
Definition sees_raises (tr : list sevent) : Prop :=
  forall o by_ x before, In (SEDone o by_ x before) tr -> forall j n, j <= x -> In (SERaise j n) tr -> In n before.
(** the same for next_sequence(), which returns one more *)
Definition next_sees (tr : list sevent) : Prop :=
  forall x before, In (SENext x before) tr -> forall j n, j < x -> In (SERaise j n) tr -> In n before.
(** number of calls of raise() *)
Definition s_raises (tr : list sevent) : nat := length (filter (fun e => match e with SERaise _ _ => true | _ => false end) tr).
Definition s_completed (o : nat) (tr : list sevent) : nat := length (filter (fun e => match e with SEDone o' _ _ _ => o' =? o | _ => false end) tr).
(** No call of raise() is running, and every start() returned. *)
Definition s_quiet (s : sst) : Prop := (forall r, In r (s_rs s) -> exists j v, r = SLoop j [] v) /\ forall o t, s_op s o <> SRun t.
