(** Specification vocabulary for wait_group, wait_in_group and oneshot_event: functions on traces. *)
From Coq Require Import List Arith Bool.
From Verif Require Import Lts M_Wait S_Wait M_WaitGroup.
Import ListNotations.

Section Spec.
Context {V : Type} {n0 : nat}.
Notation P := (wait_group V n0).
Notation trace := (list (event P)).

(** Units added by an event: add(n), and the start of an operation wrapped by wait_in_group. *)
Definition adds (e : event P) : nat :=
  match e with EPrim (EAdd n) => n | EPrim (EInStart _) => 1 | _ => 0 end.
(** Calls of done(), also by wait_in_group. *)
Definition calls (e : event P) : nat :=
  match e with EPrim EDoneCall => 1 | EPrim (EInDone _ _) => 1 | _ => 0 end.
(** Notifications of receivers of wrapped operations. *)
Definition outs (e : event P) : nat := match e with EPrim (EInOut _ _) => 1 | _ => 0 end.

Definition total (f : event P -> nat) (tr : trace) : nat := sum (map f tr).
(** All units ever: the initial ones and those added. *)
Definition units (tr : trace) : nat := n0 + total adds tr.
Definition dones (tr : trace) : nat := total calls tr.

(** Client rule: done() is called at most once per unit. *)
Definition wg_rule (tr : trace) : Prop := forall t1 t2, tr = t1 ++ t2 -> dones t1 <= units t1.

(** Client rule: a group whose units are all gone is only re-used when all of its waits are over. *)
Definition reuse_rule (tr : trace) : Prop := forall t1 e t2, tr = t1 ++ e :: t2 -> adds e > 0 -> dones t1 >= units t1 ->
  forall o, started o t1 -> notified o t1 = 1.

(** All calls of done() and of wait_in_group's set_value are past their last step. *)
Definition done_returned (s : cst P) : Prop := forall d, In d (w_dn (c_prim s)) -> snd d = DEnd.

(** The events of the wrapped operation [i] *)
Fixpoint in_events (i : nat) (tr : trace) : list (wevent V) :=
  match tr with
  | [] => []
  | EPrim (EInStart j) :: tr' => (if Nat.eqb j i then [EInStart j] else []) ++ in_events i tr'
  | EPrim (EInDone j v) :: tr' => (if Nat.eqb j i then [EInDone j v] else []) ++ in_events i tr'
  | EPrim (EInOut j v) :: tr' => (if Nat.eqb j i then [EInOut j v] else []) ++ in_events i tr'
  | _ :: tr' => in_events i tr'
  end.
(** Calls of add() and done() by others. *)
Definition own_adds (e : event P) : nat := match e with EPrim (EAdd n) => n | _ => 0 end.
Definition own_calls (e : event P) : nat := match e with EPrim EDoneCall => 1 | _ => 0 end.
(** Wrapped operations started / completed inside. *)
Definition in_starts (e : event P) : nat := match e with EPrim (EInStart _) => 1 | _ => 0 end.
Definition in_dones (e : event P) : nat := match e with EPrim (EInDone _ _) => 1 | _ => 0 end.

End Spec.
