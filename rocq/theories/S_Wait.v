(** Specification vocabulary for cancellable waits: functions and predicates on traces of API events only.
    (An [EStart o tok a] event is the call of start() on operation [o] whose token refers to event [tok],
    [EDone o v] is the call of set_value(v) on its receiver, [ECancel e] is the call of cancel() on event [e].) *)
From Coq Require Import List Arith Bool.
From Verif Require Import Lts M_Wait.
Import ListNotations.

Section Spec.
Context {P : prim}.
Notation trace := (list (event P)).

(** How often the receiver of [o] was notified. *)
Fixpoint notified (o : nat) (tr : trace) : nat :=
  match tr with
  | [] => 0
  | EDone o' _ :: tr' => (if Nat.eqb o' o then 1 else 0) + notified o tr'
  | _ :: tr' => notified o tr'
  end.

(** The operations that were started, in order. *)
Fixpoint starts (tr : trace) : list nat :=
  match tr with
  | [] => []
  | EStart o _ _ :: tr' => o :: starts tr'
  | _ :: tr' => starts tr'
  end.

Definition started (o : nat) (tr : trace) : Prop := In o (starts tr).

(** Operation [o] was started with a token of event [e]. *)
Definition uses_event (o e : nat) (tr : trace) : Prop := exists a, In (EStart o (Some e) a) tr.

(** cancel() was called on the event behind the token of [o]. *)
Definition cancel_requested (o : nat) (tr : trace) : Prop :=
  exists e, uses_event o e tr /\ In (ECancel e) tr.

(** The steps that library calls in flight can take on their own: no new API call, no destruction. *)
Definition internal (l : label P) : bool :=
  match l with LPath _ _ | LCanNext _ | LWakeNext _ => true | _ => false end.

(** All library calls in flight have returned: no start()/listen(), complete() or call() is still running
    and no waker or canceller still has nodes in its local list. *)
Definition all_returned (s : cst P) : Prop :=
  (forall o, all_ended (c_op s o) = true) /\
  (forall lp, In lp (c_wk s) \/ In lp (c_cn s) -> lp_rest lp = []).

(** None of the library calls in flight can take another step. *)
Definition stuck (eager : bool) (s : cst P) : Prop :=
  forall l, internal l = true -> step P eager s l = Disabled.

(** No sequence of internal steps from [s] is longer than [n]. *)
Definition finishes_within (eager : bool) (n : nat) (s : cst P) (tr : trace) : Prop :=
  forall ls s' tr', (forall l, In l ls -> internal l = true) ->
    run_from (step P eager) s tr ls = Running s' tr' -> length ls <= n.

End Spec.

(** Some event satisfying [f] happened after the start of operation [o]. *)
Fixpoint event_after {P : prim} (f : event P -> bool) (o : nat) (tr : list (event P)) : bool :=
  match tr with
  | [] => false
  | EStart o' _ _ :: tr' => if Nat.eqb o' o then existsb f tr' else event_after f o tr'
  | _ :: tr' => event_after f o tr'
  end.
