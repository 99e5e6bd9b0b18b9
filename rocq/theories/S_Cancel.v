(** Specification vocabulary for cancellation_event, cancellation_callback and cancellation_observer, on traces. *)
From Coq Require Import List Arith Bool.
From Verif Require Import Lts M_Cancel.
Import ListNotations.

(** Calls of functors, in order *)
Definition runs (tr : list cevent) : list nat := flat_map (fun e => match e with KRun c _ => [c] | _ => [] end) tr.

(** Whether cancellation of [e] is requested: cancel() was called, and reset() was not called afterwards *)
Definition reqd (e : nat) (tr : list cevent) : bool :=
  fold_left (fun b ev => match ev with KCancel e' => if e' =? e then true else b | KResetEv e' => if e' =? e then false else b | _ => b end) tr false.

(** [c] was given a token of [e]; with the exception of a try_set() that failed *)
Definition uses (c e : nat) (tr : list cevent) : Prop :=
  In (KNew c (Some e)) tr \/ (exists b, In (KSet c (Some e) b) tr) \/ In (KForce c (Some e)) tr.
Definition armed (c e : nat) (tr : list cevent) : Prop :=
  In (KNew c (Some e)) tr \/ In (KSet c (Some e) true) tr \/ In (KForce c (Some e)) tr.
(** [c] was detached from its event *)
Definition removed (c : nat) (tr : list cevent) : Prop := In (KUnbind c) tr \/ In (KReset c true) tr \/ In (KDel c) tr.
(** cancel() of [e] was called after [c] was armed and before it was detached *)
Definition called (c e : nat) (tr : list cevent) : Prop :=
  exists t1 t2, tr = t1 ++ KCancel e :: t2 /\ armed c e t1 /\ ~ removed c t1.

(** Client rules; each is stated for the trace [t] before the event *)
Definition k_rule1 (t : list cevent) (ev : cevent) : Prop :=
  match ev with
  (* after unbind(), unbind() is not called again and the callback is not destroyed, unless cancellation is requested *)
  | KUnbind c => In (KUnbind c) t -> forall e, uses c e t -> reqd e t = true
  | KDel c =>
      (In (KUnbind c) t -> forall e, uses c e t -> reqd e t = true) /\
      (* a node whose functor will be called by cancel() is not destroyed before that call has begun *)
      (forall e, called c e t -> In c (runs t)) /\
      (* an observer that was set is not destroyed before try_reset() succeeded or the handler was called *)
      (forall e, In (KSet c (Some e) true) t \/ In (KForce c (Some e)) t -> In (KReset c true) t \/ In c (runs t))
  (* an observer is given a token once; try_reset() is not called again after it returned true *)
  | KSet c _ _ | KForce c _ => forall e, ~ uses c e t
  | KReset c _ => ~ In (KReset c true) t
  (* reset() is called only if cancellation is not requested or when all nodes that used the event are destroyed *)
  | KResetEv e => reqd e t = false \/ forall c, uses c e t -> In (KDel c) t
  (* an event is destroyed when all nodes that used it are destroyed *)
  | KDelEv e => forall c, uses c e t -> In (KDel c) t
  (* a functor called by the constructor of its callback does not use the token *)
  | KFQuery c _ => ~ In (KRun c HCtor) t
  | _ => True
  end.
Definition k_rule (tr : list cevent) : Prop := forall t1 ev t2, tr = t1 ++ ev :: t2 -> k_rule1 t1 ev.

(** No call is in flight. *)
Definition c_quiet (s : cst) : Prop := (forall f, In f (c_fns s) -> f = FEnd) /\ (forall l, In l (c_loops s) -> l = CL [] None).
(** Steps of calls in flight *)
Definition c_internal (l : clabel) : Prop := match l with LLoop _ | LRet _ => True | _ => False end.
(** Why the functor of [c] is called: the event is cancelled already when the callback is constructed or the observer is set with
    force_set(), or cancel() was called while it was registered *)
Definition cause (c : nat) (h : how) (t : list cevent) : Prop :=
  match h with
  | HCtor => exists e t0, t = t0 ++ [KNew c (Some e)] /\ reqd e t0 = true
  | HForce => exists e t0, t = t0 ++ [KForce c (Some e)] /\ reqd e t0 = true
  | HCancel => exists e, called c e t
  end.
