(** Specification vocabulary for race_and_cancel. *)
From Coq Require Import List Arith Bool.
From Verif Require Import Lts M_Race.
Import ListNotations.

(** Number of notifications of the receiver *)
Definition r_dones (tr : list revent) : nat := length (filter (fun e => match e with REDone => true | _ => false end) tr).
(** The operations that were started, that completed, whose token was cancelled, in order *)
Definition r_children (tr : list revent) : list nat := flat_map (fun e => match e with REChild i => [i] | _ => [] end) tr.
Definition r_comps (tr : list revent) : list nat := flat_map (fun e => match e with REComp i => [i] | _ => [] end) tr.
Definition r_cancels (tr : list revent) : list nat := flat_map (fun e => match e with RECancel i => [i] | _ => [] end) tr.
(** The operation that completed first *)
Definition r_first (tr : list revent) (w : nat) : Prop := exists l, r_comps tr = w :: l.
(** What the client must respect: the operation is destroyed after the notification of its receiver, and not before the completion call of
    the operation that completed first has returned. *)
Definition r_rule (tr : list revent) : Prop := forall t1 t2, tr = t1 ++ REDestroy :: t2 -> In REDone t1 /\ forall w, r_first t1 w -> In (RECRet w) t1.
(** No call is in flight. *)
Definition r_quiet (s : rst) : Prop := (r_main s = RIdle \/ r_main s = REnd) /\ forall a, In a (r_acts s) -> exists i, a = RR i.
(** Steps of calls in flight *)
Definition r_internal (l : rlabel) : Prop := match l with RLStep | RLAct _ => True | _ => False end.
