(** Specification vocabulary for when_all. *)
From Coq Require Import List Arith Bool.
From Verif Require Import Lts M_WhenAll.
Import ListNotations.

(** Number of notifications of the receiver *)
Definition a_dones (tr : list aevent) : nat := length (filter (fun e => match e with AEDone => true | _ => false end) tr).
(** The operations that were started *)
Definition a_children (tr : list aevent) : list nat := flat_map (fun e => match e with AEChild i => [i] | _ => [] end) tr.
(** What the client must respect: the operation is destroyed after the notification of its receiver; not all operations complete before
    start() has returned. *)
Definition a_rule (n : nat) (tr : list aevent) : Prop := forall t1 e t2, tr = t1 ++ e :: t2 ->
  match e with
  | AEDestroy => In AEDone t1
  | AEComp i => In AERet t1 \/ exists j, j < n /\ j <> i /\ ~ In (AEComp j) t1
  | _ => True
  end.
(** No call is in flight. *)
Definition a_quiet (s : ast) : Prop := (a_main s = AIdle \/ a_main s = AEnd) /\ a_pend s = 0.
(** Steps of calls in flight *)
Definition a_internal (l : alabel) : Prop := match l with ALStep | ALNotify => True | _ => False end.
