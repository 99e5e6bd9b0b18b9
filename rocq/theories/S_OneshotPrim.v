(** Specification vocabulary for oneshot_primitive, on traces. *)
From Coq Require Import List Arith Bool.
From Verif Require Import Lts M_Mutex M_OneshotPrim.
Import ListNotations.

Definition d_started (tr : list devent) : list nat := flat_map (fun e => match e with VStart o => [o] | _ => [] end) tr.
Definition d_done (tr : list devent) : list nat := flat_map (fun e => match e with VDone o => [o] | _ => [] end) tr.
Definition d_raises (tr : list devent) : nat := length (filter (fun e => match e with VRaise => true | _ => false end) tr).

(** Client rule: raise() is called at most once; the oneshot_primitive is destroyed only after a wait completed, when all waits
    that were started have completed, and is not used afterwards. *)
Definition d_rule (tr : list devent) : Prop :=
  d_raises tr <= 1 /\
  forall t1 t2, tr = t1 ++ VDestroy :: t2 ->
    d_done t1 <> [] /\ incl (d_started t1) (d_done t1) /\ forall e, In e t2 -> exists o, e = VDone o.

(** No call is in flight. *)
Definition d_quiet (s : dst) : Prop := forall a, In a (d_act s) -> a = DEnd.
(** Steps of calls in flight; number of spurious failures *)
Definition d_internal (l : dlabel) : Prop := match l with DStep _ _ => True | _ => False end.
Definition d_nspur (ls : list dlabel) : nat := length (filter (fun l => match l with DStep _ true => true | _ => false end) ls).
