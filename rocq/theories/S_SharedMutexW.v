(** Specification vocabulary for the weak-memory model of shared_mutex, on traces. *)
From Coq Require Import List Arith Bool.
From Verif Require Import Lts M_Mutex S_Mutex M_Weak M_SharedMutexW.
Import ListNotations.

(** The API events of a trace *)
Definition sapi (tr : list sevent) : ltrace := flat_map (fun e => match e with EA e => [e] | _ => [] end) tr.
(** Number of accesses to the protected data *)
Definition saccs (tr : list sevent) : nat := length (filter (fun e => match e with EA _ => false | _ => true end) tr).
(** The accesses that are writes *)
Definition swrites (tr : list sevent) : list nat := flat_map (fun e => match e with EWr n _ => [n] | _ => [] end) tr.
(** Accesses are numbered consecutively; every write happens after all accesses before it, and every read happens after all
    writes before it: there is no data race, and every owner sees what the exclusive owners before it have written. *)
Definition writes_ordered (tr : list sevent) : Prop :=
  forall t1 n before t2, tr = t1 ++ EWr n before :: t2 -> n = saccs t1 /\ forall m, m < n -> In m before.
Definition reads_ordered (tr : list sevent) : Prop :=
  forall t1 n before t2, tr = t1 ++ ERd n before :: t2 -> n = saccs t1 /\ forall m, In m (swrites t1) -> In m before.
Definition srace_free (tr : list sevent) : Prop := writes_ordered tr /\ reads_ordered tr.

(** no exclusive operation was suspended *)
Definition x_never_suspends (tr : list sevent) : Prop := forall o, In (EStart o true) (sapi tr) -> ~ In (ESusp o) (sapi tr).
