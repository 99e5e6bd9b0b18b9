(** Specification vocabulary for the weak-memory models of mutex and shared_mutex, on traces. *)
From Coq Require Import List Arith Bool.
From Verif Require Import Lts M_Mutex S_Mutex M_Weak M_MutexW.
Import ListNotations.

(** The API events of a trace *)
Definition api (tr : list wevent) : ltrace := flat_map (fun e => match e with EL e => [e] | EAcc _ _ => [] end) tr.
(** Number of accesses to the protected data *)
Definition naccs (tr : list wevent) : nat := length (filter (fun e => match e with EAcc _ _ => true | EL _ => false end) tr).
(** Accesses are numbered consecutively, and every access to the protected data happens after all accesses before it (by
    any thread): there is no data race, and every owner sees what the owners before it have written. *)
Definition race_free (tr : list wevent) : Prop :=
  forall t1 n before t2, tr = t1 ++ EAcc n before :: t2 -> n = naccs t1 /\ forall m, m < n -> In m before.
