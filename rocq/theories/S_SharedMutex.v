(** Specification vocabulary for shared_mutex, in addition to S_Mutex. *)
From Coq Require Import List Arith Bool.
From Verif Require Import Lts M_Mutex S_Mutex M_SharedMutex.
Import ListNotations.

(** No call is in flight. *)
Definition r_quiet (s : rst) : Prop := forall a, In a (r_act s) -> a = REnd.
(** Steps of calls in flight; number of spurious failures *)
Definition r_internal (l : rlabel) : Prop := match l with RStep _ _ => True | _ => False end.
Definition r_nspur (ls : list rlabel) : nat := length (filter (fun l => match l with RStep _ true => true | _ => false end) ls).
