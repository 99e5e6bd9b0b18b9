(** Specification vocabulary for the comparison of the weak-memory models with the interleaving models. *)
From Coq Require Import List Arith Bool.
From Verif Require Import Lts M_Mutex M_OneshotPrim M_MutexW S_MutexW M_OneshotW S_OneshotW.
Import ListNotations.

(** The events of M_OneshotW without happens-before information are events of M_OneshotPrim. *)
Definition sc_ev (e : qevent) : devent := match e with QEStart o _ => VStart o | QERaise _ => VRaise | QEDone o _ => VDone o end.
(** All calls on the mutex have returned *)
Definition x_quiet (s : xst) : Prop := forall a v, In (a, v) (x_act s) -> a = AEnd.
