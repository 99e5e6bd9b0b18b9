(** Specifications of run(), detach() and spawn(). *)
From Coq Require Import List Arith Bool.
From Verif Require Import Lts M_Run.
Import ListNotations.

Definition u_rets (tr : list uevent) : list nat := flat_map (fun e => match e with UERet v => [v] | _ => [] end) tr.
Definition u_comps (tr : list uevent) : list nat := flat_map (fun e => match e with UEComp v => [v] | _ => [] end) tr.
(** The steps that the call of set_value() and the thread of run() take *)
Definition u_set (l : ulabel) : Prop := match l with ULEmplace | ULDone => True | _ => False end.
Definition u_run (l : ulabel) : Prop := match l with ULStartRet | ULCheck | ULWaitRet => True | _ => False end.

(** All that happens when an operation is detached; is spawned *)
Definition detach_trace (v : nat) : list devent := [DEAlloc; DEStart; DEComp v; DEFree; DECont].
Definition spawn_trace (v : nat) : list devent := [DEAlloc; DEStart; DEComp v; DERecv v; DEFree].
Definition prefix {A} (a b : list A) : Prop := exists c, b = a ++ c.
