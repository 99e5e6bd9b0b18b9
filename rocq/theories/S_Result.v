(** Specification of result<T>. *)
From Coq Require Import List Arith Bool.
From Verif Require Import Lts M_Result.
Import ListNotations.

(** The values that the coroutine returned, and those that the receiver got *)
Definition r_rets (tr : list revent) : list nat := flat_map (fun e => match e with REReturn v => [v] | _ => [] end) tr.
Definition r_dones (tr : list revent) : list nat := flat_map (fun e => match e with REDone v => [v] | _ => [] end) tr.
(** What the client must respect: the operation is destroyed after its receiver was notified, or it is never started. *)
Definition r_rule (tr : list revent) : Prop :=
  forall t1 t2, tr = t1 ++ REDestroy :: t2 -> (exists v, In (REDone v) t1) \/ ~ In REStart tr.
(** The steps of the library *)
Definition r_internal (l : rlabel) : Prop := match l with RLFinal | RLExch | RLNotify | RLNotifyInline => True | _ => False end.
(** No thread is inside of library code. *)
Definition r_quiet (s : rst) : Prop := forall l, r_internal l -> r_step s l = Disabled.
