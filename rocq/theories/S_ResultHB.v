(** Specification vocabulary for the happens-before model of result<T>. *)
From Coq Require Import List Arith Bool.
From Verif Require Import Lts M_Result M_HB.
Import ListNotations.

(** start() until the coroutine runs, and what the coroutine does *)
Definition co_event (e : revent) : bool := match e with REStart | RESuspend | REResume | REReturn _ => true | REDone _ | REDestroy => false end.
(** Whatever happens before an action of the coroutine happens before the notification of the receiver. *)
Definition sees_coroutine (tr : list (revent * hbs)) : Prop :=
  forall t1 x v t2, tr = t1 ++ (REDone x, v) :: t2 -> forall e u, In (e, u) t1 -> co_event e = true -> incl u v.
