(** Specification of queue::empty() on traces. *)
From Coq Require Import List Arith Bool.
From Verif Require Import Lts M_Wait S_Wait M_Queue S_Queue M_HB M_QueueHB.
Import ListNotations.

Section Spec.
Context {T : Type}.

(** The trace without the calls of empty() *)
Fixpoint others (tr : list (qm_event T)) : list (event (queue_prim T)) :=
  match tr with
  | [] => []
  | QE e :: tr' => e :: others tr'
  | EEmpty _ :: tr' => others tr'
  end.

(** empty() was not called *)
Definition no_empty (tr : list (qm_event T)) : Prop := forall b, ~ In (EEmpty b) tr.

(** Nothing was put into or taken from the queue: no put() or emplace(), no maybe_get(), no start of an async_get() *)
Definition untouched (tr : list (qm_event T)) : Prop :=
  forall e, In (QE e) tr -> match e with EStart _ _ _ | EPrim _ => False | _ => True end.
End Spec.
