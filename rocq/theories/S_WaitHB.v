(** Specification vocabulary for the happens-before model of waits. *)
From Coq Require Import List Arith Bool.
From Verif Require Import Lts M_Wait S_Wait M_WaitHB M_PostAck.
Import ListNotations.

Section Spec.
Context {P : prim}.

(** The calls and notifications, without the happens-before relation *)
Fixpoint api (tr : list (hevent P)) : list (event P) :=
  match tr with
  | [] => []
  | HE e _ :: tr' => e :: api tr'
  | HCall _ _ _ :: tr' => api tr'
  end.

(** The access d was made just before a call that locks the mutex of the primitive *)
Definition locking_call (d : nat) (tr : list (hevent P)) : Prop := exists os, In (HCall KLocked d os) tr.

(** The receiver of o sees what was done before each call that took over o in order to complete it *)
Definition calls_visible (tr : list (hevent P)) : Prop :=
  forall t1 o x v t2, tr = t1 ++ HE (EDone o x) v :: t2 -> forall c d os, In (HCall c d os) t1 -> In o os -> In d v.

(** The receiver of o sees what was done before each call that locked the mutex before o was started *)
Definition earlier_visible (tr : list (hevent P)) : Prop :=
  forall ta o t a w tb x v t2, tr = ta ++ HE (EStart o t a) w :: tb ++ HE (EDone o x) v :: t2 -> forall d, locking_call d ta -> In d v.

(** The client destroys the operation o after its receiver was notified, although somebody called cancel() on its event *)
Definition destroyed_early (o : nat) (tr : list (hevent P)) : Prop := notified o (api tr) = 1 /\ cancel_requested o (api tr).

End Spec.

(** The post operation p was started *)
Definition posted {T : Type} (p : nat) (tr : list (event (post_ack T))) : Prop := exists x, In (EPrim (EPost p x : PE (post_ack T))) tr.
