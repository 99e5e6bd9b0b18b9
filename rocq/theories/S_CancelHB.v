(** Specification vocabulary for the happens-before model of cancellation_event. *)
From Coq Require Import List Arith Bool.
From Verif Require Import Lts M_HB M_Cancel S_Cancel.
Import ListNotations.

Notation ctrace := (list (cevent * hbs)).
(** v: what happens before an event that comes after t.  It includes whatever happens before the calls of cancel() of e *)
Definition sees_cancel (e : nat) (t : ctrace) (v : hbs) : Prop := forall u, In (KCancel e, u) t -> incl u v.
(** ... whatever happens before c is given its token *)
Definition gives (c : nat) (ev : cevent) : bool := match ev with KNew c' (Some _) | KSet c' (Some _) _ | KForce c' (Some _) => c' =? c | _ => false end.
Definition sees_set (c : nat) (t : ctrace) (v : hbs) : Prop := forall ev u, In (ev, u) t -> gives c ev = true -> incl u v.
(** ... whatever happens before the call of cancel() that causes the call of the functor of c, see [cause] *)
Definition sees_cause (c : nat) (h : how) (t : ctrace) (v : hbs) : Prop :=
  match h with
  | HCancel => exists e t1 u t2, t = t1 ++ (KCancel e, u) :: t2 /\ armed c e (map fst t1) /\ ~ removed c (map fst t1) /\ incl u v
  | _ => exists e, uses c e (map fst t) /\ (exists u, In (KCancel e, u) t) /\ sees_cancel e t v
  end.
Definition sees_ok (t : ctrace) (ev : cevent) (v : hbs) : Prop :=
  match ev with
  | KRun c h => sees_set c t v /\ sees_cause c h t v
  | KNew _ (Some e) | KSet _ (Some e) _ | KForce _ (Some e) | KQuery e _ => sees_cancel e t v
  | KReset c _ | KFQuery c _ => forall e, uses c e (map fst t) -> sees_cancel e t v
  | _ => True
  end.
