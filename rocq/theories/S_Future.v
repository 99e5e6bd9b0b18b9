(** Specification vocabulary for promise / future: functions on traces. *)
From Coq Require Import List Arith Bool.
From Verif Require Import Lts M_Wait S_Wait M_Future.
Import ListNotations.

Section Spec.
Context {T : Type}.
Notation P := (future_prim T).

(** The values passed to set_value(), in order. *)
Fixpoint sets (tr : list (event P)) : list T :=
  match tr with
  | [] => []
  | EPrim (ESet x) :: tr' => x :: sets tr'
  | _ :: tr' => sets tr'
  end.

(** Client rule: set_value() is called at most once. *)
Definition set_once (tr : list (event P)) : Prop := length (sets tr) <= 1.

(** The operation was started and its event cancelled before set_value() took effect. *)
Definition cancelled_before_set (o : nat) (tr : list (event P)) : Prop :=
  exists ta tb, tr = ta ++ tb /\ cancel_requested o ta /\ sets ta = [].

(** Calls other than set_value(). *)
Definition quiet (c : flcall T) : Prop := match c with CSet _ | CWake => False | _ => True end.

End Spec.
