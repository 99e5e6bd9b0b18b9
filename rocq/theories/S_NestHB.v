(** Happens-before in nestings of the algorithms. *)
From Coq Require Import List Arith Bool.
From Verif Require Import Lts M_Nest M_NestHB.
Import ListNotations.

(** Starts and completions of senders, calls and returns of user functions *)
Definition of_client (e : nevent) : Prop := match e with NCancel _ _ | NDone _ => False | _ => True end.
(** Whoever is notified knows all of them. *)
Definition sees_all (tr : list hevent) : Prop :=
  forall a b t u, tr = t ++ HDone a b :: u -> forall m e, nth_error t m = Some (HE e) -> of_client e -> In m b.
(** without the numbers *)
Definition forget (tr : list hevent) : list nevent := map (fun e => match e with HE e' => e' | HDone a _ => NDone a end) tr.
