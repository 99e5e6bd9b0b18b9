(** Specification vocabulary for the happens-before model of post_ack. *)
From Coq Require Import List Arith Bool.
From Verif Require Import Lts M_HB M_PostAckHB.
Import ListNotations.

(** The events between post() of p and its completion *)
Definition about (p : nat) (e : kevent) : bool := match e with EPost q | EGot _ q | ERead _ q | EAck _ q | ERetire _ q => q =? p | _ => false end.
(** v: what happens before an event that comes after tr.  It includes whatever happens before the post of p. *)
Definition sees_post (p : nat) (tr : list (kevent * hbs)) (v : hbs) : Prop := (exists u, In (EPost p, u) tr) /\ forall u, In (EPost p, u) tr -> incl u v.
(** ... and whatever happens before anything that was done with p *)
Definition sees_all (p : nat) (tr : list (kevent * hbs)) (v : hbs) : Prop := forall e u, In (e, u) tr -> about p e = true -> incl u v.
