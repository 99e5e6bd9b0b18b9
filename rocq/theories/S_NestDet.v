(** Determinism of sequential nestings. *)
From Coq Require Import List Arith Bool.
From Verif Require Import Lts M_Nest.
Import ListNotations.

(** The environment answers differently: the same user function returns, or the same operation completes with, different values. *)
Inductive answers : nevent -> nevent -> Prop :=
| an_ret : forall f a b, a <> b -> answers (NRet f a) (NRet f b)
| an_comp : forall i a b, a <> b -> answers (NComp i a) (NComp i b).
(** The first difference of two traces is an answer of the environment. *)
Definition diverge (t t' : list nevent) : Prop := exists p e e' u u', t = p ++ e :: u /\ t' = p ++ e' :: u' /\ answers e e'.
Definition prefix (t t' : list nevent) : Prop := exists u, t' = t ++ u.
(** What the environment said *)
Definition answer (e : nevent) : bool := match e with NRet _ _ | NComp _ _ => true | _ => false end.
Definition said (tr : list nevent) : list nevent := filter answer tr.
