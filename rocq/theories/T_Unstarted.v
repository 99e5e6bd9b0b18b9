(** C101: nested operations that are destroyed without start(). *)
From Coq Require Import List Arith Bool.
From Verif Require Import M_Connect S_Connect P_Connect M_Unstarted S_Unstarted P_Unstarted.
Import ListNotations.

(** Every member is used only while it is alive, none is initialized or destroyed twice, get_env() finds the environment of the client, and in the end everything is destroyed. *)
Theorem C101_unstarted_lifetimes : forall e env, careful_u e = true -> exists m es, exec fresh (life0 e env) = Some (m, es) /\ (forall x, In x es -> x = env) /\ forall c, m c = false.
Proof. exact life0_ok. Qed.
Print Assumptions C101_unstarted_lifetimes.

(** The conditions are exactly what is needed; in particular no operation of let() that is connected at once can be destroyed (C45 in every nesting). *)
Theorem C101_unstarted_exactly : forall e env, exec fresh (life0 e env) = None <-> careful_u e = false.
Proof.
  intros e env. split.
  - intros H. destruct (careful_u e) eqn:E; [|reflexivity]. destruct (life0_ok e env E) as (m & es & H' & _). congruence.
  - intros H. destruct (exec fresh (life0 e env)) as [x|] eqn:E; [|reflexivity]. rewrite (life0_only e env x E) in H. discriminate.
Qed.
Print Assumptions C101_unstarted_exactly.

(** Witnesses: a nesting with everything that is allowed, where a leaf calls get_env() in connect() and in its destructor; sequence() around let() *)
Definition ask : sexp := SLeaf (LF true true true true true true).
Example C101_run : let e := STransform (SRace (SCons false (SIte true ask ask) (SCons false (SInGroup (SLeaf (LF true false false false true false))) (SCons false (SWithCancel (SRepeat 2 (SLet ask))) SNil)))) in
  careful_u e = true /\ exists m, exec fresh (life0 e 5) = Some (m, [5; 5]).
Proof. split; [reflexivity|]. eexists. vm_compute. reflexivity. Qed.
(** let() below when_all(), connected at once; the destructor of an operation below with_cancel_cb() that calls get_env() *)
Example C101_let : careful_u (SWhenAll (SCons false ask (SCons false (SLet ask) SNil))) = false /\ careful_u (SWithCancel (SLeaf (LF false false false false true false))) = false /\ careful (SLet ask) = true.
Proof. repeat split. Qed.
