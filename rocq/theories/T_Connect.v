(** C99, C100: construction and destruction of the operations of nested algorithms. *)
From Coq Require Import List Arith Bool.
From Verif Require Import M_Connect S_Connect P_Connect.
Import ListNotations.

(** ** C99 *)
(** If the clients are careful, then from connect() to the destructor every member is used only while it is alive, no member is initialized or destroyed twice, get_env() always returns the environment of
    the receiver of the client, and in the end everything is destroyed. *)
Theorem C99_connect_lifetimes : forall e env, careful e = true -> exists m es, exec fresh (life e env) = Some (m, es) /\ (forall x, In x es -> x = env) /\ forall c, m c = false.
Proof. exact life_ok. Qed.
Print Assumptions C99_connect_lifetimes.

(** *** Witnesses *)
(** A leaf that only stores its token and its receiver, and uses both in start(); one that calls get_env() everywhere; one that uses its tokens everywhere *)
Definition lazy : sexp := SLeaf (LF false false true true false false).
Definition asker : sexp := SLeaf (LF true false true true true false).
Definition registrar : sexp := SLeaf (LF false true true true false true).
(** Everything at once: get_env() in connect(), start() and the destructor passes through race_and_cancel(), when_all(), transform(), sequence() and repeat_while() *)
Definition big : sexp :=
  STransform (SRace (SCons false asker (SCons false (SWithCancel (SLet lazy)) (SCons false (SLambda (SWhenAll (SCons false asker (SCons false (SInGroup asker) SNil))))
    (SCons false (SSequence (SCons false registrar (SCons false (SRepeat 3 (SIte true asker registrar)) SNil))) SNil))))).
Example C99_big : careful big = true /\ exists es, exec fresh (life big 7) = Some (fst (match exec fresh (life big 7) with Some x => x | None => (fresh, []) end), es) /\ es = repeat 7 20.
Proof. split; [reflexivity|]. eexists. split; vm_compute; reflexivity. Qed.
(** Below repeat_while() and sequence() a leaf may do everything, since they connect it in start(). *)
Example C99_inner : careful (SRace (SCons false (SSequence (SCons false registrar SNil)) SNil)) = true /\ careful (SWithCancel (SRepeat 2 asker)) = true /\ careful (SWithCancel (SLet lazy)) = true.
Proof. repeat split. Qed.
(** The specification of the execution is not vacuous: uses outside of the lifetime, double initialization and double destruction fail. *)
Example C99_strict : exec fresh [AUse ([], FOp)] = None /\ exec fresh [AInit ([], FOp); AEnd ([], FOp); AUse ([], FOp)] = None /\ exec fresh [AInit ([], FOp); AInit ([], FOp)] = None /\
  exec fresh [AInit ([], FOp); AEnd ([], FOp); AEnd ([], FOp)] = None /\ exec fresh [AEnv (RPtr [] (RRoot 0))] = None.
Proof. repeat split. Qed.

(** ** C100: any client *)
(** race_and_cancel(): a functor that looks at its token when it is called, a sender whose connect() uses it, and an operation whose destructor uses it access the event outside of its lifetime. *)
Theorem C100_race_connect_refuted : exists e1 e2 e3, (forall env, exec fresh (life e1 env) = None) /\ (forall env, exec fresh (life e2 env) = None) /\ (forall env, exec fresh (life e3 env) = None) /\
  e1 = SRace (SCons true lazy SNil) /\ e2 = SRace (SCons false (SLeaf (LF false true false false false false)) SNil) /\ e3 = SRace (SCons false (SLeaf (LF false false false false false true)) SNil).
Proof. do 3 eexists. split; [|split; [|split; [|auto]]]; intros env; vm_compute; reflexivity. Qed.
Print Assumptions C100_race_connect_refuted.

(** with_cancel_cb(): a sender whose connect() calls get_env(), and an operation whose destructor does. *)
Theorem C100_with_cancel_cb_connect_refuted : exists e1 e2, (forall env, exec fresh (life e1 env) = None) /\ (forall env, exec fresh (life e2 env) = None) /\
  e1 = SWithCancel (SLeaf (LF true false false false false false)) /\ e2 = SWithCancel (SLeaf (LF false false false false true false)).
Proof. do 2 eexists. split; [|split; [|auto]]; intros env; vm_compute; reflexivity. Qed.
Print Assumptions C100_with_cancel_cb_connect_refuted.

(** What holds for any client: the conditions of C99 are exactly what is needed, every nesting that violates them uses a member outside of its lifetime in some phase. *)
Theorem C100_connect_exactly_partial : forall e env, exec fresh (life e env) = None <-> careful e = false.
Proof.
  intros e env. split.
  - intros H. destruct (careful e) eqn:E; [|reflexivity]. destruct (life_ok e env E) as (m & es & H' & _). congruence.
  - intros H. destruct (exec fresh (life e env)) as [x|] eqn:E; [|reflexivity]. rewrite (life_only e env x E) in H. discriminate.
Qed.
Print Assumptions C100_connect_exactly_partial.
(** Deep below the defect: the connect() of a leaf below when_all(), lambda() and race_and_cancel(). *)
Example C100_deep : careful (SWithCancel (SLambda (SWhenAll (SCons false lazy (SCons false (SRace (SCons false asker SNil)) SNil))))) = false /\ careful (SRace (SCons false (SInGroup (SLet registrar)) SNil)) = false.
Proof. split; reflexivity. Qed.
