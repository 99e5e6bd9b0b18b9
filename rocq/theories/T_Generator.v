(** C47, C48: generator<T>. *)
From Coq Require Import List Arith Bool.
From Verif Require Import Lts M_Generator S_Generator P_Generator.
Import ListNotations.

(** C47: the consumer gets what the body produced, in order: values, and null at the end. *)
Theorem C47_generator_values ls s tr :
  run g_step g_init ls = Running s tr -> g_rule tr ->
  (exists u, g_made tr = g_got tr ++ u /\ length u <= 1) /\
  exists vs, g_made tr = map Some vs \/ g_made tr = map Some vs ++ [None].
Proof. exact (gen_values ls s tr). Qed.
Print Assumptions C47_generator_values.

(** C47: the next() operations complete in the order in which they were started, at most once each. *)
Theorem C47_generator_once ls s tr :
  run g_step g_init ls = Running s tr -> g_rule tr ->
  NoDup (g_dones tr) /\ exists w, g_nexts tr = g_dones tr ++ w /\ length w <= 1.
Proof. exact (gen_once ls s tr). Qed.
Print Assumptions C47_generator_once.

(** C47: when no thread is inside of the library, everything that the body produced was delivered, and a next() operation that
    has not completed waits for a body that is running or can be resumed. *)
Theorem C47_generator_complete ls s tr :
  run g_step g_init ls = Running s tr -> g_rule tr -> g_quiet s ->
  g_got tr = g_made tr /\
  (g_idle tr \/ (exists s', g_step s GLWake = Next s' [GEWake]) \/ (forall v, exists s', g_step s (GLYield v) = Next s' [GEYield v])).
Proof. exact (gen_complete ls s tr). Qed.
Print Assumptions C47_generator_complete.

(** C47: the body yields only while a consumer is waiting. *)
Theorem C47_generator_waited ls s tr :
  run g_step g_init ls = Running s tr -> g_rule tr ->
  forall t1 v t2, tr = t1 ++ GEYield v :: t2 -> ~ g_idle t1.
Proof. exact (gen_waited ls s tr). Qed.
Print Assumptions C47_generator_waited.

(** C47: no panic and no access to a destroyed object, also if the consumer destroys the operation and the generator when it is notified.
    The only failure of a client that respects the rules is a call of next() after the end. *)
Theorem C47_generator_safe ls f tr :
  run g_step g_init ls = Failed f tr -> g_rule tr ->
  f = ResumeFinished /\ exists t n, tr = t ++ [GENext n] /\ In None (g_got t).
Proof. exact (gen_safe ls f tr). Qed.
Print Assumptions C47_generator_safe.

(** Two values, one of them after an inner suspension; the next() operation is destroyed when it completes. *)
Example C47_demo :
  exists s, run g_step g_init
    [GLNext 0; GLYield 5; GLTake; GLComp; GLFree 0; GLNext 1; GLAwait; GLWake; GLYield 6; GLTake; GLComp; GLNext 2; GLReturn; GLTake; GLComp; GLDestroy] =
  Running s [GENext 0; GEYield 5; GEDone 0 (Some 5); GEFree 0; GENext 1; GEAwait; GEWake; GEYield 6; GEDone 1 (Some 6);
             GENext 2; GEReturn; GEDone 2 None; GEDestroy] /\ g_quiet s.
Proof. witness. intros [] H; try destruct H; vmrefl. Qed.

(** C48: next() after the end resumes a coroutine at its final suspension point, which is undefined. *)
Theorem C48_generator_after_end_refuted :
  exists ls tr, run g_step g_init ls = Failed ResumeFinished tr /\ g_rule tr /\
                tr = [GENext 0; GEReturn; GEDone 0 None; GENext 1].
Proof.
  exists [GLNext 0; GLReturn; GLTake; GLComp; GLNext 1], [GENext 0; GEReturn; GEDone 0 None; GENext 1]. split; [vmrefl|]. split; [|reflexivity].
  intros t1 e t2 He.
  destruct t1 as [|? t1]; simpl in He; [injection He as <- <-; repeat split; simpl; try tauto; intros n Hn; exact Hn|injection He as <- He].
  destruct t1 as [|? t1]; simpl in He; [injection He as <- <-; exact I|injection He as <- He].
  destruct t1 as [|? t1]; simpl in He; [injection He as <- <-; exact I|injection He as <- He].
  destruct t1 as [|? t1]; simpl in He; [injection He as <- <-|injection He as <- He; destruct t1; discriminate He].
  repeat split; simpl.
  - intros [H|H]; [discriminate H|exact H].
  - intros n Hn. exact Hn.
  - intros [H|[H|[H|H]]]; try discriminate H. exact H.
Qed.
Print Assumptions C48_generator_after_end_refuted.

(** C48: no state after the end lets next() report the end again. *)
Theorem C48_generator_after_end ls s tr n :
  run g_step g_init ls = Running s tr -> g_rule tr -> g_quiet s -> In None (g_got tr) ->
  g_rule (tr ++ [GENext n]) -> ~ In n (g_ops s) -> g_step s (GLNext n) = Fail ResumeFinished [GENext n].
Proof. exact (gen_after_end ls s tr n). Qed.
Print Assumptions C48_generator_after_end.
