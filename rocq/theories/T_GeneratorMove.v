(** C78: the objects of type generator<T>: moving, assignment, destruction, next(). *)
From Coq Require Import List Arith Bool.
From Verif Require Import Lts M_Generator S_Generator P_Generator M_GeneratorMove S_GeneratorMove P_GeneratorMove.
Import ListNotations.

Notation wrun := (run w_step w_init).

(** No two variables stand for the same coroutine. *)
Theorem C78_generator_owner : forall ls s tr x y f, wrun ls = Running s tr -> stands tr x f -> stands tr y f -> x = y.
Proof. exact gm_owner. Qed.
Print Assumptions C78_generator_owner.

(** Each coroutine is destroyed exactly when no variable stands for it any more, once. *)
Theorem C78_generator_destroyed : forall ls s tr f, wrun ls = Running s tr -> created f tr ->
  (destroyed f tr = 0 /\ exists x, stands tr x f) \/ (destroyed f tr = 1 /\ forall x, ~ stands tr x f).
Proof. exact gm_exact. Qed.
Print Assumptions C78_generator_destroyed.

(** An operation that is created by next() runs the coroutine that the variable stood for when next() was called, wherever it was moved to since then. *)
Theorem C78_generator_next : forall ls s t1 q n t2, wrun ls = Running s (t1 ++ WNext q n :: t2) ->
  exists f t3, sender_of t1 q f /\ (forall f', sender_of t1 q f' -> f' = f) /\ t2 = WB f (GENext n) :: t3.
Proof. exact gm_next. Qed.
Print Assumptions C78_generator_next.

(** Each coroutine behaves as in C47, independently of the others. *)
Theorem C78_generator_frame : forall ls s tr f, wrun ls = Running s tr ->
  (created f tr -> exists g ls', w_fr s f = Some g /\ run g_step g_init ls' = Running g (frame f tr)) /\ (~ created f tr -> frame f tr = []).
Proof. exact gm_frame. Qed.
Print Assumptions C78_generator_frame.

Theorem C78_generator_values : forall ls s tr f, wrun ls = Running s tr -> w_rule tr ->
  (exists u, g_made (frame f tr) = g_got (frame f tr) ++ u /\ length u <= 1) /\ NoDup (g_dones (frame f tr)).
Proof.
  intros ls s tr f Hr HR. assert (Hc : created f tr \/ frame f tr = []).
  { destruct (w_fr s f) as [g|] eqn:E; [left; exact (proj2 (w_some _ _ (W_of _ _ _ Hr) _ _ E))|right; exact (proj1 (w_none _ _ (W_of _ _ _ Hr) _ E))]. }
  destruct Hc as [Hc|E].
  - destruct (proj1 (gm_frame _ _ _ f Hr) Hc) as (g & ls' & _ & Hl). split; [exact (proj1 (gen_values _ _ _ Hl (HR f)))|exact (proj1 (gen_once _ _ _ Hl (HR f)))].
  - rewrite E. split; [exists []; auto|constructor].
Qed.
Print Assumptions C78_generator_values.

(** Nothing is destroyed twice or used after it was destroyed; what can go wrong is next() of an empty variable, and next() after the end (C48). *)
Theorem C78_generator_safe : forall ls e tr, wrun ls = Failed e tr -> w_rule tr ->
  (e = NullDeref /\ exists t q n, tr = t ++ [WNext q n] /\ sender_null t q) \/
  (e = ResumeFinished /\ exists t q n f, tr = t ++ [WNext q n; WB f (GENext n)] /\ In None (g_got (frame f t))).
Proof. exact gm_safe. Qed.
Print Assumptions C78_generator_safe.

(** ** Witnesses *)
(** Coroutine 0 is moved while next() operation 7 runs, replaces coroutine 1, and is assigned to itself. *)
Definition wdemo : list wlabel :=
  [WLCall 0 0; WLCall 1 1; WLSender 0 0; WLNext 0 7; WLCtor 2 0; WLBase 0 (GLYield 5); WLBase 0 GLTake; WLBase 0 GLComp; WLAssign 1 2; WLAssign 1 1;
   WLSender 1 1; WLNext 1 8; WLBase 0 GLReturn; WLBase 0 GLTake; WLBase 0 GLComp; WLDestroy 1; WLDestroy 0; WLDestroy 2].
Definition wdemo_trace : list wevent :=
  [WCall 0 0; WCall 1 1; WSender 0 0; WNext 0 7; WB 0 (GENext 7); WCtor 2 0; WB 0 (GEYield 5); WB 0 (GEDone 7 (Some 5)); WAssign 1 2; WB 1 GEDestroy; WAssign 1 1;
   WSender 1 1; WNext 1 8; WB 0 (GENext 8); WB 0 GEReturn; WB 0 (GEDone 8 None); WDestroy 1; WB 0 GEDestroy; WDestroy 0; WDestroy 2].
Example wdemo_run : exists s, wrun wdemo = Running s wdemo_trace /\ w_rule wdemo_trace.
Proof. witness. apply (w_ruleb_sound 2); vmrefl. Qed.
Example wdemo_counts : destroyed 0 wdemo_trace = 1 /\ destroyed 1 wdemo_trace = 1 /\ stands (firstn 11 wdemo_trace) 1 0 /\ destroyed 0 (firstn 11 wdemo_trace) = 0.
Proof. repeat split. Qed.

(** next() of the variable 0 after it was moved from; next() after the end *)
Example wdemo_null : exists tr, wrun (firstn 5 wdemo ++ [WLSender 9 0; WLNext 9 1]) = Failed NullDeref tr /\ w_rule tr /\ tr = firstn 6 wdemo_trace ++ [WSender 9 0; WNext 9 1].
Proof. witness. split; [apply (w_ruleb_sound 2); vmrefl|vmrefl]. Qed.
Example wdemo_end : exists tr, wrun (firstn 15 wdemo ++ [WLSender 9 1; WLNext 9 1]) = Failed ResumeFinished tr /\ w_rule tr /\ tr = firstn 16 wdemo_trace ++ [WSender 9 1; WNext 9 1; WB 0 (GENext 1)].
Proof. witness. split; [apply (w_ruleb_sound 2); vmrefl|vmrefl]. Qed.
