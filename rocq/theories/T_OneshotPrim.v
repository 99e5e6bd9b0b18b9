(** Property theorems for oneshot_primitive: C22. *)
From Coq Require Import List Arith Bool Lia.
From Verif Require Import Lts ListFacts M_Mutex M_OneshotPrim S_OneshotPrim P_OneshotPrim.
Import ListNotations.

(** No assertion fails; neither a notified operation nor the destroyed oneshot_primitive is accessed. *)
Theorem C22_oneshot_primitive_safe : forall ls f tr, run d_step d_init ls = Failed f tr -> ~ d_rule tr.
Proof. exact d_safe. Qed.
Print Assumptions C22_oneshot_primitive_safe.

(** A wait completes only after it was started and raise() was called. *)
Theorem C22_oneshot_primitive_after : forall ls s t1 o t2, run d_step d_init ls = Running s (t1 ++ VDone o :: t2) ->
  d_rule (t1 ++ VDone o :: t2) -> In VRaise t1 /\ In (VStart o) t1.
Proof. exact d_after. Qed.
Print Assumptions C22_oneshot_primitive_after.

Theorem C22_oneshot_primitive_once : forall ls s tr, run d_step d_init ls = Running s tr -> d_rule tr -> NoDup (d_done tr).
Proof. exact d_once. Qed.
Print Assumptions C22_oneshot_primitive_once.

(** When raise() was called and all calls have returned, all waits have completed. *)
Theorem C22_oneshot_primitive_complete : forall ls s tr, run d_step d_init ls = Running s tr -> d_rule tr ->
  d_quiet s -> In VRaise tr -> incl (d_started tr) (d_done tr).
Proof. exact d_complete. Qed.
Print Assumptions C22_oneshot_primitive_complete.

(** The calls are never blocked, and return after a bounded number of steps, up to spurious failures. *)
Theorem C22_oneshot_primitive_progress : forall s, (forall k, d_step s (DStep k false) = Disabled) -> d_quiet s.
Proof. exact d_progress. Qed.
Print Assumptions C22_oneshot_primitive_progress.

Theorem C22_oneshot_primitive_finishes : forall ls s tr, run d_step d_init ls = Running s tr -> d_rule tr ->
  exists n, forall ls' s' tr', Forall d_internal ls' -> run_from d_step s tr ls' = Running s' tr' -> length ls' <= n + d_nspur ls'.
Proof. exact d_finishes. Qed.
Print Assumptions C22_oneshot_primitive_finishes.

(** ** Witnesses *)
Definition d_ruleb (tr : list devent) : bool :=
  (d_raises tr <=? 1) &&
  forallb (fun n => match nth_error tr n with
                    | Some VDestroy => negb (length (d_done (firstn n tr)) =? 0) &&
                        forallb (fun o => memb o (d_done (firstn n tr))) (d_started (firstn n tr)) &&
                        forallb (fun e => match e with VDone _ => true | _ => false end) (skipn (S n) tr)
                    | _ => true
                    end) (seq 0 (length tr)).
Lemma d_ruleb_sound tr : d_ruleb tr = true -> d_rule tr.
Proof.
  unfold d_ruleb. intros H. apply andb_true_iff in H. destruct H as [H1 H2]. apply Nat.leb_le in H1. split; auto. intros t1 t2 ->. rewrite forallb_forall in H2.
  specialize (H2 (length t1)). rewrite in_seq, app_length in H2. simpl length in H2. specialize (H2 ltac:(lia)).
  rewrite nth_error_app2, Nat.sub_diag in H2 by auto. cbn [nth_error] in H2.
  replace (firstn (length t1) (t1 ++ VDestroy :: t2)) with t1 in H2 by (rewrite firstn_app, Nat.sub_diag, firstn_all; simpl; now rewrite app_nil_r).
  replace (skipn (S (length t1)) (t1 ++ VDestroy :: t2)) with t2 in H2 by (clear; induction t1; simpl; auto).
  apply andb_true_iff in H2. destruct H2 as [H2 H3]. apply andb_true_iff in H2. destruct H2 as [H2 H4]. repeat split.
  - intros E. rewrite E in H2. discriminate.
  - intros o Ho. rewrite forallb_forall in H4. apply memb_In. auto.
  - intros e He. rewrite forallb_forall in H3. specialize (H3 e He). destruct e; try discriminate. eauto.
Qed.

(** Three waits are linked, among them one with failing CAS; a fourth start() overlaps with raise(); after the last notification the
    oneshot_primitive is destroyed, before raise() returns. *)
Definition demo : list dlabel :=
  [DStart 0; DStart 1; DStep 0 false; DStep 1 false; DStep 0 false; DStep 1 false; DStep 1 true; DStep 1 false; DStart 2; DStep 2 false; DStep 2 false;
   DStart 3; DStep 3 false; DRaiseCall; DStep 4 false; DStep 3 false; DStep 4 false; DStep 4 false; DStep 3 false; DStep 4 false; DStep 4 false; DStep 4 false; DStep 4 false;
   DDestroy; DStep 4 false].
Example demo_run : exists s tr, run d_step d_init demo = Running s tr /\ d_rule tr /\
  tr = [VStart 0; VStart 1; VStart 2; VStart 3; VRaise; VDone 2; VDone 3; VDone 1; VDone 0; VDestroy] /\ d_act s = [DEnd; DEnd; DEnd; DEnd; DEnd].
Proof. witness. split; [apply d_ruleb_sound; vmrefl|]. split; vmrefl. Qed.
(** raise() twice *)
Example misuse : exists tr, run d_step d_init [DRaiseCall; DStep 0 false; DRaiseCall; DStep 1 false] = Failed AssertFailed tr.
Proof. witness. Qed.
(** destroyed while start() is running *)
Example misuse2 : exists tr, run d_step d_init [DStart 0; DDestroy; DStep 0 false] = Failed UseAfterFree tr.
Proof. witness. Qed.
