(** C49: detach() and spawn().  C50: run(). *)
From Coq Require Import List Arith Bool.
From Verif Require Import Lts M_Run S_Run P_Run.
Import ListNotations.

(** C49: an initial part of the following happens and nothing else: the block is allocated, the operation is started and completes with some v;
    then (spawn) the receiver gets v and the block is freed, or (detach) the block is freed and the continuation is called. *)
Theorem C49_detach_spawn_exact sp ls s tr :
  run (d_step sp) d_init ls = Running s tr -> exists v, prefix tr (if sp then spawn_trace v else detach_trace v).
Proof. exact (detach_exact sp ls s tr). Qed.
Print Assumptions C49_detach_spawn_exact.

(** C49: if the operation completed and no thread is inside of the library, all of that happened. *)
Theorem C49_detach_spawn_complete sp ls s tr v :
  run (d_step sp) d_init ls = Running s tr -> d_step sp s DLStep = Disabled -> In (DEComp v) tr ->
  tr = if sp then spawn_trace v else detach_trace v.
Proof. exact (fun H => detach_complete sp ls s tr H v). Qed.
Print Assumptions C49_detach_spawn_complete.
Theorem C49_detach_spawn_finishes sp s n tr s' tr' :
  run_from (d_step sp) s tr (repeat DLStep n) = Running s' tr' -> n <= 4.
Proof. exact (detach_finishes sp s n tr s' tr'). Qed.
Print Assumptions C49_detach_spawn_finishes.

(** C49: nothing accesses the block after it was freed. *)
Theorem C49_detach_spawn_safe sp ls f tr : run (d_step sp) d_init ls <> Failed f tr.
Proof. exact (detach_safe sp ls f tr). Qed.
Print Assumptions C49_detach_spawn_safe.

Example C49_detach_demo :
  exists s, run (d_step false) d_init [DLAlloc; DLStart; DLComp 3; DLStep; DLStep; DLStep] = Running s [DEAlloc; DEStart; DEComp 3; DEFree; DECont] /\
            d_step false s DLStep = Disabled.
Proof. witness. vmrefl. Qed.
Example C49_spawn_demo :
  exists s, run (d_step true) d_init [DLAlloc; DLStart; DLComp 3; DLStep; DLStep; DLStep] = Running s [DEAlloc; DEStart; DEComp 3; DERecv 3; DEFree] /\
            d_step true s DLStep = Disabled.
Proof. witness. vmrefl. Qed.

(** C50: run() returns at most once, with the value that the sender completed with, after it completed. *)
Theorem C50_run_value sep dm ls s tr :
  run (u_step sep dm) u_init ls = Running s tr -> u_rets tr = [] \/ exists v, u_rets tr = [v] /\ u_comps tr = [v].
Proof. exact (run_value sep dm ls s tr). Qed.
Print Assumptions C50_run_value.
Theorem C50_run_order sep dm ls s tr :
  run (u_step sep dm) u_init ls = Running s tr -> forall t1 t2 v, tr = t1 ++ UERet v :: t2 -> In v (u_comps t1).
Proof. exact (run_order sep dm ls s tr). Qed.
Print Assumptions C50_run_order.

(** C50: run() of a sender that does not complete (run_forever()) does not return. *)
Theorem C50_run_forever sep dm ls s tr :
  run (u_step sep dm) u_init ls = Running s tr -> u_comps tr = [] -> u_rets tr = [].
Proof. intros H Hc. destruct (run_value sep dm ls s tr H) as [Hr|(v & _ & Hv)]; [exact Hr|congruence]. Qed.
Print Assumptions C50_run_forever.

(** C50: if the sender completes inside of start() or of wait(), then wait() is called only before it completed. *)
Theorem C50_run_wait dm ls s tr :
  run (u_step false dm) u_init ls = Running s tr -> forall t1 t2, tr = t1 ++ UEWait :: t2 -> u_comps t1 = [].
Proof. exact (fun H => run_wait false dm ls s tr H eq_refl). Qed.
Print Assumptions C50_run_wait.

(** C50: if it completes on another thread, then wait() can be called after it completed. *)
Theorem C50_run_wait_other_thread_refuted :
  exists ls s tr t1 t2, run (u_step true false) u_init ls = Running s tr /\ tr = t1 ++ UEWait :: t2 /\ u_comps t1 = [7].
Proof.
  exists [ULStart; ULStartRet; ULComp 7; ULCheck]. eexists. exists [UEStart; UEComp 7; UEWait], [UEStart; UEComp 7], [].
  split; [apply (running_intro u_init); vmrefl|]. split; reflexivity.
Qed.
Print Assumptions C50_run_wait_other_thread_refuted.

(** C50: after the sender completed, set_value() sets done, and then run() returns within two of its steps (one of them the return of wait()). *)
Theorem C50_run_set sep dm ls s tr :
  run (u_step sep dm) u_init ls = Running s tr -> u_comps tr <> [] -> (forall l, u_set l -> u_step sep dm s l = Disabled) -> u_done s = true.
Proof. exact (run_set sep dm ls s tr). Qed.
Print Assumptions C50_run_set.
Theorem C50_run_returns sep dm ls s tr v :
  run (u_step sep dm) u_init ls = Running s tr -> u_done s = true -> u_comps tr = [v] ->
  (forall l, u_run l -> u_step sep dm s l = Disabled) -> In UEStart tr -> u_rets tr = [v].
Proof. exact (fun H => run_returns sep dm ls s tr H v). Qed.
Print Assumptions C50_run_returns.
Theorem C50_run_finishes sep dm s ls tr s' tr' :
  u_done s = true -> Forall u_run ls -> run_from (u_step sep dm) s tr ls = Running s' tr' -> length ls <= 2.
Proof. exact (run_finishes sep dm s ls tr s' tr'). Qed.
Print Assumptions C50_run_finishes.

(** C50: run() accesses no destroyed object and no missing value; it panics only if there is no io service and (on one thread) the sender did not complete inline. *)
Theorem C50_run_fails sep dm ls f tr :
  run (u_step sep dm) u_init ls = Failed f tr ->
  dm = true /\ f = Panicked /\ exists t, tr = t ++ [UEWait] /\ (sep = false -> u_comps t = []).
Proof. exact (run_fails sep dm ls f tr). Qed.
Print Assumptions C50_run_fails.

(** C50: without io service, run() does not wait: it returns or it panics. *)
Theorem C50_run_no_service sep ls s tr : run (u_step sep true) u_init ls = Running s tr -> ~ In UEWait tr.
Proof. exact (run_no_service sep ls s tr). Qed.
Print Assumptions C50_run_no_service.

(** The sender completes during the second wait(). *)
Example C50_demo :
  exists s, run (u_step false false) u_init [ULStart; ULStartRet; ULCheck; ULWaitRet; ULCheck; ULComp 7; ULEmplace; ULDone; ULWaitRet; ULCheck] =
            Running s [UEStart; UEWait; UEWaitRet; UEWait; UEComp 7; UEWaitRet; UERet 7] /\ u_done s = true.
Proof. witness. vmrefl. Qed.
(** Without io service; the sender completes inline. *)
Example C50_inline :
  exists s, run (u_step false true) u_init [ULStart; ULComp 7; ULEmplace; ULDone; ULStartRet; ULCheck] =
            Running s [UEStart; UEComp 7; UERet 7] /\ u_done s = true.
Proof. witness. vmrefl. Qed.
Example C50_no_service :
  exists tr, run (u_step false true) u_init [ULStart; ULStartRet; ULCheck] = Failed Panicked tr /\ tr = [UEStart; UEWait].
Proof. witness. vmrefl. Qed.
