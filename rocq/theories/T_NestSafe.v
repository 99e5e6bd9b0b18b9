(** C106: nestings with when_all that do not fail. *)
From Coq Require Import List Arith Bool Lia.
From Verif Require Import Lts M_Nest S_Nest P_Nest P_NestStop S_NestSafe P_NestSafe T_NestStop.
Import ListNotations.

(** ** C106 *)
(** If leaf operations complete only when no call of start() of a when_all is running, and each when_all has a sender that waits for one, then no assertion
    fails and no operation is used after it was destroyed; *)
Theorem C106_nested_when_all_safe x ls f tr : ok x -> run c_step (n_init x) ls <> Failed f tr.
Proof. exact (nest_safe x ls f tr). Qed.
Print Assumptions C106_nested_when_all_safe.
(** these executions are those of M_Nest.v, so that they are executions of the structured concurrent program (C91) and structured (C92), *)
Theorem C106_nested_when_all_same x ls o tr : run c_step (n_init x) ls = Running o tr -> run n_step (n_init x) ls = Running o tr.
Proof. exact (c_same _ _ ls o tr). Qed.
Print Assumptions C106_nested_when_all_same.
(** and the library always gets on: after start(), its steps lead to the notification of the receiver or to user functions or leaf operations that have yet
    to answer. *)
Theorem C106_nested_when_all_settles x ls o tr : ok x -> run c_step (n_init x) ls = Running o tr -> In NLStart ls ->
  exists ps o' tr', run c_step (n_init x) (ls ++ map NLStep ps) = Running o' tr' /\ (~ env_idle tr' \/ exists v, In (NDone v) tr').
Proof.
  intros Q R Hs. destruct (C104_nested_settles x ls o tr (c_same _ _ _ _ _ R) Hs) as (ps & H). rewrite <- (safe_run x ls ps Q o tr R) in H.
  exists ps. destruct H as [(f & tr' & F)|H]; [now destruct (nest_safe _ _ _ _ Q F)|exact H].
Qed.
Print Assumptions C106_nested_when_all_settles.

(** *** Witnesses *)
(** sequence(when_all(invocable 1, leaf 2), leaf 3): the invocable completes inside start(), the leaf after it *)
Definition safe_x : ex := XSeq (XAll (XInv 1) [XLeaf 2]) [XLeaf 3].
Definition safe_ls : list nlabel := [NLStart; NLStep []; NLEnv [0] 0; NLStep [0]; NLStep []; NLStep []; NLEnv [1] 0; NLStep [1]; NLStep []; NLEnv [] 5; NLStep []; NLStep []].
Example C106_example : ok safe_x /\ exists o, run c_step (n_init safe_x) safe_ls = Running o [NCall 1 0; NRet 1 0; NLeaf 2; NComp 2 0; NLeaf 3; NComp 3 5; NDone 5].
Proof.
  split; [|eexists; vm_compute; reflexivity]. constructor. intros y [<-|[<-|[]]]; [|constructor]. eapply ok_all; [intros y [<-|[<-|[]]]; constructor|right; now left|constructor].
Qed.
(** without a sender that waits, the assertion of when_all fails although no leaf operation completes, *)
Example C106_no_wait : (exists tr, run c_step (n_init (XAll (XInv 1) [])) [NLStart; NLStep []; NLEnv [0] 0; NLStep [0]] = Failed AssertFailed tr) /\ ~ ok (XAll (XInv 1) []).
Proof.
  split; [eexists; vm_compute; reflexivity|]. intros O. inversion O as [| | | | | | |? ? y A B C]; subst. destruct B as [<-|[]]. inversion C.
Qed.
(** and if a leaf operation completes while start() runs, it fails although the sender waits. *)
Definition early_ls : list nlabel := [NLStart; NLStep []; NLEnv [0] 0; NLStep [0]].
Example C106_early : ok (XAll (XLeaf 1) []) /\ (exists tr, run n_step (n_init (XAll (XLeaf 1) [])) early_ls = Failed AssertFailed tr) /\ run c_step (n_init (XAll (XLeaf 1) [])) early_ls = Stuck.
Proof.
  split; [|split; [eexists; vm_compute; reflexivity|vm_compute; reflexivity]]. eapply ok_all; [intros y [<-|[]]; constructor|now left|constructor].
Qed.
