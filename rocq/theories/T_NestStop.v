(** C104: nestings of the algorithms do not run forever between answers of their environment. *)
From Coq Require Import List Arith Bool Lia.
From Verif Require Import Lts M_Nest S_Nest P_Nest P_NestStop.
Import ListNotations.

(** ** C104 *)
(** In every reachable state, the number of steps that the library can take without another answer of the environment is bounded. *)
Theorem C104_nested_bounded x ls o tr : run n_step (n_init x) ls = Running o tr ->
  exists n, forall ps o' tr', run n_step (n_init x) (ls ++ map NLStep ps) = Running o' tr' -> length ps <= n.
Proof.
  intros R. exists (mo o). intros ps o' tr' R'. unfold run in *. rewrite run_from_app, R in R'. apply lib_bound in R'. lia.
Qed.
Print Assumptions C104_nested_bounded.
(** After start(), these steps lead to the notification of the receiver or to user functions or leaf operations that have yet to answer, unless they fail; *)
Theorem C104_nested_settles x ls o tr : run n_step (n_init x) ls = Running o tr -> In NLStart ls ->
  exists ps, (exists f tr', run n_step (n_init x) (ls ++ map NLStep ps) = Failed f tr') \/
    exists o' tr', run n_step (n_init x) (ls ++ map NLStep ps) = Running o' tr' /\ (~ env_idle tr' \/ exists v, In (NDone v) tr').
Proof. intros R Hs. exact (lib_settles x (mo o) ls o tr (le_n _) R Hs). Qed.
Print Assumptions C104_nested_settles.
(** without when_all and race_and_cancel, they do not fail. *)
Theorem C104_nested_sequential_settles x ls o tr : sequential x -> run n_step (n_init x) ls = Running o tr -> In NLStart ls ->
  exists ps o' tr', run n_step (n_init x) (ls ++ map NLStep ps) = Running o' tr' /\ (~ env_idle tr' \/ exists v, In (NDone v) tr').
Proof.
  intros Q R Hs. destruct (C104_nested_settles x ls o tr R Hs) as (ps & [(f & tr' & F)|H]); [now destruct (nest_seq_safe x Q _ _ _ F)|]. exists ps. exact H.
Qed.
Print Assumptions C104_nested_sequential_settles.

(** *** Witnesses *)
(** sequence(when_all(leaf 1, leaf 2), leaf 3): after both leaves completed, three steps start leaf 3 *)
Definition stop_x : ex := XSeq (XAll (XLeaf 1) [XLeaf 2]) [XLeaf 3].
Definition stop_ls : list nlabel := [NLStart; NLStep []; NLStep []; NLStep []; NLEnv [0] 0; NLEnv [1] 0].
Example C104_example : exists o, run n_step (n_init stop_x) stop_ls = Running o [NLeaf 1; NLeaf 2; NComp 1 0; NComp 2 0] /\ env_idle [NLeaf 1; NLeaf 2; NComp 1 0; NComp 2 0] /\
  exists o' tr', run n_step (n_init stop_x) (stop_ls ++ map NLStep [[1]; [0]; []]) = Running o' tr' /\ tr' = [NLeaf 1; NLeaf 2; NComp 1 0; NComp 2 0; NLeaf 3] /\ ~ env_idle tr'.
Proof.
  eexists. split; [vm_compute; reflexivity|]. split; [split; reflexivity|]. do 2 eexists. split; [vm_compute; reflexivity|]. split; [reflexivity|]. intros [H _]. discriminate H.
Qed.
(** with answers, a loop can go on forever *)
Example C104_loop : forall n, exists ls o tr, run n_step (n_init (XRep 1 2 (fun _ => XLeaf 3))) ls = Running o tr /\ n <= length tr /\ ~ In (NDone 0) tr.
Proof.
  intros n. cut (exists ls tr, run n_step (n_init (XRep 1 2 (fun _ => XLeaf 3))) ls = Running (OFn 1 (KRepC 1 2 (fun _ => XLeaf 3))) tr /\ n <= length tr /\ ~ In (NDone 0) tr); [intros (ls & tr & H); eauto|].
  induction n as [|n (ls & tr & R & L & D)]; [exists [NLStart], [NCall 1 0]; split; [reflexivity|]; split; [lia|intros [H|[]]; discriminate]|].
  exists (ls ++ [NLEnv [] 1; NLEnv [] 0; NLEnv [] 0; NLStep []]), (tr ++ [NRet 1 1; NCall 2 0; NRet 2 0; NLeaf 3; NComp 3 0; NCall 1 0]). split; [|split; [rewrite app_length; simpl; lia|]].
  - unfold run in *. rewrite run_from_app, R. cbn. rewrite <- !app_assoc. reflexivity.
  - intros H. apply in_app_or in H as [H|H]; [exact (D H)|]. simpl in H. intuition discriminate.
Qed.
