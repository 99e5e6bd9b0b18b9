(** C103: sequential nestings are deterministic. *)
From Coq Require Import List Arith Bool Lia.
From Verif Require Import Lts M_Nest S_Nest S_NestDet P_NestDet.
Import ListNotations.

(** ** C103 *)
(** Two executions are the same as far as they go, up to the first answer of the environment that is different. *)
Theorem C103_nested_deterministic x ls o tr ls' o' tr' : sequential x -> run n_step (n_init x) ls = Running o tr -> run n_step (n_init x) ls' = Running o' tr' ->
  prefix tr tr' \/ prefix tr' tr \/ diverge tr tr'.
Proof. exact (nest_det x ls o tr ls' o' tr'). Qed.
Print Assumptions C103_nested_deterministic.
(** Complete executions in which the environment gives the same answers are the same: the same calls with the same arguments, the same operations, the same result. *)
Theorem C103_nested_answers x ls o tr v ls' o' tr' v' : sequential x -> run n_step (n_init x) ls = Running o tr -> run n_step (n_init x) ls' = Running o' tr' ->
  In (NDone v) tr -> In (NDone v') tr' -> said tr = said tr' -> tr = tr' /\ v = v'.
Proof.
  intros Q R R' D D' S. assert (E : tr = tr') by exact (nest_det_done x ls o tr v ls' o' tr' v' Q R R' D D' S). split; [exact E|]. subst tr'.
  destruct (P_Nest.nest_done x ls o tr v R D) as (t & E & _ & _). destruct (P_Nest.nest_done x ls' o' tr v' R' D') as (t' & E' & _ & _). rewrite E in E'. apply app_inj_tail in E' as [_ E']. congruence.
Qed.
Print Assumptions C103_nested_answers.

(** *** Witnesses *)
Definition det_x : ex := XRep 1 2 (fun v => XTrans (XLeaf v) 9).
Example C103_example : sequential det_x /\
  (exists o, run n_step (n_init det_x) [NLStart; NLEnv [] 1; NLEnv [] 5; NLEnv [] 6; NLStep []; NLEnv [] 7; NLStep []; NLEnv [] 0; NLStep []] =
     Running o [NCall 1 0; NRet 1 1; NCall 2 0; NRet 2 5; NLeaf 5; NComp 5 6; NCall 9 6; NRet 9 7; NCall 1 0; NRet 1 0; NDone 0]) /\
  (exists o, run n_step (n_init det_x) [NLStart; NLEnv [] 1; NLEnv [] 4; NLEnv [] 6] = Running o [NCall 1 0; NRet 1 1; NCall 2 0; NRet 2 4; NLeaf 4; NComp 4 6]).
Proof. split; [repeat constructor|]. split; eexists; vm_compute; reflexivity. Qed.
(** with when_all, the order is not determined by the answers *)
Example C103_when_all : exists o o' tr tr', run n_step (n_init (XAll (XLeaf 1) [XLeaf 2])) [NLStart; NLStep []; NLEnv [0] 7] = Running o tr /\
  run n_step (n_init (XAll (XLeaf 1) [XLeaf 2])) [NLStart; NLStep []; NLStep []; NLEnv [0] 7] = Running o' tr' /\ said tr = said tr' /\ ~ prefix tr tr' /\ ~ prefix tr' tr.
Proof.
  do 4 eexists. split; [vm_compute; reflexivity|]. split; [vm_compute; reflexivity|]. split; [reflexivity|]. split; intros [u H]; discriminate H.
Qed.
