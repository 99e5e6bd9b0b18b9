(** C93: happens-before in nestings of the algorithms. *)
From Coq Require Import List Arith Bool Lia.
From Verif Require Import Lts M_Nest S_Nest P_Nest T_Nest M_NestHB S_NestHB P_NestHB.
Import ListNotations.

(** Whoever is notified of the completion of the expression knows everything that senders and user functions inside of it did. *)
Theorem C93_nested_visibility x ls s tr : run hn_step (hn_init x) ls = Running s tr -> sees_all tr.
Proof. exact (nest_sees x ls s tr). Qed.
Print Assumptions C93_nested_visibility.
(** Apart from that, these executions are those of M_Nest.v, so that they are executions of the structured concurrent program (C91) and structured (C92). *)
Theorem C93_nested_program x ls s tr a b : run hn_step (hn_init x) ls = Running s tr -> In (HDone a b) tr -> exists t, forget tr = t ++ [NDone a] /\ beh x t a /\ env_idle (forget tr).
Proof.
  intros R D. destruct (nest_erase x ls s tr R) as (ls' & o & R'). assert (D' : In (NDone a) (forget tr)) by (apply (in_map (fun e => match e with HE e' => e' | HDone a _ => NDone a end) _ _ D)).
  destruct (nest_done _ _ _ _ _ R' D') as (t & E & _ & B). exists t. repeat split; auto; apply (nest_idle _ _ _ _ _ R' D').
Qed.
Print Assumptions C93_nested_program.

(** *** Witnesses *)
(** The execution of [C91_example]: the cancellation, which has the number 4, is made by another thread and is not known; all others are. *)
Example C93_example : exists s tr, run hn_step (hn_init ex_nest) ex_nest_ls = Running s tr /\
  forget tr = ex_nest_tr ++ [NDone 6] /\ (exists t b, tr = t ++ [HDone 6 b] /\ (forall m, m < 11 -> m <> 4 -> In m b) /\ ~ In 4 b).
Proof.
  unfold ex_nest_ls. witness. split; [vmrefl|].
  match goal with |- exists t b, ?X = _ /\ _ => let y := eval vm_compute in X in change X with y end.
  eexists [_; _; _; _; _; _; _; _; _; _; _], _. split; [reflexivity|]. split.
  - intros m L N. do 11 (destruct m as [|m]; [now (lia || (simpl; auto 30))|]). lia.
  - simpl. intuition discriminate.
Qed.
