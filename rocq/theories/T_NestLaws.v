(** C102: laws of nested algorithms; every execution of a sequential program is possible. *)
From Coq Require Import List Arith Bool Lia Permutation.
From Verif Require Import Lts M_Nest S_Nest P_Nest S_NestLaws P_NestLaws.
Import ListNotations.

(** ** C102 *)
(** Expressions that differ by the laws are the same structured program. *)
Theorem C102_nested_laws_meaning x y t v : eqv x y -> (beh x t v <-> beh y t v).
Proof. intros E. destruct (proj1 laws x y E) as [H1 H2]. split; [apply H1|apply H2]. Qed.
Print Assumptions C102_nested_laws_meaning.
(** Executions of the code for one of them that notify the receiver are executions of the other program; *)
Theorem C102_nested_laws x y ls o tr v : eqv x y -> run n_step (n_init x) ls = Running o tr -> In (NDone v) tr -> exists t, tr = t ++ [NDone v] /\ beh y t v.
Proof. intros E R D. destruct (nest_done x ls o tr v R D) as (t & -> & _ & B). exists t. split; [reflexivity|]. apply (C102_nested_laws_meaning x y t v E). exact B. Qed.
Print Assumptions C102_nested_laws.
(** and all others are the beginning of one. *)
Theorem C102_nested_laws_prefix x y ls o tr : eqv x y -> run n_step (n_init x) ls = Running o tr -> exists t v u, beh y t v /\ t ++ [NDone v] = tr ++ u.
Proof. intros E R. destruct (nest_prefix x ls o tr R) as (t & v & u & B & H). exists t, v, u. split; [|exact H]. apply (C102_nested_laws_meaning x y t v E). exact B. Qed.
Print Assumptions C102_nested_laws_prefix.
(** Without when_all and race_and_cancel, the code can do everything that the structured program can do. *)
Theorem C102_nested_sequential_exactly x t v : sequential x -> (beh x t v <-> exists ls o, run n_step (n_init x) ls = Running o (t ++ [NDone v])).
Proof.
  intros Q. split; [apply seq_complete; exact Q|]. intros (ls & o & R). destruct (nest_done x ls o _ v R) as (t' & E & _ & B); [apply in_or_app; right; now left|].
  apply app_inj_tail in E as [-> _]. exact B.
Qed.
Print Assumptions C102_nested_sequential_exactly.
(** Then the code for two expressions that differ by the laws has the same complete executions, *)
Theorem C102_nested_laws_code x y tr v : eqv x y -> sequential x -> sequential y -> In (NDone v) tr ->
  ((exists ls o, run n_step (n_init x) ls = Running o tr) <-> (exists ls o, run n_step (n_init y) ls = Running o tr)).
Proof.
  assert (H : forall x y, eqv x y -> sequential y -> In (NDone v) tr -> (exists ls o, run n_step (n_init x) ls = Running o tr) -> exists ls o, run n_step (n_init y) ls = Running o tr).
  { intros a b E Q D (ls & o & R). destruct (C102_nested_laws a b ls o tr v E R D) as (t & -> & B). exact (seq_complete b t v Q B). }
  intros E Q1 Q2 D. split; apply H; auto. apply q_sym. exact E.
Qed.
Print Assumptions C102_nested_laws_code.
(** and what the code for one of them has done can always be continued to something that the code for the other one can do. *)
Theorem C102_nested_laws_code_prefix x y ls o tr : eqv x y -> sequential y -> run n_step (n_init x) ls = Running o tr -> exists ls' o' u, run n_step (n_init y) ls' = Running o' (tr ++ u).
Proof.
  intros E Q R. destruct (C102_nested_laws_prefix x y ls o tr E R) as (t & v & u & B & H). destruct (seq_complete y t v Q B) as (ls' & o' & R'). exists ls', o', u. rewrite <- H. exact R'.
Qed.
Print Assumptions C102_nested_laws_code_prefix.

(** *** Witnesses *)
(** transform(sequence(sequence(leaf 1, invocable 2), leaf 3), 9) and sequence(leaf 1, sequence(invocable 2, transform(leaf 3, 9))) *)
Definition law_x : ex := XTrans (XSeq (XSeq (XLeaf 1) [XInv 2]) [XLeaf 3]) 9.
Definition law_y : ex := XSeq (XLeaf 1) [XSeq (XInv 2) [XTrans (XLeaf 3) 9]].
Example C102_laws_example : eqv law_x law_y /\ sequential law_x /\ sequential law_y.
Proof.
  split; [|split; repeat (constructor || (intros ? H; simpl in H; repeat (destruct H as [<-|H]; [|]); try contradiction H))].
  apply (q_tran _ (XTrans (XSeq (XLeaf 1) [XInv 2; XLeaf 3]) 9)); [apply q_trans; apply (q_first (XLeaf 1) [XInv 2] [XLeaf 3])|].
  apply (q_tran _ (XSeq (XLeaf 1) [XInv 2; XTrans (XLeaf 3) 9])); [apply (q_trans_seq (XLeaf 1) [XInv 2] (XLeaf 3) 9)|].
  apply q_sym. exact (q_later (XLeaf 1) [] (XInv 2) [XTrans (XLeaf 3) 9] []).
Qed.
(** the same trace by different steps *)
Example C102_code_example :
  (exists o, run n_step (n_init law_x) [NLStart; NLEnv [] 4; NLStep []; NLEnv [] 5; NLStep []; NLStep []; NLEnv [] 6; NLStep []; NLStep []; NLEnv [] 7; NLStep []] =
    Running o [NLeaf 1; NComp 1 4; NCall 2 0; NRet 2 5; NLeaf 3; NComp 3 6; NCall 9 6; NRet 9 7; NDone 7]) /\
  (exists o, run n_step (n_init law_y) [NLStart; NLEnv [] 4; NLStep []; NLEnv [] 5; NLStep []; NLEnv [] 6; NLStep []; NLEnv [] 7; NLStep []; NLStep []; NLStep []] =
    Running o [NLeaf 1; NComp 1 4; NCall 2 0; NRet 2 5; NLeaf 3; NComp 3 6; NCall 9 6; NRet 9 7; NDone 7]).
Proof. split; eexists; vm_compute; reflexivity. Qed.
(** the order of a when_all, inside of a loop *)
Example C102_loop_example : eqv (XRep 1 2 (fun v => XAll (XAll (XLeaf v) [XLeaf 2]) [XLeaf 3])) (XRep 1 2 (fun v => XAll (XLeaf 3) [XLeaf 2; XLeaf v])).
Proof.
  apply q_rep. intros v. eapply q_tran; [apply (q_flat (XLeaf v) [XLeaf 2] [XLeaf 3])|]. apply q_perm. simpl.
  apply (Permutation_trans (l' := [XLeaf v; XLeaf 3; XLeaf 2])); [constructor; apply perm_swap|]. apply (Permutation_trans (l' := [XLeaf 3; XLeaf v; XLeaf 2])); [apply perm_swap|constructor; apply perm_swap].
Qed.
(** what is no law: the order of a sequence, and transform before the other senders *)
Example C102_no_law_swap : ~ eqv (XSeq (XLeaf 1) [XLeaf 2]) (XSeq (XLeaf 2) [XLeaf 1]).
Proof.
  intros E. assert (B : beh (XSeq (XLeaf 1) [XLeaf 2]) [NLeaf 1; NComp 1 0; NLeaf 2; NComp 2 0] 0) by (constructor; apply (bs_next _ _ _ [NLeaf 1; NComp 1 0] 0 [NLeaf 2; NComp 2 0] 0); [|constructor]; constructor).
  apply (C102_nested_laws_meaning _ _ _ _ E) in B. inversion B; subst. match goal with H : behs _ _ _ _ |- _ => inversion H; subst end. match goal with H : beh (XLeaf 2) _ _ |- _ => inversion H; subst end. discriminate.
Qed.
Example C102_no_law_trans : ~ eqv (XTrans (XSeq (XLeaf 1) [XLeaf 2]) 9) (XSeq (XTrans (XLeaf 1) 9) [XLeaf 2]).
Proof.
  intros E. assert (B : beh (XTrans (XSeq (XLeaf 1) [XLeaf 2]) 9) ([NLeaf 1; NComp 1 0; NLeaf 2; NComp 2 0] ++ [NCall 9 0; NRet 9 0]) 0).
  { constructor. constructor. apply (bs_next _ _ _ [NLeaf 1; NComp 1 0] 0 [NLeaf 2; NComp 2 0] 0); [|constructor]; constructor. }
  apply (C102_nested_laws_meaning _ _ _ _ E) in B. inversion B; subst. match goal with H : behs _ _ _ _ |- _ => inversion H; subst end.
  match goal with H : beh (XTrans _ _) _ _ |- _ => inversion H; subst end. match goal with H : beh (XLeaf 1) _ _ |- _ => inversion H; subst end. discriminate.
Qed.
