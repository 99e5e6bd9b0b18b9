(** C105: the call stack of nestings of the algorithms (refuted). *)
From Coq Require Import List Arith Bool Lia.
From Verif Require Import Lts M_Nest S_Nest P_Nest M_NestStack S_NestStack P_NestStack S_NestAsync P_NestAsync.
Import ListNotations.

(** ** C105 *)
(** repeat_while() of a sender that completes inside of start(): the stack grows with each iteration, without bound. *)
Definition loop_x : ex := XRep 1 2 (fun _ => XInv 3).
Lemma loop_grows n : exists ls tr, run h_step (h_init loop_x) ls = Running (MkH (OFn 1 (KRepC 1 2 (fun _ => XInv 3))) (3 + 3 * n) true) tr /\ forall l, In l ls -> l <> HReturn.
Proof.
  induction n as [|n (ls & tr & R & H)]; [exists [HL NLStart], [NCall 1 0]; split; [reflexivity|intros l [<-|[]]; discriminate]|].
  exists (ls ++ [HL (NLEnv [] 1); HL (NLEnv [] 0); HL (NLEnv [] 0); HL (NLStep [])]). eexists. split.
  - unfold run in *. rewrite run_from_app, R. cbn. repeat f_equal; lia.
  - intros l Hl. apply in_app_or in Hl as [Hl|Hl]; [exact (H l Hl)|]. simpl in Hl. intuition subst; discriminate.
Qed.
Theorem C105_repeat_while_stack_refuted : exists x, sequential x /\ forall n, exists ls s tr, run h_step (h_init x) ls = Running s tr /\ n < h_n s.
Proof.
  exists loop_x. split; [repeat constructor|]. intros n. destruct (loop_grows n) as (ls & tr & R & _). do 3 eexists. split; [exact R|]. simpl. lia.
Qed.
Print Assumptions C105_repeat_while_stack_refuted.
(** The same for a leaf operation that completes inside of its start(). *)
Theorem C105_repeat_while_leaf_refuted : exists x, sequential x /\ x = XRep 1 2 (fun _ => XLeaf 3) /\ forall n, exists ls s tr, run h_step (h_init x) ls = Running s tr /\ n < h_n s.
Proof.
  exists (XRep 1 2 (fun _ => XLeaf 3)). split; [repeat constructor|]. split; [reflexivity|]. intros n.
  cut (exists ls tr, run h_step (h_init (XRep 1 2 (fun _ => XLeaf 3))) ls = Running (MkH (OFn 1 (KRepC 1 2 (fun _ => XLeaf 3))) (3 + 3 * n) true) tr); [intros (ls & tr & R); do 3 eexists; split; [exact R|simpl; lia]|].
  induction n as [|n (ls & tr & R)]; [exists [HL NLStart], [NCall 1 0]; reflexivity|].
  exists (ls ++ [HL (NLEnv [] 1); HL (NLEnv [] 0); HL (NLEnv [] 0); HL (NLStep [])]). eexists. unfold run in *. rewrite run_from_app, R. cbn. repeat f_equal; lia.
Qed.
Print Assumptions C105_repeat_while_leaf_refuted.
(** sequence() needs three frames for each sender that completes inside of start(): set_value(), do_step() and start(). *)
Theorem C105_sequence_stack n k : k <= n -> exists ls s tr, run h_step (h_init (XSeq (XInv 1) (repeat (XInv 1) n))) ls = Running s tr /\ h_n s = 4 + 3 * k /\ total n_call tr = S k.
Proof.
  intros Hk. cut (exists ls tr, run h_step (h_init (XSeq (XInv 1) (repeat (XInv 1) n))) ls = Running (MkH (OSeq (repeat (XInv 1) (n - k)) (OFn 1 KSet)) (4 + 3 * k) true) tr /\ total n_call tr = S k); [intros (ls & tr & R & E); do 3 eexists; split; [exact R|auto]|].
  induction k as [|k IH]; [exists [HL NLStart], [NCall 1 0]; split; [rewrite Nat.sub_0_r|]; reflexivity|].
  destruct (IH ltac:(lia)) as (ls & tr & R & E). exists (ls ++ [HL (NLEnv [] 0); HL (NLStep [])]). eexists. unfold run in *. rewrite run_from_app, R. replace (n - k) with (S (n - S k)) by lia. cbn. split; [repeat f_equal; lia|].
  rewrite !total_app, E. unfold total. simpl. lia.
Qed.
Print Assumptions C105_sequence_stack.
(** What holds: the stack is at most linear in the number of steps since an operation returned from start() without having completed. *)
Theorem C105_nested_stack_partial m x ls s tr : width m x -> run h_step (h_init x) ls = Running s tr -> h_n s <= (m + 2) * since 0 ls + 1.
Proof.
  intros W R. apply (stack_bound m ls (h_init x) 0 [] s tr); [constructor; exact W|simpl; lia|reflexivity|exact R].
Qed.
Print Assumptions C105_nested_stack_partial.
(** The executions of the model with the stack are those of M_Nest.v. *)
Fixpoint no_returns (ls : list hlabel) : list nlabel := match ls with [] => [] | HReturn :: ls' => no_returns ls' | HL l :: ls' => l :: no_returns ls' end.
Theorem C105_nested_stack_same x ls s tr : run h_step (h_init x) ls = Running s tr -> run n_step (n_init x) (no_returns ls) = Running (h_op s) tr.
Proof.
  unfold run. change (n_init x) with (h_op (h_init x)). generalize (h_init x) (@nil nevent). induction ls as [|[l|] ls IH]; intros s0 tr0 R; simpl in *.
  - inversion R; reflexivity.
  - destruct (n_step (h_op s0) l) as [o es| |]; try discriminate. exact (IH _ _ R).
  - destruct (h_on s0 && waits (h_op s0)); try discriminate. rewrite app_nil_r in R. exact (IH _ _ R).
Qed.
Print Assumptions C105_nested_stack_same.

(** Calls return only while one leaf operation and no user function is running; *)
Theorem C105_nested_stack_return x ls s tr s' es : sequential x -> run h_step (h_init x) ls = Running s tr -> h_step s HReturn = Next s' es ->
  total n_leaf tr = S (total n_comp tr) /\ total n_call tr = total n_ret tr.
Proof.
  intros Q R E. apply C105_nested_stack_same in R. simpl in E. destruct (h_on s); [|discriminate]. destruct (waits (h_op s)) eqn:W; [|discriminate].
  destruct (waits_rl _ (seq_run x _ Q _ _ R) W) as [E1 E2]. destruct (ni_cnt _ _ _ (ni_run_all _ _ _ _ R)) as [C1 C2]. rewrite E1 in C1. rewrite E2 in C2. simpl in *. lia.
Qed.
Print Assumptions C105_nested_stack_return.
(** then the stack is empty, and it has one frame, the caller's, when the operation completes. *)
Theorem C105_nested_stack_later x ls s tr s' es i v s2 es2 : sequential x -> run h_step (h_init x) ls = Running s tr -> h_step s HReturn = Next s' es ->
  h_step s' (HL (NLEnv [] v)) = Next s2 es2 -> es2 = [NComp i v] -> h_n s' = 0 /\ h_n s2 = 1.
Proof.
  intros Q R E E2 He. apply C105_nested_stack_same in R. pose proof (seq_run x _ Q _ _ R) as S. simpl in E. destruct (h_on s); [|discriminate]. destruct (waits (h_op s)) eqn:W; [|discriminate]. inversion E; subst. split; [reflexivity|].
  cbn [h_step h_op h_on h_n] in E2. destruct (n_step (h_op s) (NLEnv [] v)); try discriminate. inversion E2; subst. cbn [h_n env_of]. clear - W S.
  assert (P : push (h_op s) (Some v) = 0 /\ pop (h_op s) (Some v) = 0); [|destruct P as [-> ->]; reflexivity]. revert W S. generalize (h_op s). intros o. induction o using op_ind'; intros W S; inversion S; subst; simpl in *; try discriminate; auto; specialize (IHo W ltac:(assumption)); destruct o; simpl in *; try discriminate; auto.
Qed.
Print Assumptions C105_nested_stack_later.

(** If leaf operations do not complete inside of start(), and each iteration of each loop waits for one, the stack is bounded by a number that depends on the expression only. *)
Theorem C105_nested_stack_async_partial x b e ls s tr : gr x b e -> run a_step (h_init x) ls = Running s tr -> h_n s <= e + 2.
Proof. exact (async_bound x b e ls s tr). Qed.
Print Assumptions C105_nested_stack_async_partial.
(** These are executions as above. *)
Theorem C105_nested_stack_async_same x ls s tr : run a_step (h_init x) ls = Running s tr -> run h_step (h_init x) ls = Running s tr.
Proof.
  unfold run. generalize (h_init x) (@nil nevent). induction ls as [|l ls IH]; intros s0 tr0 R; cbn [run_from] in *; [exact R|].
  assert (E : forall s1 es, a_step s0 l = Next s1 es -> h_step s0 l = Next s1 es) by (intros s1 es; unfold a_step; destruct (h_on s0 && waits (h_op s0)); [destruct l; [discriminate|auto]|auto]).
  destruct (a_step s0 l) as [s1 es| |]; try discriminate. rewrite (E _ _ eq_refl). exact (IH _ _ R).
Qed.
Print Assumptions C105_nested_stack_async_same.

(** *** Witnesses *)
Example C105_async_example : gr (XRep 1 2 (fun v => XSeq (XInv 4) [XTrans (XLeaf v) 9])) false 26 /\
  exists s tr, run a_step (h_init (XRep 1 2 (fun v => XSeq (XInv 4) [XTrans (XLeaf v) 9])))
    [HL NLStart; HL (NLEnv [] 1); HL (NLEnv [] 7); HL (NLEnv [] 0); HL (NLStep []); HReturn; HL (NLEnv [] 5); HL (NLStep []); HL (NLEnv [] 6); HL (NLStep []); HL (NLStep []); HL (NLEnv [] 1); HL (NLEnv [] 8); HL (NLEnv [] 0); HL (NLStep [])] = Running s tr /\
    h_n s = 11.
Proof.
  split; [|do 2 eexists; split; vm_compute; reflexivity]. apply (g_rep _ _ _ 11); [|lia]. intros v. apply (g_seq _ _ _ 2).
  - intros y [<-|[<-|[]]]; [constructor; lia|]. apply (g_trans _ _ _ 1); [constructor; lia|lia].
  - intros _. exists (XTrans (XLeaf v) 9). split; [simpl; auto|]. apply (g_trans _ _ _ 1); [constructor; lia|lia].
  - simpl. lia.
Qed.
(** the loop with a leaf that completes later: the stack does not grow *)
Example C105_example : width 2 (XRep 1 2 (fun _ => XLeaf 3)) /\
  exists s tr, run h_step (h_init (XRep 1 2 (fun _ => XLeaf 3)))
    [HL NLStart; HL (NLEnv [] 1); HL (NLEnv [] 0); HReturn; HL (NLEnv [] 0); HL (NLStep []); HL (NLEnv [] 1); HL (NLEnv [] 0); HReturn; HL (NLEnv [] 0); HL (NLStep [])] = Running s tr /\ h_n s = 3.
Proof. split; [repeat constructor|]. do 2 eexists. split; vm_compute; reflexivity. Qed.
Example C105_seq_example : width 3 (XSeq (XLeaf 1) [XTrans (XInv 2) 9]) /\
  exists s tr, run h_step (h_init (XSeq (XLeaf 1) [XTrans (XInv 2) 9])) [HL NLStart; HReturn; HL (NLEnv [] 0); HL (NLStep []); HL (NLEnv [] 4); HL (NLStep []); HL (NLEnv [] 5); HL (NLStep []); HL (NLStep [])] = Running s tr /\
  tr = [NLeaf 1; NComp 1 0; NCall 2 0; NRet 2 4; NCall 9 4; NRet 9 5; NDone 5].
Proof.
  split; [constructor; [simpl; lia|]; intros y [<-|[<-|[]]]; repeat constructor|]. do 2 eexists. split; vm_compute; reflexivity.
Qed.
