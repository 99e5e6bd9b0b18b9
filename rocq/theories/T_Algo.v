(** Properties of the sequential algorithms (C43, C44, C45). *)
From Coq Require Import List Arith Bool Lia.
From Verif Require Import Lts M_Algo S_Algo P_Algo.
Import ListNotations.

(** C43: the calls of user functions and the starts and completions of leaf senders are those of the sequential program, in its order. *)
Theorem C43_algorithms_refine : forall e ls s tr, wf e -> run m_step (m_init e) ls = Running s tr -> m_rule e tr ->
  sem e (obs tr) None \/ exists v, In (EDone v) tr.
Proof. exact algo_refines. Qed.
Print Assumptions C43_algorithms_refine.

(** C43: the receiver is notified when the sequential program ends, with its value, and only then; nothing happens afterwards. *)
Theorem C43_algorithms_done : forall e ls s t1 v t2, wf e -> run m_step (m_init e) ls = Running s (t1 ++ EDone v :: t2) ->
  m_rule e (t1 ++ EDone v :: t2) -> sem e (obs t1) (Some v) /\ obs t2 = [] /\ (forall v', ~ In (EDone v') (t1 ++ t2)) /\ In EStart t1.
Proof. exact algo_done. Qed.
Print Assumptions C43_algorithms_done.

(** C43: once start() was called and no call stack can go on, the receiver was notified or the leaf sender started last can complete. *)
Theorem C43_algorithms_progress : forall e ls s tr, wf e -> run m_step (m_init e) ls = Running s tr -> m_rule e tr -> In EStart tr ->
  (forall k, m_step s (LStep k) = Disabled /\ forall v, m_step s (LFn k v) = Disabled) ->
  (exists v, In (EDone v) tr) \/ exists i t a, obs tr = t ++ [ELeaf i] /\ forall v, exists s', m_step s (LComp a v) = Next s' [EComp i v].
Proof. exact algo_progress. Qed.
Print Assumptions C43_algorithms_progress.

(** C43: between calls of user functions and completions of leaf senders, the code takes finitely many steps. *)
Theorem C43_algorithms_finish : forall e ls s tr, wf e -> run m_step (m_init e) ls = Running s tr -> m_rule e tr ->
  exists m, forall ls' s' tr', (forall l, In l ls' -> exists k, l = LStep k) -> run_from m_step s tr ls' = Running s' tr' -> length ls' <= m.
Proof. exact algo_finishes. Qed.
Print Assumptions C43_algorithms_finish.

(** C44: no inner operation is started before it is constructed, constructed over a live one, destroyed twice or accessed after its
    destruction (these are the failures of the model). *)
Theorem C44_algorithms_safe : forall e ls f tr, wf e -> run m_step (m_init e) ls = Failed f tr -> ~ m_rule e tr.
Proof. exact algo_safe. Qed.
Print Assumptions C44_algorithms_safe.

(** C44: when the whole operation was destroyed, all inner operations are destroyed. *)
Theorem C44_algorithms_freed : forall e ls s tr, wf e -> run m_step (m_init e) ls = Running s tr -> m_rule e tr -> In EDestroy tr ->
  forall a, m_heap s a = None.
Proof. exact algo_freed. Qed.
Print Assumptions C44_algorithms_freed.

(** C45 is false: the destructor of a let operation that was not started fails. *)
Theorem C45_let_unstarted_refuted : exists e ls tr, wf e /\ run m_step (m_init e) ls = Failed AssertFailed tr /\ ~ In EStart tr.
Proof.
  exists (SLet 1 2 SLeaf), [LStep 0; LDestroy], [EDestroy]. split; [constructor; constructor|]. split; [vmrefl|]. intros [H|[]]. discriminate.
Qed.
Print Assumptions C45_let_unstarted_refuted.
(** The operations of the other algorithms can be destroyed if they were not started. *)
Theorem C45_others_unstarted_partial : forall e ls f tr, wf e -> ~ islet e -> ~ In EStart tr -> run m_step (m_init e) ls <> Failed f tr.
Proof.
  intros e ls f tr Hw Hl Hs Hr. apply (algo_safe e ls f tr Hw Hr). intros t1 t2 ->. right. auto.
Qed.
Print Assumptions C45_others_unstarted_partial.

(** repeat_while whose body is sequence(leaf, transform(leaf)); the first leaf of each round completes inline, the second later. *)
Definition demo_rep : sender := SRep 1 2 (fun w => SSeq [SLeaf w; STrans (SLeaf 7) 5]).
Definition demo_rep_ls : list mlabel :=
  [LStep 0; LStart; LStep 1; LStep 1; LFn 1 1; LFn 1 40;
   LStep 1; LStep 1; LStep 1; LStep 1; LStep 1; LStep 1; LStep 1; LComp 2 0;                             (* leaf 40 started and completed on stack 2 *)
   LStep 2; LStep 2; LStep 2; LStep 2; LStep 2; LStep 2;                                                 (* leaf 7 started *)
   LStep 2; LStep 1; LComp 3 9; LStep 3; LFn 3 11; LStep 3; LStep 3; LStep 3; LFn 3 0; LStep 3; LDestroy; LStep 1].
Example demo_rep_run : exists s, run m_step (m_init demo_rep) demo_rep_ls = Running s
    [EStart; ECall 1 0; ERet 1 1; ECall 2 0; ERet 2 40; ELeaf 40; EComp 40 0; ELeaf 7; EComp 7 9; ECall 5 9; ERet 5 11; ECall 1 0; ERet 1 0; EDone 0; EDestroy] /\
    m_thr s = [[]; []; []; []] /\ map (m_heap s) [0; 1; 2; 3] = [None; None; None; None].
Proof. witness. split; vmrefl. Qed.
Example demo_rep_wf : wf demo_rep /\ m_rule demo_rep
    [EStart; ECall 1 0; ERet 1 1; ECall 2 0; ERet 2 40; ELeaf 40; EComp 40 0; ELeaf 7; EComp 7 9; ECall 5 9; ERet 5 11; ECall 1 0; ERet 1 0; EDone 0; EDestroy].
Proof.
  split.
  - constructor. intros w. constructor; [discriminate|]. intros s [<-|[<-|[]]]; repeat constructor.
  - intros t1 t2 H. left. exists 0.
    do 14 (destruct t1 as [|? t1]; [discriminate|injection H as <- H]). do 13 right. left. reflexivity.
Qed.
(** let whose sender is ite; the leaf completes while start() is still returning. *)
Definition demo_let : sender := STrans (SLet 1 2 (fun w => SIte 3 (SLeaf w) (SLam 4 8 (fun u => SInv u)))) 6.
Example demo_let_then : exists s, run m_step (m_init demo_let)
    [LStep 0; LStep 0; LStart; LStep 1; LFn 1 30; LFn 1 31; LStep 1; LStep 1; LStep 1; LFn 1 1; LStep 1; LStep 1; LStep 1; LComp 2 50; LStep 2; LFn 2 51; LStep 2; LDestroy] =
    Running s [EStart; ECall 1 0; ERet 1 30; ECall 2 30; ERet 2 31; ECall 3 0; ERet 3 1; ELeaf 31; EComp 31 50; ECall 6 50; ERet 6 51; EDone 51; EDestroy] /\ map (m_heap s) [0; 1; 2] = [None; None; None].
Proof. witness. vmrefl. Qed.
Example demo_let_else : exists s, run m_step (m_init demo_let)
    [LStep 0; LStep 0; LStart; LStep 1; LFn 1 30; LFn 1 31; LStep 1; LStep 1; LStep 1; LFn 1 0; LStep 1; LFn 1 9; LStep 1; LStep 1; LStep 1; LFn 1 12; LStep 1; LFn 1 13; LStep 1; LDestroy] =
    Running s [EStart; ECall 1 0; ERet 1 30; ECall 2 30; ERet 2 31; ECall 3 0; ERet 3 0; ECall 4 8; ERet 4 9; ECall 9 0; ERet 9 12; ECall 6 12; ERet 6 13; EDone 13; EDestroy] /\ map (m_heap s) [0; 1; 2] = [None; None; None].
Proof. witness. vmrefl. Qed.
(** A leaf was started and has not completed: the case of the progress theorem. *)
Example demo_wait : exists s tr, run m_step (m_init (STrans (SLeaf 3) 4)) [LStep 0; LStep 0; LStart; LStep 1] = Running s tr /\ tr = [EStart; ELeaf 3] /\ m_thr s = [[]; []].
Proof. witness. split; vmrefl. Qed.
(** An operation of sequence() that was not started is destroyed. *)
Example demo_unstarted : exists s, run m_step (m_init (STrans (SSeq [SLeaf 1]) 4)) [LStep 0; LStep 0; LDestroy] = Running s [EDestroy] /\ m_heap s 0 = None.
Proof. witness. vmrefl. Qed.
