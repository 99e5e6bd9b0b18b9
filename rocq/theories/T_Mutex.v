(** Property theorems for mutex: C23, C24, C25. *)
From Coq Require Import List Arith Bool Lia.
From Verif Require Import Lts M_Mutex S_Mutex P_Mutex.
Import ListNotations.

(** ** C23: mutual exclusion *)
(** Between two acquisitions, by async_lock() or by try_lock(), there is a call of unlock(). *)
Theorem C23_mutex_exclusive : forall ls s t1 a t2 b t3, run m_step m_init ls = Running s (t1 ++ a :: t2 ++ b :: t3) ->
  owners_unlock (t1 ++ a :: t2 ++ b :: t3) -> is_acq true a = true -> is_acq true b = true -> exists x, In (EUnlock x) t2.
Proof. exact m_between. Qed.
Print Assumptions C23_mutex_exclusive.

Theorem C23_mutex_one_owner : forall ls s tr, run m_step m_init ls = Running s tr -> owners_unlock tr ->
  unls true tr <= acqs true tr <= unls true tr + 1.
Proof. exact m_exclusive. Qed.
Print Assumptions C23_mutex_one_owner.

(** No assertion fails and no destroyed operation is accessed. *)
Theorem C23_mutex_asserts : forall ls f tr, run m_step m_init ls = Failed f tr -> ~ owners_unlock tr.
Proof. exact m_safe. Qed.
Print Assumptions C23_mutex_asserts.

Theorem C23_mutex_once : forall ls s tr, run m_step m_init ls = Running s tr -> owners_unlock tr ->
  NoDup (acquired tr) /\ incl (acquired tr) (started_ops tr).
Proof. exact m_once. Qed.
Print Assumptions C23_mutex_once.

(** ** C24: order *)
(** Operations that had to suspend acquire in the order of suspension. *)
Theorem C24_mutex_fifo : forall ls s tr, run m_step m_init ls = Running s tr -> owners_unlock tr ->
  exists waiting, susps tr = served tr ++ waiting.
Proof. exact m_fifo. Qed.
Print Assumptions C24_mutex_fifo.

(** try_lock() succeeds only if all operations that suspended have acquired. *)
Theorem C24_mutex_try : forall ls s t1 t2, run m_step m_init ls = Running s (t1 ++ ETry true true :: t2) ->
  owners_unlock (t1 ++ ETry true true :: t2) -> incl (susps t1) (acquired t1).
Proof. exact m_try. Qed.
Print Assumptions C24_mutex_try.

(** An operation started after the suspension of another one acquires after it. *)
Theorem C24_mutex_barge : forall ls s t1 o o' x t2, run m_step m_init ls = Running s (t1 ++ EAcq o' x :: t2) ->
  owners_unlock (t1 ++ EAcq o' x :: t2) -> suspended_first o o' t1 -> In o (acquired t1).
Proof. exact m_barge. Qed.
Print Assumptions C24_mutex_barge.

(** ** C25: completion *)
Theorem C25_mutex_idle : forall ls s tr, run m_step m_init ls = Running s tr -> owners_unlock tr ->
  m_quiet s -> held true tr = 0 -> incl (started_ops tr) (acquired tr).
Proof. exact m_idle. Qed.
Print Assumptions C25_mutex_idle.

Theorem C25_mutex_pending : forall ls s tr o, run m_step m_init ls = Running s tr -> owners_unlock tr ->
  m_quiet s -> In o (started_ops tr) -> ~ In o (acquired tr) -> In o (susps tr) /\ held true tr = 1.
Proof. exact m_pending. Qed.
Print Assumptions C25_mutex_pending.

Theorem C25_mutex_progress : forall ls s tr, run m_step m_init ls = Running s tr -> owners_unlock tr ->
  (forall k, m_step s (MStep k false) = Disabled) -> m_quiet s.
Proof. exact m_progress. Qed.
Print Assumptions C25_mutex_progress.

(** All calls return: up to spurious failures, the number of their steps is bounded. *)
Theorem C25_mutex_finishes : forall ls s tr, run m_step m_init ls = Running s tr -> owners_unlock tr ->
  exists n, forall ls' s' tr', Forall internal ls' -> run_from m_step s tr ls' = Running s' tr' -> length ls' <= n + nspur ls'.
Proof. exact m_finishes. Qed.
Print Assumptions C25_mutex_finishes.

(** ** Witnesses *)
(** the client rule is decidable *)
Fixpoint ownb (h1 h2 : nat) (tr : list levent) : bool :=
  match tr with
  | [] => true
  | EUnlock x :: t => if x then (0 <? h1) && ownb (h1 - 1) h2 t else (0 <? h2) && ownb h1 (h2 - 1) t
  | e :: t => ownb (if is_acq true e then S h1 else h1) (if is_acq false e then S h2 else h2) t
  end.
Lemma ownb_sound_aux : forall tr t0 h1 h2, acqs true t0 = unls true t0 + h1 -> acqs false t0 = unls false t0 + h2 -> ownb h1 h2 tr = true ->
  forall t1 x t2, tr = t1 ++ EUnlock x :: t2 -> unls x (t0 ++ t1) < acqs x (t0 ++ t1).
Proof.
  induction tr as [|e tr IH]; intros t0 h1 h2 H1 H2 Hb t1 x t2 E; [destruct t1; discriminate|]. destruct t1 as [|e' t1].
  - injection E as -> ->. rewrite app_nil_r. simpl in Hb. destruct x; apply andb_true_iff in Hb; destruct Hb as [Hb _]; apply Nat.ltb_lt in Hb; lia.
  - injection E as <- E. replace (t0 ++ e :: t1) with ((t0 ++ [e]) ++ t1) by (rewrite <- app_assoc; reflexivity).
    assert (Hs : forall y, acqs y (t0 ++ [e]) = acqs y t0 + (if is_acq y e then 1 else 0) /\ unls y (t0 ++ [e]) = unls y t0 + (if is_unl y e then 1 else 0)).
    { intros y. rewrite acqs_app, unls_app. unfold acqs at 2, unls at 2. simpl. destruct (is_acq y e), (is_unl y e); auto. }
    destruct (Hs true) as [A1 U1], (Hs false) as [A2 U2].
    destruct e as [o y|o|o|o y|y b|y]; simpl in Hb, A1, A2, U1, U2; try (eapply (IH _ h1 h2); eauto; lia).
    + destruct y; simpl in *; [eapply (IH _ (S h1) h2)|eapply (IH _ h1 (S h2))]; eauto; lia.
    + destruct y, b; simpl in *; first [eapply (IH _ (S h1) h2); eauto; lia|eapply (IH _ h1 (S h2)); eauto; lia|eapply (IH _ h1 h2); eauto; lia].
    + destruct y; apply andb_true_iff in Hb; destruct Hb as [Hb Hb']; apply Nat.ltb_lt in Hb; simpl in *;
        [eapply (IH _ (h1 - 1) h2)|eapply (IH _ h1 (h2 - 1))]; eauto; lia.
Qed.
Lemma ownb_sound tr : ownb 0 0 tr = true -> owners_unlock tr.
Proof. intros H t1 x t2 E. exact (ownb_sound_aux tr [] 0 0 eq_refl eq_refl H t1 x t2 E). Qed.

(** Operation 0 acquires; 1 fails spuriously once, then suspends; 2 suspends; unlock() hands over to 1, while a try fails; 1 unlocks and 2
    acquires; 2 unlocks and a try succeeds. *)
Definition demo : list mlabel :=
  [MStart 0; MStep 0 false; MStep 0 false;
   MStart 1; MStep 1 false; MStep 1 false; MStep 1 true; MStep 1 false;
   MStart 2; MStep 2 false; MStep 2 false; MUnlock; MStep 3 false; MStep 2 false; MStep 3 false; MTry; MStep 3 false;
   MUnlock; MStep 4 false; MStep 4 false; MStep 4 false; MUnlock; MStep 5 false; MStep 5 false; MTry].
Example demo_run : exists s tr, run m_step m_init demo = Running s tr /\ owners_unlock tr /\
  tr = [EStart 0 true; EAcq 0 true; EStart 1 true; ESusp 1; EStart 2 true; EUnlock true; ESusp 2; EHand 1; ETry true false; EAcq 1 true;
        EUnlock true; EHand 2; EAcq 2 true; EUnlock true; ETry true true] /\ forallb (fun a => match a with AEnd => true | _ => false end) (m_act s) = true.
Proof. witness. split; [apply ownb_sound; vmrefl|]. split; vmrefl. Qed.
(** operation 1 is suspended before 2 is started, and 2 acquires: the premises of C24_mutex_barge *)
Example demo_barge : suspended_first 1 2 [EStart 0 true; EAcq 0 true; EStart 1 true; ESusp 1; EStart 2 true; EUnlock true; ESusp 2; EHand 1; ETry true false; EAcq 1 true;
  EUnlock true; EHand 2].
Proof. exists [EStart 0 true; EAcq 0 true; EStart 1 true; ESusp 1], true. eexists. split; [reflexivity|]. now left. Qed.
(** the CAS of unlock() fails, because an operation suspends at the same time *)
Definition demo2 : list mlabel :=
  [MTry; MStart 0; MStep 0 false; MStep 0 false; MUnlock; MStep 1 false; MStep 0 false; MStep 1 false; MStep 1 false; MStep 1 false; MUnlock; MStep 2 false].
Example demo2_run : exists s tr, run m_step m_init demo2 = Running s tr /\ owners_unlock tr /\
  tr = [ETry true true; EStart 0 true; EUnlock true; ESusp 0; EHand 0; EAcq 0 true; EUnlock true] /\ m_act s = [AEnd; AEnd; AUnlCas].
Proof. witness. split; [apply ownb_sound; vmrefl|]. split; vmrefl. Qed.
(** unlock() by a client that does not own the mutex: an assertion fails *)
Example misuse : exists tr, run m_step m_init [MUnlock; MStep 0 false] = Failed AssertFailed tr.
Proof. witness. Qed.
