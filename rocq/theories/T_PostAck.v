(** Property theorems for post_ack_mechanism: C01-C05 (cancellable waits: poll()), C32, C33. *)
From Coq Require Import List Arith Bool.
From Verif Require Import Lts M_Wait S_Wait P_Wait M_PostAck S_PostAck P_PostAck P_PostAckMain.
Import ListNotations.

Notation prun T eager ls := (run (step (post_ack T) eager) (c_init (post_ack T)) ls).

(** ** C01: at most once *)
Theorem C01_post_ack : forall T eager ls s tr, prun T eager ls = Running s tr ->
  forall o, notified o tr <= 1 /\ (notified o tr = 1 -> started o tr).
Proof.
  exact (fun T eager ls s tr Hr o => conj (t_once _ _ eager (post_ack_tlaws T) ls s tr Hr o)
    (fun H => t_started _ _ eager (post_ack_tlaws T) ls s tr Hr o (eq_ind_r (fun n => n > 0) (le_n 1) H))).
Qed.
Print Assumptions C01_post_ack.

(** ** C02: never lost *)
Theorem C02_post_ack_cancelled : forall T eager ls s tr, prun T eager ls = Running s tr -> all_returned s ->
  forall o, started o tr -> cancel_requested o tr -> notified o tr = 1.
Proof. exact (fun T eager => t_cancelled _ _ eager (post_ack_tlaws T)). Qed.
Print Assumptions C02_post_ack_cancelled.

(** A poll that is still pending has nothing to receive. *)
Theorem C02_post_ack_pending : forall T eager ls s tr o, prun T eager ls = Running s tr -> well_behaved tr -> all_returned s ->
  started o tr ->
  notified o tr = 1 \/ ((exists a, agent_of o (spec tr) = Some a /\ due_of a (spec tr) = []) /\ ~ cancel_requested o tr).
Proof. exact post_ack_pending. Qed.
Print Assumptions C02_post_ack_pending.

Theorem C02_post_ack_finishes : forall T eager ls s tr, prun T eager ls = Running s tr ->
  exists n, finishes_within eager n s tr.
Proof. exact (fun T eager => t_finishes _ _ eager (post_ack_tlaws T)). Qed.
Print Assumptions C02_post_ack_finishes.

Theorem C02_post_ack_progress : forall T eager ls s tr, prun T eager ls = Running s tr -> stuck eager s -> all_returned s.
Proof. exact (fun T eager => t_progress _ _ eager (post_ack_tlaws T)). Qed.
Print Assumptions C02_post_ack_progress.

(** ** C03: truthful results *)
Theorem C03_post_ack_cancelled : forall T eager ls s t1 o t2,
  prun T eager ls = Running s (t1 ++ EDone (P := post_ack T) o None :: t2) -> well_behaved t1 -> cancel_requested o t1.
Proof. exact post_ack_none. Qed.
Print Assumptions C03_post_ack_cancelled.

(** A poll that reports a handle reports the oldest post that is due for its agent. *)
Theorem C03_post_ack_success : forall T eager ls s t1 o p t2,
  prun T eager ls = Running s (t1 ++ EDone (P := post_ack T) o (Some p) :: t2) ->
  well_behaved (t1 ++ EDone (P := post_ack T) o (Some p) :: t2) ->
  exists a later, agent_of o (spec t1) = Some a /\ due_of a (spec t1) = p :: later.
Proof. exact post_ack_some. Qed.
Print Assumptions C03_post_ack_success.

Theorem C03_post_ack_default_token : forall T eager ls s tr o a v, prun T eager ls = Running s tr -> well_behaved tr ->
  In (EStart (P := post_ack T) o None a) tr -> In (EDone (P := post_ack T) o v) tr -> v <> None.
Proof. exact post_ack_default_token. Qed.
Print Assumptions C03_post_ack_default_token.

(** ** C04: no access after completion *)
Notation KP := (post_ack nat).
Definition uaf_run : list (label KP) :=
  [LPrim (KAttach 0 : PL KP); LStart (P := KP) 0 (Some 0) 0; LPath 0 PathL; LPath 0 PathL; LPrim (KPost 0 5 : PL KP); LWakeNext 1; LPath 0 PathP;
   LCancel 0; LCanNext 0; LPath 0 PathC; LPath 0 PathC; LPath 0 PathC; LDestroy 0; LPath 0 PathP].

Theorem C04_post_ack_refuted : exists ls tr, prun nat true ls = Failed UseAfterFree tr /\ well_behaved tr.
Proof. exists uaf_run. witness. apply wbb_sound. vmrefl. Qed.
Print Assumptions C04_post_ack_refuted.

Theorem C04_post_ack_partial : forall T eager ls f tr, prun T eager ls = Failed f tr -> well_behaved tr ->
  eager = true /\ f = UseAfterFree /\ exists o, In (EDestroy o) tr /\ notified o tr = 1 /\ cancel_requested o tr.
Proof. exact post_ack_fail. Qed.
Print Assumptions C04_post_ack_partial.

Theorem C04_post_ack_lazy_partial : forall T ls f tr, prun T false ls = Failed f tr -> ~ well_behaved tr.
Proof. exact post_ack_safe. Qed.
Print Assumptions C04_post_ack_lazy_partial.

(** ** C05 *)
Theorem C05_post_ack : forall T eager ls s tr e, prun T eager ls = Running s tr ->
  (forall o, uses_event o e tr -> notified o tr = 1) -> e_cbs (c_ev s e) = [].
Proof. exact (fun T eager => t_event_clean _ _ eager (post_ack_tlaws T)). Qed.
Print Assumptions C05_post_ack.

(** ** C32: polls return the posts, in order *)
(** What an attached agent has received is a prefix of what was posted since it was attached; all of it, if one of its
    polls is pending and no call is in flight. *)
Theorem C32_post_ack_order : forall T eager ls s tr a, prun T eager ls = Running s tr -> well_behaved tr -> h_att (history a tr) = true ->
  exists rest, h_posted (history a tr) = h_received (history a tr) ++ rest /\
    (forall o, all_returned s -> In o (h_ops (history a tr)) -> notified o tr = 0 -> rest = []).
Proof. exact post_ack_order. Qed.
Print Assumptions C32_post_ack_order.

(** Posts have different names, so that equal names above mean the same post. *)
Theorem C32_post_ack_names : forall T eager ls s tr, prun T eager ls = Running s tr -> well_behaved tr ->
  NoDup (map fst (sp_posts (spec tr))).
Proof. exact post_names. Qed.
Print Assumptions C32_post_ack_names.

(** Dereferencing the handle that poll [o] returned yields the object that was posted. *)
Theorem C32_post_ack_object : forall T eager ls s t1 o v t2,
  prun T eager ls = Running s (t1 ++ EPrim (ERead o v : PE (post_ack T)) :: t2) ->
  well_behaved (t1 ++ EPrim (ERead o v : PE (post_ack T)) :: t2) ->
  exists p x, v = Some x /\ In (EDone (P := post_ack T) o (Some p)) t1 /\ In (EPrim (EPost p x : PE (post_ack T))) t1.
Proof. exact post_ack_read. Qed.
Print Assumptions C32_post_ack_object.

(** No assertion fails (nor anything else: see C04_post_ack_partial). *)
Theorem C32_post_ack_asserts : forall T eager ls f tr, prun T eager ls = Failed f tr -> well_behaved tr -> f = UseAfterFree.
Proof. exact (fun T eager ls f tr Hr HW => proj1 (proj2 (post_ack_fail T eager ls f tr Hr HW))). Qed.
Print Assumptions C32_post_ack_asserts.

(** ** C33: posts complete *)
Theorem C33_post_ack_once : forall T eager ls s tr p, prun T eager ls = Running s tr -> well_behaved tr ->
  completions p tr <= 1 /\ (completions p tr = 1 -> exists x, In (EPrim (EPost p x : PE (post_ack T))) tr).
Proof. exact post_once. Qed.
Print Assumptions C33_post_ack_once.

(** When a post completes nobody has to receive or acknowledge it any more. *)
Theorem C33_post_ack_after : forall T eager ls s t1 p t2,
  prun T eager ls = Running s (t1 ++ EPrim (EPostDone p : PE (post_ack T)) :: t2) ->
  well_behaved (t1 ++ EPrim (EPostDone p : PE (post_ack T)) :: t2) -> settled p (spec t1).
Proof. exact post_done_after. Qed.
Print Assumptions C33_post_ack_after.

Theorem C33_post_ack_complete : forall T eager ls s tr p x, prun T eager ls = Running s tr -> well_behaved tr -> calls_returned s ->
  In (EPrim (EPost p x : PE (post_ack T))) tr -> settled p (spec tr) -> completions p tr = 1.
Proof. exact post_completes. Qed.
Print Assumptions C33_post_ack_complete.

(** The calls of ack() and detach() return: unless they all have, one of them can make a step, and they make finitely many. *)
Theorem C33_post_ack_progress : forall T eager ls s tr, prun T eager ls = Running s tr -> well_behaved tr ->
  (forall l, call_step l = true -> step (post_ack T) eager s l = Disabled) -> calls_returned s.
Proof. exact post_ack_progress. Qed.
Print Assumptions C33_post_ack_progress.

Theorem C33_post_ack_finishes : forall T eager ls s tr, prun T eager ls = Running s tr -> well_behaved tr ->
  exists n, forall ls' s' tr', (forall l, In l ls' -> call_step l = true) ->
    run_from (step (post_ack T) eager) s tr ls' = Running s' tr' -> length ls' <= n.
Proof. exact post_ack_finishes. Qed.
Print Assumptions C33_post_ack_finishes.

(** No access to the node of a post after its receiver was notified: the model fails on such an access, and the failures
    that remain concern poll operations. *)
Theorem C33_post_ack_no_access : forall T ls f tr, prun T false ls = Failed f tr -> ~ well_behaved tr.
Proof. exact post_ack_safe. Qed.
Print Assumptions C33_post_ack_no_access.

(** ** Witnesses *)
(** Agents 0 and 1 attach; 0 polls (operation 0) and is woken by post 0 while its token is cancelled; 1 does not poll
    before the posts 0 and 1, then receives post 0 (operation 1, fast path); 0 acknowledges, 1 detaches without having
    received post 1, which 0 receives afterwards; 1 acknowledges its handle after detaching.  Post 2 finds agent 0 only,
    whose poll (operation 3) was cancelled before. *)
Definition kdemo : list (label KP) :=
  [LPrim (KAttach 0 : PL KP); LPrim (KAttach 1 : PL KP);
   LStart (P := KP) 0 (Some 4) 0; LPath 0 PathL; LPath 0 PathL;
   LPrim (KPost 0 50 : PL KP); LCancel 4; LWakeNext 2; LCanNext 0; LPath 0 PathC; LPath 0 PathP; LPath 0 PathC; LPath 0 PathP; LPath 0 PathC;
   LPrim (KPost 1 51 : PL KP);
   LStart (P := KP) 1 None 1; LPath 1 PathL;
   LPrim (KRead 1 : PL KP); LPrim (KAck 0 : PL KP);
   LPrim (KDetach 1 : PL KP);
   LStart (P := KP) 2 None 0; LPath 2 PathL;
   LPrim (KAck 1 : PL KP); LPrim (KAckStep 1 : PL KP); LPrim (KAckStep 1 : PL KP);
   LPrim (KRead 2 : PL KP); LPrim (KAck 2 : PL KP); LPrim (KAckStep 2 : PL KP); LPrim (KAckStep 2 : PL KP);
   LStart (P := KP) 3 (Some 5) 0; LPath 3 PathL; LPath 3 PathL; LCancel 5; LCanNext 1; LPath 3 PathC; LPath 3 PathC; LPath 3 PathC;
   LPrim (KPost 2 52 : PL KP); LPrim (KDetach 0 : PL KP); LPrim (KDetStep 0 : PL KP)].

Definition kdemo_trace : list (event KP) :=
  [EPrim (EAttach 0 : PE KP); EPrim (EAttach 1 : PE KP); EStart (P := KP) 0 (Some 4) 0; EPrim (EPost 0 50 : PE KP); ECancel 4;
   EDone (P := KP) 0 (Some 0); EPrim (EPost 1 51 : PE KP); EStart (P := KP) 1 None 1; EDone (P := KP) 1 (Some 0);
   EPrim (ERead 1 (Some 50) : PE KP); EPrim (EAck 0 : PE KP); EPrim (EDetach 1 : PE KP); EPrim (EDetached 1 : PE KP);
   EStart (P := KP) 2 None 0; EDone (P := KP) 2 (Some 1); EPrim (EAck 1 : PE KP); EPrim (EPostDone 0 : PE KP);
   EPrim (ERead 2 (Some 51) : PE KP); EPrim (EAck 2 : PE KP); EPrim (EPostDone 1 : PE KP); EStart (P := KP) 3 (Some 5) 0;
   ECancel 5; EDone (P := KP) 3 None; EPrim (EPost 2 52 : PE KP); EPrim (EDetach 0 : PE KP); EPrim (EPostDone 2 : PE KP);
   EPrim (EDetached 0 : PE KP)].

Example kdemo_run : exists s, prun nat true kdemo = Running s kdemo_trace /\ all_returned s.
Proof.
  witness.
  apply (t_returned_final _ _ true (post_ack_tlaws nat) kdemo); vmrefl.
Qed.

Example kdemo_well_behaved : well_behaved kdemo_trace.
Proof. apply wbb_sound. vmrefl. Qed.

(** the history of agent 0 before it detaches: it has received the first two of three posts *)
Example kdemo_history : history 0 (firstn 24 kdemo_trace) = Hist true [0; 1; 2] [0; 1] [3; 2; 0].
Proof. vmrefl. Qed.

(** post 0 completes when agent 1, detached by then, acknowledges it: before that it is not settled *)
Example kdemo_settled : sp_held (spec (firstn 15 kdemo_trace)) = [(1, 0); (2, 1)] /\ settled 0 (spec (firstn 16 kdemo_trace)).
Proof.
  split; [vmrefl|]. assert (E : sp_due (spec (firstn 16 kdemo_trace)) = [] /\ sp_held (spec (firstn 16 kdemo_trace)) = [(2, 1)]) by (split; vmrefl).
  destruct E as [E1 E2]. split; intros b; rewrite ?E1, ?E2; intros H; [exact H|]. destruct H as [H|H]; [discriminate|exact H].
Qed.

(** detach() in flight: agent 0 is about to complete post 2 *)
Example kdemo_in_flight : exists s tr, prun nat true (firstn 39 kdemo) = Running s tr /\
  g_det (k_ag (c_prim s) 0) = Some (3, Some 2) /\ completions 2 tr = 0.
Proof. witness. split; vmrefl. Qed.
