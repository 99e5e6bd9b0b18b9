(** C80: wait_group with cancellation, with the happens-before relation of the C++ memory model.
    [n0] is the count given to the constructor, [pick] says which old values the calls of try_cancel() read; in the code the decrements of ctr_ acquire and release. *)
From Coq Require Import List Arith Bool Lia.
From Verif Require Import Lts ListFacts M_Wait S_Wait P_Wait M_WaitHB S_WaitHB M_WaitGroupC S_WaitGroupC P_WaitGroupC M_WaitGroupHB S_WaitGroupHB P_WaitGroupHB.
Import ListNotations.

Notation xrun n0 pick eager ls := (run (x_step n0 pick eager true true) (x_init n0 pick) ls).

(** ** No data races *)
Theorem C80_wait_group_norace : forall n0 pick ls tr, xrun n0 pick false ls <> Failed DataRace tr.
Proof. exact (fun n0 pick ls tr Hr => match x_race n0 pick false true true ls tr Hr with conj E _ => diff_false_true E end). Qed.
Print Assumptions C80_wait_group_norace.

(** A client that destroys an operation as soon as its receiver was notified has a data race only if somebody cancelled that operation. *)
Theorem C80_wait_group_eager : forall n0 pick ls tr, xrun n0 pick true ls = Failed DataRace tr -> exists o, destroyed_early o tr.
Proof. exact (fun n0 pick ls tr Hr => proj2 (x_race n0 pick true true true ls tr Hr)). Qed.
Print Assumptions C80_wait_group_eager.

(** ** Visibility *)
(** What was done before done() was called for a unit that a wait counts happens before the notification that the wait is over. *)
Theorem C80_wait_group_sees : forall n0 pick eager ls s tr, xrun n0 pick eager ls = Running s tr -> sees_units tr.
Proof. exact x_sees. Qed.
Print Assumptions C80_wait_group_sees.

(** The same, in terms of the calls: the units whose add() happens before the call of start() are counted. *)
Theorem C80_wait_group_visible : forall n0 pick eager l1 s1 tr1 o tok a v l2 s u t1 w t2, xrun n0 pick eager l1 = Running s1 tr1 -> knows_unit (x_log s1) tr1 v u ->
  xrun n0 pick eager (l1 ++ HStart (P := wait_group_c n0 pick) o tok a v :: l2) = Running s (t1 ++ HE (EDone (P := wait_group_c n0 pick) o true) w :: t2) ->
  exists d, done_access t1 u d /\ In d w.
Proof. exact x_visible. Qed.
Print Assumptions C80_wait_group_visible.

(** A cancelled wait sees what was done before the call of cancel(); each wait sees what was done before the calls that locked the mutex before it was started. *)
Theorem C80_wait_group_calls : forall n0 pick eager ls s tr, xrun n0 pick eager ls = Running s tr -> calls_visible tr /\ earlier_visible tr.
Proof. exact (fun n0 pick eager ls s tr Hr => x_calls n0 pick eager true true ls s tr Hr). Qed.
Print Assumptions C80_wait_group_calls.

(** ** The other guarantees *)
(** C79 applies to these executions. *)
Theorem C80_wait_group_functional : forall n0 pick eager ls s tr, xrun n0 pick eager ls = Running s tr ->
  exists ls', run (step (wait_group_c n0 pick) eager) (c_init (wait_group_c n0 pick)) ls' = Running (h_s (x_h s)) (api tr).
Proof. exact (fun n0 pick eager ls s tr Hr => x_base n0 pick eager true true ls s tr Hr). Qed.
Print Assumptions C80_wait_group_functional.

(** The model does not rule out calls: done() is possible once for each unit whose add() happens before it. *)
Theorem C80_wait_group_done : forall n0 pick eager ls s tr u p v, xrun n0 pick eager ls = Running s tr -> knows_unit (x_log s) tr v u -> ~ unit_done (api tr) u ->
  exists s' es, x_step n0 pick eager true true s (HPrim (P := wait_group_c n0 pick) (YDone u p) v) = Next s' es.
Proof. exact x_done_enabled. Qed.
Print Assumptions C80_wait_group_done.

(** ** Memory orders *)
Fixpoint accs {n0 pick} (u : nat) (tr : list (hevent (wait_group_c n0 pick))) : list nat :=
  match tr with
  | HCall _ d _ :: t => match t with
                        | HE (EPrim e) _ :: _ => match (e : yevent) with EYDone u' => if u' =? u then [d] else [] | _ => [] end
                        | _ => []
                        end ++ accs u t
  | _ :: t => accs u t
  | [] => []
  end.
Lemma accs_app n0 pick u (t1 t2 : list (hevent (wait_group_c n0 pick))) d : In d (accs u t2) -> In d (accs u (t1 ++ t2)).
Proof. intros H. induction t1 as [|e t1 IH]; [exact H|]. destruct e; cbn [app accs]; [exact IH|]. apply in_or_app. now right. Qed.
Lemma accs_spec n0 pick u (tr : list (hevent (wait_group_c n0 pick))) d : done_access tr u d -> In d (accs u tr).
Proof. intros (t1 & c & os & w & t2 & ->). apply accs_app. cbn [accs]. rewrite Nat.eqb_refl. now left. Qed.

(** Two threads: the first done() changes the count from 2 to 1; the second one makes it 0 and wakes the wait. *)
Notation X2 := (wait_group_c 2 (fun _ => 0)).
Definition two_threads : list (hlabel X2) :=
  [HStart (P := X2) 0 None (0, 0) []; HPath 0 PathL; HPath 0 PathL;
   HPrim (P := X2) (YDone 0 0) []; HPrim (P := X2) (YStep 0 0) []; HPrim (P := X2) (YStep 0 0) [];
   HPrim (P := X2) (YDone 1 0) []; HPrim (P := X2) (YStep 1 1) []; HPrim (P := X2) (YStep 1 0) [];
   HWakeNext 5; HPath 0 PathP; HPath 0 PathP].
Definition blind (tr : list (hevent X2)) : bool :=
  match rev tr with
  | HE (EDone 0 b) w :: t => (b : bool) && forallb (fun d => negb (memb d w)) (accs 0 (rev t)) &&
      existsb (fun e : hevent X2 => match e with HE (EPrim e') _ => match (e' : yevent) with EYWait 0 kn => memb 0 kn | _ => false end | _ => false end) (rev t)
  | _ => false
  end.
Lemma blind_spec tr : blind tr = true -> ~ sees_units tr.
Proof.
  unfold blind. intros H Hs. destruct (rev tr) as [|e t] eqn:E; [discriminate|]. assert (Et : tr = rev t ++ [e]) by (rewrite <- (rev_involutive tr), E; reflexivity). clear E.
  destruct e as [e w|]; [|discriminate]. destruct e as [|[|o] b| | |]; try discriminate. apply andb_prop in H as [H H3]. apply andb_prop in H as [H1 H2].
  apply existsb_exists in H3 as (x & Hx & Hk). destruct x as [x v|]; [|discriminate]. destruct x as [| | | |x]; try discriminate. destruct x as [| |[|o] kn]; try discriminate.
  cbn in H1. destruct b; [|discriminate]. apply memb_In in Hk. destruct (Hs _ _ _ _ Et _ _ _ Hx Hk) as (d & Hd & Hw). apply accs_spec in Hd.
  rewrite forallb_forall in H2. specialize (H2 d Hd). apply memb_In in Hw. rewrite Hw in H2. discriminate.
Qed.
Lemma orders_needed acq rel : acq && rel = false -> exists s tr, run (x_step 2 (fun _ => 0) false acq rel) (x_init 2 (fun _ => 0)) two_threads = Running s tr /\ ~ sees_units tr.
Proof. intros H. destruct acq, rel; try discriminate; witness; apply blind_spec; vmrefl. Qed.

(** The acquire and the release of the decrements are both needed for the visibility. *)
Theorem C80_wait_group_orders : forall acq rel,
  (forall n0 pick eager ls s tr, run (x_step n0 pick eager acq rel) (x_init n0 pick) ls = Running s tr -> sees_units tr) <-> acq && rel = true.
Proof.
  intros acq rel. split.
  - intros H. destruct (acq && rel) eqn:E; [reflexivity|]. exfalso. destruct (orders_needed acq rel E) as (s & tr & Hr & Hn). exact (Hn (H _ _ _ _ _ _ Hr)).
  - intros H. apply andb_prop in H as [-> ->]. exact x_sees.
Qed.
Print Assumptions C80_wait_group_orders.

(** ** Executions *)
(** Two threads, with the orders of the code: the notification sees both accesses of the client. *)
Definition seen (u : nat) (tr : list (hevent X2)) : bool :=
  match rev tr with
  | HE (EDone 0 b) w :: t => (b : bool) && match accs u (rev t) with [d] => memb d w | _ => false end
  | _ => false
  end.
Example C80_two_threads : exists s tr, xrun 2 (fun _ => 0) false two_threads = Running s tr /\ seen 0 tr = true /\ seen 1 tr = true.
Proof. witness. split; vmrefl. Qed.

(** add(1) by one thread, start() by another.  If the add() happens before the start() (the client's access 0 before it is known), the wait is queued and sees what was
    done before done(); if not, the load may read the old value and the wait is over at once. *)
Notation X0 := (wait_group_c 0 (fun _ => 0)).
Definition add_known (v : list nat) : list (hlabel X0) := [HPrim (P := X0) (YAdd 1) []; HStart (P := X0) 0 None (0, 0) v; HPath 0 PathL; HPath 0 PathL].
Definition add_done : list (hlabel X0) := [HPrim (P := X0) (YDone 0 0) [0]; HPrim (P := X0) (YStep 0 1) []; HPrim (P := X0) (YStep 0 1) []; HWakeNext 3; HPath 0 PathP; HPath 0 PathP].
Definition overb (tr : list (hevent X0)) : bool := existsb (fun e : hevent X0 => match e with HE (EDone 0 b) _ => (b : bool) | _ => false end) tr.
Definition doneb (tr : list (hevent X0)) : bool := existsb (fun e : hevent X0 => match e with HE (EPrim e') _ => match (e' : yevent) with EYDone 0 => true | _ => false end | _ => false end) tr.
Definition seen0 (tr : list (hevent X0)) : bool :=
  match rev tr with
  | HE (EDone 0 b) w :: t => (b : bool) && match accs 0 (rev t) with [d] => memb d w | _ => false end
  | _ => false
  end.
Example C80_known : exists s tr, xrun 0 (fun _ => 0) false (add_known [0]) = Running s tr /\ overb tr = false.
Proof. witness. vmrefl. Qed.
Example C80_known_sees : exists s tr, xrun 0 (fun _ => 0) false (add_known [0] ++ add_done) = Running s tr /\ seen0 tr = true.
Proof. witness. vmrefl. Qed.
Example C80_known_unit : exists s tr, xrun 0 (fun _ => 0) false [HPrim (P := X0) (YAdd 1) []] = Running s tr /\ knows_unit (x_log s) tr [0] 0.
Proof. witness. right. exists 0. split; [|left; now left]. exists [], KFree, [], [0], [0], []. split; [reflexivity|now left]. Qed.
Example C80_unknown : exists s tr, xrun 0 (fun _ => 0) false (firstn 3 (add_known [])) = Running s tr /\ overb tr = true /\ doneb tr = false.
Proof. witness. split; vmrefl. Qed.

(** A wait that is cancelled sees what was done before cancel(); the race of C04 exists here too. *)
Notation X1 := (wait_group_c 1 (fun _ => 0)).
Definition cancelled_run : list (hlabel X1) :=
  [HStart (P := X1) 0 (Some 0) (0, 0) []; HPath 0 PathL; HPath 0 PathL; HCancel 0 []; HCanNext 0; HPath 0 PathC; HPath 0 PathC; HPath 0 PathC].
Definition cancelledb (tr : list (hevent X1)) : bool :=
  match rev tr with
  | HE (EDone 0 b) w :: t => negb b && existsb (fun e : hevent X1 => match e with HCall KCancel d [0] => memb d w | _ => false end) t
  | _ => false
  end.
Example C80_cancelled : exists s tr, xrun 1 (fun _ => 0) false cancelled_run = Running s tr /\ cancelledb tr = true.
Proof. witness. vmrefl. Qed.
Definition early_run : list (hlabel X1) :=
  [HStart (P := X1) 0 (Some 0) (0, 0) []; HPath 0 PathL; HPath 0 PathL; HPrim (P := X1) (YDone 0 0) []; HPrim (P := X1) (YStep 0 0) []; HPrim (P := X1) (YStep 0 0) []; HWakeNext 2; HPath 0 PathP;
   HCancel 0 []; HCanNext 0; HPath 0 PathC; HPath 0 PathC; HPath 0 PathC; HPath 0 PathP; HDestroy 0].
Example C80_destroyed_early : exists tr, xrun 1 (fun _ => 0) true early_run = Failed DataRace tr.
Proof. witness. Qed.
