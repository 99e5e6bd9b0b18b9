(** C79: wait_group with cancellation under the C++ memory model.
    [n0] is the count given to the constructor, [pick] says which old values the calls of try_cancel() read. *)
From Coq Require Import List Arith Bool Lia.
From Verif Require Import Lts M_Wait S_Wait P_Wait M_WaitGroupC S_WaitGroupC P_WaitGroupC.
Import ListNotations.

Notation yrun n0 pick eager ls := (run (step (wait_group_c n0 pick) eager) (c_init (wait_group_c n0 pick)) ls).
Notation yp n0 pick e := (EPrim (P := wait_group_c n0 pick) e).

(** ** Notified exactly once *)
Theorem C79_wait_group_once : forall n0 pick eager ls s tr, yrun n0 pick eager ls = Running s tr ->
  forall o, notified o tr <= 1 /\ (notified o tr = 1 -> started o tr).
Proof.
  exact (fun n0 pick eager ls s tr Hr o => conj (t_once _ _ eager (wait_group_c_tlaws n0 pick) ls s tr Hr o)
    (fun H => t_started _ _ eager (wait_group_c_tlaws n0 pick) ls s tr Hr o (eq_ind_r (fun n => n > 0) (le_n 1) H))).
Qed.
Print Assumptions C79_wait_group_once.

Theorem C79_wait_group_cancelled : forall n0 pick eager ls s tr, yrun n0 pick eager ls = Running s tr -> all_returned s ->
  forall o, started o tr -> cancel_requested o tr -> notified o tr = 1.
Proof. exact (fun n0 pick eager => t_cancelled _ _ eager (wait_group_c_tlaws n0 pick)). Qed.
Print Assumptions C79_wait_group_cancelled.

(** If at some point of the execution (tr1) done() has been called for every unit and those calls are past the decrement,
    every wait started before is notified, also if the group is used again afterwards. *)
Theorem C79_wait_group_woken : forall n0 pick eager ls1 s1 tr1 ls2 s2 tr2 o,
  yrun n0 pick eager ls1 = Running s1 tr1 -> done_returned s1 -> (forall u, is_unit tr1 u -> unit_done tr1 u) ->
  yrun n0 pick eager (ls1 ++ ls2) = Running s2 tr2 -> all_returned s2 -> started o tr1 -> notified o tr2 = 1.
Proof. exact yc_woken. Qed.
Print Assumptions C79_wait_group_woken.

Theorem C79_wait_group_pending : forall n0 pick eager ls s tr o, yrun n0 pick eager ls = Running s tr -> all_returned s -> done_returned s ->
  started o tr -> notified o tr = 1 \/ ((exists u, is_unit tr u /\ ~ unit_done tr u) /\ ~ cancel_requested o tr).
Proof. exact yc_pending. Qed.
Print Assumptions C79_wait_group_pending.

Theorem C79_wait_group_finishes : forall n0 pick eager ls s tr, yrun n0 pick eager ls = Running s tr -> exists n, finishes_within eager n s tr.
Proof. exact (fun n0 pick eager => t_finishes _ _ eager (wait_group_c_tlaws n0 pick)). Qed.
Print Assumptions C79_wait_group_finishes.

Theorem C79_wait_group_progress : forall n0 pick eager ls s tr, yrun n0 pick eager ls = Running s tr -> stuck eager s -> all_returned s.
Proof. exact (fun n0 pick eager => t_progress _ _ eager (wait_group_c_tlaws n0 pick)). Qed.
Print Assumptions C79_wait_group_progress.

(** A call of done() that is not past the decrement can always make a step: the load of the newest value is possible. *)
Theorem C79_wait_group_done_enabled : forall n0 pick eager ls s tr k u pc p, yrun n0 pick eager ls = Running s tr ->
  nth_error (y_dn (c_prim s)) k = Some (u, pc, p) -> pc <> YEnd ->
  exists s' es, step (wait_group_c n0 pick) eager s (LPrim (P := wait_group_c n0 pick) (YStep k (length (y_h (c_prim s)) - 1))) = Next s' es.
Proof. exact yc_done_enabled. Qed.
Print Assumptions C79_wait_group_done_enabled.

(** ** Truthful results *)
(** true: done() was called for all units whose add() happens before the start of the wait, whatever old values were read. *)
Theorem C79_wait_group_true : forall n0 pick eager ls s t1 o t2 kn u,
  yrun n0 pick eager ls = Running s (t1 ++ EDone (P := wait_group_c n0 pick) o true :: t2) -> In (yp n0 pick (EYWait o kn)) t1 -> In u kn -> unit_done t1 u.
Proof. exact yc_true. Qed.
Print Assumptions C79_wait_group_true.
Theorem C79_wait_group_known : forall n0 pick eager ls s tr o, yrun n0 pick eager ls = Running s tr -> started o tr -> exists kn, In (yp n0 pick (EYWait o kn)) tr.
Proof. exact yc_waited. Qed.
Print Assumptions C79_wait_group_known.

Theorem C79_wait_group_false : forall n0 pick eager ls s t1 o t2,
  yrun n0 pick eager ls = Running s (t1 ++ EDone (P := wait_group_c n0 pick) o false :: t2) -> cancel_requested o t1.
Proof. exact yc_false. Qed.
Print Assumptions C79_wait_group_false.

Theorem C79_wait_group_default_token : forall n0 pick eager ls s tr o a v, yrun n0 pick eager ls = Running s tr ->
  In (EStart (P := wait_group_c n0 pick) o None a) tr -> In (EDone (P := wait_group_c n0 pick) o v) tr -> v = true.
Proof. exact yc_default_token. Qed.
Print Assumptions C79_wait_group_default_token.

Theorem C79_wait_group_event_clean : forall n0 pick eager ls s tr e, yrun n0 pick eager ls = Running s tr ->
  (forall o, uses_event o e tr -> notified o tr = 1) -> e_cbs (c_ev s e) = [].
Proof. exact (fun n0 pick eager => t_event_clean _ _ eager (wait_group_c_tlaws n0 pick)). Qed.
Print Assumptions C79_wait_group_event_clean.

(** ** Safety *)
(** The assertion of done() never fails and the counter does not underflow; the failures are those of C18 and C04. *)
Theorem C79_wait_group_asserts : forall n0 pick eager ls f tr, yrun n0 pick eager ls = Failed f tr -> f = BadUnlink \/ (eager = true /\ f = UseAfterFree).
Proof. exact (fun n0 pick eager ls f tr Hr => match yc_fail n0 pick eager ls f tr Hr with or_introl (conj E _) => or_introl E | or_intror (conj E (conj E' _)) => or_intror (conj E E') end). Qed.
Print Assumptions C79_wait_group_asserts.

Theorem C79_wait_group_safe : forall n0 pick eager ls f tr, yrun n0 pick eager ls = Failed f tr -> reuse_rule tr ->
  eager = true /\ f = UseAfterFree /\ exists o, In (EDestroy o) tr /\ notified o tr = 1 /\ cancel_requested o tr.
Proof. exact yc_reuse_fail. Qed.
Print Assumptions C79_wait_group_safe.

(** Both conditions of the previous theorem are needed. *)
Notation Y1 := (wait_group_c 1 (fun _ => 2)).
Example C79_reuse_bad : exists ls tr, yrun 1 (fun _ => 2) false ls = Failed BadUnlink tr.
Proof.
  exists [LStart (P := Y1) 0 (Some 0) (0, 0); LPath 0 PathL; LPath 0 PathL; LPrim (P := Y1) (YDone 0 0); LPrim (P := Y1) (YStep 0 0); LPrim (P := Y1) (YStep 0 0);
    LPrim (P := Y1) (YAdd 1); LCancel 0; LCanNext 0; LPath 0 PathC; LPath 0 PathC].
  witness.
Qed.
Definition is_add {n0 pick} (e : event (wait_group_c n0 pick)) : bool := match e with EPrim e' => match (e' : yevent) with EYAdd _ => true | _ => false end | _ => false end.
Lemma no_add n0 pick (tr : list (event (wait_group_c n0 pick))) : existsb is_add tr = false -> forall us, ~ In (yp n0 pick (EYAdd us)) tr.
Proof. intros H us Hi. enough (E : existsb is_add tr = true) by congruence. apply existsb_exists. eexists. split; [exact Hi|reflexivity]. Qed.
Definition endedb (s : yst) : bool := forallb (fun d => match snd (fst d) with YEnd => true | _ => false end) (y_dn s).
Lemma ended n0 pick (s : cst (wait_group_c n0 pick)) : endedb (c_prim s) = true -> done_returned s.
Proof. intros H u pc p Hi. unfold endedb in H. rewrite forallb_forall in H. specialize (H _ Hi). cbn in H. destruct pc; congruence. Qed.
Example C79_destroyed : exists ls tr, yrun 1 (fun _ => 2) true ls = Failed UseAfterFree tr /\ forall us, ~ In (yp 1 (fun _ => 2) (EYAdd us)) tr.
Proof.
  exists [LStart (P := Y1) 0 (Some 0) (0, 0); LPath 0 PathL; LPath 0 PathL; LPrim (P := Y1) (YDone 0 0); LPrim (P := Y1) (YStep 0 0); LPrim (P := Y1) (YStep 0 0);
    LWakeNext 2; LPath 0 PathP; LCancel 0; LCanNext 0; LPath 0 PathC; LPath 0 PathC; LPath 0 PathC; LDestroy 0; LPath 0 PathP].
  witness. apply no_add. vmrefl.
Qed.

(** Old values are read: the first done() takes the lock because it reads 1 instead of 2; try_cancel() of the wait 1 reads 1 instead of 2; the second done() fails to
    exchange 2; the wait 2 reads 0 although another thread has used the group again. *)
Definition ypick (o : nat) : nat := 2.
Notation YP := (wait_group_c 1 ypick).
Definition ydemo : list (label YP) :=
  [LPrim (P := YP) (YAdd 1); LStart (P := YP) 0 (Some 3) (1, 1); LPath 0 PathL; LPath 0 PathL; LStart (P := YP) 1 (Some 4) (0, 0); LPath 1 PathL; LPath 1 PathL;
   LPrim (P := YP) (YDone 0 0); LPrim (P := YP) (YStep 0 0); LPrim (P := YP) (YStep 0 0);
   LPrim (P := YP) (YAdd 1); LCancel 4; LCanNext 0; LPath 1 PathC; LPath 1 PathC; LPath 1 PathC;
   LPrim (P := YP) (YDone 1 1); LPrim (P := YP) (YStep 1 1); LPrim (P := YP) (YStep 1 2); LPrim (P := YP) (YStep 1 0);
   LPrim (P := YP) (YDone 2 3); LPrim (P := YP) (YStep 2 4); LPrim (P := YP) (YStep 2 4);
   LPrim (P := YP) (YAdd 1); LStart (P := YP) 2 None (0, 5); LPath 2 PathL; LStart (P := YP) 3 None (6, 6); LPath 3 PathL; LPath 3 PathL;
   LWakeNext 11; LPath 0 PathP; LPath 0 PathP; LPath 0 PathP].
Example C79_stale : exists s, yrun 1 ypick true ydemo =
  Running s [yp 1 ypick (EYAdd [1]); EStart (P := YP) 0 (Some 3) (1, 1); yp 1 ypick (EYWait 0 [0; 1]); EStart (P := YP) 1 (Some 4) (0, 0); yp 1 ypick (EYWait 1 [0]);
             yp 1 ypick (EYDone 0); yp 1 ypick (EYAdd [2]); ECancel 4; EDone (P := YP) 1 false; yp 1 ypick (EYDone 1); yp 1 ypick (EYDone 2); yp 1 ypick (EYAdd [3]);
             EStart (P := YP) 2 None (0, 5); yp 1 ypick (EYWait 2 [0]); EDone (P := YP) 2 true; EStart (P := YP) 3 None (6, 6); yp 1 ypick (EYWait 3 [0; 1; 2; 3]);
             EDone (P := YP) 0 true] /\ y_h (c_prim s) = [1; 2; 1; 2; 1; 0; 1] /\ all_returned s /\ done_returned s.
Proof.
  witness. split; [vmrefl|]. split.
  - apply (t_returned_final _ _ true (wait_group_c_tlaws 1 ypick) ydemo); vmrefl.
  - apply ended. vmrefl.
Qed.
(** With the rule of C18 and without a failure: the group is used again after its wait is over. *)
Definition yreuse : list (label YP) :=
  [LStart (P := YP) 0 None (0, 0); LPath 0 PathL; LPath 0 PathL; LPrim (P := YP) (YDone 0 0); LPrim (P := YP) (YStep 0 0); LPrim (P := YP) (YStep 0 0); LWakeNext 2; LPath 0 PathP; LPath 0 PathP;
   LPrim (P := YP) (YAdd 1); LStart (P := YP) 1 None (2, 2)].
Definition yreuse_trace : list (event YP) :=
  [EStart (P := YP) 0 None (0, 0); yp 1 ypick (EYWait 0 [0]); yp 1 ypick (EYDone 0); EDone (P := YP) 0 true; yp 1 ypick (EYAdd [1]); EStart (P := YP) 1 None (2, 2);
   yp 1 ypick (EYWait 1 [0; 1])].
Example C79_reuse : exists s, yrun 1 ypick false yreuse = Running s yreuse_trace /\ y_h (c_prim s) = [1; 0; 1].
Proof. witness. vmrefl. Qed.
Example C79_reuse_ok : reuse_rule yreuse_trace.
Proof.
  intros t1 us t2 E Hus _ o Ho. unfold yreuse_trace in E.
  do 4 (destruct t1 as [|? t1]; [discriminate E|injection E as <- E]). destruct t1 as [|? t1]; [|exfalso; injection E as <- E; do 2 (destruct t1 as [|? t1]; [discriminate E|injection E as <- E]); destruct t1; discriminate E].
  destruct Ho as [<-|[]]. reflexivity.
Qed.
