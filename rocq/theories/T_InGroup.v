(** C97, C98: wait_in_group under the C++ memory model. *)
From Coq Require Import List Arith Bool Lia.
From Verif Require Import Lts M_Weak M_WaitGroupW S_WaitGroupW M_WaitGroupWD S_WaitGroupWD M_InGroup S_InGroup P_InGroup.
Import ListNotations.

(** The memory orders of the code (lines 55, 63, 90); [true]: a wrapped operation may be destroyed when a wait on the group was notified *)
Notation icode := (i_step true true true true).

(** ** C97: operations that are destroyed when their receivers were notified *)
(** No thread accesses a destroyed operation or a destroyed group, no access races with a destruction, no assertion fails; this also holds if a client destroys the group when a wait was notified (C94),
    while receivers of wrapped operations are still to be notified. *)
Theorem C97_wait_in_group_safe : forall n0 ls f tr, run (icode false) (i_init n0) ls <> Failed f tr.
Proof. exact (fun n0 => i_safe n0 true true). Qed.
Print Assumptions C97_wait_in_group_safe.

(** When a wait is notified, the wrapped operations whose start happens before its start have completed, and what they did happens before the notification. *)
Theorem C97_wait_in_group_visible : forall n0 ls s tr, run (icode false) (i_init n0) ls = Running s tr -> sees_ops tr.
Proof. intros n0 ls s tr H. exact (ij_vis _ _ (i_inv n0 true true false ls s tr H)). Qed.
Print Assumptions C97_wait_in_group_visible.

(** The receiver of a wrapped operation is notified at most once, after the original operation completed, and sees what that did. *)
Theorem C97_wait_in_group_life : forall n0 ls s tr i, run (icode false) (i_init n0) ls = Running s tr -> life_of i tr.
Proof. exact (fun n0 => i_life n0 true true). Qed.
Print Assumptions C97_wait_in_group_life.

(** It is notified if the original operation completes. *)
Theorem C97_wait_in_group_live : forall n0 ls s tr i n, run (icode false) (i_init n0) ls = Running s tr -> i_quiet true true true true false s ->
  In (IEComp i n) tr -> exists b, In (IEOut i b) tr.
Proof. exact (fun n0 => i_live n0 true true). Qed.
Print Assumptions C97_wait_in_group_live.

(** done() has returned by then: the counter is decremented, and the waits that were taken from the queue are notified. *)
Theorem C97_wait_in_group_after : forall n0 ls s tr, run (icode false) (i_init n0) ls = Running s tr -> out_after s tr.
Proof. exact (fun n0 => i_after n0 true true false). Qed.
Print Assumptions C97_wait_in_group_after.

(** A wait for the group is notified at most once, and exactly once if all wrapped operations complete and all other units are ended. *)
Theorem C97_wait_in_group_waits : forall n0 ls s tr, run (icode false) (i_init n0) ls = Running s tr ->
  (forall o, notified o (gev (zev tr)) <= 1) /\
  (g_quiet (z_g (i_z s)) -> all_ended n0 tr -> forall o known, In (IE (ZE (GEWait o known))) tr -> notified o (gev (zev tr)) = 1).
Proof. exact (fun n0 => i_waits n0 true true false). Qed.
Print Assumptions C97_wait_in_group_waits.

(** *** Witnesses *)
(** Operation 0 is started and a wait for the group; 0 completes on another thread, which only knows of its start; its done() reaches zero and notifies the wait. *)
Definition iw : list ilabel :=
  [ILStart 0 vbot; ILBase (ZStep (GLWait 0 (V 1 [TCall 0]) 1)); ILComp 0 (V 1 [TObj 0]); ILBase (ZStep (GLStep 0 1)); ILBase (ZStep (GLStep 0 0)); ILBase (ZStep (GLWake 0))].
Definition iw_ev : list ievent :=
  [IEStart 0 0; IE (ZE (GEAdd [0])); IE (ZE (GEWait 0 [0])); IEComp 0 0; IE (ZE (GEDone 0 0)); IE (ZE (GENotify 0 [0]))].
(** The group is destroyed by the receiver of the wait, then the receiver of 0 is notified, and destroys 0. *)
Example C97_run : exists s tr, run (icode false) (i_init 0) (iw ++ [ILBase (ZDel [0; 1; 2; 3]); ILOut 0; ILDel 0 [0; 1; 2]]) = Running s tr /\
  tr = iw_ev ++ [IE ZEDel; IEOut 0 [0]; IEDel 0] /\ z_dead (i_z s) = true /\ i_dead s 0 = true.
Proof. unfold iw. witness. repeat split; vmrefl. Qed.
(** The receiver of 0 is not notified before the loop of done() has ended. *)
Example C97_not_yet : run (icode false) (i_init 0) (firstn 5 iw ++ [ILOut 0]) = Stuck /\ run (icode false) (i_init 0) (iw ++ [ILDel 0 [0; 1; 2]]) = Stuck.
Proof. unfold iw. split; vmrefl. Qed.
(** The hypotheses of the last theorem hold in a state with a completed operation. *)
Example C97_quiet : exists s tr, run (icode false) (i_init 0) (iw ++ [ILOut 0]) = Running s tr /\ (g_dn (z_g (i_z s)), g_wk (z_g (i_z s))) =
    ([(0, GEnd, V 2 [TCall 3; TCall 2; TData 0; TObj 1; TObj 0; TCall 1; TCall 0; TCall 0])], [([], V 2 [TCall 3; TCall 2; TData 0; TObj 1; TObj 0; TCall 1; TCall 0; TCall 0])]) /\
  i_op s 0 = IDone /\ tr = iw_ev ++ [IEOut 0 [0]].
Proof. unfold iw. witness. repeat split; vmrefl. Qed.
Example C97_ended : all_ended 0 (iw_ev ++ [IEOut 0 [0]]) /\ is_unit 0 (gev (zev iw_ev)) 0 /\ notified 0 (gev (zev iw_ev)) = 1.
Proof.
  split; [|split; [right; exists [0]; simpl; auto|vmrefl]].
  intros u [Hu|(us & [Hi|[Hi|[Hi|[Hi|[]]]]] & Hu)]; try discriminate; [inversion Hu|]. injection Hi as <-. destruct Hu as [<-|[]]. left. exists 0, 0. simpl. auto 10.
Qed.
(** Two operations in a group with one more unit; 1 is started later and completes first; the receiver of 0 also sees what 1 did. *)
Example C97_two : exists s tr, run (icode false) (i_init 1)
  [ILStart 0 vbot; ILStart 1 vbot; ILComp 1 (V 2 [TObj 3]); ILBase (ZStep (GLStep 0 2)); ILBase (ZStep (GLStep 0 2)); ILOut 1;
   ILBase (ZStep (GLDone 0 vbot)); ILBase (ZStep (GLStep 1 0)); ILBase (ZStep (GLWait 0 (V 1 [TCall 0]) 3)); ILComp 0 (V 1 [TObj 0]); ILBase (ZStep (GLStep 2 3)); ILBase (ZStep (GLStep 2 3)); ILOut 0] = Running s tr /\
  in_events 0 tr = [IEStart 0 1; IEComp 0 2; IEOut 0 [2; 0]] /\ in_events 1 tr = [IEStart 1 2; IEComp 1 0; IEOut 1 [0]].
Proof. witness. split; vmrefl. Qed.

(** Both memory orders of the decrements are needed (those of add() are not): with a weaker one the wait does not see what the first operation did. *)
Definition iw2 : list ilabel :=
  [ILStart 0 vbot; ILStart 1 vbot; ILBase (ZStep (GLWait 0 (V 2 [TCall 0; TCall 1]) 2)); ILComp 0 (V 1 [TObj 0]); ILBase (ZStep (GLStep 0 2)); ILBase (ZStep (GLStep 0 2));
   ILComp 1 (V 2 [TObj 3]); ILBase (ZStep (GLStep 1 3)); ILBase (ZStep (GLStep 1 0)); ILBase (ZStep (GLWake 0))].
Example C97_sees : exists s tr, run (icode false) (i_init 0) iw2 = Running s tr /\ tr = [IEStart 0 0; IE (ZE (GEAdd [0])); IEStart 1 1; IE (ZE (GEAdd [1])); IE (ZE (GEWait 0 [0; 1]));
  IEComp 0 0; IE (ZE (GEDone 0 0)); IEComp 1 1; IE (ZE (GEDone 1 1)); IE (ZE (GENotify 0 [1; 0]))].
Proof. unfold iw2. witness. vmrefl. Qed.
Theorem C97_wait_in_group_orders : forall d_acq d_rel a_acq a_rel,
  (forall n0 ls s tr, run (i_step d_acq d_rel a_acq a_rel false) (i_init n0) ls = Running s tr -> sees_ops tr) <-> d_acq && d_rel = true.
Proof.
  intros d_acq d_rel a_acq a_rel. split.
  - intros H. destruct (d_acq && d_rel) eqn:E; [reflexivity|exfalso].
    assert (Hr : exists s, run (i_step d_acq d_rel a_acq a_rel false) (i_init 0) iw2 = Running s [IEStart 0 0; IE (ZE (GEAdd [0])); IEStart 1 1; IE (ZE (GEAdd [1])); IE (ZE (GEWait 0 [0; 1]));
      IEComp 0 0; IE (ZE (GEDone 0 0)); IEComp 1 1; IE (ZE (GEDone 1 1)); IE (ZE (GENotify 0 [1]))]).
    { unfold iw2. destruct d_acq, d_rel; try discriminate E; destruct a_acq, a_rel; eexists; vm_compute; reflexivity. }
    destruct Hr as (s & Hr). destruct (H _ _ _ _ Hr [IEStart 0 0; IE (ZE (GEAdd [0])); IEStart 1 1; IE (ZE (GEAdd [1])); IE (ZE (GEWait 0 [0; 1])); IEComp 0 0; IE (ZE (GEDone 0 0)); IEComp 1 1; IE (ZE (GEDone 1 1))]
      0 [1] [] eq_refl [0; 1] 0 0) as (n & Hn & Hb); [simpl; auto 20..|].
    simpl in Hn, Hb. destruct Hb as [<-|[]]. intuition discriminate.
  - intros H n0 ls s tr Hr. apply andb_true_iff in H as [-> ->]. exact (ij_vis _ _ (i_inv n0 a_acq a_rel false ls s tr Hr)).
Qed.
Print Assumptions C97_wait_in_group_orders.

(** ** C98: operations that are destroyed when a wait on the group was notified *)
(** Waiting for the group is not enough to destroy a wrapped operation: done() (line 206) notifies the wait before receiver_::set_value() uses originalr_ (lines 207-210). *)
Theorem C98_wait_in_group_early_refuted : exists n0 ls tr, run (icode true) (i_init n0) ls = Failed UseAfterFree tr.
Proof. exists 0, (iw ++ [ILDel 0 [0; 1]; ILOut 0]). unfold iw. witness. Qed.
Print Assumptions C98_wait_in_group_early_refuted.
(** The client of the witness knows all accesses to the operation before it destroys it: the one that is missing is still to come. *)
Example C98_knows : exists s tr, run (icode true) (i_init 0) (iw ++ [ILDel 0 [0; 1]]) = Running s tr /\ tr = iw_ev ++ [IEDel 0] /\
  option_map (fun x => objs (snd x)) (nth_error (g_wk (z_g (i_z s))) 0) = Some [1; 0].
Proof. unfold iw. witness. split; vmrefl. Qed.

(** What holds for such clients: when the wait is notified the original operations have completed, and what they did happens before. *)
Theorem C98_wait_in_group_early_partial : forall n0 ls s tr, run (icode true) (i_init n0) ls = Running s tr -> sees_ops tr.
Proof. intros n0 ls s tr H. exact (ij_vis _ _ (i_inv n0 true true true ls s tr H)). Qed.
Print Assumptions C98_wait_in_group_early_partial.
