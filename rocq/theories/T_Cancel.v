(** Property theorems for cancellation_event, cancellation_callback, cancellation_observer: C34-C37. *)
From Coq Require Import List Arith Bool Lia.
From Verif Require Import Lts ListFacts M_Cancel S_Cancel P_Cancel P_CancelMain.
Import ListNotations.

(** ** C34 *)
(** Under the client rules no assertion fails, no destroyed object is accessed, no node is erased that is not in the list, no call blocks itself. *)
Theorem C34_cancel_safe : forall ls f tr, run c_step c_init ls = Failed f tr -> ~ k_rule tr.
Proof. exact k_safe. Qed.
Print Assumptions C34_cancel_safe.

Theorem C34_cancel_once : forall ls s tr, run c_step c_init ls = Running s tr -> k_rule tr -> NoDup (runs tr).
Proof. exact k_once. Qed.
Print Assumptions C34_cancel_once.

(** The functor is called only after cancel() was called while the callback was registered, or at construction if cancellation is requested. *)
Theorem C34_cancel_cause : forall ls s t1 c h t2, run c_step c_init ls = Running s (t1 ++ KRun c h :: t2) -> k_rule (t1 ++ KRun c h :: t2) -> cause c h t1.
Proof. exact k_cause. Qed.
Print Assumptions C34_cancel_cause.

(** If cancel() was called while it was registered, it has run when the calls in flight have returned. *)
Theorem C34_cancel_complete : forall ls s tr, run c_step c_init ls = Running s tr -> k_rule tr -> c_quiet s -> forall c e, called c e tr -> In c (runs tr).
Proof. exact k_complete. Qed.
Print Assumptions C34_cancel_complete.

(** If cancel() was called before the construction, it runs in the constructor. *)
Theorem C34_cancel_late : forall ls s t1 c e t2, run c_step c_init ls = Running s (t1 ++ KNew c (Some e) :: t2) -> k_rule (t1 ++ KNew c (Some e) :: t2) ->
  reqd e t1 = true -> exists t2', t2 = KRun c HCtor :: t2'.
Proof. exact k_late. Qed.
Print Assumptions C34_cancel_late.

(** is_cancellation_requested() *)
Theorem C34_cancel_query : forall ls s t1 e b t2, run c_step c_init ls = Running s (t1 ++ KQuery e b :: t2) -> k_rule (t1 ++ KQuery e b :: t2) -> b = reqd e t1.
Proof. exact k_query. Qed.
Print Assumptions C34_cancel_query.

(** cancel() and the functors return: when no step of them is possible, none is in flight and no mutex is held; and their number of steps is bounded. *)
Theorem C34_cancel_progress : forall ls s tr, run c_step c_init ls = Running s tr -> k_rule tr -> (forall l, c_internal l -> c_step s l = Disabled) -> c_quiet s.
Proof. exact k_progress. Qed.
Print Assumptions C34_cancel_progress.

Theorem C34_cancel_unlocked : forall ls s tr, run c_step c_init ls = Running s tr -> k_rule tr -> c_quiet s -> forall e, e_lock (c_ev s e) = false.
Proof. exact k_unlocked. Qed.
Print Assumptions C34_cancel_unlocked.

Theorem C34_cancel_finishes : forall s tr, exists n, forall ls s' tr', Forall c_internal ls -> run_from c_step s tr ls = Running s' tr' -> length ls <= n.
Proof. exact (fun s tr => ex_intro _ (cmeas s) (k_finishes s tr)). Qed.
Print Assumptions C34_cancel_finishes.

(** ** C35 *)
(** Under the client rules, the functor is not called after the destructor; after unbind() only if cancel() was called before unbind(). *)
Theorem C35_cancel_deleted_partial : forall ls s t1 c h t2, run c_step c_init ls = Running s (t1 ++ KRun c h :: t2) -> k_rule (t1 ++ KRun c h :: t2) -> ~ In (KDel c) t1.
Proof. exact k_deleted. Qed.
Print Assumptions C35_cancel_deleted_partial.

Theorem C35_cancel_unbind_partial : forall ls s ta c tb h tc, let tr := ta ++ KUnbind c :: tb ++ KRun c h :: tc in
  run c_step c_init ls = Running s tr -> k_rule tr -> exists e, called c e ta.
Proof. exact k_unbind. Qed.
Print Assumptions C35_cancel_unbind_partial.

(** ** C36 *)
(** Of a callback that is constructed after reset(), the functor is called only after another cancel(). *)
Theorem C36_cancel_reset_partial : forall ls s t1 c e ta h tb, let tr := t1 ++ KNew c (Some e) :: ta ++ KRun c h :: tb in
  run c_step c_init ls = Running s tr -> k_rule tr -> reqd e t1 = false -> In (KCancel e) ta.
Proof. exact k_new_cancel. Qed.
Print Assumptions C36_cancel_reset_partial.

(** ** C37 *)
Theorem C37_observer_once : forall ls s tr, run c_step c_init ls = Running s tr -> k_rule tr -> NoDup (runs tr).
Proof. exact k_once. Qed.
Print Assumptions C37_observer_once.

(** If try_reset() returns true, the handler neither ran nor will run; if it returns false, the handler runs. *)
Theorem C37_observer_reset_true : forall ls s tr c, run c_step c_init ls = Running s tr -> k_rule tr -> In (KReset c true) tr -> ~ In c (runs tr).
Proof. exact k_reset_true. Qed.
Print Assumptions C37_observer_reset_true.

Theorem C37_observer_reset_false : forall ls s tr c e, run c_step c_init ls = Running s tr -> k_rule tr -> c_quiet s -> In (KReset c false) tr -> armed c e tr -> In c (runs tr).
Proof. exact k_reset_false. Qed.
Print Assumptions C37_observer_reset_false.

(** try_set() returns false exactly if cancellation is requested, and then the handler never runs; force_set() runs it at once. *)
Theorem C37_observer_set : forall ls s t1 c e b t2, run c_step c_init ls = Running s (t1 ++ KSet c (Some e) b :: t2) -> k_rule (t1 ++ KSet c (Some e) b :: t2) -> b = negb (reqd e t1).
Proof. exact k_set. Qed.
Print Assumptions C37_observer_set.

Theorem C37_observer_set_false : forall ls s tr c e, run c_step c_init ls = Running s tr -> k_rule tr -> In (KSet c (Some e) false) tr -> ~ In c (runs tr).
Proof. exact k_set_false. Qed.
Print Assumptions C37_observer_set_false.

Theorem C37_observer_force : forall ls s t1 c e t2, run c_step c_init ls = Running s (t1 ++ KForce c (Some e) :: t2) -> k_rule (t1 ++ KForce c (Some e) :: t2) ->
  reqd e t1 = true -> exists t2', t2 = KRun c HForce :: t2'.
Proof. exact k_force. Qed.
Print Assumptions C37_observer_force.

(** If cancel() is called while the observer is set, the handler runs. *)
Theorem C37_observer_complete : forall ls s tr, run c_step c_init ls = Running s tr -> k_rule tr -> c_quiet s -> forall c e, called c e tr -> In c (runs tr).
Proof. exact k_complete. Qed.
Print Assumptions C37_observer_complete.

(** ** A decision procedure for the client rules *)
Definition usesl (c : nat) (tr : list cevent) : list nat :=
  flat_map (fun ev => match ev with KNew c' (Some e) | KSet c' (Some e) _ | KForce c' (Some e) => if c' =? c then [e] else [] | _ => [] end) tr.
Lemma usesl_iff c e tr : uses c e tr <-> In e (usesl c tr).
Proof.
  unfold uses, usesl. rewrite in_flat_map. split.
  - intros [H|[[b H]|H]]; eexists; (split; [exact H|]); simpl; rewrite Nat.eqb_refl; now left.
  - intros (ev & H & Hi). destruct ev as [c' [e'|]| |c' [e'|] b|c' [e'|]| | | | | | | | |]; simpl in Hi; try contradiction; destruct (Nat.eqb_spec c' c) as [->|]; try contradiction; destruct Hi as [->|[]]; eauto.
Qed.
Definition usersl (e : nat) (tr : list cevent) : list nat :=
  flat_map (fun ev => match ev with KNew c (Some e') | KSet c (Some e') _ | KForce c (Some e') => if e' =? e then [c] else [] | _ => [] end) tr.
Lemma usersl_iff c e tr : uses c e tr <-> In c (usersl e tr).
Proof.
  unfold uses, usersl. rewrite in_flat_map. split.
  - intros [H|[[b H]|H]]; eexists; (split; [exact H|]); simpl; rewrite Nat.eqb_refl; now left.
  - intros (ev & H & Hi). destruct ev as [c' [e'|]| |c' [e'|] b|c' [e'|]| | | | | | | | |]; simpl in Hi; try contradiction; destruct (Nat.eqb_spec e' e) as [->|]; try contradiction; destruct Hi as [->|[]]; eauto.
Qed.
Definition has (p : cevent -> bool) (tr : list cevent) : bool := existsb p tr.
Definition unb c := has (fun ev => match ev with KUnbind c' => c' =? c | _ => false end).
Definition rst c := has (fun ev => match ev with KReset c' true => c' =? c | _ => false end).
Definition del c := has (fun ev => match ev with KDel c' => c' =? c | _ => false end).
Definition frun c := has (fun ev => match ev with KRun c' HCtor => c' =? c | _ => false end).
Definition setb c := has (fun ev => match ev with KSet c' (Some _) true | KForce c' (Some _) => c' =? c | _ => false end).
Lemma has_iff p tr : has p tr = true <-> exists ev, In ev tr /\ p ev = true. Proof. apply existsb_exists. Qed.
Lemma unb_iff c tr : In (KUnbind c) tr <-> unb c tr = true.
Proof. unfold unb. rewrite has_iff. split; [intros H; exists (KUnbind c); split; auto; apply Nat.eqb_refl|]. intros (ev & H & E). destruct ev; try discriminate. apply Nat.eqb_eq in E. now subst. Qed.
Lemma rst_iff c tr : In (KReset c true) tr <-> rst c tr = true.
Proof. unfold rst. rewrite has_iff. split; [intros H; exists (KReset c true); split; auto; apply Nat.eqb_refl|]. intros (ev & H & E). destruct ev as [ | | | |c' [|]| | | | | | | | ]; try discriminate. apply Nat.eqb_eq in E. now subst. Qed.
Lemma del_iff c tr : In (KDel c) tr <-> del c tr = true.
Proof. unfold del. rewrite has_iff. split; [intros H; exists (KDel c); split; auto; apply Nat.eqb_refl|]. intros (ev & H & E). destruct ev; try discriminate. apply Nat.eqb_eq in E. now subst. Qed.
Lemma frun_iff c tr : In (KRun c HCtor) tr <-> frun c tr = true.
Proof. unfold frun. rewrite has_iff. split; [intros H; exists (KRun c HCtor); split; auto; apply Nat.eqb_refl|]. intros (ev & H & E). destruct ev as [ | | | | | | | | | |c' [| |]| | ]; try discriminate. apply Nat.eqb_eq in E. now subst. Qed.
(** the nodes of an event at cancel(), not detached; at any earlier cancel() *)
Fixpoint calledl (c : nat) (t1 : list cevent) (t2 : list cevent) : bool :=
  match t2 with
  | [] => false
  | ev :: t2' => match ev with KCancel e => memb e (usesl c t1) && negb (unb c t1 || rst c t1 || del c t1) | _ => false end || calledl c (t1 ++ [ev]) t2'
  end.
Lemma calledl_sound c e : forall t2 t1 u v, t2 = u ++ KCancel e :: v -> armed c e (t1 ++ u) -> ~ removed c (t1 ++ u) -> calledl c t1 t2 = true.
Proof.
  induction t2 as [|ev t2 IH]; intros t1 u v E Ha Hn; [destruct u; discriminate|]. simpl. apply orb_true_iff. destruct u as [|x u]; simpl in E; injection E as -> E.
  - left. rewrite app_nil_r in *. apply andb_true_iff. split; [apply memb_In, usesl_iff; now apply armed_uses|]. apply negb_true_iff. destruct (unb c t1 || rst c t1 || del c t1) eqn:X; auto. exfalso. apply Hn. unfold removed.
    rewrite unb_iff, rst_iff, del_iff. rewrite !orb_true_iff in X. tauto.
  - right. apply (IH (t1 ++ [x]) u v E); rewrite <- app_assoc; auto.
Qed.
Definition k_ruleb1 (t : list cevent) (ev : cevent) : bool :=
  match ev with
  | KUnbind c => negb (unb c t) || forallb (fun e => reqd e t) (usesl c t)
  | KDel c => (negb (unb c t) || forallb (fun e => reqd e t) (usesl c t)) && (negb (calledl c [] t) || memb c (runs t)) && (negb (setb c t) || rst c t || memb c (runs t))
  | KSet c _ _ | KForce c _ => match usesl c t with [] => true | _ => false end
  | KReset c _ => negb (rst c t)
  | KResetEv e => negb (reqd e t) || forallb (fun c => del c t) (usersl e t)
  | KDelEv e => forallb (fun c => del c t) (usersl e t)
  | KFQuery c _ => negb (frun c t)
  | _ => true
  end.
Lemma k_ruleb1_sound t ev : k_ruleb1 t ev = true -> k_rule1 t ev.
Proof.
  assert (Hu : forall c, negb (unb c t) || forallb (fun e => reqd e t) (usesl c t) = true -> In (KUnbind c) t -> forall e, uses c e t -> reqd e t = true).
  { intros c H Hi e He. apply unb_iff in Hi. rewrite Hi in H. simpl in H. rewrite forallb_forall in H. apply H. now apply usesl_iff. }
  assert (Hd : forall e, forallb (fun c => del c t) (usersl e t) = true -> forall c, uses c e t -> In (KDel c) t).
  { intros e H c Hc. rewrite forallb_forall in H. apply del_iff, H. now apply usersl_iff. }
  destruct ev; simpl; intros H; auto.
  - now apply Hu.
  - intros e He. apply usesl_iff in He. destruct (usesl c t); [destruct He|discriminate].
  - intros e He. apply usesl_iff in He. destruct (usesl c t); [destruct He|discriminate].
  - intros Hr. apply rst_iff in Hr. rewrite Hr in H. discriminate.
  - apply andb_true_iff in H. destruct H as [H H3]. apply andb_true_iff in H. destruct H as [H1 H2]. split; [now apply Hu|]. split.
    + intros e (u & v & E & Ha & Hn). rewrite (calledl_sound c e t [] u v E Ha Hn) in H2. simpl in H2. now apply memb_In.
    + intros e Hs. assert (X : setb c t = true). { unfold setb. apply has_iff. destruct Hs as [Hs|Hs]; eexists; (split; [exact Hs|]); simpl; apply Nat.eqb_refl. }
      rewrite X in H3. simpl in H3. apply orb_true_iff in H3. rewrite rst_iff, <- memb_In. tauto.
  - apply orb_true_iff in H. destruct H as [H|H]; [left; now apply negb_true_iff|right; now apply Hd].
  - now apply Hd.
  - intros Hr. apply frun_iff in Hr. rewrite Hr in H. discriminate.
Qed.
Fixpoint k_ruleb (t1 t2 : list cevent) : bool := match t2 with [] => true | ev :: t2' => k_ruleb1 t1 ev && k_ruleb (t1 ++ [ev]) t2' end.
Lemma k_ruleb_sound tr : k_ruleb [] tr = true -> k_rule tr.
Proof.
  assert (G : forall t2 t1, k_ruleb t1 t2 = true -> forall u ev v, t2 = u ++ ev :: v -> k_rule1 (t1 ++ u) ev).
  { induction t2 as [|x t2 IH]; intros t1 H u ev v E; [destruct u; discriminate|]. simpl in H. apply andb_true_iff in H. destruct H as [H1 H2]. destruct u as [|y u]; simpl in E; injection E as -> E.
    - rewrite app_nil_r. now apply k_ruleb1_sound.
    - specialize (IH (t1 ++ [y]) H2 u ev v E). now rewrite <- app_assoc in IH. }
  intros H u ev v E. exact (G tr [] H u ev v E).
Qed.

(** ** Witnesses *)
(** Two events; callbacks 0 (registered, called), 1 (unbound before cancel), 2 (destroyed before cancel), 3 (constructed after cancel: called at once),
    4 (destroyed after the call, while cancel() is still running); observers 5 (try_reset succeeds), 6 (called; try_reset fails), 7 (try_set fails),
    8 (force_set: called at once); then all users of event 0 are destroyed, and it is reset and used again with callback 9 *)
Definition demo : list clabel :=
  [LNew 0 (Some 0); LNew 1 (Some 0); LNew 2 (Some 0); LNew 4 (Some 0); LSet 5 (Some 0) false; LSet 6 (Some 0) true; LUnbind 1; LDel 2; LReset 5; LNew 10 (Some 1); LQuery 0;
   LCancel 0; LLoop 0; LFQuery 0; LQuery 0; LNew 3 (Some 0); LRet 0; LRet 1; LLoop 0; LLoop 0; LRet 2; LLoop 0; LDel 4; LReset 6; LLoop 0; LSet 7 (Some 0) false; LSet 8 (Some 0) true; LRet 3; LLoop 0; LRet 4; LUnbind 1;
   LDel 0; LDel 1; LDel 3; LDel 5; LDel 6; LDel 7; LDel 8; LResetEv 0; LQuery 0; LNew 9 (Some 0); LQuery 1; LCancel 0; LLoop 1; LRet 5; LLoop 1; LDel 9; LDelEv 0].
Example demo_run : exists s tr, run c_step c_init demo = Running s tr /\ k_rule tr /\ runs tr = [0; 3; 4; 6; 8; 9] /\
  tr = [KNew 0 (Some 0); KNew 1 (Some 0); KNew 2 (Some 0); KNew 4 (Some 0); KSet 5 (Some 0) true; KForce 6 (Some 0); KUnbind 1; KDel 2; KReset 5 true; KNew 10 (Some 1); KQuery 0 false;
        KCancel 0; KRun 0 HCancel; KFQuery 0 true; KQuery 0 true; KNew 3 (Some 0); KRun 3 HCtor; KRet 0; KRet 3; KRun 4 HCancel; KRet 4; KDel 4; KReset 6 false; KRun 6 HCancel;
        KSet 7 (Some 0) false; KForce 8 (Some 0); KRun 8 HForce; KRet 6; KRet 8; KUnbind 1; KDel 0; KDel 1; KDel 3; KDel 5; KDel 6; KDel 7; KDel 8; KResetEv 0; KQuery 0 false;
        KNew 9 (Some 0); KQuery 1 false; KCancel 0; KRun 9 HCancel; KRet 9; KDel 9; KDelEv 0] /\
  c_fns s = [FEnd; FEnd; FEnd; FEnd; FEnd; FEnd] /\ c_loops s = [CL [] None; CL [] None].
Proof. witness. split; [apply k_ruleb_sound; vmrefl|]. split; [vmrefl|]. split; [vmrefl|]. split; vmrefl. Qed.

(** ** Refuted *)
(** A callback is destroyed while cancel() is about to call its functor: cancel() goes on with the destroyed callback. *)
Theorem C35_cancel_destroy_refuted : exists ls tr, run c_step c_init ls = Failed UseAfterFree tr /\ tr = [KNew 0 (Some 0); KNew 1 (Some 0); KCancel 0; KRun 0 HCancel; KDel 1; KRet 0].
Proof. exists [LNew 0 (Some 0); LNew 1 (Some 0); LCancel 0; LLoop 0; LDel 1; LRet 0; LLoop 0; LLoop 0]. witness. vmrefl. Qed.
Print Assumptions C35_cancel_destroy_refuted.

(** unbind(), then the destructor: the callback is erased from the list a second time. *)
Theorem C35_cancel_unbind_destroy_refuted : exists ls tr, run c_step c_init ls = Failed BadUnlink tr /\ tr = [KNew 0 (Some 0); KUnbind 0; KDel 0].
Proof. exists [LNew 0 (Some 0); LUnbind 0; LDel 0]. witness. vmrefl. Qed.
Print Assumptions C35_cancel_unbind_destroy_refuted.

(** The functor is called after unbind() returned. *)
Theorem C35_cancel_unbind_refuted : exists ls s, run c_step c_init ls = Running s [KNew 0 (Some 0); KCancel 0; KUnbind 0; KRun 0 HCancel].
Proof. exists [LNew 0 (Some 0); LCancel 0; LUnbind 0; LLoop 0]. eexists. reflexivity. Qed.
Print Assumptions C35_cancel_unbind_refuted.

(** A functor called by the constructor uses its token: it locks the mutex that the constructor holds. *)
Theorem C35_cancel_token_refuted : exists ls tr, run c_step c_init ls = Failed SelfDeadlock tr /\ tr = [KCancel 0; KNew 0 (Some 0); KRun 0 HCtor; KFQuery 0 true].
Proof. exists [LCancel 0; LNew 0 (Some 0); LFQuery 0]. witness. vmrefl. Qed.
Print Assumptions C35_cancel_token_refuted.

(** cancel() calls the functor and returns, the event is reset, the callback is destroyed: it is erased from a list it is not in. *)
Theorem C36_cancel_reset_refuted : exists ls tr, run c_step c_init ls = Failed BadUnlink tr /\ tr = [KNew 0 (Some 0); KCancel 0; KRun 0 HCancel; KRet 0; KResetEv 0; KDel 0].
Proof. exists [LNew 0 (Some 0); LCancel 0; LLoop 0; LRet 0; LLoop 0; LResetEv 0; LDel 0]. witness. vmrefl. Qed.
Print Assumptions C36_cancel_reset_refuted.
