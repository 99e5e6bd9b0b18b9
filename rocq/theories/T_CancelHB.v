(** C75: cancellation_event, cancellation_callback and cancellation_observer under the C++ memory model. *)
From Coq Require Import List Arith Bool Lia.
From Verif Require Import Lts M_HB M_Cancel S_Cancel T_Cancel M_CancelHB S_CancelHB P_CancelHB4.
Import ListNotations.

(** Clients that keep the rules cause neither a data race nor any other failure. *)
Theorem C75_cancel_race_free : forall ls f tr, run ch_step ch_init ls = Failed f tr -> ~ k_rule (map fst tr).
Proof. exact ch_safe. Qed.
Print Assumptions C75_cancel_race_free.

(** Whatever happens before the callback is constructed or the observer is set happens before the call of its functor; so does whatever happens before the call of cancel() that
    causes it, and, if the functor is called by the constructor or by force_set(), before all earlier calls of cancel(). *)
Theorem C75_cancel_functor : forall ls h t1 c k v t2, run ch_step ch_init ls = Running h (t1 ++ (KRun c k, v) :: t2) -> k_rule (map fst (t1 ++ (KRun c k, v) :: t2)) ->
  sees_set c t1 v /\ sees_cause c k t1 v.
Proof. intros ls h t1 c k v t2 Hr Hk. exact (ch_vis ls h t1 _ v t2 Hr Hk). Qed.
Print Assumptions C75_cancel_functor.

(** Whatever happens before cancel() happens before the return of a later is_cancellation_requested(), also if it is called by a functor, ... *)
Theorem C75_cancel_query : forall ls h t1 e b v t2, run ch_step ch_init ls = Running h (t1 ++ (KQuery e b, v) :: t2) -> k_rule (map fst (t1 ++ (KQuery e b, v) :: t2)) -> sees_cancel e t1 v.
Proof. intros ls h t1 e b v t2 Hr Hk. exact (ch_vis ls h t1 _ v t2 Hr Hk). Qed.
Print Assumptions C75_cancel_query.
Theorem C75_cancel_functor_query : forall ls h t1 c b v t2, run ch_step ch_init ls = Running h (t1 ++ (KFQuery c b, v) :: t2) -> k_rule (map fst (t1 ++ (KFQuery c b, v) :: t2)) ->
  forall e, uses c e (map fst t1) -> sees_cancel e t1 v.
Proof. intros ls h t1 c b v t2 Hr Hk. exact (ch_vis ls h t1 _ v t2 Hr Hk). Qed.
Print Assumptions C75_cancel_functor_query.
(** ... try_set(), try_reset() or constructor of a callback. *)
Theorem C75_cancel_set : forall ls h t1 c e b v t2, run ch_step ch_init ls = Running h (t1 ++ (KSet c (Some e) b, v) :: t2) -> k_rule (map fst (t1 ++ (KSet c (Some e) b, v) :: t2)) -> sees_cancel e t1 v.
Proof. intros ls h t1 c e b v t2 Hr Hk. exact (ch_vis ls h t1 _ v t2 Hr Hk). Qed.
Print Assumptions C75_cancel_set.
Theorem C75_cancel_reset : forall ls h t1 c b v t2, run ch_step ch_init ls = Running h (t1 ++ (KReset c b, v) :: t2) -> k_rule (map fst (t1 ++ (KReset c b, v) :: t2)) ->
  forall e, uses c e (map fst t1) -> sees_cancel e t1 v.
Proof. intros ls h t1 c b v t2 Hr Hk. exact (ch_vis ls h t1 _ v t2 Hr Hk). Qed.
Print Assumptions C75_cancel_reset.
Theorem C75_cancel_new : forall ls h t1 c e v t2, run ch_step ch_init ls = Running h (t1 ++ (KNew c (Some e), v) :: t2) -> k_rule (map fst (t1 ++ (KNew c (Some e), v) :: t2)) -> sees_cancel e t1 v.
Proof. intros ls h t1 c e v t2 Hr Hk. exact (ch_vis ls h t1 _ v t2 Hr Hk). Qed.
Print Assumptions C75_cancel_new.

Definition labels (l : list clabel) : list (clabel * hbs) := map (fun x => (x, [])) l.
Definition access (h : mst (S := cst)) (i : nat) : option maccess := option_map fst (nth_error (mm_log (ms_mem h)) i).
(** the events that come after access i *)
Definition after (i : nat) (tr : list (cevent * hbs)) : list cevent := map fst (filter (fun ev => memb i (snd ev)) tr).

(** Three nodes, of which one is unbound; cancel(); the functor of one asks whether cancellation is requested, that of the other destroys the observer; the event is destroyed.
    Access 12 is the first one of the third constructor. *)
Definition cancels : list clabel := [LNew 0 (Some 0); LSet 1 (Some 0) false; LNew 2 (Some 0); LUnbind 2; LCancel 0; LDel 2; LLoop 0; LFQuery 0; LRet 0; LLoop 0; LLoop 0; LDel 1; LRet 1; LLoop 0; LDel 0; LDelEv 0].
Definition cancels_tr : list cevent := [KNew 0 (Some 0); KSet 1 (Some 0) true; KNew 2 (Some 0); KUnbind 2; KCancel 0; KDel 2; KRun 0 HCancel; KFQuery 0 true; KRet 0; KRun 1 HCancel; KDel 1; KRet 1; KDel 0; KDelEv 0].
Example C75_cancels :
  exists h tr, run ch_step ch_init (labels cancels) = Running h tr /\ map fst tr = cancels_tr /\ k_rule (map fst tr) /\ access h 0 = Some (MA (l_nd 0) true) /\ after 0 tr = cancels_tr /\
    access h 5 = Some (MA (l_nd 1) true) /\ after 5 tr = tl cancels_tr.
Proof. witness. split; [vmrefl|]. split; [apply k_ruleb_sound; vmrefl|]. split; [vmrefl|]. split; [vmrefl|]. split; vmrefl. Qed.
(** An event that is cancelled already: the constructor of a callback calls its functor, force_set() calls the handler, try_set() and try_reset() return false; the nodes are destroyed, and
    the event is reset.  Access 0 is the first one of cancel(). *)
Definition late : list clabel := [LCancel 0; LNew 0 (Some 0); LRet 0; LSet 1 (Some 0) true; LRet 1; LSet 2 (Some 0) false; LReset 1; LQuery 0; LDel 0; LReset 2; LDel 1; LDel 2; LResetEv 0; LQuery 0; LDelEv 0].
Definition late_tr : list cevent := [KCancel 0; KNew 0 (Some 0); KRun 0 HCtor; KRet 0; KForce 1 (Some 0); KRun 1 HForce; KRet 1; KSet 2 (Some 0) false; KReset 1 false; KQuery 0 true; KDel 0; KReset 2 false; KDel 1;
  KDel 2; KResetEv 0; KQuery 0 false; KDelEv 0].
Example C75_late :
  exists h tr, run ch_step ch_init (labels late) = Running h tr /\ map fst tr = late_tr /\ k_rule (map fst tr) /\ access h 0 = Some (MA (l_ev 0) false) /\ after 0 tr = late_tr.
Proof. witness. split; [vmrefl|]. split; [apply k_ruleb_sound; vmrefl|]. split; vmrefl. Qed.

(** Two calls of cancel() of different events are not ordered, and neither is a functor called by one of them and the construction of a node of the other event. *)
Example C75_unordered :
  exists h tr, run ch_step ch_init (labels [LNew 0 (Some 0); LCancel 0; LNew 1 (Some 1); LCancel 1; LLoop 0; LLoop 1]) = Running h tr /\
    map fst tr = [KNew 0 (Some 0); KCancel 0; KNew 1 (Some 1); KCancel 1; KRun 0 HCancel; KRun 1 HCancel] /\ access h 0 = Some (MA (l_nd 0) true) /\ after 0 tr = [KNew 0 (Some 0); KCancel 0; KRun 0 HCancel].
Proof. witness. split; [vmrefl|]. split; vmrefl. Qed.
