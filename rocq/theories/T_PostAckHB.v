(** C74: post_ack under the C++ memory model. *)
From Coq Require Import List Arith Bool Lia.
From Verif Require Import Lts M_HB M_PostAckHB S_PostAckHB P_PostAckHB3 P_PostAckHB5.
Import ListNotations.

(** The memory orders of the code (post-ack.hpp 213, 288) *)
Definition code_step := kh_step true true true true.

(** No data race, no failed assertion, no access to a post after its destruction, for any number of agents, posts, polls and handles. *)
Theorem C74_post_ack_race_free : forall ls f tr, run code_step kh_init ls <> Failed f tr.
Proof. exact (post_ack_norace true). Qed.
Print Assumptions C74_post_ack_race_free.

(** Whatever happens before post() happens before the handle is returned by poll(), and before the object is read through it. *)
Theorem C74_post_ack_visible : forall ls h t1 o p v t2,
  run code_step kh_init ls = Running h (t1 ++ (EGot o p, v) :: t2) \/ run code_step kh_init ls = Running h (t1 ++ (ERead o p, v) :: t2) -> sees_post p t1 v.
Proof. intros ls h t1 o p v t2 [Hr|Hr]; exact (w_vis _ _ (post_ack_Inv true ls h _ Hr) t1 _ v t2 eq_refl). Qed.
Print Assumptions C74_post_ack_visible.

(** Whatever happens before the reads, the acknowledgements and the detach()es of a post happens before the notification of its receiver, and no agent uses it
    afterwards. *)
Theorem C74_post_ack_done : forall ls h t1 p v t2, run code_step kh_init ls = Running h (t1 ++ (EPostDone p, v) :: t2) ->
  sees_all p t1 v /\ forall e u, In (e, u) t2 -> about p e = false.
Proof.
  intros ls h t1 p v t2 Hr. pose proof (post_ack_Inv true ls h _ Hr) as W. split; [exact (w_vis _ _ W t1 _ v t2 eq_refl)|exact (proj2 (w_fin _ _ W t1 p v t2 eq_refl))].
Qed.
Print Assumptions C74_post_ack_done.

Definition labels (l : list klabel) : list (klabel * hbs) := map (fun x => (x, [])) l.
(** Two agents read a post and acknowledge it *)
Definition both : list klabel := [LAttach; LAttach; LPost; LPoll 0; LPoll 1; LRead 0; LRead 1; LAck 0; LAck 1; LAckStep 1; LAckStep 1; LDestroy 0].
(** One of them gives it up instead *)
Definition gives_up : list klabel := [LAttach; LAttach; LPost; LPoll 0; LRead 0; LAck 0; LDetach 1; LDet 1; LDestroy 0].

(** The acquire and the release of the fetch_sub() of ack() are needed, and the acquire of the fetch_sub() of detach(); its release is not, as detach() then unlocks mutex_. *)
Theorem C74_post_ack_orders k_acq k_rel d_acq d_rel :
  (exists ls tr, run (kh_step k_acq k_rel d_acq d_rel) kh_init ls = Failed DataRace tr) <-> k_acq && k_rel && d_acq = false.
Proof.
  split.
  - intros (ls & tr & Hr). destruct k_acq, k_rel, d_acq; try reflexivity. exfalso. exact (post_ack_norace d_rel ls _ tr Hr).
  - intros H. exists (labels (if k_acq && k_rel then gives_up else both)). destruct k_acq, k_rel, d_acq, d_rel; try discriminate; eexists; vm_compute; reflexivity.
Qed.
Print Assumptions C74_post_ack_orders.

Definition sees (i : nat) (e : kevent * hbs -> bool) (tr : list (kevent * hbs)) : bool := existsb (fun ev => e ev && memb i (snd ev)) tr.
Definition is_done (ev : kevent * hbs) : bool := match fst ev with EPostDone _ => true | _ => false end.
Definition is_read (ev : kevent * hbs) : bool := match fst ev with ERead _ _ => true | _ => false end.
Definition access (h : mst (S := kst)) (i : nat) : option maccess := option_map fst (nth_error (mm_log (ms_mem h)) i).
Example C74_both :
  exists h tr, run code_step kh_init (labels both) = Running h tr /\ map fst tr = [EPost 0; EGot 0 0; EGot 1 0; ERead 0 0; ERead 1 0; EAck 0 0; EAck 1 0; EPostDone 0; EDestroy 0] /\
    access h 4 = Some (MA (l_obj 0) true) /\ sees 4 is_read tr = true /\ access h 17 = Some (MA (l_obj 0) false) /\ sees 17 is_done tr = true.
Proof. witness. repeat split; vmrefl. Qed.
Example C74_gives_up :
  exists h tr, run code_step kh_init (labels gives_up) = Running h tr /\ map fst tr = [EPost 0; EGot 0 0; ERead 0 0; EAck 0 0; ERetire 1 0; EPostDone 0; EDestroy 0] /\
    access h 14 = Some (MA (l_obj 0) false) /\ sees 14 is_done tr = true.
Proof. witness. repeat split; vmrefl. Qed.
(** Two polls before the post; try_cancel() of one succeeds and its agent polls again, that of the other one comes too late *)
Definition waits : list klabel := [LAttach; LPoll 0; LAttach; LPoll 1; LTry 1; LPost; LNotify 1; LTry 0; LNotify 0; LPoll 1; LRead 0; LRead 2; LAck 0; LAck 2; LAckStep 2; LAckStep 2; LDestroy 0].
Example C74_waits :
  exists h tr, run code_step kh_init (labels waits) = Running h tr /\ map fst tr = [EPost 0; EGot 0 0; EGot 2 0; ERead 0 0; ERead 2 0; EAck 0 0; EAck 2 0; EPostDone 0; EDestroy 0] /\
    access h 10 = Some (MA (l_obj 0) true) /\ map (fun ev => memb 10 (snd ev)) (filter is_read tr) = [true; true] /\
    access h 24 = Some (MA (l_obj 0) false) /\ map (fun ev => memb 24 (snd ev)) (filter is_read tr) = [true; false] /\ sees 24 is_done tr = true.
Proof. witness. repeat split; vmrefl. Qed.
(** Two posts, one agent detaches while it has a handle of the first one; a post without agents *)
Definition detached : list klabel := [LAttach; LPost; LPost; LPoll 0; LDetach 0; LDet 0; LAck 0; LAckStep 0; LAckStep 0; LPost; LFast 2; LDestroy 1; LDestroy 2].
Example C74_detached :
  exists h tr, run code_step kh_init (labels detached) = Running h tr /\
    map fst tr = [EPost 0; EPost 1; EGot 0 0; ERetire 0 1; EPostDone 1; EAck 0 0; EPostDone 0; EPost 2; EPostDone 2; EDestroy 1; EDestroy 2] /\
    access h 27 = Some (MA (l_acks 0) false) /\ map (fun ev => memb 27 (snd ev)) (filter is_done tr) = [false; true; true].
Proof. witness. repeat split; vmrefl. Qed.
