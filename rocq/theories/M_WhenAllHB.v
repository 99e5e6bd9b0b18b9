(** when_all (M_WhenAll.v) under the C++ memory model: what its steps access, see M_HB.v.

    ctr_ is accessed by fetch_sub() only.  The operation of a sender completes on a thread that knows about its start.  The operation of when_all is
    destroyed by its receiver: by the thread that was notified, which knows nothing else about start() and about the other senders. *)
From Coq Require Import List Arith Bool.
From Verif Require Import Lts M_WhenAll M_HB.
Import ListNotations.

(** Locations: dr_ (line 719), ctr_ (line 721), the operation of sender i (line 720) *)
Definition l_dr := 0. Definition l_ctr := 1. Definition l_op (i : nat) := S (S i).
(** Threads: the one that calls start(); the one whose fetch_sub() got 1; the one that notified the receiver; the one that runs the operation of sender i *)
Definition t_start := 0. Definition t_pend := 1. Definition t_fin := 2. Definition t_op (i : nat) := 3 + i.

Section Orders.
Variable n : nat.
Definition w_locs : list nat := seq 0 (n + 2).
(** Whether the fetch_sub() of receiver::set_value() acquires and releases, line 674, and whether the one of start() does, line 713 (all true in the code) *)
Variables r_acq r_rel s_acq s_rel : bool.

(** The threads whose views a step joins; below, the threads that continue from it; see M_HB.v *)
Definition wh_src (s : ast) (l : alabel) : list nat :=
  match l with
  | ALStart | ALStep => [t_start]
  | ALComp i => [t_op i]
  | ALNotify => [t_pend]
  | ALDestroy => match a_main s with AIdle => [t_start] | _ => [t_fin] end
  end.
Definition wh_dst (s : ast) (l : alabel) : list nat :=
  match l with
  | ALStart => [t_start]
  | ALStep => match a_main s with
              | AStarting => if a_idx s <? n then [t_start; t_op (a_idx s)] else [t_start]
              | _ => [t_start; t_fin]
              end
  | ALComp i => if a_ctr s =? 1 then [t_op i; t_pend] else [t_op i]
  | ALNotify => [t_pend; t_fin]
  | ALDestroy => []
  end.
Definition wh_acts (s : ast) (l : alabel) : list mact :=
  match l with
  | ALStart => map (fun x => Touch x true) w_locs                                (* lines 699-702 *)
  | ALStep => match a_main s with
              | AStarting => if a_idx s <? n then [Touch (l_op (a_idx s)) true]  (* lines 708-709 *)
                             else [Touch l_ctr false; Rmw 0 s_acq s_rel]         (* line 713 *)
              | _ => [Touch l_dr false]                                          (* line 716 *)
              end
  | ALComp i => [Touch (l_op i) true; Touch l_ctr false; Rmw 0 r_acq r_rel]      (* the operation of sender i completes; line 674 *)
  | ALNotify => [Touch l_dr false]                                               (* line 677 *)
  | ALDestroy => map (fun x => Touch x true) w_locs
  end.
Definition wh_step (dbg : bool) := m_step (a_step n dbg) wh_src wh_dst wh_acts.
Definition wh_init : mst := ms_init (a_init n).
End Orders.
