(** race_and_cancel (M_Race.v) under the C++ memory model: what its steps access, see M_HB.v.

    n_done_ is accessed by fetch_add() only.  An operation completes on a thread that knows about its start.  The operation of race_and_cancel
    is destroyed by a thread that knows about the notification of the receiver and about the return of the completion call of the operation that completed first
    (see C42).

    Simplifications: cs_[j].cancel() and the operations synchronize their accesses to cs_[j] by the mutex of cs_[j] (M_Cancel.v), these count as reads of cs_[j],
    only its construction and destruction count as writes. *)
From Coq Require Import List Arith Bool.
From Verif Require Import Lts M_Race M_HB.
Import ListNotations.

(** Locations: r_ (line 426), n_done_ (line 430), operation i (line 427), cs_[j] (line 428) *)
Definition l_r := 0. Definition l_n := 1. Definition l_op (i : nat) := 2 + 2 * i. Definition l_cs (j : nat) := 3 + 2 * j.
(** Threads: the one that calls start(); the one that notified the receiver; the one that runs operation i; the one that runs the k-th call of set_value() *)
Definition t_start := 0. Definition t_fin := 1. Definition t_op (i : nat) := 2 + 2 * i. Definition t_act (k : nat) := 3 + 2 * k.

Section Orders.
Variable n : nat.
Definition c_locs : list nat := seq 0 (2 * n + 2).
(** Whether the fetch_add() of internal_receiver::set_value() acquires and releases, line 364 (both true in the code) *)
Variables acq rel : bool.

(** The threads whose views a step joins; below, the threads that continue from it; see M_HB.v *)
Definition ch_src (s : rst) (l : rlabel) : list nat :=
  match l with
  | RLStart | RLStep => [t_start]
  | RLComp i => [t_op i]
  | RLAct k => [t_act k]
  | RLDestroy => match r_main s with RIdle => [t_start] | _ => [t_fin; t_act 0] end
  end.
Definition ch_dst (s : rst) (l : rlabel) : list nat :=
  match l with
  | RLStart => [t_start]
  | RLStep => if r_idx s <? n then [t_start; t_op (r_idx s)] else [t_start]
  | RLComp i => [t_op i; t_act (length (r_acts s))]
  | RLAct k => match nth_error (r_acts s) k with
               | Some (RA i j m) => if j <? n then [t_act k] else if m + 1 =? n then [t_act k; t_fin] else [t_act k]
               | _ => [t_act k]
               end
  | RLDestroy => []
  end.
Definition ch_acts (s : rst) (l : rlabel) : list mact :=
  match l with
  | RLStart => map (fun x => Touch x true) c_locs                                (* lines 403-404 *)
  | RLStep => if r_idx s <? n then [Touch (l_op (r_idx s)) true] else []         (* lines 409-410 *)
  | RLComp i => [Touch (l_op i) true; Touch l_n false; Rmw 0 acq rel]            (* operation i completes; line 364 *)
  | RLAct k => match nth_error (r_acts s) k with
               | Some (RA i j m) => if j <? n then if j =? i then [] else [Touch (l_cs j) false]   (* line 368 *)
                                    else if m + 1 =? n then [Touch l_r false] else []              (* line 371 *)
               | _ => []
               end
  | RLDestroy => map (fun x => Touch x true) c_locs
  end.
Definition ch_step := m_step (r_step n) ch_src ch_dst ch_acts.
Definition ch_init : mst := ms_init r_init.
End Orders.
