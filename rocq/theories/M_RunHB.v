(** run(), detach() and spawn() (M_Run.v, include/async/basic.hpp 372-461, 491-604) with the happens-before relation of M_HB.v.

    Threads: the one that calls the function, and the one on which the operation completes.  What the operation itself does is not modelled; that it was started happens
    before its completion. *)
From Coq Require Import List Arith Bool.
From Verif Require Import Lts M_HB M_Run.
Import ListNotations.

(** ** run() *)
(** done (376, 405), value (406), the operation with its receiver (393, 424) *)
Definition l_done := 0. Definition l_value := 1. Definition l_operation := 2.
Definition t_run := 0. Definition t_set := 1.

(** [sync]: the beginning of start() or wait() happens before a completion inside of it, which happens before the return of start() or wait(). *)
Definition uh_src (sync : bool) (s : ust) (l : ulabel) : list nat :=
  match l with
  | ULStart | ULCheck => [t_run]
  | ULStartRet | ULWaitRet => if sync then [t_run; t_set] else [t_run]
  | ULComp _ => if sync then [t_run; t_set] else [t_set]
  | ULEmplace | ULDone => [t_set]
  end.
Definition uh_dst (s : ust) (l : ulabel) : list nat :=
  match l with
  | ULStart => [t_run; t_set]
  | ULStartRet | ULCheck | ULWaitRet => [t_run]
  | ULComp _ | ULEmplace | ULDone => [t_set]
  end.
Definition uh_acts (s : ust) (l : ulabel) : list mact :=
  match l with
  | ULStart => [Touch l_done true; Touch l_value true; Touch l_operation true]            (* lines 391-393, 422-424 *)
  | ULCheck => Touch l_done false ::                                                      (* lines 396, 427 *)
      if u_done s then [Touch l_value true; Touch l_operation true; Touch l_value true; Touch l_done true] else []     (* line 431, and the destructors *)
  | ULComp _ => [Touch l_operation false]
  | ULEmplace => [Touch l_operation false; Touch l_value true]                            (* line 414; stp_ is in the operation *)
  | ULDone => [Touch l_operation false; Touch l_done true]                                (* lines 384, 415 *)
  | ULStartRet | ULWaitRet => []
  end.
Definition uh_step (sep dummy sync : bool) := m_step (u_step sep dummy) (uh_src sync) uh_dst uh_acts.
Definition uh_init : mst := ms_init u_init.

(** ** detach_with_allocator() and spawn_with_allocator() *)
(** The control block *)
Definition l_block := 0.
Definition dh_thr (s : dst) (l : dlabel) : list nat := match l with DLAlloc | DLStart => [0] | DLComp _ | DLStep => [1] end.
Definition dh_dst (s : dst) (l : dlabel) : list nat := match l with DLStart => [0; 1] | _ => dh_thr s l end.
Definition dh_acts (s : dst) (l : dlabel) : list mact :=
  match l with
  | DLAlloc => [Touch l_block true]
  | DLStart | DLComp _ => [Touch l_block false]
  | DLStep => match d_cp s with DCRecv _ | DCRead | DCFree => [Touch l_block true] | _ => [] end   (* lines 516-518, 570, 583-584 *)
  end.
Definition dh_step (spawn : bool) := m_step (d_step spawn) dh_thr dh_dst dh_acts.
Definition dh_init : mst := ms_init d_init.
