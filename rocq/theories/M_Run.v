(** Models of the functions that start operations from ordinary code (include/async/basic.hpp): run() (372-461), detach_with_allocator() (491-554)
    and spawn_with_allocator() (556-604).

    The operation is arbitrary: it completes at most once, at any time after it was started (also inside of start()).
    After it called set_value() of its receiver it does not access itself any more (this is the contract of operations). *)
From Coq Require Import List Arith Bool.
From Verif Require Import Lts.
Import ListNotations.

(** ** run() *)
(** The thread that calls run(): before start(); inside of start(); before the check of done; inside of wait(); returned *)
Inductive upc := UInit | UStart | ULoop | UWait | URet.
(** receiver::set_value (413-416): not called; before emplace(); before done = true; returned *)
Inductive ucp := UNone | UEmpl (v : nat) | USet | UFin.
Record ust := US { u_pc : upc; u_cp : ucp; u_done : bool; u_val : option nat; u_alive : bool (* st and operation *) }.
Definition u_init : ust := US UInit UNone false None true.
Inductive ulabel := ULStart | ULStartRet | ULCheck | ULWaitRet | ULComp (v : nat) | ULEmplace | ULDone.
Inductive uevent := UEStart | UEComp (v : nat) | UEWait | UEWaitRet | UERet (v : nat).
(** The call of set_value() is not in progress. *)
Definition u_nocall (c : ucp) : bool := match c with UNone | UFin => true | _ => false end.

(** [sep]: the operation may complete on another thread than that of run(); if not, it completes inside of start() or wait().
    [dummy]: the io service is dummy_io_service (364-369). *)
Definition u_step (sep dummy : bool) (s : ust) (l : ulabel) : outcome ust uevent :=
  let 'US p c d v al := s in
  match l with
  | ULStart => match p with UInit => Next (US UStart c d v al) [UEStart] | _ => Disabled end                       (* lines 391-394, 422-425 *)
  | ULStartRet => match p with UStart => if sep || u_nocall c then Next (US ULoop c d v al) [] else Disabled | _ => Disabled end
  | ULCheck =>                                                                                                     (* lines 396-399, 427-431 *)
      match p with
      | ULoop => if d then match v with
                           | Some x => Next (US URet c d v false) [UERet x]
                           | None => Fail NullDeref []
                           end
                 else if dummy then Fail Panicked [UEWait] else Next (US UWait c d v al) [UEWait]
      | _ => Disabled
      end
  | ULWaitRet => match p with UWait => if sep || u_nocall c then Next (US ULoop c d v al) [UEWaitRet] else Disabled | _ => Disabled end
  | ULComp x =>
      match p, c with
      | UInit, _ => Disabled
      | _, UNone => if sep || match p with UStart | UWait => true | _ => false end then
                      if al then Next (US p (UEmpl x) d v al) [UEComp x] else Fail UseAfterFree []
                    else Disabled
      | _, _ => Disabled
      end
  | ULEmplace => match c with UEmpl x => if al then Next (US p USet d (Some x) al) [] else Fail UseAfterFree [] | _ => Disabled end      (* line 414 *)
  | ULDone => match c with USet => if al then Next (US p UFin true v al) [] else Fail UseAfterFree [] | _ => Disabled end                 (* lines 384, 415 *)
  end.

(** ** detach_with_allocator() and spawn_with_allocator() *)
(** The control block *)
Inductive dblock := DNone | DLive | DFreed.
(** The call of set_value() of the final receiver: not called; before set_value(cb_->dr) (spawn, line 570); before finalize() reads the block (516-517, 583);
    before destruct() (518, 584); before continuation() (detach, 519); returned *)
Inductive dcp := DCNone | DCRecv (v : nat) | DCRead | DCFree | DCCont | DCFin.
Record dst := DS { d_started : bool; d_block : dblock; d_cp : dcp }.
Definition d_init : dst := DS false DNone DCNone.
Inductive dlabel := DLAlloc | DLStart | DLComp (v : nat) | DLStep.
Inductive devent := DEAlloc | DEStart | DEComp (v : nat) | DERecv (v : nat) | DEFree | DECont.
Definition d_use (b : dblock) (o : outcome dst devent) : outcome dst devent := match b with DLive => o | _ => Fail UseAfterFree [] end.
Definition d_step (spawn : bool) (s : dst) (l : dlabel) : outcome dst devent :=
  let 'DS st b c := s in
  match l with
  | DLAlloc => match b with DNone => Next (DS st DLive c) [DEAlloc] | _ => Disabled end                            (* lines 536-537, 601-602 *)
  | DLStart => if st then Disabled else match b with DNone => Disabled | _ => d_use b (Next (DS true b c) [DEStart]) end     (* lines 538, 603 *)
  | DLComp v => if st then match c with
                           | DCNone => d_use b (Next (DS st b (if spawn then DCRecv v else DCRead)) [DEComp v])    (* lines 503-505, 569 *)
                           | _ => Disabled
                           end
                else Disabled
  | DLStep =>
      match c with
      | DCRecv v => d_use b (Next (DS st b DCRead) [DERecv v])
      | DCRead => d_use b (Next (DS st b DCFree) [])
      | DCFree => d_use b (Next (DS st DFreed (if spawn then DCFin else DCCont)) [DEFree])
      | DCCont => Next (DS st b DCFin) [DECont]
      | _ => Disabled
      end
  end.
