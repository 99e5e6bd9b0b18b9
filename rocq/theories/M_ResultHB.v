(** result<T> (M_Result.v) under the C++ memory model: what its steps access, see M_HB.v.

    cfp_ is accessed by exchange() only.  The coroutine is resumed by threads that know about its suspension (whoever resumes it got its handle after the
    suspension).  The operation is destroyed by a thread that knows about the notification of the receiver; if [eager] is false, it
    also knows that start() returned and that the coroutine reached its final suspension. *)
From Coq Require Import List Arith Bool.
From Verif Require Import Lts M_Result M_HB.
Import ListNotations.

(** Locations: cont_ (line 143), obj_ (line 36), cfp_ (line 144), the members s_ and receiver_ (lines 313-314), the rest of the coroutine frame *)
Definition l_cont := 0. Definition l_obj := 1. Definition l_cfp := 2. Definition l_op := 3. Definition l_frame := 4.
Definition r_locs : list nat := [l_cont; l_obj; l_cfp; l_op; l_frame].
(** Threads: the one that calls start(); the one that runs or last ran the coroutine; the one that notified the receiver *)
Definition t_start := 0. Definition t_co := 1. Definition t_fin := 2.

Section Orders.
Variable eager : bool.
(** Whether the exchange of final_suspend acquires (false in the code) and releases (true), lines 123-124; whether the exchange of start()
    releases (false), line 297; whether there is an acquire fence (true), line 300 *)
Variables f_acq f_rel s_rel s_fence : bool.

(** h.resume() in start() runs the coroutine on the thread of start() *)
Definition inside (c : co) : bool := match c with CRun b | CFin b => b | _ => false end.

(** The threads whose views a step joins; below, the threads that continue from it; see M_HB.v *)
Definition rh_src (s : rst) (l : rlabel) : list nat :=
  match l with
  | RLStart | RLExch | RLNotifyInline => [t_start]
  | RLDestroy => match r_pc s with PInit => [t_start] | _ => if eager then [t_fin] else [t_fin; t_start; t_co] end
  | _ => [t_co]
  end.
Definition rh_dst (s : rst) (l : rlabel) : list nat :=
  match l with
  | RLStart => [t_start; t_co]
  | RLSuspend | RLReturn _ | RLFinal => if inside (r_co s) then [t_start; t_co] else [t_co]
  | RLResume => [t_co]
  | RLExch => [t_start]
  | RLNotify => [t_co; t_fin]
  | RLNotifyInline => [t_start; t_fin]
  | RLDestroy => []
  end.
Definition rh_acts (s : rst) (l : rlabel) : list mact :=
  match l with
  | RLStart =>                             (* connect(), lines 350-353; lines 293-296; line 104 *)
      map (fun x => Touch x true) r_locs ++ [Touch l_op false; Touch l_cont true; Touch l_frame true; Touch l_cont false]
  | RLSuspend | RLResume => [Touch l_frame true]
  | RLReturn _ => [Touch l_frame true; Touch l_cont false; Touch l_obj true]   (* lines 81-88 *)
  | RLFinal => [Touch l_frame true; Touch l_cfp false; Rmw 0 f_acq f_rel]      (* lines 122-124 *)
  | RLNotify => [Touch l_cont false; Touch l_op false; Touch l_obj true]       (* lines 128, 307 *)
  | RLExch => [Touch l_cfp false; Rmw 0 false s_rel]                           (* line 297 *)
  | RLNotifyInline => (if s_fence then [Fence] else []) ++ [Touch l_op false; Touch l_obj true]   (* lines 300-301 *)
  | RLDestroy => map (fun x => Touch x true) r_locs                            (* lines 160-163 *)
  end.
Definition rh_step := m_step r_step rh_src rh_dst rh_acts.
Definition rh_init : mst := ms_init r_init.
End Orders.
