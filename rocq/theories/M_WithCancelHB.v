(** with_cancel_cb (M_WithCancel.v) under the C++ memory model: what its steps access, see M_HB.v.

    cancel_state_ is accessed by fetch_sub() only; the list of the cancellation event and _was_requested are protected by its mutex (M_Cancel.v).  The
    wrapped operation completes on a thread that knows about its start.  The threads that call cancel() need not know anything about the operation.  The
    operation is destroyed as soon as its receiver is notified, by the thread that notifies it.

    Simplifications: the operation is constructed by the thread that calls start(), and ct_, which is only read by start(), is omitted. *)
From Coq Require Import List Arith Bool.
From Verif Require Import Lts M_Suspend M_WithCancel M_HB.
Import ListNotations.

(** Locations: op_ (line 542), cb_ (543), dr_ (544), cancel_state_ (552), value_ (556-562); of the observer cobs_ (546): _event (205), _hook (21) *)
Definition l_op := 0. Definition l_cb := 1. Definition l_dr := 2. Definition l_cs := 3. Definition l_val := 4. Definition l_ev := 5. Definition l_hook := 6.
Definition w_locs : list nat := seq 0 7.
Definition w_all : list mact := map (fun x => Touch x true) w_locs.
(** Synchronization objects: cancel_state_, the mutex of the cancellation event *)
Definition x_cs := 0. Definition x_mtx := 1.
(** Threads: the one that runs the wrapped operation; the one that runs the k-th call *)
Definition t_in := 0. Definition t_act (k : nat) := S k.

Section Orders.
Variable tok : bool.
(** Whether the fetch_sub() of set_value() (line 510) and that of the cancel handler (line 526) acquire and release (all true in the code) *)
Variables v_acq v_rel c_acq c_rel : bool.

(** The threads whose views a step joins; below, the threads that continue from it; see M_HB.v *)
Definition wc_src (s : wst) (l : wlabel) : list nat :=
  match l with
  | WLStart | WLCancel => []
  | WLInner _ => [t_in]
  | WLCbRet k | WLStep k => [t_act k]
  end.
Definition wc_dst (s : wst) (l : wlabel) : list nat :=
  match l with
  | WLStart | WLCancel | WLInner _ => [t_act (length (w_acts s))]
  | WLCbRet k => [t_act k]
  | WLStep k => match nth_error (w_acts s) k with Some WGo => [t_act k; t_in] | _ => [t_act k] end
  end.
Definition wc_acts (s : wst) (l : wlabel) : list mact :=
  match l with
  | WLStart => w_all                                                                   (* lines 487-491 *)
  | WLCancel => [Lock x_mtx] ++                                                        (* lines 337-339: splice() writes to the hooks *)
      (if tok && match w_ph s with OSet => true | _ => false end then [Touch l_hook true] else []) ++ [Unlock x_mtx]
  | WLInner _ => [Touch l_op true; Touch l_val true]                                   (* line 506 *)
  | WLCbRet k => [Touch l_cb true]
  | WLStep k =>
      match nth_error (w_acts s) k with
      | Some WSet =>                                                                   (* lines 161-171 *)
          if tok then [Touch l_ev true; Lock x_mtx] ++ (if w_req s then [] else [Touch l_hook true]) ++ [Unlock x_mtx] else [Touch l_ev false]
      | Some WGo => [Touch l_op true]                                                  (* line 499 *)
      | Some (WCall WStart) => [Touch l_cb true]                                       (* line 524, called by force_set() *)
      | Some (WCall WRet) => [Touch l_hook true; Touch l_cb true]                      (* line 344: pop_front() writes to the hook *)
      | Some (WSub _) => [Touch l_cs false; Rmw x_cs c_acq c_rel]                      (* line 526 *)
      | Some WReset =>                                                                 (* lines 184-193 *)
          [Touch l_ev false] ++
          (if tok && match w_ph s with OUnset => false | _ => true end
           then [Lock x_mtx] ++ (if w_req s then [] else [Touch l_hook true]) ++ [Unlock x_mtx] else [])
      | Some WVSub => [Touch l_cs false; Rmw x_cs v_acq v_rel]                         (* line 510 *)
      | Some (WCompl _) => [Touch l_val true; Touch l_dr true] ++ w_all                (* lines 534-538; the receiver destroys the operation *)
      | _ => []
      end
  end.
Definition wc_step := m_step (w_step tok) wc_src wc_dst wc_acts.
Definition wc_init : mst := ms_init w_init.
End Orders.
