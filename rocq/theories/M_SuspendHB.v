(** suspend_indefinitely (M_Suspend.v) under the C++ memory model: what its steps access, see M_HB.v.

    st_ is accessed by fetch_or() and fetch_sub() only; the list of callbacks of an event and _was_requested are protected by the mutex of the event
    (M_Cancel.v).  The threads that call cancel() need not know anything about the operation.  The operation is destroyed as soon as its receiver
    is notified, by the thread that notifies it.

    Simplifications: the operation is constructed by the thread that calls start(); an access to the list of callbacks is assumed to access the hooks of all
    observers of this operation that are linked there, not only those of the neighbours. *)
From Coq Require Import List Arith Bool.
From Verif Require Import Lts M_Suspend M_HB.
Import ListNotations.

(** Locations: st_ (line 448); cancellation_ and r_ (447, 449); of the observer obs_[i] (450): _event (205), _hook (21), _functor and the virtual table (206); of the event e: _was_requested (57) *)
Definition l_st := 0. Definition l_op := 1.
Definition l_ev (i : nat) := 4 * i + 2. Definition l_hook (i : nat) := 4 * i + 3. Definition l_fn (i : nat) := 4 * i + 4.
Definition l_req (e : nat) := 4 * e + 5.
(** Synchronization objects: st_, the mutex of an event *)
Definition x_st := 0. Definition x_mtx (e : nat) := S e.
(** Threads: the one that calls start(), the one of the k-th call of cancel() *)
Definition t_of (w : option nat) : nat := match w with None => 0 | Some k => S k end.

Section Toks.
Variable toks : list (option nat).
Notation n := (u_n toks).
Notation tk := (tk toks).
(** Whether the fetch_or() of line 407 and the fetch_sub() of line 428 acquire and release (all true in the code) *)
Variables o_acq o_rel s_acq s_rel : bool.

(** Construction or destruction of the operation *)
Definition u_all : list mact := map (fun x => Touch x true) (l_st :: l_op :: flat_map (fun i => [l_ev i; l_hook i; l_fn i]) (seq 0 n)).
Definition u_hooks (l : list nat) : list mact := map (fun i => Touch (l_hook i) true) l.
(** The observers that are linked at event e *)
Definition u_linked (s : ust) (e : nat) : list nat := filter (linked toks s e) (seq 0 n).

(** The threads whose views a step joins; below, the threads that continue from it; see M_HB.v *)
Definition uh_src (s : ust) (l : ulabel) : list nat := match l with LStart => [t_of None] | LCancel _ => [] | LStep w => [t_of w] end.
Definition uh_dst (s : ust) (l : ulabel) : list nat :=
  match l with LStart => [t_of None] | LCancel _ => [t_of (Some (length (u_acts s)))] | LStep w => [t_of w] end.
Definition uh_acts (s : ust) (l : ulabel) : list mact :=
  match l with
  | LStart => u_all                                                                    (* lines 392-393 *)
  | LCancel e => [Lock (x_mtx e); Touch (l_req e) true] ++ u_hooks (u_linked s e) ++ [Unlock (x_mtx e)]   (* lines 337-339 *)
  | LStep w =>
      match u_act s w with
      | Some (USet i) =>                                                               (* lines 397, 160-180 *)
          if i <? n then
            Touch l_op false ::
            match tk i with
            | None => [Touch (l_ev i) false]
            | Some e =>
                [Touch (l_ev i) true; Lock (x_mtx e); Touch (l_req e) false] ++ (if u_req s e then [] else u_hooks (i :: u_linked s e)) ++ [Unlock (x_mtx e)] ++
                (if u_req s e then [Touch (l_fn i) false] else [])
            end
          else []
      | Some (UOr _ _) => [Touch l_st false; Rmw x_st o_acq o_rel]                     (* line 407 *)
      | Some (UTry i _ _) =>                                                           (* lines 421, 183-193 *)
          if i <? n then
            Touch (l_ev i) false ::
            match tk i with
            | None => []
            | Some e => [Lock (x_mtx e); Touch (l_req e) false] ++ (if u_req s e then [] else u_hooks (u_linked s e)) ++ [Unlock (x_mtx e)]
            end
          else []
      | Some (USub ctr _) =>                                                           (* lines 428-433; the receiver destroys the operation *)
          [Touch l_st false; Rmw x_st s_acq s_rel] ++ (if u_ctr s =? ctr then Touch l_op false :: u_all else [])
      | Some (ULoop (i :: rest)) => u_hooks (i :: rest) ++ [Touch (l_fn i) false]      (* lines 343-345, 200-202 *)
      | _ => []
      end
  end.
Definition uh_step := m_step (u_step toks) uh_src uh_dst uh_acts.
Definition uh_init : mst := ms_init (u_start toks).
End Toks.
