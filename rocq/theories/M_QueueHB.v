(** The memory of async::queue itself (M_Queue.v, include/async/queue.hpp) with the happens-before relation of M_HB.v, and queue::empty()
    (queue.hpp 144-146), which reads buffer_ without taking mutex_.

    Locations: buffer_ (159) and sinks_ (161-168).  The hooks of the sinks in the list count as sinks_.  The accesses to the operations and to
    [value] are the subject of M_WaitHB.v instead.  Accesses in the order of the code:
      - try_cancel() 33-42: erase() if there is no value, inside of mutex_
      - emplace() 49-63: sinks_.empty(), then the assertion about buffer_ and pop_front() or emplace_back(), inside of mutex_
      - get_operation::start() 80-91: buffer_.empty(), then the assertion about sinks_ and front(), pop_front() or push_back(), inside of mutex_
      - maybe_get() 148-156: buffer_.empty(), then front() and pop_front(), inside of mutex_
      - empty() 145: buffer_.empty(). *)
From Coq Require Import List Arith Bool.
From Verif Require Import Lts M_Wait M_Queue M_HB.
Import ListNotations.

Section QueueHB.
Variable T : Type.
Notation QP := (queue_prim T).

Inductive qm_label := QStep (l : label QP) | QEmpty.
Inductive qm_event := QE (e : event QP) | EEmpty (b : bool).   (* empty() returned b *)

(** empty(), queue.hpp 144-146: buffer_ is empty; sinks_ is empty *)
Definition no_items (s : cst QP) : bool := match q_buf (c_prim s) with [] => true | _ => false end.
Definition no_sinks (s : cst QP) : bool := match q_sinks (c_prim s) with [] => true | _ => false end.

(** One step of M_Wait, or a call of empty() *)
Definition qm_base (eager : bool) (s : cst QP) (l : qm_label) : outcome (cst QP) qm_event :=
  match l with
  | QStep l =>
      match step QP eager s l with
      | Next s' es => Next s' (map QE es)
      | Disabled => Disabled
      | Fail f es => Fail f (map QE es)
      end
  | QEmpty => Next s [EEmpty (no_items s)]
  end.

(** Memory locations: buffer_ with its items; sinks_ with its hooks *)
Definition l_buffer := 0. Definition l_sinks := 1.
Definition x_mutex := 0.     (* queue::mutex_ *)
Definition x_client := 1.    (* a mutex of the client *)

(** How clients call put(), emplace(), maybe_get(), empty() and start(): from any threads; from any threads, holding a mutex of their own; from one
    thread.  (The client's mutex is released at the end of the critical section already, not at the return of the call.) *)
Inductive client := AnyThread | OwnMutex | OneThread.

(** Is the step a call of the client?  The thread that makes it *)
Definition is_call (l : qm_label) : bool := match l with QStep (LStart _ _ _) | QStep (LPrim _) | QEmpty => true | _ => false end.
Definition qm_thr (c : client) (s : cst QP) (l : qm_label) : list nat := match c with OneThread => if is_call l then [0] else [] | _ => [] end.

Definition locked (l : list mact) : list mact := Lock x_mutex :: l ++ [Unlock x_mutex].
(** The accesses of the library *)
Definition qm_body (s : cst QP) (l : qm_label) : list mact :=
  match l with
  | QStep (LStart _ _ _) =>
      locked (Touch l_buffer false :: if no_items s then [Touch l_sinks true] else [Touch l_sinks false; Touch l_buffer true])
  | QStep (LPrim pl) =>
      match pl : qlabel T with
      | QPut _ => locked (Touch l_sinks false :: if no_sinks s then [Touch l_buffer true] else [Touch l_buffer false; Touch l_sinks true])
      | QMaybeGet => locked (Touch l_buffer false :: if no_items s then [] else [Touch l_buffer true])
      end
  | QStep (LPath o x) =>
      match get_pc x (c_op s o) with
      | PTry => locked (match q_val (c_prim s) o with None => [Touch l_sinks true] | Some _ => [] end)
      | _ => []
      end
  | QStep _ => []
  | QEmpty => [Touch l_buffer false]
  end.
Definition qm_acts (c : client) (s : cst QP) (l : qm_label) : list mact :=
  match c with
  | OwnMutex => if is_call l then Lock x_client :: qm_body s l ++ [Unlock x_client] else qm_body s l
  | _ => qm_body s l
  end.
Definition qm_step (eager : bool) (c : client) := m_step (qm_base eager) (qm_thr c) (qm_thr c) (qm_acts c).
Definition qm_init : mst := ms_init (c_init QP).

End QueueHB.
Arguments QStep {T}. Arguments QEmpty {T}. Arguments QE {T}. Arguments EEmpty {T}.
