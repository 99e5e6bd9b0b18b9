(** cancellation_event, cancellation_callback and cancellation_observer under the C++ memory model (include/async/cancellation.hpp 12-207, 326-352): M_Cancel.v with the
    happens-before relation of M_HB.v.

    Locations: of an event the object with its _mutex, and _was_requested with _cbs; of a callback or observer (a node) the hook, and the other members.

    Threads: the calls on a node; the call of its functor; each call of cancel().  The threads that call cancel(), reset(), is_cancellation_requested() or a constructor
    are not required to know about any other call.  Rules of the client, in addition to those of M_Cancel.v: the calls on a node are ordered, its destruction is the last one and also
    happens after the beginning of the call of its functor (a functor may destroy its own node; it is destroyed after the end of its constructor); the destruction of an event happens
    after the calls that use the event.  The last one is expressed by the objects [x_acc], which do not exist in the code: the calls release, the destructor acquires.

    Simplifications: an access to a list writes the hooks of all its nodes; all accesses to _was_requested and _cbs are writes; an observer is constructed by the thread
    that calls try_set() or force_set(). *)
From Coq Require Import List Arith Bool.
From Verif Require Import Lts M_HB M_Cancel.
Import ListNotations.

(** Memory locations: the event itself; _was_requested and _cbs; the node itself; its hook.  Synchronization objects: _mutex (line 64); [x_acc], see above.  Threads: the one that owns node c; the one that runs its functor; the i-th call of cancel() *)
Definition l_ev (e : nat) := 4 * e. Definition l_st (e : nat) := 4 * e + 1. Definition l_nd (c : nat) := 4 * c + 2. Definition l_hk (c : nat) := 4 * c + 3.
Definition x_e (e : nat) := 2 * e. Definition x_acc (e : nat) := 2 * e + 1.
Definition t_n (c : nat) := 3 * c. Definition t_r (c : nat) := 3 * c + 1. Definition t_l (i : nat) := 3 * i + 2.

(** The hooks of the nodes of a list; a call that uses the event e, see [x_acc] above *)
Definition hooks (l : list nat) : list mact := map (fun c => Touch (l_hk c) true) l.
Definition know (e : nat) : mact := Rmw (x_acc e) false true.
(** The beginning and the end of a critical section *)
Definition enter (e : nat) : list mact := [Touch (l_ev e) false; Lock (x_e e); Touch (l_st e) true].
Definition leave (e : nat) : list mact := [Unlock (x_e e); know e].
Definition make (c : nat) : list mact := [Touch (l_nd c) true; Touch (l_hk c) true].
(** if(!_was_requested) erase(this), lines 113-121, 126-134, 182-193 *)
Definition erase (s : cst) (c : nat) : list mact :=
  Touch (l_nd c) false ::
  match n_tok (c_nd s c) with
  | None => []
  | Some e => enter e ++ (if e_req (c_ev s e) then [] else hooks (e_cbs (c_ev s e))) ++ leave e
  end.

Definition ch_acts (s : cst) (l : clabel) : list mact :=
  match l with
  | LNew c tok =>                                         (* lines 97-107; the mutex is not released before the functor returns *)
      make c ++
      match tok with
      | None => []
      | Some e => enter e ++ if e_req (c_ev s e) then [Touch (l_nd c) false; know e] else hooks (e_cbs (c_ev s e) ++ [c]) ++ leave e
      end
  | LSet c tok force =>                                   (* lines 158-176 *)
      make c ++
      match tok with
      | None => []
      | Some e => enter e ++ (if e_req (c_ev s e) then [] else hooks (e_cbs (c_ev s e) ++ [c])) ++ leave e ++ if e_req (c_ev s e) && force then [Touch (l_nd c) false] else []
      end
  | LUnbind c | LReset c => erase s c
  | LDel c => if n_obs (c_nd s c) then make c else erase s c ++ make c
  | LCancel e => enter e ++ hooks (e_cbs (c_ev s e)) ++ leave e
  | LResetEv e | LQuery e => enter e ++ leave e
  | LDelEv e => [Rmw (x_acc e) true false; Touch (l_ev e) true; Touch (l_st e) true]
  | LLoop i =>                                            (* pop_front() and call(), lines 342-346 *)
      match nth_error (c_loops s) i with
      | Some (CL (c :: rest) None) => hooks (c :: rest) ++ [Touch (l_nd c) false]
      | _ => []
      end
  | LRet k => match nth_error (c_fns s) k with Some (FRun _ e HCtor) => Touch (l_ev e) false :: leave e | _ => [] end
  | LFQuery k => match nth_error (c_fns s) k with Some (FRun _ e _) => enter e ++ leave e | _ => [] end
  end.
(** The threads that continue from a step; a thread that begins knows nothing, hence it makes no difference that they are among the sources *)
Definition ch_dst (s : cst) (l : clabel) : list nat :=
  match l with
  | LNew c tok | LSet c tok _ => t_n c :: match tok with Some e => if e_req (c_ev s e) then [t_r c] else [] | None => [] end
  | LUnbind c | LReset c => [t_n c]
  | LCancel e => [t_l (length (c_loops s))]
  | LLoop i => t_l i :: match nth_error (c_loops s) i with Some (CL (c :: _) None) => [t_r c] | _ => [] end
  | LRet k => match nth_error (c_fns s) k with Some (FRun c _ _) => [t_r c] | _ => [] end
  | LDel _ | LResetEv _ | LDelEv _ | LQuery _ | LFQuery _ => []
  end.
Definition ch_src (s : cst) (l : clabel) : list nat :=
  match l with
  | LDel c => [t_n c; t_r c]
  | LFQuery k => match nth_error (c_fns s) k with Some (FRun c _ _) => [t_r c] | _ => [] end
  | _ => ch_dst s l
  end.
Definition ch_step := m_step c_step ch_src ch_dst ch_acts.
Definition ch_init : mst := ms_init c_init.
