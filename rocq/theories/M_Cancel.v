(** Model of cancellation_event, cancellation_token, cancellation_callback and cancellation_observer
    (include/async/cancellation.hpp 12-207, 326-352).

    Any number of events, callbacks and observers ("nodes").  One step is one critical section of an event's _mutex or the start or
    the end of one call of a functor.  The functors are client code: while a functor runs, any other step is possible, in particular
    steps that the functor itself causes (it may destroy nodes, cancel events, ...).  The constructor of cancellation_callback runs its
    functor inside of the critical section, therefore the mutex is explicit ([e_lock]).

    Simplifications: identifiers of nodes and events are not re-used; an access to a list accesses all its nodes; an observer is given a
    token at most once (again: assertion failure) and is modelled from then on; clients make calls on existing objects only, while
    the objects that the library accesses on its own are checked. *)
From Coq Require Import List Arith Bool.
From Verif Require Import Lts.
Import ListNotations.

(** cancellation_event, lines 24-67: _was_requested, _cbs, _mutex (held by the constructor of a callback), existence *)
Record cev := CE { e_req : bool; e_cbs : list nat; e_lock : bool; e_alive : bool }.
(** cancellation_callback, lines 96-143, and cancellation_observer, lines 145-207: existence, kind, _event *)
Inductive life := LNone | LLive | LDead.
Record cnd := CN { n_life : life; n_obs : bool; n_tok : option nat }.
(** A call of a functor: by the constructor of a callback (lines 102-103), by cancel() (line 345), by force_set() (line 175) *)
Inductive how := HCtor | HCancel | HForce.
Inductive cfn := FRun (c e : nat) (h : how) | FEnd.   (* of node c with event e *)
(** The loop of cancel(), lines 342-346: the list pending, the call in progress *)
Record cloop := CL { l_rest : list nat; l_cur : option nat }.

(** The whole state: events, nodes, calls of functors in progress, calls of cancel() in progress; initially the events exist and nothing else does (cancellation_event, lines 36-37, 55-66) *)
Record cst := CS { c_ev : nat -> cev; c_nd : nat -> cnd; c_fns : list cfn; c_loops : list cloop }.
Definition c_init : cst := CS (fun _ => CE false [] false true) (fun _ => CN LNone false None) [] [].

Inductive clabel :=
| LNew (c : nat) (tok : option nat)      (* cancellation_callback c{token, functor} *)
| LUnbind (c : nat)                      (* c.unbind() *)
| LSet (c : nat) (tok : option nat) (force : bool)  (* cancellation_observer c; c.try_set(token) or c.force_set(token) *)
| LReset (c : nat)                       (* c.try_reset() *)
| LDel (c : nat)                         (* destructor of callback or observer c *)
| LCancel (e : nat)                      (* e.cancel() *)
| LResetEv (e : nat)                     (* e.reset() *)
| LDelEv (e : nat)                       (* destructor of e *)
| LQuery (e : nat)                       (* is_cancellation_requested() of a token of e *)
| LLoop (i : nat)                        (* step of the loop of the i-th call of cancel() *)
| LRet (k : nat)                         (* the k-th call of a functor returns *)
| LFQuery (k : nat).                     (* the k-th call of a functor calls is_cancellation_requested() of its own token *)

(** What clients observe: their own calls with the results, and the beginning and the end of the calls of functors *)
Inductive cevent :=
| KNew (c : nat) (tok : option nat) | KUnbind (c : nat)
| KSet (c : nat) (tok : option nat) (b : bool) | KForce (c : nat) (tok : option nat) | KReset (c : nat) (b : bool)
| KDel (c : nat)
| KCancel (e : nat) | KResetEv (e : nat) | KDelEv (e : nat) | KQuery (e : nat) (b : bool)
| KRun (c : nat) (h : how) | KRet (c : nat) | KFQuery (c : nat) (b : bool).

(** Updates of one field of the state (of the model; no code corresponds to them) *)
Definition c_with_ev (s : cst) (e : nat) (x : cev) : cst := CS (upd (c_ev s) e x) (c_nd s) (c_fns s) (c_loops s).
Definition c_with_nd (s : cst) (c : nat) (x : cnd) : cst := CS (c_ev s) (upd (c_nd s) c x) (c_fns s) (c_loops s).
Definition c_with_fns (s : cst) (f : list cfn) : cst := CS (c_ev s) (c_nd s) f (c_loops s).
Definition c_with_loops (s : cst) (l : list cloop) : cst := CS (c_ev s) (c_nd s) (c_fns s) l.

(** Does node c exist?  Does event e exist, and is its _mutex free?  (helpers) *)
Definition nlive (s : cst) (c : nat) : bool := match n_life (c_nd s c) with LLive => true | _ => false end.
Definition ev_ok (s : cst) (e : nat) : bool := e_alive (c_ev s e) && negb (e_lock (c_ev s e)).

(** _cbs.push_back(this), lines 105, 167 *)
Definition c_push (s : cst) (e c : nat) (es : list cevent) : outcome cst cevent :=
  let x := c_ev s e in
  if forallb (nlive s) (e_cbs x) then Next (c_with_ev s e (CE (e_req x) (e_cbs x ++ [c]) (e_lock x) (e_alive x))) es else Fail UseAfterFree [].

(** if(!_was_requested) erase(this): lines 117-120, 130-133, 186-190; on success go on with [f], else with [g] *)
Definition c_erase (s : cst) (e c : nat) (es : list cevent) (f g : cst -> outcome cst cevent) : outcome cst cevent :=
  let x := c_ev s e in
  if negb (e_alive x) then Fail UseAfterFree es
  else if e_lock x then Disabled
  else if e_req x then g s
  else if negb (forallb (nlive s) (e_cbs x)) then Fail UseAfterFree es
  else if memb c (e_cbs x) then f (c_with_ev s e (CE (e_req x) (remove1 c (e_cbs x)) (e_lock x) (e_alive x)))
  else Fail BadUnlink es.

(** Node c does not exist any more (destructors: c_step) *)
Definition c_kill (s : cst) (c : nat) : cst := c_with_nd s c (CN LDead (n_obs (c_nd s c)) (n_tok (c_nd s c))).

Definition c_step (s : cst) (l : clabel) : outcome cst cevent :=
  match l with
  | LNew c tok =>                                         (* lines 97-107 *)
      match n_life (c_nd s c), tok with
      | LNone, None => Next (c_with_nd s c (CN LLive false None)) [KNew c None]
      | LNone, Some e =>
          let s1 := c_with_nd s c (CN LLive false (Some e)) in
          let x := c_ev s e in
          if negb (ev_ok s e) then Disabled
          else if e_req x
          then Next (c_with_fns (c_with_ev s1 e (CE true (e_cbs x) true true)) (c_fns s ++ [FRun c e HCtor])) [KNew c tok; KRun c HCtor]
          else c_push s1 e c [KNew c tok]
      | _, _ => Disabled
      end
  | LUnbind c =>                                          (* lines 126-134 *)
      if nlive s c && negb (n_obs (c_nd s c)) then
        match n_tok (c_nd s c) with
        | None => Next s [KUnbind c]
        | Some e => c_erase s e c [KUnbind c] (fun s1 => Next s1 [KUnbind c]) (fun s1 => Next s1 [KUnbind c])
        end
      else Disabled
  | LSet c tok force =>                                   (* lines 158-176 *)
      match n_life (c_nd s c), tok with
      | LNone, None => Next (c_with_nd s c (CN LLive true None)) [if force then KForce c None else KSet c None true]
      | LNone, Some e =>
          let s1 := c_with_nd s c (CN LLive true (Some e)) in
          if negb (ev_ok s e) then Disabled
          else if negb (e_req (c_ev s e)) then c_push s1 e c [if force then KForce c tok else KSet c tok true]
          else if force then Next (c_with_fns s1 (c_fns s ++ [FRun c e HForce])) [KForce c tok; KRun c HForce]
          else Next s1 [KSet c tok false]
      | LLive, _ => if n_obs (c_nd s c)
                    then match n_tok (c_nd s c) with
                         | Some _ => Fail AssertFailed [if force then KForce c tok else KSet c tok false]   (* line 159 *)
                         | None => Disabled
                         end
                    else Disabled
      | LDead, _ => Disabled
      end
  | LReset c =>                                           (* lines 182-193 *)
      if nlive s c && n_obs (c_nd s c) then
        match n_tok (c_nd s c) with
        | None => Next s [KReset c true]
        | Some e => c_erase s e c [KReset c true] (fun s1 => Next s1 [KReset c true]) (fun s1 => Next s1 [KReset c false])
        end
      else Disabled
  | LDel c =>                                             (* lines 113-121, 153 *)
      if negb (nlive s c) then Disabled
      else if n_obs (c_nd s c) then Next (c_kill s c) [KDel c]
      else if existsb (fun f => match f with FRun c' _ HCtor => c' =? c | _ => false end) (c_fns s) then Disabled   (* not yet constructed *)
      else match n_tok (c_nd s c) with
           | None => Next (c_kill s c) [KDel c]
           | Some e => c_erase s e c [KDel c] (fun s1 => Next (c_kill s1 c) [KDel c]) (fun s1 => Next (c_kill s1 c) [KDel c])
           end
  | LCancel e =>                                          (* lines 327-340 *)
      let x := c_ev s e in
      if negb (ev_ok s e) then Disabled
      else if forallb (nlive s) (e_cbs x)
      then Next (c_with_loops (c_with_ev s e (CE true [] (e_lock x) (e_alive x))) (c_loops s ++ [CL (e_cbs x) None])) [KCancel e]
      else Fail UseAfterFree [KCancel e]
  | LResetEv e =>                                         (* lines 349-352 *)
      let x := c_ev s e in
      if negb (ev_ok s e) then Disabled else Next (c_with_ev s e (CE false (e_cbs x) (e_lock x) (e_alive x))) [KResetEv e]
  | LDelEv e =>                                           (* lines 42-45 *)
      let x := c_ev s e in
      if negb (ev_ok s e) then Disabled
      else match e_cbs x with [] => Next (c_with_ev s e (CE (e_req x) [] (e_lock x) false)) [KDelEv e] | _ => Fail AssertFailed [KDelEv e] end
  | LQuery e =>                                           (* lines 85-90 *)
      if ev_ok s e then Next s [KQuery e (e_req (c_ev s e))] else Disabled
  | LLoop i =>                                            (* lines 342-346 *)
      match nth_error (c_loops s) i with
      | Some (CL rest (Some k)) =>
          match nth_error (c_fns s) k with
          | Some FEnd => Next (c_with_loops s (set_nth (c_loops s) i (CL rest None))) []
          | _ => Disabled
          end
      | Some (CL (c :: rest) None) =>
          match n_tok (c_nd s c) with
          | Some e =>
              if forallb (nlive s) (c :: rest)
              then Next (c_with_fns (c_with_loops s (set_nth (c_loops s) i (CL rest (Some (length (c_fns s)))))) (c_fns s ++ [FRun c e HCancel])) [KRun c HCancel]
              else Fail UseAfterFree []
          | None => Disabled
          end
      | _ => Disabled
      end
  | LRet k =>
      match nth_error (c_fns s) k with
      | Some (FRun c e h) =>
          let s1 := c_with_fns s (set_nth (c_fns s) k FEnd) in
          match h with
          | HCtor => let x := c_ev s e in Next (c_with_ev s1 e (CE (e_req x) (e_cbs x) false (e_alive x))) [KRet c]   (* line 107 *)
          | _ => Next s1 [KRet c]
          end
      | _ => Disabled
      end
  | LFQuery k =>
      match nth_error (c_fns s) k with
      | Some (FRun c e h) =>
          match h with
          | HCtor => Fail SelfDeadlock [KFQuery c true]    (* the constructor holds the mutex *)
          | _ =>
              if negb (nlive s c) then Disabled
              else if negb (e_alive (c_ev s e)) then Fail UseAfterFree [KFQuery c true]
              else if e_lock (c_ev s e) then Disabled
              else Next s [KFQuery c (e_req (c_ev s e))]
          end
      | _ => Disabled
      end
  end.
