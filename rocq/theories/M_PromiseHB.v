(** The shared state of promise / future and its reference count under the C++ memory model, see M_HB.v (include/async/promise.hpp 23-184, 197-356, 358-397).

    M_Handles.v models the handles one call at a time; here the calls of different threads interleave at each access to an atomic or critical section,
    and the gets in progress refer to the shared state as well.  There is one shared state; a handle that refers to another one counts as empty here.

    Simplifications: the memory of the handles and of the get operations is not part of this model (the former is the client's to protect, the latter is C54); of the
    cancellation_resolver of a get only the atomic state_ is modelled, the mutex of the cancellation_event is not, and cancel() takes the callback at any time before the unregistration;
    the order in which wake() completes the gets is arbitrary; g = f is two steps: g gives up what it referred to, then it is assigned.

    Rules of the client, built into the labels: a call that modifies a handle does not overlap with other calls on it; a future is modified or destroyed only after
    the gets on it completed; set_value() and get() are called, and futures are assigned from, handles that refer to the state. *)
From Coq Require Import List Arith Bool.
From Verif Require Import Lts M_HB.
Import ListNotations.

(** A future or promise: promise; not destroyed; refers to the state *)
Record hd := Hd { d_prom : bool; d_live : bool; d_has : bool }.
(** Where a get is: in queue_; in the list of wake(); complete() was called; try_cancel() returned true; and the bit was set *)
Inductive oat := AtQ | AtIt | AtComp | AtHit | AtCanc.
(** Its cancellation: not yet; cancel() took the callback; try_cancel() returned; done_cancellation_path *)
Inductive ocan := CNone | CTake | CTried | CDone.
(** A get: the future; o_l: done_listen; o_fin: the receiver was notified *)
Record pop := Op { o_fut : nat; o_at : oat; o_l : bool; o_c : ocan; o_fin : bool }.
(** set_value() of the promise p: before wake() locks the mutex; in its loop *)
Inductive svpc := SvNo | SvSplice (p : nat) | SvLoop (p : nat).
(** The state was constructed; the handles; ctr_; destroyed; has_value_; set_value(); the gets *)
Record pst := PS { p_new : bool; p_hd : list hd; p_ctr : nat; p_dead : bool; p_has : bool; p_sv : svpc; p_op : list pop }.
Definition p_start : pst := PS false [] 0 false false SvNo [].

Inductive plabel :=
| LNew                       (* promise() *)
| LEmpty                     (* future() *)
| LCopy (h : nat)            (* h.get_future(), future(h) *)
| LMove (h : nat)            (* promise(std::move(h)), future(std::move(h)) *)
| LSwap (g h : nat)          (* swap(g, h), g = std::move(h) for futures *)
| LRelease (h : nat) (d : bool) (* d: the destructor of h; not d: an assignment to h gives up what h refers to *)
| LAssign (g f : nat)        (* second part of g = f *)
| LSet (p : nat)             (* first critical section of set_value() *)
| LSv (o : nat) (b : bool)   (* a step of wake(), or the end of set_value() *)
| LGet (f : nat)             (* the critical section of start() *)
| LListen (o : nat) (b : bool) (* transition_() of listen(); b: see settle *)
| LTry (o : nat)             (* try_cancel() *)
| LCan (o : nat)             (* transition_() after try_cancel() *)
| LRead (o : nat).           (* the receiver uses the pointer that it got *)

(** promise() created; a handle takes a reference; gives up one; value set; get started; receiver of a get notified (with a value?); the receiver uses the value; the state is freed *)
Inductive pevent := ENew | ERef (h : nat) | EUnref (h : nat) | ESet | EGet (o : nat) | EDone (o : nat) (ok : bool) | ERead (o : nat) | EFree.

(** Handle h; does it refer to the state; does it exist; is it a promise; is set_value() in progress on it?  (helpers) *)
Definition hdl (s : pst) (h : nat) : hd := nth h (p_hd s) (Hd false false false).
Definition holds (s : pst) (h : nat) : bool := d_has (hdl s h).
Definition live (s : pst) (h : nat) : bool := d_live (hdl s h).
Definition prom (s : pst) (h : nat) : bool := d_prom (hdl s h).
Definition setting (s : pst) (h : nat) : bool := match p_sv s with SvNo => false | SvSplice p | SvLoop p => p =? h end.
(** No get on h is in progress *)
Definition quiet (s : pst) (h : nat) : bool := forallb (fun r => negb (o_fut r =? h) || o_fin r) (p_op s).
Definition idle (s : pst) (h : nat) : bool := live s h && negb (setting s h) && quiet s h.

(** Updates of one field of the state (of the model; no code corresponds to them) *)
Definition with_hd (s : pst) (l : list hd) (c : nat) : pst := PS (p_new s) l c (p_dead s) (p_has s) (p_sv s) (p_op s).
Definition with_op (s : pst) (l : list pop) : pst := PS (p_new s) (p_hd s) (p_ctr s) (p_dead s) (p_has s) (p_sv s) l.
Definition put (s : pst) (h : nat) (d l : bool) : list hd := set_nth (p_hd s) h (Hd (prom s h) l d).

(** An access to the shared state: it has to exist *)
Definition alive (s : pst) (k : outcome pst pevent) : outcome pst pevent := if p_dead s then Fail UseAfterFree [] else k.

(** if(state_ && !state_->unref()) destruct(...), lines 174-176, 212-213, 223-225; the handle is left empty.  sv: what becomes of set_value() *)
Definition unref (s : pst) (h : nat) (l : bool) (sv : svpc) : outcome pst pevent :=
  alive s
  match p_ctr s with
  | 0 => Fail CounterUnderflow []
  | S c => Next (PS (p_new s) (put s h false l) c (c =? 0) (p_has s) sv (p_op s)) (EUnref h :: if c =? 0 then [EFree] else [])
  end.

(** The end of transition_(), cancellation.hpp 289-312, after the bits were set; b: cancel() has taken the callback and will call it *)
Definition pdone (a : oat) : bool := match a with AtComp | AtCanc => true | _ => false end.
Definition settle (r : pop) (b : bool) : pop :=
  if o_l r && pdone (o_at r)
  then match o_c r with
       | CDone => Op (o_fut r) (o_at r) true CDone true
       | CNone => if b then Op (o_fut r) (o_at r) true CTake false else Op (o_fut r) (o_at r) true CNone true
       | _ => r
       end
  else r.
Definition ok_of (r : pop) : bool := match o_at r with AtComp => true | _ => false end.
(** transition_() of o that leads to r; resume_fn, promise.hpp 281-293 *)
Definition trans (s : pst) (o : nat) (r : pop) (b : bool) : outcome pst pevent :=
  let r' := settle r b in
  let s' := with_op s (set_nth (p_op s) o r') in
  if o_fin r' then if ok_of r' then alive s (if p_has s then Next s' [EDone o true] else Fail AssertFailed []) else Next s' [EDone o false]
  else Next s' [].

(** Is there a get in the local list of wake()?  splice, line 96: the get is taken over from queue_ *)
Definition any_it (s : pst) : bool := existsb (fun r => match o_at r with AtIt => true | _ => false end) (p_op s).
Definition splice (r : pop) : pop := match o_at r with AtQ => Op (o_fut r) AtIt (o_l r) (o_c r) (o_fin r) | _ => r end.

Definition p_step (s : pst) (l : plabel) : outcome pst pevent :=
  match l with
  | LNew =>                                                                            (* lines 150-151, 107-110 *)
      if p_new s then Disabled else Next (PS true (p_hd s ++ [Hd true true true]) 1 false false SvNo (p_op s)) [ENew]
  | LEmpty => Next (with_hd s (p_hd s ++ [Hd false true false]) (p_ctr s)) []           (* lines 208-209 *)
  | LCopy h =>                                                                         (* lines 169-171, 216-220, 348-352 *)
      if live s h && negb (setting s h) then
        if holds s h then alive s (Next (with_hd s (p_hd s ++ [Hd false true true]) (S (p_ctr s))) [ERef (length (p_hd s))])
        else Next (with_hd s (p_hd s ++ [Hd false true false]) (p_ctr s)) []
      else Disabled
  | LMove h =>                                                                         (* lines 159-162, 234-237 *)
      if idle s h then Next (with_hd s (put s h false true ++ [Hd (prom s h) true (holds s h)]) (p_ctr s)) [] else Disabled
  | LSwap g h =>                                                                       (* lines 145-148, 202-206, 239-242 *)
      if idle s g && idle s h && Bool.eqb (prom s g) (prom s h) then
        let s1 := with_hd s (put s g (holds s h) true) (p_ctr s) in
        Next (with_hd s1 (put s1 h (holds s g) true) (p_ctr s)) []
      else Disabled
  | LRelease h d =>
      if idle s h then if holds s h then unref s h (negb d) (p_sv s) else Next (with_hd s (put s h false (negb d)) (p_ctr s)) [] else Disabled
  | LAssign g f =>                                                                     (* lines 228-231 *)
      if idle s g && negb (prom s g) && negb (holds s g) && live s f && negb (prom s f) && holds s f
      then alive s (Next (with_hd s (put s g true true) (S (p_ctr s))) [ERef g]) else Disabled
  | LSet p =>                                                                          (* lines 369-372, 126-130 *)
      if idle s p && prom s p && holds s p then
        alive s (if p_has s then Fail AssertFailed [] else Next (PS (p_new s) (p_hd s) (p_ctr s) (p_dead s) true (SvSplice p) (p_op s)) [ESet])
      else Disabled
  | LSv o b =>
      match p_sv s with
      | SvNo => Disabled
      | SvSplice p =>                                                                  (* lines 84-97 *)
          alive s (if p_has s then Next (PS (p_new s) (p_hd s) (p_ctr s) (p_dead s) true (SvLoop p) (map splice (p_op s))) [] else Fail AssertFailed [])
      | SvLoop p =>
          if any_it s then                                                             (* lines 100-104, cancellation.hpp 266-268 *)
            match nth_error (p_op s) o with
            | Some r => match o_at r with AtIt => trans s o (Op (o_fut r) AtComp (o_l r) (o_c r) false) b | _ => Disabled end
            | None => Disabled
            end
          else unref s p true SvNo                                                     (* line 375 *)
      end
  | LGet f =>                                                                          (* lines 253-270 *)
      if live s f && negb (prom s f) && holds s f then
        let o := length (p_op s) in
        alive s (if p_has s then Next (with_op s (p_op s ++ [Op f AtComp true CDone true])) [EGet o; EDone o true]
                 else Next (with_op s (p_op s ++ [Op f AtQ false CNone false])) [EGet o])
      else Disabled
  | LListen o b =>                                                                     (* line 271, cancellation.hpp 241-264 *)
      match nth_error (p_op s) o with
      | Some r => if o_l r then Disabled else trans s o (Op (o_fut r) (o_at r) true (o_c r) false) b
      | None => Disabled
      end
  | LTry o =>                                                                          (* lines 275-280, 71-81 *)
      match nth_error (p_op s) o with
      | Some r =>
          if o_fin r then Disabled else
          match o_c r with
          | CNone | CTake =>
              alive s (if p_has s then Next (with_op s (set_nth (p_op s) o (Op (o_fut r) (o_at r) (o_l r) CTried false))) []
                       else match o_at r with
                            | AtQ => Next (with_op s (set_nth (p_op s) o (Op (o_fut r) AtHit (o_l r) CTried false))) []
                            | _ => Fail BadUnlink []
                            end)
          | _ => Disabled
          end
      | None => Disabled
      end
  | LCan o =>                                                                          (* cancellation.hpp 271-277 *)
      match nth_error (p_op s) o with
      | Some r =>
          match o_c r with
          | CTried => trans s o (Op (o_fut r) (match o_at r with AtHit => AtCanc | a => a end) (o_l r) CDone false) false
          | _ => Disabled
          end
      | None => Disabled
      end
  | LRead o =>
      match nth_error (p_op s) o with
      | Some r => if o_fin r && ok_of r && holds s (o_fut r) then alive s (Next s [ERead o]) else Disabled
      | None => Disabled
      end
  end.

(** Locations: mutex_ and ctr_, which are accessed by atomic operations only; has_value_; the value; queue_ *)
Definition l_obj := 0. Definition l_has := 1. Definition l_val := 2. Definition l_q := 3.
(** Synchronization objects: ctr_, mutex_, state_ of the resolver of a get *)
Definition x_ctr := 0. Definition x_mtx := 1. Definition x_op (o : nat) := o + 2.
(** Threads: the calls that modify a handle (set_value() included); the thread of start(); what it knows when it registers at the event; the one of cancel(); the
    client after the completion *)
Definition t_h (h : nat) := 5 * h. Definition t_l (o : nat) := 5 * o + 1. Definition t_r (o : nat) := 5 * o + 2. Definition t_c (o : nat) := 5 * o + 3.
Definition t_f (o : nat) := 5 * o + 4.

Section Orders.
(** Whether the fetch_add() of line 29 and the fetch_sub() of line 33 acquire and release (all true in the code) *)
Variables r_acq r_rel u_acq u_rel : bool.

(** The gets on h *)
Definition gets (s : pst) (h : nat) : list nat := filter (fun o => match nth_error (p_op s) o with Some r => o_fut r =? h | None => false end) (seq 0 (length (p_op s))).
(** A call that modifies h comes after the gets on it *)
Definition t_all (s : pst) (h : nat) : list nat := t_h h :: map t_f (gets s h).

(** ref(), lines 28-30; unref(), lines 32-35, with the destruction of the state if the counter was one *)
Definition ref_acts : list mact := [Touch l_obj false; Rmw x_ctr r_acq r_rel].
Definition unref_acts (s : pst) : list mact :=
  [Touch l_obj false; Rmw x_ctr u_acq u_rel] ++
  (if p_ctr s =? 1 then [Touch l_obj false; Touch l_has false; Touch l_val true; Touch l_has true; Touch l_q true; Touch l_obj true] else []).   (* lines 115-118, 24-26 *)
(** The result of trans: whether it notifies the receiver, and with a value *)
Definition res_acts (r : pop) : list mact := if o_fin r && ok_of r then [Touch l_has false; Touch l_val false] else [].
Definition fin_t (o : nat) (r : pop) : list nat := if o_fin r then [t_f o] else [].

(** The get that a step of a resolver belongs to, and what becomes of it *)
Definition settled (s : pst) (l : plabel) : option (nat * pop) :=
  match l with
  | LSv o b =>
      match nth_error (p_op s) o with Some r => Some (o, settle (Op (o_fut r) AtComp (o_l r) (o_c r) false) b) | None => None end
  | LListen o b =>
      match nth_error (p_op s) o with Some r => Some (o, settle (Op (o_fut r) (o_at r) true (o_c r) false) b) | None => None end
  | LCan o =>
      match nth_error (p_op s) o with
      | Some r => Some (o, settle (Op (o_fut r) (match o_at r with AtHit => AtCanc | a => a end) (o_l r) CDone false) false) | None => None end
  | _ => None
  end.
Definition trans_acts (s : pst) (l : plabel) : list mact :=
  match settled s l with Some (o, r) => Rmw (x_op o) true true :: res_acts r | None => [] end.
Definition trans_dst (s : pst) (l : plabel) : list nat := match settled s l with Some (o, r) => fin_t o r | None => [] end.

(** The threads whose views a step joins; below, the threads that continue from it; see M_HB.v *)
Definition ph_src (s : pst) (l : plabel) : list nat :=
  match l with
  | LNew | LEmpty => []
  | LCopy h => [t_h h]
  | LMove h | LRelease h _ => t_all s h
  | LSwap g h => t_all s g ++ t_all s h
  | LAssign g f => [t_h g; t_h f]
  | LSet p => [t_h p]
  | LSv _ _ => match p_sv s with SvNo => [] | SvSplice p | SvLoop p => [t_h p] end
  | LGet f => [t_h f]
  | LListen o _ => [t_l o]
  | LTry o => [t_r o]
  | LCan o => [t_c o]
  | LRead o => [t_f o]
  end.
Definition ph_dst (s : pst) (l : plabel) : list nat :=
  match l with
  | LNew | LEmpty | LCopy _ => [t_h (length (p_hd s))]
  | LMove h => [t_h h; t_h (length (p_hd s))]
  | LSwap g h => [t_h g; t_h h]
  | LRelease h _ => [t_h h]
  | LAssign g _ => [t_h g]
  | LSet p => [t_h p]
  | LSv _ _ => match p_sv s with SvNo => [] | SvSplice p => [t_h p] | SvLoop p => t_h p :: if any_it s then trans_dst s l else [] end
  | LGet _ => let o := length (p_op s) in t_l o :: t_r o :: if p_has s then [t_f o] else []
  | LListen o _ => t_l o :: trans_dst s l
  | LTry o => [t_c o]
  | LCan o => t_c o :: trans_dst s l
  | LRead o => [t_f o]
  end.
(** The accesses of a step, in program order (lines as in p_step) *)
Definition ph_acts (s : pst) (l : plabel) : list mact :=
  match l with
  | LNew => [Touch l_obj true; Touch l_has true; Touch l_val true; Touch l_q true]
  | LEmpty | LMove _ | LSwap _ _ => []
  | LCopy h => if holds s h then ref_acts else []
  | LRelease h _ => if holds s h then unref_acts s else []
  | LAssign _ _ => ref_acts
  | LSet _ => [Touch l_obj false; Lock x_mtx; Touch l_has false; Touch l_val true; Touch l_has true; Unlock x_mtx]
  | LSv _ _ =>
      match p_sv s with
      | SvNo => []
      | SvSplice _ => [Touch l_has false; Touch l_obj false; Lock x_mtx; Touch l_q true; Unlock x_mtx]
      | SvLoop _ => if any_it s then trans_acts s l else unref_acts s
      end
  | LGet _ => [Touch l_obj false; Lock x_mtx; Touch l_has false] ++ (if p_has s then [Unlock x_mtx; Touch l_has false; Touch l_val false] else [Touch l_q true; Unlock x_mtx])
  | LListen _ _ | LCan _ => trans_acts s l
  | LTry _ => [Touch l_obj false; Lock x_mtx; Touch l_has false] ++ (if p_has s then [] else [Touch l_q true]) ++ [Unlock x_mtx]
  | LRead _ => [Touch l_val false]
  end.
(** The model with happens-before, see M_HB.v *)
Definition ph_step := m_step p_step ph_src ph_dst ph_acts.
Definition ph_init : mst := ms_init p_start.
End Orders.
