(** Model of async::oneshot_primitive (include/async/oneshot-event.hpp 27-128) under the C++ memory model, see M_Weak.v.

    One step is one access to the atomic state_, or the read of next_ of one node, or the completion of one node, as in M_OneshotPrim.v.  The load of start() and its
    failing compare-exchange may read old messages.  The memory token TObj o stands for the write of next_ before a compare-exchange of start(); raise() reads
    next_, complete_ and the receiver, which is a data race unless the last such write happens before.

    Each call of start() and raise() is preceded by an access of the client; the completion of a wait reports which of these accesses happen before it.

    Simplifications: identifiers of operations are not re-used; a thread that calls the library has an arbitrary view; the destructor of oneshot_primitive is not
    modelled here (see M_OneshotPrim.v). *)
From Coq Require Import List Arith Bool.
From Verif Require Import Lts M_Mutex M_Weak M_OneshotPrim.
Import ListNotations.

(** A library call in flight *)
Inductive qact :=
| QLoad (o : nat)                  (* start(): about to load state_, line 75 *)
| QLoop (o : nat) (cur : dval)     (* start(): at the head of the loop, line 76; [cur] is the local variable current *)
| QRead (old : option nat)         (* raise(): at the head of the loop, line 57 *)
| QCompl (old : nat) (next : option nat)  (* raise(): about to call complete_, line 59 *)
| QEnd.

(** The messages of state_; next_ of the nodes; operations; calls in flight with the views of their threads; number of accesses of the clients *)
Record qst := QS { q_h : hist dval; q_next : nat -> option nat; q_op : nat -> lost; q_act : list (qact * view); q_acc : nat }.
Definition q_init : qst := QS [(DPtr None, vbot)] (fun _ => None) (fun _ => OIdle) [] 0.

Inductive qlabel :=
| QStart (o : nat) (v : view)           (* start() of operation o by a thread with view v *)
| QRaise (v : view)                     (* raise() by a thread with view v, up to the exchange *)
| QStep (k i : nat) (spur : bool).      (* one step of the k-th call; it reads the i-th message; [spur]: compare_exchange_weak fails spuriously *)

Inductive qevent :=
| QEStart (o n : nat)                   (* start() is called; n: the access of the caller just before it *)
| QERaise (n : nat)                     (* raise() is called *)
| QEDone (o : nat) (before : list nat). (* the receiver of o is notified; the accesses that happen before that *)

Section Orders.
(** Whether the exchange acquires and releases (line 54), the successful compare-exchange acquires and releases (line 83), the load (line 75) and the failing
    compare-exchange (line 84) acquire; they all do in the code *)
Variables x_acq x_rel c_acq c_rel l_acq f_acq : bool.

(** the value of the newest message *)
Definition q_last (h : hist dval) : dval := match nth_error h (newest h) with Some (x, _) => x | None => DFired end.
(** a load by a thread with view v that reads a message with view w at position i *)
Definition q_see (acq : bool) (v : view) (i : nat) (w : view) : view := vsee (if acq then vjoin v w else v) i.
Definition q_set (s : qst) (k : nat) (a : qact) (v : view) : qst := QS (q_h s) (q_next s) (q_op s) (set_nth (q_act s) k (a, v)) (q_acc s).
(** set_value on the receiver of o *)
Definition q_notify (s : qst) (k o : nat) (v : view) (a : qact) : outcome qst qevent :=
  if alive (q_op s) o then Next (QS (q_h s) (q_next s) (upd (q_op s) o ODone) (set_nth (q_act s) k (a, v)) (q_acc s)) [QEDone o (accs v)] else Fail UseAfterFree [].

Definition q_act_step (s : qst) (k i : nat) (spur : bool) (a : qact) (v : view) : outcome qst qevent :=
  let h := q_h s in
  match a with
  | QLoad o =>                                         (* line 75 *)
      match rd h v i with Some (x, w) => Next (q_set s k (QLoop o x) (q_see l_acq v i w)) [] | None => Disabled end
  | QLoop o DFired => q_notify s k o v QEnd            (* lines 77-78 *)
  | QLoop o (DPtr p) =>                                (* lines 79-87 *)
      if negb (alive (q_op s) o) then Fail UseAfterFree []
      else
        let v1 := vadd v (TObj o) in
        let nx := upd (q_next s) o p in
        match rd h v1 i with
        | Some (x, w) =>
            if dval_eqb x (DPtr p) && (i =? newest h) && negb spur
            then Next (QS (rmw c_acq c_rel h v1 (DPtr (Some o))) nx (q_op s) (set_nth (q_act s) k (QEnd, rmw_view c_acq h v1)) (q_acc s)) []
            else Next (QS h nx (q_op s) (set_nth (q_act s) k (QLoop o x, q_see f_acq v1 i w)) (q_acc s)) []
        | None => Disabled
        end
  | QRead None => Next (q_set s k QEnd v) []           (* line 57 *)
  | QRead (Some o) =>                                  (* line 58 *)
      if negb (alive (q_op s) o) then Fail UseAfterFree []
      else if negb (knows v o) then Fail DataRace []
      else Next (q_set s k (QCompl o (q_next s o)) v) []
  | QCompl o p => q_notify s k o v (QRead p)           (* lines 59-60, 92-95 *)
  | QEnd => Disabled
  end.

Definition q_step (s : qst) (l : qlabel) : outcome qst qevent :=
  match l with
  | QStart o v =>
      match q_op s o with
      | OIdle =>
          if v_ts v <? length (q_h s)
          then Next (QS (q_h s) (q_next s) (upd (q_op s) o OStarted) (q_act s ++ [(QLoad o, vadd v (TData (q_acc s)))]) (S (q_acc s))) [QEStart o (q_acc s)]
          else Disabled
      | _ => Disabled
      end
  | QRaise v =>                                        (* lines 54-56 *)
      if v_ts v <? length (q_h s) then
        let v1 := vadd v (TData (q_acc s)) in
        match q_last (q_h s) with
        | DFired => Fail AssertFailed [QERaise (q_acc s)]
        | DPtr p => Next (QS (rmw x_acq x_rel (q_h s) v1 DFired) (q_next s) (q_op s) (q_act s ++ [(QRead p, rmw_view x_acq (q_h s) v1)]) (S (q_acc s))) [QERaise (q_acc s)]
        end
      else Disabled
  | QStep k i spur => match nth_error (q_act s) k with Some (a, v) => q_act_step s k i spur a v | None => Disabled end
  end.
End Orders.
