(** Model of async::oneshot_primitive (include/async/oneshot-event.hpp 27-128).

    One step is one access to the atomic state_, or the read of next_ of one node, or the completion of one node.
    A client may destroy an operation as soon as its receiver was notified ([ODone]), and it may destroy the
    oneshot_primitive itself ([DDestroy]).

    Simplifications: identifiers of operations are not re-used (see the theorems: after the first notification state_ does
    not change any more, thus compare_exchange cannot take a new operation for an old one). *)
From Coq Require Import List Arith Bool.
From Verif Require Import Lts M_Mutex.
Import ListNotations.

(** state_, lines 123-127: a pointer to a node or to nothing, or fired() (lines 48-50) *)
Inductive dval := DPtr (p : option nat) | DFired.
Definition dval_eqb (a b : dval) : bool :=
  match a, b with
  | DPtr None, DPtr None | DFired, DFired => true
  | DPtr (Some x), DPtr (Some y) => x =? y
  | _, _ => false
  end.

(** A library call in flight *)
Inductive dact :=
| DLoad (o : nat)                  (* start(): about to load state_, line 75 *)
| DLoop (o : nat) (cur : dval)     (* start(): at the head of the loop, line 76; [cur] is the local variable current *)
| DRaise                           (* raise(): about to execute the exchange, line 54 *)
| DRead (old : option nat)         (* raise(): at the head of the loop, line 57 *)
| DCompl (old : nat) (next : option nat)  (* raise(): about to call complete_, line 59 *)
| DEnd.

(** state_; next_ of the nodes; operations; whether the oneshot_primitive was destroyed; calls in flight *)
Record dst := DS { d_st : dval; d_next : nat -> option nat; d_op : nat -> lost; d_dead : bool; d_act : list dact }.
Definition d_init : dst := DS (DPtr None) (fun _ => None) (fun _ => OIdle) false [].

Inductive dlabel :=
| DStart (o : nat)                 (* start() of operation o *)
| DRaiseCall                       (* raise() is called *)
| DDestroy                         (* the destructor of oneshot_primitive *)
| DStep (k : nat) (spur : bool).   (* one step of the k-th call; [spur]: compare_exchange_weak fails spuriously *)

(** Events: start() called, raise() called, receiver of o notified, oneshot_primitive destroyed *)
Inductive devent := VStart (o : nat) | VRaise | VDone (o : nat) | VDestroy.

(** Updates of one field of the state (of the model; no code corresponds to them) *)
Definition d_with_act (s : dst) (k : nat) (a : dact) : dst := DS (d_st s) (d_next s) (d_op s) (d_dead s) (set_nth (d_act s) k a).
Definition d_with_st (s : dst) (v : dval) : dst := DS v (d_next s) (d_op s) (d_dead s) (d_act s).
Definition d_with_next (s : dst) (o : nat) (p : option nat) : dst := DS (d_st s) (upd (d_next s) o p) (d_op s) (d_dead s) (d_act s).
Definition d_with_op (s : dst) (o : nat) (x : lost) : dst := DS (d_st s) (d_next s) (upd (d_op s) o x) (d_dead s) (d_act s).

(** set_value on the receiver of o *)
Definition d_notify (s : dst) (k o : nat) (a : dact) : outcome dst devent :=
  if alive (d_op s) o then Next (d_with_act (d_with_op s o ODone) k a) [VDone o] else Fail UseAfterFree [].

Definition dact_step (s : dst) (k : nat) (spur : bool) (a : dact) : outcome dst devent :=
  match a with
  | DLoad o =>                                         (* line 75 *)
      if d_dead s then Fail UseAfterFree [] else Next (d_with_act s k (DLoop o (d_st s))) []
  | DLoop o DFired => d_notify s k o DEnd              (* lines 77-78 *)
  | DLoop o (DPtr p) =>                                (* lines 79-87 *)
      if negb (alive (d_op s) o) then Fail UseAfterFree []
      else if d_dead s then Fail UseAfterFree []
      else if negb spur && dval_eqb (d_st s) (DPtr p)
      then Next (d_with_act (d_with_st (d_with_next s o p) (DPtr (Some o))) k DEnd) []
      else Next (d_with_act (d_with_next s o p) k (DLoop o (d_st s))) []
  | DRaise =>                                          (* lines 54-56 *)
      if d_dead s then Fail UseAfterFree [] else
      match d_st s with
      | DFired => Fail AssertFailed []
      | DPtr p => Next (d_with_act (d_with_st s DFired) k (DRead p)) []
      end
  | DRead None => Next (d_with_act s k DEnd) []        (* line 57 *)
  | DRead (Some o) =>                                  (* line 58 *)
      if alive (d_op s) o then Next (d_with_act s k (DCompl o (d_next s o))) [] else Fail UseAfterFree []
  | DCompl o p => d_notify s k o (DRead p)             (* lines 59-60, 92-95 *)
  | DEnd => Disabled
  end.

(** A client calls start() or raise() or ends an operation, or a call in progress makes a step *)
Definition d_step (s : dst) (l : dlabel) : outcome dst devent :=
  match l with
  | DStart o => match d_op s o with
                | OIdle => Next (DS (d_st s) (d_next s) (upd (d_op s) o OStarted) (d_dead s) (d_act s ++ [DLoad o])) [VStart o]
                | _ => Disabled
                end
  | DRaiseCall => Next (DS (d_st s) (d_next s) (d_op s) (d_dead s) (d_act s ++ [DRaise])) [VRaise]
  | DDestroy => Next (DS (d_st s) (d_next s) (d_op s) true (d_act s)) [VDestroy]
  | DStep k spur => match nth_error (d_act s) k with Some a => dact_step s k spur a | None => Disabled end
  end.
