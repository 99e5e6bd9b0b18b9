(** Model of async::detail::mutex (include/async/mutex.hpp 9-179).

    One step is one access to the atomic st_ or one critical section of mutex_.  The critical section of start() accesses
    st_ several times, while other threads may change it, therefore mutex_ is explicit ([m_lock]); the critical section of
    unlock() contains only one such access (the store) and is one step.

    Simplification: identifiers of operations are not re-used. *)
From Coq Require Import List Arith Bool.
From Verif Require Import Lts.
Import ListNotations.

(** The API events of mutex and shared_mutex; [x]: exclusive mode (always, for mutex). *)
Inductive levent :=
| EStart (o : nat) (x : bool)    (* start() of the operation o made by async_lock() / async_lock_shared() *)
| ESusp (o : nat)                (* start() has linked the operation: it is suspended *)
| EHand (o : nat)                (* an unlock call has taken the suspended operation off the list, to pass the lock on *)
| EAcq (o : nat) (x : bool)      (* set_value on the receiver of operation o *)
| ETry (x : bool) (b : bool)     (* try_lock() / try_lock_shared() returned b *)
| EUnlock (x : bool).            (* unlock() / unlock_shared() is called *)

(** enum class state, lines 157-161 *)
Inductive mval := MNone | MLocked | MCont.
Definition mval_eqb (a b : mval) : bool :=
  match a, b with MNone, MNone | MLocked, MLocked | MCont, MCont => true | _, _ => false end.

(** A library call in flight *)
Inductive mact :=
| ATry (o : nat)               (* start(): about to call try_lock(), line 40 *)
| AWait (o : nat)              (* start(): about to lock mutex_ and to load st_, lines 44-46 *)
| ALoop (o : nat) (v : mval)   (* start(): at the head of the loop, line 47, with the local variable st; holds mutex_ *)
| ASet (o : nat)               (* start(): about to call set_value, lines 41, 78 *)
| AUnl                         (* unlock(): about to load st_, line 123 *)
| AUnlCas                      (* unlock(): about to execute the CAS of line 128 *)
| AUnlLock                     (* unlock(): about to execute the critical section, lines 141-152 *)
| AUnlNext (o : nat)           (* unlock(): about to call next->complete(), line 154 *)
| AEnd.

(** what happened to an operation; an operation may be destroyed as soon as its receiver was notified *)
Inductive lost := OIdle | OStarted | ODone.

(** lines 163-179: mutex_ (whether it is held), st_, waiters_; operations; calls in flight *)
Record mst := MS { m_lock : bool; m_st : mval; m_w : list nat; m_op : nat -> lost; m_act : list mact }.
Definition m_init : mst := MS false MNone [] (fun _ => OIdle) [].

Inductive mlabel :=
| MStart (o : nat)               (* start() of operation o *)
| MTry                           (* try_lock() *)
| MUnlock                        (* unlock() is called *)
| MStep (k : nat) (spur : bool). (* one step of the k-th call; [spur]: a compare_exchange_weak fails spuriously *)

(** Updates of one field of the state (of the model; no code corresponds to them) *)
Definition with_act (s : mst) (k : nat) (a : mact) : mst :=
  MS (m_lock s) (m_st s) (m_w s) (m_op s) (set_nth (m_act s) k a).
Definition with_st (s : mst) (v : mval) : mst := MS (m_lock s) v (m_w s) (m_op s) (m_act s).
Definition with_lock (s : mst) (b : bool) : mst := MS b (m_st s) (m_w s) (m_op s) (m_act s).
Definition with_w (s : mst) (w : list nat) : mst := MS (m_lock s) (m_st s) w (m_op s) (m_act s).
Definition with_op (s : mst) (o : nat) (x : lost) : mst := MS (m_lock s) (m_st s) (m_w s) (upd (m_op s) o x) (m_act s).

Definition alive (op : nat -> lost) (o : nat) : bool := match op o with ODone => false | _ => true end.
(** linking and unlinking accesses the hooks of the elements of waiters_ *)
Definition w_alive (s : mst) : bool := forallb (alive (m_op s)) (m_w s).

(** waiters_.push_back(this), unlock mutex_, return: lines 66-67, 72-73 *)
Definition suspend (s : mst) (k o : nat) : outcome mst levent :=
  if w_alive s && alive (m_op s) o
  then Next (with_act (with_lock (with_w s (m_w s ++ [o])) false) k AEnd) [ESusp o]
  else Fail UseAfterFree [].
(** set_value on the receiver *)
Definition notify (s : mst) (k o : nat) : outcome mst levent :=
  if alive (m_op s) o then Next (with_act (with_op s o ODone) k AEnd) [EAcq o true] else Fail UseAfterFree [].

Definition act_step (s : mst) (k : nat) (spur : bool) (a : mact) : outcome mst levent :=
  match a with
  | ATry o =>                                   (* line 40, try_lock: lines 112-120 *)
      match m_st s with
      | MNone => Next (with_act (with_st s MLocked) k (ASet o)) []
      | _ => Next (with_act s k (AWait o)) []
      end
  | AWait o =>                                  (* lines 44-46 *)
      if m_lock s then Disabled else Next (with_act (with_lock s true) k (ALoop o (m_st s))) []
  | ALoop o MNone =>                            (* lines 48-56 *)
      if negb spur && mval_eqb (m_st s) MNone
      then Next (with_act (with_lock (with_st s MLocked) false) k (ASet o)) []
      else Next (with_act s k (ALoop o (m_st s))) []
  | ALoop o MLocked =>                          (* lines 57-68 *)
      if negb spur && mval_eqb (m_st s) MLocked
      then suspend (with_st s MCont) k o
      else Next (with_act s k (ALoop o (m_st s))) []
  | ALoop o MCont => suspend s k o              (* lines 69-74 *)
  | ASet o => notify s k o
  | AUnl =>                                     (* lines 123-127, 137 *)
      match m_st s with
      | MNone => Fail AssertFailed []           (* line 124 *)
      | MLocked => Next (with_act s k AUnlCas) []
      | MCont => Next (with_act s k AUnlLock) []
      end
  | AUnlCas =>                                  (* lines 128-137 *)
      match m_st s with
      | MLocked => Next (with_act (with_st s MNone) k AEnd) []
      | MCont => Next (with_act s k AUnlLock) []
      | MNone => Fail AssertFailed []           (* line 137 *)
      end
  | AUnlLock =>                                 (* lines 141-152 *)
      if m_lock s then Disabled
      else match m_w s with
           | [] => Fail AssertFailed []         (* line 144 *)
           | o :: w =>
               if w_alive s
               then Next (with_act (with_st (with_w s w) (match w with [] => MLocked | _ => m_st s end)) k (AUnlNext o)) [EHand o]
               else Fail UseAfterFree []
           end
  | AUnlNext o => notify s k o                  (* line 154, 82-84 *)
  | AEnd => Disabled
  end.

Definition m_step (s : mst) (l : mlabel) : outcome mst levent :=
  match l with
  | MStart o =>
      match m_op s o with
      | OIdle => Next (MS (m_lock s) (m_st s) (m_w s) (upd (m_op s) o OStarted) (m_act s ++ [ATry o])) [EStart o true]
      | _ => Disabled
      end
  | MTry =>                                     (* lines 112-120 *)
      match m_st s with
      | MNone => Next (with_st s MLocked) [ETry true true]
      | _ => Next s [ETry true false]
      end
  | MUnlock => Next (MS (m_lock s) (m_st s) (m_w s) (m_op s) (m_act s ++ [AUnl])) [EUnlock true]
  | MStep k spur => match nth_error (m_act s) k with Some a => act_step s k spur a | None => Disabled end
  end.
