(** Model of async::detail::shared_mutex (include/async/mutex.hpp 181-612).

    One step is one access to the atomic st_ or one critical section of mutex_.  The critical sections of start() access st_
    several times, while other threads may change it, therefore mutex_ is explicit ([r_lock]); the critical sections of
    unlock() and unlock_shared() contain only one such access (a store) and are one step.

    Simplifications: identifiers of operations are not re-used; the number of shared owners is not bounded (unsigned int in
    the code); node::exclusive, which is constant after construction, is kept together with the identifier of the node. *)
From Coq Require Import List Arith Bool.
From Verif Require Import Lts M_Mutex.
Import ListNotations.

(** struct state, lines 190-193; enum class contention is [mval] *)
Record rval := RV { v_c : mval; v_n : nat }.
Definition rval_eqb (a b : rval) : bool := mval_eqb (v_c a) (v_c b) && (v_n a =? v_n b).

(** operation and node::exclusive, lines 198-213 *)
Notation node := (nat * bool)%type.

(** A library call in flight; [v] is the local variable st *)
Inductive ract :=
| XTry (o : nat)                     (* async_lock: start(): about to call try_lock(), line 234 *)
| XWait (o : nat)                    (* about to lock mutex_ and to load st_, lines 238-240 *)
| XLoop (o : nat) (v : rval)         (* at the head of the loop, line 241; holds mutex_ *)
| STry (w : option nat)              (* try_lock_shared(), called by the client or by start(): about to load st_, line 416 *)
| STryL (w : option nat) (v : rval)  (* at the head of the loop, line 417 *)
| SWait (o : nat)                    (* async_lock_shared: start(): about to lock mutex_ and to load st_, lines 324-326 *)
| SLoop (o : nat) (v : rval)         (* at the head of the loop, line 327; holds mutex_ *)
| RSet (nd : node)                   (* start(): about to call set_value, lines 235, 272, 321, 371 *)
| XUnl                               (* unlock(): about to load st_, line 443 *)
| XUnlCas (v : rval)                 (* about to execute the CAS of line 449 *)
| XUnlLock                           (* about to execute the critical section, lines 470-503 *)
| SUnl                               (* unlock_shared(): about to load st_, line 512 *)
| SUnl1 (v : rval)                   (* at the head of the first loop, line 518 *)
| SUnl2 (v : rval)                   (* at the head of the second loop, line 547 *)
| RHand (pending : list node)        (* about to complete the operations, lines 507-508, 588 *)
| REnd.

(** lines 592-610: mutex_ (whether it is held), st_, waiters_; operations; calls in flight *)
Record rst := RS { r_lock : bool; r_st : rval; r_w : list node; r_op : nat -> lost; r_act : list ract }.
Definition r_init : rst := RS false (RV MNone 0) [] (fun _ => OIdle) [].

Inductive rlabel :=
| RStart (o : nat) (x : bool)    (* start() of operation o, made by async_lock() (x) or by async_lock_shared() *)
| RTryX                          (* try_lock() *)
| RTryS                          (* try_lock_shared() is called *)
| RUnlock (x : bool)             (* unlock() (x) or unlock_shared() is called *)
| RStep (k : nat) (spur : bool). (* one step of the k-th call; [spur]: a compare_exchange_weak fails spuriously *)

(** Updates of one field of the state (of the model; no code corresponds to them) *)
Definition r_with_act (s : rst) (k : nat) (a : ract) : rst := RS (r_lock s) (r_st s) (r_w s) (r_op s) (set_nth (r_act s) k a).
Definition r_with_st (s : rst) (v : rval) : rst := RS (r_lock s) v (r_w s) (r_op s) (r_act s).
Definition r_with_lock (s : rst) (b : bool) : rst := RS b (r_st s) (r_w s) (r_op s) (r_act s).
Definition r_with_w (s : rst) (w : list node) : rst := RS (r_lock s) (r_st s) w (r_op s) (r_act s).
Definition r_with_op (s : rst) (o : nat) (x : lost) : rst := RS (r_lock s) (r_st s) (r_w s) (upd (r_op s) o x) (r_act s).

(** Does the operation of the node exist? *)
Definition nd_alive (s : rst) (nd : node) : bool := alive (r_op s) (fst nd).

(** waiters_.push_back(this), unlock mutex_, return: lines 260-261, 266-267, 355-356, 362-363 *)
Definition r_suspend (s : rst) (k : nat) (nd : node) : outcome rst levent :=
  if forallb (nd_alive s) (r_w s) && nd_alive s nd
  then Next (r_with_act (r_with_lock (r_with_w s (r_w s ++ [nd])) false) k REnd) [ESusp (fst nd)]
  else Fail UseAfterFree [].

(** the longest prefix of non-exclusive nodes, lines 486-489 *)
Fixpoint readers (w : list node) : list node * list node :=
  match w with
  | (o, false) :: w' => let (p, r) := readers w' in ((o, false) :: p, r)
  | _ => ([], w)
  end.

(** the pending operations are taken off the list, the state becomes [v] *)
Definition r_hand (s : rst) (k : nat) (p w : list node) (v : rval) : outcome rst levent :=
  if forallb (nd_alive s) (r_w s)
  then Next (r_with_act (r_with_st (r_with_w s w) v) k (RHand p)) (map (fun nd => EHand (fst nd)) p)
  else Fail UseAfterFree [].
Definition c_of (w : list node) : mval := match w with [] => MLocked | _ => MCont end.

(** try_lock_shared() returns *)
Definition try_ret (s : rst) (k : nat) (w : option nat) (b : bool) : outcome rst levent :=
  match w, b with
  | Some o, true => Next (r_with_act s k (RSet (o, false))) []       (* line 321 *)
  | Some o, false => Next (r_with_act s k (SWait o)) []
  | None, _ => Next (r_with_act s k REnd) [ETry false b]
  end.

(** unlock_shared(), lines 543-588, from the head of the second loop *)
Definition sunl2_step (s : rst) (k : nat) (spur : bool) (v : rval) : outcome rst levent :=
  if 1 <? v_n v then                                 (* lines 547-556 *)
    if negb spur && rval_eqb (r_st s) v
    then Next (r_with_act (r_with_st s (RV MCont (v_n v - 1))) k REnd) []
    else Next (r_with_act s k (SUnl2 (r_st s))) []
  else if negb (v_n v =? 1) then Fail AssertFailed []  (* line 557 *)
  else if r_lock s then Disabled
  else match r_w s with                              (* lines 560-586 *)
       | [] => Fail AssertFailed []                  (* line 567 *)
       | (o, false) :: _ => Fail AssertFailed []     (* line 570 *)
       | (o, true) :: w => r_hand s k [(o, true)] w (RV (c_of w) 0)
       end.

Definition ract_step (s : rst) (k : nat) (spur : bool) (a : ract) : outcome rst levent :=
  match a with
  | XTry o =>                                        (* line 234, try_lock: lines 405-413 *)
      if rval_eqb (r_st s) (RV MNone 0)
      then Next (r_with_act (r_with_st s (RV MLocked 0)) k (RSet (o, true))) []
      else Next (r_with_act s k (XWait o)) []
  | XWait o => if r_lock s then Disabled else Next (r_with_act (r_with_lock s true) k (XLoop o (r_st s))) []
  | XLoop o v =>
      match v_c v with
      | MNone =>                                     (* lines 242-250 *)
          if negb spur && rval_eqb (r_st s) v
          then Next (r_with_act (r_with_lock (r_with_st s (RV MLocked 0)) false) k (RSet (o, true))) []
          else Next (r_with_act s k (XLoop o (r_st s))) []
      | MLocked =>                                   (* lines 251-262 *)
          if negb spur && rval_eqb (r_st s) v
          then r_suspend (r_with_st s (RV MCont (v_n v))) k (o, true)
          else Next (r_with_act s k (XLoop o (r_st s))) []
      | MCont => r_suspend s k (o, true)             (* lines 263-268 *)
      end
  | STry w => Next (r_with_act s k (STryL w (r_st s))) []   (* line 416 *)
  | STryL w v =>
      match v_c v with
      | MNone =>                                     (* lines 418-426 *)
          if rval_eqb (r_st s) v then try_ret (r_with_st s (RV MLocked 1)) k w true else Next (r_with_act s k (STryL w (r_st s))) []
      | MLocked =>
          if 0 <? v_n v then                         (* lines 427-435 *)
            if rval_eqb (r_st s) v then try_ret (r_with_st s (RV MLocked (v_n v + 1))) k w true else Next (r_with_act s k (STryL w (r_st s))) []
          else try_ret s k w false                   (* lines 436-438 *)
      | MCont => try_ret s k w false
      end
  | SWait o => if r_lock s then Disabled else Next (r_with_act (r_with_lock s true) k (SLoop o (r_st s))) []
  | SLoop o v =>
      match v_c v with
      | MNone =>                                     (* lines 328-336 *)
          if negb spur && rval_eqb (r_st s) v
          then Next (r_with_act (r_with_lock (r_with_st s (RV MLocked 1)) false) k (RSet (o, false))) []
          else Next (r_with_act s k (SLoop o (r_st s))) []
      | MLocked =>
          if 0 <? v_n v then                         (* lines 337-346 *)
            if negb spur && rval_eqb (r_st s) v
            then Next (r_with_act (r_with_lock (r_with_st s (RV MLocked (v_n v + 1))) false) k (RSet (o, false))) []
            else Next (r_with_act s k (SLoop o (r_st s))) []
          else                                       (* lines 348-358 *)
            if negb spur && rval_eqb (r_st s) v
            then r_suspend (r_with_st s (RV MCont 0)) k (o, false)
            else Next (r_with_act s k (SLoop o (r_st s))) []
      | MCont => r_suspend s k (o, false)            (* lines 359-364 *)
      end
  | RSet nd =>                                       (* set_value on the receiver *)
      if nd_alive s nd then Next (r_with_act (r_with_op s (fst nd) ODone) k REnd) [EAcq (fst nd) (snd nd)] else Fail UseAfterFree []
  | XUnl =>                                          (* lines 443-448, 461 *)
      match v_c (r_st s) with
      | MNone => Fail AssertFailed []                (* line 444 *)
      | c =>
          if 0 <? v_n (r_st s) then Fail AssertFailed []  (* line 445 *)
          else match c with
               | MLocked => Next (r_with_act s k (XUnlCas (r_st s))) []
               | _ => Next (r_with_act s k XUnlLock) []
               end
      end
  | XUnlCas v =>                                     (* lines 449-461 *)
      if rval_eqb (r_st s) v then Next (r_with_act (r_with_st s (RV MNone 0)) k REnd) []
      else if 0 <? v_n (r_st s) then Fail AssertFailed []     (* line 457 *)
      else match v_c (r_st s) with
           | MCont => Next (r_with_act s k XUnlLock) []
           | _ => Fail AssertFailed []               (* line 460 *)
           end
  | XUnlLock =>                                      (* lines 470-505 *)
      if r_lock s then Disabled
      else match r_w s with
           | [] => Fail AssertFailed []              (* line 474 *)
           | (o, true) :: w => r_hand s k [(o, true)] w (match w with [] => RV MLocked 0 | _ => r_st s end)
           | (o, false) :: _ => let (p, w) := readers (r_w s) in r_hand s k p w (RV (c_of w) (length p))
           end
  | SUnl =>                                          (* lines 512-514 *)
      match v_c (r_st s) with
      | MNone => Fail AssertFailed []
      | _ => if 0 <? v_n (r_st s) then Next (r_with_act s k (SUnl1 (r_st s))) [] else Fail AssertFailed []
      end
  | SUnl1 v =>
      match v_c v with
      | MLocked =>
          if (1 <? v_n v) || (v_n v =? 1) then       (* lines 519-538; line 529 *)
            if negb spur && rval_eqb (r_st s) v
            then Next (r_with_act (r_with_st s (if 1 <? v_n v then RV MLocked (v_n v - 1) else RV MNone 0)) k REnd) []
            else match v_c (r_st s) with
                 | MNone => Fail AssertFailed []     (* line 539 *)
                 | _ => if 0 <? v_n (r_st s) then Next (r_with_act s k (SUnl1 (r_st s))) [] else Fail AssertFailed []  (* line 540 *)
                 end
          else Fail AssertFailed []
      | MCont => sunl2_step s k spur v
      | MNone => Fail AssertFailed []                (* line 543 *)
      end
  | SUnl2 v => sunl2_step s k spur v
  | RHand (nd :: p) =>                               (* lines 507-508, 588 *)
      if forallb (nd_alive s) (nd :: p)
      then Next (r_with_act (r_with_op s (fst nd) ODone) k (match p with [] => REnd | _ => RHand p end)) [EAcq (fst nd) (snd nd)]
      else Fail UseAfterFree []
  | RHand [] => Fail AssertFailed []                 (* line 505 *)
  | REnd => Disabled
  end.

Definition r_step (s : rst) (l : rlabel) : outcome rst levent :=
  match l with
  | RStart o x =>
      match r_op s o with
      | OIdle => Next (RS (r_lock s) (r_st s) (r_w s) (upd (r_op s) o OStarted) (r_act s ++ [if x then XTry o else STry (Some o)])) [EStart o x]
      | _ => Disabled
      end
  | RTryX =>                                         (* lines 405-413 *)
      if rval_eqb (r_st s) (RV MNone 0) then Next (r_with_st s (RV MLocked 0)) [ETry true true] else Next s [ETry true false]
  | RTryS => Next (RS (r_lock s) (r_st s) (r_w s) (r_op s) (r_act s ++ [STry None])) []
  | RUnlock x => Next (RS (r_lock s) (r_st s) (r_w s) (r_op s) (r_act s ++ [if x then XUnl else SUnl])) [EUnlock x]
  | RStep k spur => match nth_error (r_act s) k with Some a => ract_step s k spur a | None => Disabled end
  end.
