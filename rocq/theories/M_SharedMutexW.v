(** Model of async::detail::shared_mutex (include/async/mutex.hpp 181-612) under the C++ memory model, see M_Weak.v.

    Exclusive owners ([y_xo]) write data that is protected by the mutex, shared owners ([y_so]) read it; [y_acc] counts
    these accesses.  Calls in flight and their program points are those of M_SharedMutex.v; a load of st_ and a failing
    compare-exchange may read old messages (the label says which one).

    The model is parametrized by [ord], which selects between the code as it is ([code]) and a repaired one:
    - [fix_x]: the stores of lines 480-502 (the hand-off by unlock()) have memory_order_release instead of relaxed;
    - [fix_s]: the stores of lines 575-584 (the hand-off by unlock_shared()) are exchanges with memory_order_acquire.

    Simplifications: identifiers of operations are not re-used; the number of shared owners is not bounded; a thread that
    calls start(), try_lock() or try_lock_shared() has an arbitrary view. *)
From Coq Require Import List Arith Bool.
From Verif Require Import Lts M_Mutex M_SharedMutex M_Weak.
Import ListNotations.

(** Memory orders, see above: the code has neither of the two repairs; the code with both of them *)
Record ord := Ord { fix_x : bool; fix_s : bool }.
Definition code : ord := Ord false false.
Definition repaired : ord := Ord true true.

Inductive sevent :=
| EA (e : levent)                      (* API events as in M_Mutex.v *)
| ERd (n : nat) (before : list nat)    (* the n-th access to the protected data, a read; accesses that happen before it *)
| EWr (n : nat) (before : list nat).   (* the n-th access to the protected data, a write *)

(** lines 592-610: mutex_ (whether it is held, what its last unlock releases), the messages of st_, waiters_; operations;
    calls in flight with the views of their threads; views of the exclusive and of the shared owners; number of accesses *)
Record yst := YS { y_lock : bool; y_lv : view; y_h : hist rval; y_w : list node; y_op : nat -> lost; y_act : list (ract * view);
                   y_xo : list view; y_so : list view; y_acc : nat }.
Definition y_init : yst := YS false vbot [(RV MNone 0, vbot)] [] (fun _ => OIdle) [] [] [] 0.

Inductive ylabel :=
| YStart (o : nat) (x : bool) (v : view)    (* start() of operation o by a thread with view v *)
| YTryX (v : view) (i : nat)                (* try_lock() by a thread with view v *)
| YTryS (v : view)                          (* try_lock_shared() is called by a thread with view v *)
| YWrite (j : nat)                          (* the j-th exclusive owner writes the protected data *)
| YRead (j : nat)                           (* the j-th shared owner reads the protected data *)
| YUnlock (x : bool) (j : nat)              (* the j-th exclusive/shared owner calls unlock()/unlock_shared() *)
| YStep (k : nat) (i : nat) (spur : bool).  (* one step of the k-th call; it reads the i-th message *)

(** Updates of one field of the state (of the model; no code corresponds to them); the last two: a new owner (exclusive or shared), the operation o is notified *)
Definition y_set (s : yst) (k : nat) (a : ract) (v : view) : yst :=
  YS (y_lock s) (y_lv s) (y_h s) (y_w s) (y_op s) (set_nth (y_act s) k (a, v)) (y_xo s) (y_so s) (y_acc s).
Definition y_hist (s : yst) (h : hist rval) : yst := YS (y_lock s) (y_lv s) h (y_w s) (y_op s) (y_act s) (y_xo s) (y_so s) (y_acc s).
Definition y_locked (s : yst) (b : bool) (lv : view) : yst := YS b lv (y_h s) (y_w s) (y_op s) (y_act s) (y_xo s) (y_so s) (y_acc s).
Definition y_wait (s : yst) (w : list node) : yst := YS (y_lock s) (y_lv s) (y_h s) w (y_op s) (y_act s) (y_xo s) (y_so s) (y_acc s).
Definition y_own (s : yst) (x : bool) (v : view) : yst :=
  YS (y_lock s) (y_lv s) (y_h s) (y_w s) (y_op s) (y_act s) (if x then y_xo s ++ [v] else y_xo s) (if x then y_so s else y_so s ++ [v]) (y_acc s).
Definition y_done (s : yst) (o : nat) : yst :=
  YS (y_lock s) (y_lv s) (y_h s) (y_w s) (upd (y_op s) o ODone) (y_act s) (y_xo s) (y_so s) (y_acc s).

(** the nodes in l exist, and their construction happens before the current point of the thread *)
Definition y_guard (s : yst) (v : view) (l : list node) (r : outcome yst sevent) : outcome yst sevent :=
  if negb (forallb (fun nd => alive (y_op s) (fst nd)) l) then Fail UseAfterFree []
  else if negb (forallb (fun nd => knows v (fst nd)) l) then Fail DataRace [] else r.

(** A compare-exchange that expects [e] and reads the i-th message: success, failure with a value, or not possible *)
Inductive casr := RCasOk | RCasNo (x : rval) | RCasImpossible.
Definition casr_read (weak spur : bool) (h : hist rval) (v : view) (i : nat) (e : rval) : casr :=
  match rd h v i with
  | None => RCasImpossible
  | Some (x, _) =>
      if rval_eqb x e
      then if (i =? newest h) && negb (weak && spur) then RCasOk else if weak then RCasNo x else RCasImpossible
      else RCasNo x
  end.

(** waiters_.push_back(this), unlock mutex_, return: lines 260-261, 266-267, 355-356, 362-363 *)
Definition y_suspend (s : yst) (k : nat) (nd : node) (v : view) : outcome yst sevent :=
  y_guard s v (nd :: y_w s) (Next (y_set (y_locked (y_wait s (y_w s ++ [nd])) false v) k REnd v) [EA (ESusp (fst nd))]).

(** the pending operations are taken off the list; the new messages and the new view; unlock mutex_ *)
Definition y_hand (s : yst) (k : nat) (p w : list node) (h : hist rval) (v : view) : outcome yst sevent :=
  Next (y_set (y_locked (y_hist (y_wait s w) h) false v) k (RHand p) v) (map (fun nd => EA (EHand (fst nd))) p).

(** a plain store: its position must be determined; the new messages and the new view *)
Definition y_store (rel : bool) (h : hist rval) (v : view) (x : rval) (r : hist rval -> view -> outcome yst sevent) : outcome yst sevent :=
  if v_ts v =? newest h
  then let v1 := vsee v (length h) in r (h ++ [(x, if rel then v1 else vbot)]) v1
  else Fail DataRace [].

(** try_lock_shared() returns *)
Definition y_try_ret (s : yst) (k : nat) (w : option nat) (b : bool) (v : view) : outcome yst sevent :=
  match w, b with
  | Some o, true => Next (y_set s k (RSet (o, false)) v) []       (* line 321 *)
  | Some o, false => Next (y_set s k (SWait o) v) []
  | None, true => Next (y_own (y_set s k REnd v) false v) [EA (ETry false true)]
  | None, false => Next (y_set s k REnd v) [EA (ETry false false)]
  end.

(** unlock_shared(), lines 543-588, from the head of the second loop *)
Definition y_sunl2 (d : ord) (s : yst) (k i : nat) (spur : bool) (x : rval) (v : view) : outcome yst sevent :=
  let h := y_h s in
  if 1 <? v_n x then                                   (* lines 547-556, success: release *)
    match casr_read true spur h v i x with
    | RCasOk => Next (y_set (y_hist s (rmw false true h v (RV MCont (v_n x - 1)))) k REnd (rmw_view false h v)) []
    | RCasNo y => Next (y_set s k (SUnl2 y) (vsee v i)) []
    | RCasImpossible => Disabled
    end
  else if negb (v_n x =? 1) then Fail AssertFailed []  (* line 557 *)
  else if y_lock s then Disabled
  else let v1 := vjoin v (y_lv s) in                   (* lines 560-586 *)
       match y_w s with
       | [] => Fail AssertFailed []                    (* line 567 *)
       | (o, false) :: _ => Fail AssertFailed []       (* line 570 *)
       | (o, true) :: w =>
           y_guard s v1 (y_w s)
             (let y := RV (c_of w) 0 in
              if fix_s d
              then y_hand s k [(o, true)] w (rmw true false h v1 y) (rmw_view true h v1)
              else y_store false h v1 y (y_hand s k [(o, true)] w))
       end.

Definition y_act_step (d : ord) (s : yst) (k i : nat) (spur : bool) (a : ract) (v : view) : outcome yst sevent :=
  let h := y_h s in
  match a with
  | XTry o =>                                          (* line 234, try_lock: lines 405-413, success: acquire *)
      match casr_read false false h v i (RV MNone 0) with
      | RCasOk => Next (y_set (y_hist s (rmw true false h v (RV MLocked 0))) k (RSet (o, true)) (rmw_view true h v)) []
      | RCasNo _ => Next (y_set s k (XWait o) (vsee v i)) []
      | RCasImpossible => Disabled
      end
  | XWait o =>                                         (* lines 238-240 *)
      if y_lock s then Disabled
      else let v1 := vjoin v (y_lv s) in
           match rd h v1 i with
           | Some (x, _) => Next (y_set (y_locked s true (y_lv s)) k (XLoop o x) (vsee v1 i)) []
           | None => Disabled
           end
  | XLoop o x =>
      match v_c x with
      | MNone =>                                       (* lines 242-250, success: acquire *)
          match casr_read true spur h v i x with
          | RCasOk => let v1 := rmw_view true h v in
                      Next (y_set (y_locked (y_hist s (rmw true false h v (RV MLocked 0))) false v1) k (RSet (o, true)) v1) []
          | RCasNo y => Next (y_set s k (XLoop o y) (vsee v i)) []
          | RCasImpossible => Disabled
          end
      | MLocked =>                                     (* lines 251-262, success: relaxed *)
          match casr_read true spur h v i x with
          | RCasOk => y_suspend (y_hist s (rmw false false h v (RV MCont (v_n x)))) k (o, true) (rmw_view false h v)
          | RCasNo y => Next (y_set s k (XLoop o y) (vsee v i)) []
          | RCasImpossible => Disabled
          end
      | MCont => y_suspend s k (o, true) v             (* lines 263-268 *)
      end
  | STry w =>                                          (* line 416 *)
      match rd h v i with Some (x, _) => Next (y_set s k (STryL w x) (vsee v i)) [] | None => Disabled end
  | STryL w x =>
      match v_c x with
      | MNone =>                                       (* lines 418-426, success: acquire *)
          match casr_read false false h v i x with
          | RCasOk => y_try_ret (y_hist s (rmw true false h v (RV MLocked 1))) k w true (rmw_view true h v)
          | RCasNo y => Next (y_set s k (STryL w y) (vsee v i)) []
          | RCasImpossible => Disabled
          end
      | MLocked =>
          if 0 <? v_n x then                           (* lines 427-435, success: acquire *)
            match casr_read false false h v i x with
            | RCasOk => y_try_ret (y_hist s (rmw true false h v (RV MLocked (v_n x + 1)))) k w true (rmw_view true h v)
            | RCasNo y => Next (y_set s k (STryL w y) (vsee v i)) []
            | RCasImpossible => Disabled
            end
          else y_try_ret s k w false v                 (* lines 436-438 *)
      | MCont => y_try_ret s k w false v
      end
  | SWait o =>                                         (* lines 324-326 *)
      if y_lock s then Disabled
      else let v1 := vjoin v (y_lv s) in
           match rd h v1 i with
           | Some (x, _) => Next (y_set (y_locked s true (y_lv s)) k (SLoop o x) (vsee v1 i)) []
           | None => Disabled
           end
  | SLoop o x =>
      match v_c x with
      | MNone =>                                       (* lines 328-336, success: acquire *)
          match casr_read true spur h v i x with
          | RCasOk => let v1 := rmw_view true h v in
                      Next (y_set (y_locked (y_hist s (rmw true false h v (RV MLocked 1))) false v1) k (RSet (o, false)) v1) []
          | RCasNo y => Next (y_set s k (SLoop o y) (vsee v i)) []
          | RCasImpossible => Disabled
          end
      | MLocked =>
          match casr_read true spur h v i x with
          | RCasOk =>
              if 0 <? v_n x then                       (* lines 337-346, success: acquire *)
                let v1 := rmw_view true h v in
                Next (y_set (y_locked (y_hist s (rmw true false h v (RV MLocked (v_n x + 1)))) false v1) k (RSet (o, false)) v1) []
              else                                     (* lines 348-358, success: relaxed *)
                y_suspend (y_hist s (rmw false false h v (RV MCont 0))) k (o, false) (rmw_view false h v)
          | RCasNo y => Next (y_set s k (SLoop o y) (vsee v i)) []
          | RCasImpossible => Disabled
          end
      | MCont => y_suspend s k (o, false) v            (* lines 359-364 *)
      end
  | RSet nd =>                                         (* set_value on the receiver: the thread becomes an owner *)
      y_guard s v [nd] (Next (y_own (y_set (y_done s (fst nd)) k REnd v) (snd nd) v) [EA (EAcq (fst nd) (snd nd))])
  | XUnl =>                                            (* lines 443-448, 461 *)
      match rd h v i with
      | Some (x, _) =>
          match v_c x with
          | MNone => Fail AssertFailed []              (* line 444 *)
          | c =>
              if 0 <? v_n x then Fail AssertFailed []  (* line 445 *)
              else match c with
                   | MLocked => Next (y_set s k (XUnlCas x) (vsee v i)) []
                   | _ => Next (y_set s k XUnlLock (vsee v i)) []
                   end
          end
      | None => Disabled
      end
  | XUnlCas x =>                                       (* lines 449-461, success: release *)
      match casr_read false false h v i x with
      | RCasOk => Next (y_set (y_hist s (rmw false true h v (RV MNone 0))) k REnd (rmw_view false h v)) []
      | RCasNo y =>
          if 0 <? v_n y then Fail AssertFailed []      (* line 457 *)
          else match v_c y with
               | MCont => Next (y_set s k XUnlLock (vsee v i)) []
               | _ => Fail AssertFailed []             (* line 460 *)
               end
      | RCasImpossible => Disabled
      end
  | XUnlLock =>                                        (* lines 470-505 *)
      if y_lock s then Disabled
      else let v1 := vjoin v (y_lv s) in
           match y_w s with
           | [] => Fail AssertFailed []                (* line 474 *)
           | (o, true) :: w =>
               y_guard s v1 (y_w s)
                 match w with
                 | [] => y_store (fix_x d) h v1 (RV MLocked 0) (y_hand s k [(o, true)] w)
                 | _ => y_hand s k [(o, true)] w h v1
                 end
           | (o, false) :: _ =>
               let (p, w) := readers (y_w s) in
               y_guard s v1 (y_w s) (y_store (fix_x d) h v1 (RV (c_of w) (length p)) (y_hand s k p w))
           end
  | SUnl =>                                            (* lines 512-514 *)
      match rd h v i with
      | Some (x, _) =>
          match v_c x with
          | MNone => Fail AssertFailed []
          | _ => if 0 <? v_n x then Next (y_set s k (SUnl1 x) (vsee v i)) [] else Fail AssertFailed []
          end
      | None => Disabled
      end
  | SUnl1 x =>
      match v_c x with
      | MLocked =>
          if (1 <? v_n x) || (v_n x =? 1) then         (* lines 519-538; line 529; success: release *)
            match casr_read true spur h v i x with
            | RCasOk => Next (y_set (y_hist s (rmw false true h v (if 1 <? v_n x then RV MLocked (v_n x - 1) else RV MNone 0))) k REnd
                                    (rmw_view false h v)) []
            | RCasNo y =>
                match v_c y with
                | MNone => Fail AssertFailed []        (* line 539 *)
                | _ => if 0 <? v_n y then Next (y_set s k (SUnl1 y) (vsee v i)) [] else Fail AssertFailed []  (* line 540 *)
                end
            | RCasImpossible => Disabled
            end
          else Fail AssertFailed []
      | MCont => y_sunl2 d s k i spur x v
      | MNone => Fail AssertFailed []                  (* line 543 *)
      end
  | SUnl2 x => y_sunl2 d s k i spur x v
  | RHand (nd :: p) =>                                 (* lines 507-508, 588: the woken thread of control continues on this thread *)
      y_guard s v (nd :: p)
        (Next (y_own (y_set (y_done s (fst nd)) k (match p with [] => REnd | _ => RHand p end) v) (snd nd) v) [EA (EAcq (fst nd) (snd nd))])
  | RHand [] => Fail AssertFailed []                   (* line 505 *)
  | REnd => Disabled
  end.

Definition y_step (d : ord) (s : yst) (l : ylabel) : outcome yst sevent :=
  match l with
  | YStart o x v =>
      match y_op s o with
      | OIdle =>
          if v_ts v <? length (y_h s)
          then Next (YS (y_lock s) (y_lv s) (y_h s) (y_w s) (upd (y_op s) o OStarted)
                        (y_act s ++ [(if x then XTry o else STry (Some o), vadd v (TObj o))]) (y_xo s) (y_so s) (y_acc s)) [EA (EStart o x)]
          else Disabled
      | _ => Disabled
      end
  | YTryX v i =>                                       (* lines 405-413, success: acquire *)
      match casr_read false false (y_h s) v i (RV MNone 0) with
      | RCasOk => Next (y_own (y_hist s (rmw true false (y_h s) v (RV MLocked 0))) true (rmw_view true (y_h s) v)) [EA (ETry true true)]
      | RCasNo _ => Next s [EA (ETry true false)]
      | RCasImpossible => Disabled
      end
  | YTryS v =>
      if v_ts v <? length (y_h s)
      then Next (YS (y_lock s) (y_lv s) (y_h s) (y_w s) (y_op s) (y_act s ++ [(STry None, v)]) (y_xo s) (y_so s) (y_acc s)) []
      else Disabled
  | YWrite j =>
      match nth_error (y_xo s) j with
      | Some v => Next (YS (y_lock s) (y_lv s) (y_h s) (y_w s) (y_op s) (y_act s)
                           (set_nth (y_xo s) j (vadd v (TData (y_acc s)))) (y_so s) (S (y_acc s))) [EWr (y_acc s) (accs v)]
      | None => Disabled
      end
  | YRead j =>
      match nth_error (y_so s) j with
      | Some v => Next (YS (y_lock s) (y_lv s) (y_h s) (y_w s) (y_op s) (y_act s)
                           (y_xo s) (set_nth (y_so s) j (vadd v (TData (y_acc s)))) (S (y_acc s))) [ERd (y_acc s) (accs v)]
      | None => Disabled
      end
  | YUnlock true j =>
      match nth_error (y_xo s) j with
      | Some v => Next (YS (y_lock s) (y_lv s) (y_h s) (y_w s) (y_op s) (y_act s ++ [(XUnl, v)])
                           (firstn j (y_xo s) ++ skipn (S j) (y_xo s)) (y_so s) (y_acc s)) [EA (EUnlock true)]
      | None => Disabled
      end
  | YUnlock false j =>
      match nth_error (y_so s) j with
      | Some v => Next (YS (y_lock s) (y_lv s) (y_h s) (y_w s) (y_op s) (y_act s ++ [(SUnl, v)])
                           (y_xo s) (firstn j (y_so s) ++ skipn (S j) (y_so s)) (y_acc s)) [EA (EUnlock false)]
      | None => Disabled
      end
  | YStep k i spur => match nth_error (y_act s) k with Some (a, v) => y_act_step d s k i spur a v | None => Disabled end
  end.
