(** Model of async::detail::mutex (include/async/mutex.hpp 9-179) under the C++ memory model, see M_Weak.v.

    Threads that own the mutex ([x_own]) access data that is protected by it; [x_acc] counts these accesses.  One step is
    one access to st_ or one critical section of mutex_, as in M_Mutex.v, but a load of st_ and a failing compare-exchange
    may read old messages (the label says which one).

    Simplifications: identifiers of operations are not re-used; a thread that calls start() or try_lock() has an arbitrary
    view (it may have synchronized with other threads by other means). *)
From Coq Require Import List Arith Bool.
From Verif Require Import Lts M_Mutex M_Weak.
Import ListNotations.

Inductive wevent :=
| EL (e : levent)                      (* API events as in M_Mutex.v *)
| EAcc (n : nat) (before : list nat).  (* the n-th access to the protected data; accesses that happen before it *)

(** lines 163-179: mutex_ (whether it is held, what its last unlock releases), the messages of st_, waiters_; operations;
    calls in flight with the views of their threads; views of the owners; number of accesses to the data *)
Record xst := XS { x_lock : bool; x_lv : view; x_h : hist mval; x_w : list nat; x_op : nat -> lost; x_act : list (mact * view);
                   x_own : list view; x_acc : nat }.
Definition x_init : xst := XS false vbot [(MNone, vbot)] [] (fun _ => OIdle) [] [] 0.

Inductive xlabel :=
| XStart (o : nat) (v : view)               (* start() of operation o by a thread with view v *)
| XTry (v : view) (i : nat)                 (* try_lock() by a thread with view v *)
| XAccess (j : nat)                         (* the j-th owner accesses the protected data *)
| XUnlock (j : nat)                         (* the j-th owner calls unlock() *)
| XStep (k : nat) (i : nat) (spur : bool).  (* one step of the k-th call; it reads the i-th message; [spur] as in M_Mutex.v *)

(** Updates of one field of the state (of the model; no code corresponds to them) *)
Definition x_set (s : xst) (k : nat) (a : mact) (v : view) : xst :=
  XS (x_lock s) (x_lv s) (x_h s) (x_w s) (x_op s) (set_nth (x_act s) k (a, v)) (x_own s) (x_acc s).
Definition x_hist (s : xst) (h : hist mval) : xst := XS (x_lock s) (x_lv s) h (x_w s) (x_op s) (x_act s) (x_own s) (x_acc s).
Definition x_locked (s : xst) (b : bool) (lv : view) : xst := XS b lv (x_h s) (x_w s) (x_op s) (x_act s) (x_own s) (x_acc s).
Definition x_wait (s : xst) (w : list nat) : xst := XS (x_lock s) (x_lv s) (x_h s) w (x_op s) (x_act s) (x_own s) (x_acc s).

(** the nodes in l exist, and their construction happens before the current point of the thread *)
Definition x_ok (s : xst) (v : view) (l : list nat) : outcome xst wevent :=
  if negb (forallb (alive (x_op s)) l) then Fail UseAfterFree []
  else if negb (forallb (knows v) l) then Fail DataRace [] else Disabled.
Definition x_guard (s : xst) (v : view) (l : list nat) (r : outcome xst wevent) : outcome xst wevent :=
  match x_ok s v l with Disabled => r | f => f end.

(** waiters_.push_back(this), unlock mutex_, return: lines 66-67, 72-73 *)
Definition x_suspend (s : xst) (k o : nat) (v : view) : outcome xst wevent :=
  x_guard s v (o :: x_w s) (Next (x_set (x_locked (x_wait s (x_w s ++ [o])) false v) k AEnd v) [EL (ESusp o)]).
(** set_value on the receiver: the thread becomes the owner (its view is that of the thread of the call) *)
Definition x_notify (s : xst) (k o : nat) (v : view) : outcome xst wevent :=
  x_guard s v [o]
    (Next (XS (x_lock s) (x_lv s) (x_h s) (x_w s) (upd (x_op s) o ODone) (set_nth (x_act s) k (AEnd, v)) (x_own s ++ [v]) (x_acc s))
          [EL (EAcq o true)]).

(** A compare-exchange that expects [e] and reads the i-th message: success, failure with a value, or not possible *)
Inductive cas := CasOk | CasNo (x : mval) | CasImpossible.
Definition cas_read (weak spur : bool) (h : hist mval) (v : view) (i : nat) (e : mval) : cas :=
  match rd h v i with
  | None => CasImpossible
  | Some (x, _) =>
      if mval_eqb x e
      then if (i =? newest h) && negb (weak && spur) then CasOk else if weak then CasNo x else CasImpossible
      else CasNo x
  end.

Definition x_act_step (s : xst) (k i : nat) (spur : bool) (a : mact) (v : view) : outcome xst wevent :=
  let h := x_h s in
  match a with
  | ATry o =>                                   (* line 40, try_lock: lines 112-120, success: acquire *)
      match cas_read false false h v i MNone with
      | CasOk => Next (x_set (x_hist s (rmw true false h v MLocked)) k (ASet o) (rmw_view true h v)) []
      | CasNo _ => Next (x_set s k (AWait o) (vsee v i)) []
      | CasImpossible => Disabled
      end
  | AWait o =>                                  (* lines 44-46 *)
      if x_lock s then Disabled
      else let v1 := vjoin v (x_lv s) in
           match rd h v1 i with
           | Some (x, _) => Next (x_set (x_locked s true (x_lv s)) k (ALoop o x) (vsee v1 i)) []
           | None => Disabled
           end
  | ALoop o MNone =>                            (* lines 48-56, success: acquire *)
      match cas_read true spur h v i MNone with
      | CasOk => let v1 := rmw_view true h v in
                 Next (x_set (x_locked (x_hist s (rmw true false h v MLocked)) false v1) k (ASet o) v1) []
      | CasNo x => Next (x_set s k (ALoop o x) (vsee v i)) []
      | CasImpossible => Disabled
      end
  | ALoop o MLocked =>                          (* lines 57-68, success: relaxed *)
      match cas_read true spur h v i MLocked with
      | CasOk => x_suspend (x_hist s (rmw false false h v MCont)) k o (rmw_view false h v)
      | CasNo x => Next (x_set s k (ALoop o x) (vsee v i)) []
      | CasImpossible => Disabled
      end
  | ALoop o MCont => x_suspend s k o v          (* lines 69-74 *)
  | ASet o => x_notify s k o v
  | AUnl =>                                     (* lines 123-127, 137 *)
      match rd h v i with
      | Some (MNone, _) => Fail AssertFailed [] (* line 124 *)
      | Some (MLocked, _) => Next (x_set s k AUnlCas (vsee v i)) []
      | Some (MCont, _) => Next (x_set s k AUnlLock (vsee v i)) []
      | None => Disabled
      end
  | AUnlCas =>                                  (* lines 128-137, success: release *)
      match cas_read false false h v i MLocked with
      | CasOk => Next (x_set (x_hist s (rmw false true h v MNone)) k AEnd (rmw_view false h v)) []
      | CasNo MCont => Next (x_set s k AUnlLock (vsee v i)) []
      | CasNo _ => Fail AssertFailed []         (* line 137 *)
      | CasImpossible => Disabled
      end
  | AUnlLock =>                                 (* lines 141-152 *)
      if x_lock s then Disabled
      else let v1 := vjoin v (x_lv s) in
           match x_w s with
           | [] => Fail AssertFailed []         (* line 144 *)
           | o :: w =>
               x_guard s v1 (o :: w)
                 match w with
                 | [] => (* line 150: a relaxed store *)
                     if v_ts v1 =? newest h
                     then let v2 := vsee v1 (length h) in
                          Next (x_set (x_locked (x_hist (x_wait s w) (store_rlx h MLocked)) false v2) k (AUnlNext o) v2) [EL (EHand o)]
                     else Fail DataRace []
                 | _ => Next (x_set (x_locked (x_wait s w) false v1) k (AUnlNext o) v1) [EL (EHand o)]
                 end
           end
  | AUnlNext o => x_notify s k o v              (* line 154, 82-84 *)
  | AEnd => Disabled
  end.

Definition x_step (s : xst) (l : xlabel) : outcome xst wevent :=
  match l with
  | XStart o v =>
      match x_op s o with
      | OIdle =>
          if v_ts v <? length (x_h s)
          then Next (XS (x_lock s) (x_lv s) (x_h s) (x_w s) (upd (x_op s) o OStarted) (x_act s ++ [(ATry o, vadd v (TObj o))]) (x_own s) (x_acc s))
                    [EL (EStart o true)]
          else Disabled
      | _ => Disabled
      end
  | XTry v i =>                                 (* lines 112-120, success: acquire *)
      match cas_read false false (x_h s) v i MNone with
      | CasOk => Next (XS (x_lock s) (x_lv s) (rmw true false (x_h s) v MLocked) (x_w s) (x_op s) (x_act s)
                          (x_own s ++ [rmw_view true (x_h s) v]) (x_acc s)) [EL (ETry true true)]
      | CasNo _ => Next s [EL (ETry true false)]
      | CasImpossible => Disabled
      end
  | XAccess j =>
      match nth_error (x_own s) j with
      | Some v => Next (XS (x_lock s) (x_lv s) (x_h s) (x_w s) (x_op s) (x_act s)
                           (set_nth (x_own s) j (vadd v (TData (x_acc s)))) (S (x_acc s))) [EAcc (x_acc s) (accs v)]
      | None => Disabled
      end
  | XUnlock j =>
      match nth_error (x_own s) j with
      | Some v => Next (XS (x_lock s) (x_lv s) (x_h s) (x_w s) (x_op s) (x_act s ++ [(AUnl, v)])
                           (firstn j (x_own s) ++ skipn (S j) (x_own s)) (x_acc s)) [EL (EUnlock true)]
      | None => Disabled
      end
  | XStep k i spur => match nth_error (x_act s) k with Some (a, v) => x_act_step s k i spur a v | None => Disabled end
  end.
