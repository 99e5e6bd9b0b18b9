(** Model of async::wait_group (include/async/wait-group.hpp 14-186) with cancellation under the C++ memory model, as a wait primitive of M_Wait.

    ctr_ is the list of the values that it had.  Loads of ctr_ and failing compare-exchanges may read old values; labels say which one.  Coherence: a thread does not
    read a value that is older than one it knows of.  A thread knows of the values that the last owner of mutex_ knew of, if it owns mutex_, of those that it read or wrote
    before in the same call, and of those that the client knows of when it calls the library.

    The count of the group is made of units: add(n) creates n of them, done() ends one.
    Client rule (built into the labels): done() ends a unit whose add() happens before the call, and that no other done() ends.

    Simplifications: the counter is unbounded; a critical section of mutex_ is one step (see M_WaitGroup.v); when try_cancel() does not cancel, it is
    forgotten which value it read, and the three activities of an operation do not tell each other which values they know of (more executions than in C++).
    M_WaitGroup.v has wait_in_group, which calls add(1) and done() as a client of this model does. *)
From Coq Require Import List Arith Bool.
From Verif Require Import Lts M_Wait.
Import ListNotations.

(** A unit of the count: the position of the value that its add() wrote; done() was called for it; done() has decremented the counter *)
Record yunit := YU { u_pos : nat; u_called : bool; u_fin : bool }.
(** A call of done(), lines 41-74: before the load; at the head of the loop; past the decrement *)
Inductive ypc := YLoad | YLoop (x : nat) | YEnd.

(** ctr_ (line 176): its values; the position of the newest one that the last owner of mutex_ (line 174) knew of; queue_ (178-185); cancelled_ of each node (35);
    units; calls of done() with their unit and the position of the newest value that they know of *)
Record yst := YS { y_h : list nat; y_lo : nat; y_q : list nat; y_can : nat -> bool; y_un : list yunit; y_dn : list (nat * ypc * nat) }.

Inductive ylabel :=
| YAdd (n : nat)           (* add(n) *)
| YDone (u p : nat)        (* a call of done() for the unit u by a thread that knows of the p-th value *)
| YStep (k i : nat).       (* one step of the k-th call of done(), reads the i-th value *)
Inductive yevent :=
| EYAdd (us : list nat)    (* add() creates these units *)
| EYDone (u : nat)         (* done() is called for u *)
| EYWait (o : nat) (known : list nat). (* start() of the wait o; the units whose add() happens before it *)

Section N.
Variable n0 : nat.         (* the count passed to the constructor, line 39 *)
Variable pick : nat -> nat. (* the position of the value that try_cancel() for an operation reads, if that is possible; it is called at most once for each of them *)

(** wait_group(n0), line 39, with one unit for each of the n0 calls of done() to come; position of the newest value; the value at a position *)
Definition y_init : yst := YS [n0] 0 [] (fun _ => false) (repeat (YU 0 false false) n0) [].
Definition y_newest (s : yst) : nat := length (y_h s) - 1.
Definition y_val (s : yst) (i : nat) : nat := nth i (y_h s) 0.
(** The position of the value that a thread reads that owns mutex_ and knows of the p-th value; the choice i, if it is possible *)
Definition y_read (s : yst) (p i : nat) : nat := if (p <=? i) && (y_lo s <=? i) && (i <? length (y_h s)) then i else y_newest s.
(** The units whose add() happens before a point at which the p-th value is known *)
Definition y_known (s : yst) (p : nat) : list nat :=
  filter (fun u => match nth_error (y_un s) u with Some w => u_pos w <=? p | None => false end) (seq 0 (length (y_un s))).

(** wait_operation::start(), lines 102-118, by a thread that knows of the p-th value; the load of line 108 is relaxed *)
Definition y_start (s : yst) (o : nat) (a : nat * nat) : start_out yst bool yevent :=
  let '(p, i) := a in
  let j := y_read s p i in
  match y_val s j with
  | 0 => SFast (YS (y_h s) j (y_q s) (y_can s) (y_un s) (y_dn s)) true [EYWait o (y_known s p)]
  | _ => SQueued (YS (y_h s) j (y_q s ++ [o]) (y_can s) (y_un s) (y_dn s)) [EYWait o (y_known s p)]
  end.

(** try_cancel(), lines 76-87; the load of line 80 is relaxed *)
Definition y_try (s : yst) (o : nat) : try_out yst :=
  match y_val s (y_read s 0 (pick o)) with
  | 0 => TOk s false
  | _ =>
      if memb o (y_q s)
      then TOk (YS (y_h s) (y_lo s) (remove1 o (y_q s)) (upd (y_can s) o true) (y_un s) (y_dn s)) true
      else TFail BadUnlink (* lines 82-83 *)
  end.

(** resume_fn, lines 127-132 *)
Definition y_resume (s : yst) (o : nat) : resume_out yst bool := ROk s (negb (y_can s o)).

(** done() is called for the unit u; its decrement has happened (helpers) *)
Definition y_call (l : list yunit) (u : nat) : list yunit := match nth_error l u with Some w => set_nth l u (YU (u_pos w) true (u_fin w)) | None => l end.
Definition y_end (l : list yunit) (u : nat) : list yunit := match nth_error l u with Some w => set_nth l u (YU (u_pos w) (u_called w) true) | None => l end.

(** One step of done(), lines 53-67 *)
Definition y_done (s : yst) (k i : nat) : prim_out yst yevent :=
  let h := y_h s in
  match nth_error (y_dn s) k with
  | Some (u, pc, p) =>
      match pc with
      | YLoad =>                                   (* line 53, relaxed *)
          if (p <=? i) && (i <? length h) then POk (YS h (y_lo s) (y_q s) (y_can s) (y_un s) (set_nth (y_dn s) k (u, YLoop (y_val s i), i))) [] [] else PNo
      | YLoop 0 => PFail AssertFailed []           (* line 58 *)
      | YLoop 1 =>                                 (* lines 61-66 *)
          match y_val s (y_newest s) with
          | 0 => PFail CounterUnderflow []
          | S c => POk (YS (h ++ [c]) (length h) (if c =? 0 then [] else y_q s) (y_can s) (y_end (y_un s) u) (set_nth (y_dn s) k (u, YEnd, length h)))
                       (if c =? 0 then y_q s else []) []
          end
      | YLoop x =>                                 (* line 55; the failure is relaxed *)
          if (p <=? i) && (i <? length h) then
            if y_val s i =? x then
              if i =? y_newest s
              then POk (YS (h ++ [x - 1]) (y_lo s) (y_q s) (y_can s) (y_end (y_un s) u) (set_nth (y_dn s) k (u, YEnd, length h))) [] []
              else PNo
            else POk (YS h (y_lo s) (y_q s) (y_can s) (y_un s) (set_nth (y_dn s) k (u, YLoop (y_val s i), i))) [] []
          else PNo
      | YEnd => PNo
      end
  | None => PNo
  end.

Definition y_step (s : yst) (l : ylabel) : prim_out yst yevent :=
  match l with
  | YAdd n =>                                      (* line 90 *)
      POk (YS (y_h s ++ [y_val s (y_newest s) + n]) (y_lo s) (y_q s) (y_can s) (y_un s ++ repeat (YU (length (y_h s)) false false) n) (y_dn s))
          [] [EYAdd (seq (length (y_un s)) n)]
  | YDone u p =>
      match nth_error (y_un s) u with
      | Some w =>
          if negb (u_called w) && (u_pos w <=? p) && (p <? length (y_h s))
          then POk (YS (y_h s) (y_lo s) (y_q s) (y_can s) (y_call (y_un s) u) (y_dn s ++ [(u, YLoad, p)])) [] [EYDone u]
          else PNo
      | None => PNo
      end
  | YStep k i => y_done s k i
  end.

(** wait_operation as a user of cancellation_resolver, see M_Wait.v *)
Definition wait_group_c : prim := Prim yst (nat * nat) bool ylabel yevent y_init y_start y_try y_resume (fun _ v => v) y_step.
End N.
