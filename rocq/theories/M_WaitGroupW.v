(** Model of async::wait_group (include/async/wait-group.hpp 14-186) under the C++ memory model, see M_Weak.v.

    ctr_ is a history of messages; loads of ctr_ and failing compare-exchanges may read old messages (the label says which
    one).  A critical section of mutex_ is one step.  The count of the group is made of units: add(n) creates n of them, done() ends one.

    Client rule (built into the labels): done() ends a unit whose add() happens before the call, and that no other done() ends.

    Simplifications: no cancellation (M_WaitGroup.v has it); the counter is unbounded; a thread that calls the library has
    an arbitrary view; identifiers of operations are not re-used. *)
From Coq Require Import List Arith Bool.
From Verif Require Import Lts M_Weak.
Import ListNotations.

(** A unit of the count: the message of its add(); the access of the client just before done(), once done() was called; the message of the
    decrement, once it is done *)
Record wunit := WU { u_pos : nat; u_acc : option nat; u_fin : option nat }.
(** A call of done(), lines 41-74 *)
Inductive wdpc := GLoad | GLoop (x : nat) | GEnd.
(** A wait operation: not started; queued, with the units whose add() happens before its start; notified *)
Inductive gop := GIdle | GWait (known : list nat) | GDone.

(** ctr_ (line 176); what the last unlock of mutex_ (174) releases; queue_ (178-185); operations; units; calls of done(); the loops of lines 69-73;
    number of accesses *)
Record gst := GS { g_h : hist nat; g_lv : view; g_q : list nat; g_op : nat -> gop; g_un : list wunit; g_dn : list (nat * wdpc * view);
                   g_wk : list (list nat * view); g_acc : nat }.

Inductive glabel :=
| GLAdd (n : nat) (v : view)              (* add(n) by a thread with view v *)
| GLDone (u : nat) (v : view)             (* a call of done() for the unit u *)
| GLStep (k i : nat)                      (* one step of the k-th call of done(); it reads the i-th message *)
| GLWait (o : nat) (v : view) (i : nat)   (* start() of a wait operation, reads the i-th message *)
| GLWake (k : nat).                       (* one iteration of the loop of the k-th wake-up *)
Inductive gevent :=
| GEAdd (us : list nat)                   (* add() creates these units *)
| GEDone (u n : nat)                      (* done() for unit u is called, right after the n-th access of the clients *)
| GEWait (o : nat) (known : list nat)     (* start(); the units whose add() happens before it *)
| GENotify (o : nat) (before : list nat). (* the receiver is notified; the accesses that happen before that *)

Section N.
Variable n0 : nat.                        (* line 39 *)
(** Whether the read-modify-write operations of done() (lines 55, 63) and of add() (line 90) acquire and release; all of them do in the code *)
Variables d_acq d_rel a_acq a_rel : bool.
Definition g_init : gst := GS [(n0, vbot)] vbot [] (fun _ => GIdle) (repeat (WU 0 None None) n0) [] [] 0.

(** The newest value of ctr_ *)
Definition g_newest (s : gst) : nat := match nth_error (g_h s) (newest (g_h s)) with Some (x, _) => x | None => 0 end.
Definition fin_unit (l : list wunit) (u pos : nat) : list wunit :=
  match nth_error l u with Some w => set_nth l u (WU (u_pos w) (u_acc w) (Some pos)) | None => l end.
(** units whose add() happens before a point with view v *)
Definition known_units (s : gst) (v : view) : list nat :=
  filter (fun u => match nth_error (g_un s) u with Some w => u_pos w <=? v_ts v | None => false end) (seq 0 (length (g_un s))).

Definition g_done_step (s : gst) (k i : nat) (u : nat) (pc : wdpc) (v : view) : outcome gst gevent :=
  let h := g_h s in
  let put p w := set_nth (g_dn s) k (u, p, w) in
  match pc with
  | GLoad =>                                             (* line 53: relaxed *)
      match rd h v i with
      | Some (x, _) => Next (GS h (g_lv s) (g_q s) (g_op s) (g_un s) (put (GLoop x) (vsee v i)) (g_wk s) (g_acc s)) []
      | None => Disabled
      end
  | GLoop 0 => Fail AssertFailed []                      (* line 58 *)
  | GLoop 1 =>                                           (* lines 61-66: lock, fetch_sub(acq_rel), splice, unlock *)
      let v1 := vjoin v (g_lv s) in
      let v2 := rmw_view d_acq h v1 in
      match g_newest s with
      | 0 => Fail CounterUnderflow []
      | S c =>
          let z := c =? 0 in
          Next (GS (rmw d_acq d_rel h v1 c) v2 (if z then [] else g_q s) (g_op s) (fin_unit (g_un s) u (length h)) (put GEnd v2)
                   (if z then g_wk s ++ [(g_q s, v2)] else g_wk s) (g_acc s)) []
      end
  | GLoop x =>                                           (* line 55: success acq_rel, failure relaxed *)
      match rd h v i with
      | Some (y, _) =>
          if y =? x then
            if i =? newest h
            then Next (GS (rmw d_acq d_rel h v (x - 1)) (g_lv s) (g_q s) (g_op s) (fin_unit (g_un s) u (length h)) (put GEnd (rmw_view d_acq h v)) (g_wk s) (g_acc s)) []
            else Disabled
          else Next (GS h (g_lv s) (g_q s) (g_op s) (g_un s) (put (GLoop y) (vsee v i)) (g_wk s) (g_acc s)) []
      | None => Disabled
      end
  | GEnd => Disabled
  end.

Definition g_step (s : gst) (l : glabel) : outcome gst gevent :=
  let h := g_h s in
  match l with
  | GLAdd n v =>                                         (* line 90: acq_rel *)
      if v_ts v <? length h
      then Next (GS (rmw a_acq a_rel h v (g_newest s + n)) (g_lv s) (g_q s) (g_op s) (g_un s ++ repeat (WU (length h) None None) n) (g_dn s) (g_wk s) (g_acc s))
                [GEAdd (seq (length (g_un s)) n)]
      else Disabled
  | GLDone u v =>
      match nth_error (g_un s) u with
      | Some (WU p None f) =>
          if (p <=? v_ts v) && (v_ts v <? length h)
          then Next (GS h (g_lv s) (g_q s) (g_op s) (set_nth (g_un s) u (WU p (Some (g_acc s)) f)) (g_dn s ++ [(u, GLoad, vadd v (TData (g_acc s)))])
                        (g_wk s) (S (g_acc s))) [GEDone u (g_acc s)]
          else Disabled
      | _ => Disabled
      end
  | GLStep k i => match nth_error (g_dn s) k with Some (u, pc, v) => g_done_step s k i u pc v | None => Disabled end
  | GLWait o v i =>                                      (* lines 104-118; the load of line 108 is relaxed *)
      let v1 := vjoin v (g_lv s) in
      let kn := known_units s v in
      match g_op s o, rd h v1 i with
      | GIdle, Some (x, _) =>
          if v_ts v <? length h then
            let v2 := vsee v1 i in
            match x with
            | 0 => Next (GS h v2 (g_q s) (upd (g_op s) o GDone) (g_un s) (g_dn s) (g_wk s) (g_acc s)) [GEWait o kn; GENotify o (accs v2)]
            | S _ => Next (GS h v2 (g_q s ++ [o]) (upd (g_op s) o (GWait kn)) (g_un s) (g_dn s) (g_wk s) (g_acc s)) [GEWait o kn]
            end
          else Disabled
      | _, _ => Disabled
      end
  | GLWake k =>                                          (* lines 69-73 *)
      match nth_error (g_wk s) k with
      | Some (o :: os, v) =>
          match g_op s o with
          | GWait _ => Next (GS h (g_lv s) (g_q s) (upd (g_op s) o GDone) (g_un s) (g_dn s) (set_nth (g_wk s) k (os, v)) (g_acc s)) [GENotify o (accs v)]
          | _ => Fail UseAfterFree []
          end
      | _ => Disabled
      end
  end.
End N.
