(** Model of async::sequenced_event (include/async/sequenced-event.hpp 11-34) on top of recurring_event (include/async/recurring-event.hpp 45-70, 89-111) under
    the C++ memory model, see M_Weak.v.

    seq_ is a history of messages.  A critical section of ev_._mutex is one step; the condition of the wait loads seq_ in it.

    Client rule (built into the labels): the caller of async_wait(in_seq) knows that the sequence number reached in_seq, e.g. because another wait
    returned in_seq.

    Simplifications: no cancellation (M_Recurring.v has it); unbounded integers; a thread that calls the library has an arbitrary view; identifiers of operations
    are not re-used. *)
From Coq Require Import List Arith Bool.
From Verif Require Import Lts M_Weak.
Import ListNotations.

(** A wait: not started; queued, with in_seq; the condition failed, about to complete in start(); completed *)
Inductive sop := SIdle | SWait (t : nat) | SRun (t : nat) | SDone.
(** A call of raise() that made the sequence number j: before the critical section of ev_.raise(); its loop over the waiters that it took *)
Inductive sraise := SRaise (j : nat) (v : view) | SLoop (j : nat) (os : list nat) (v : view).

(** seq_ (line 33); what the last unlock of ev_._mutex releases; ev_.queue_; operations; calls of raise(); calls of start() of which the condition failed;
    number of accesses of the clients *)
Record sst := SS { s_h : hist nat; s_ev : view; s_q : list nat; s_op : nat -> sop; s_rs : list sraise; s_cp : list (nat * view); s_acc : nat }.

Inductive slabel :=
| SLRaise (v : view)                       (* fetch_add of raise() by a thread with view v, line 13 *)
| SLLock (k : nat)                         (* the critical section of the k-th call of raise() *)
| SLWake (k i : nat)                       (* one iteration of its loop; the load of line 28 reads the i-th message *)
| SLWait (o t : nat) (v : view) (i : nat)  (* start() of a wait on t; the load of line 23 reads the i-th message *)
| SLFast (k i : nat)                       (* the k-th start() of which the condition failed completes; the load of line 28 reads the i-th message *)
| SLNext (v : view) (i : nat).             (* next_sequence(), line 18 *)
Inductive sevent :=
| SERaise (j n : nat)                      (* the call of raise() that makes the sequence number j; n: the access of the caller just before it *)
| SEWait (o t : nat)                       (* async_wait(t) *)
| SEDone (o : nat) (by_ : option nat) (x : nat) (before : list nat)
                                           (* it completes, in start() or by the raise() that made a number, and returns x; the accesses that happen before that *)
| SENext (x : nat) (before : list nat).    (* next_sequence() returns x *)

Section Orders.
(** Whether the fetch_add acquires and releases and whether the loads acquire; they do in the code *)
Variables r_acq r_rel ld_acq : bool.
Definition s_init : sst := SS [(0, vbot)] vbot [] (fun _ => SIdle) [] [] 0.

(** a load by a thread with view v that reads message (x, w) at position i *)
Definition s_load (v : view) (i : nat) (w : view) : view := vsee (if ld_acq then vjoin v w else v) i.
(** The value of the newest message *)
Definition s_newest (s : sst) : nat := match nth_error (s_h s) (newest (s_h s)) with Some (x, _) => x | None => 0 end.

Definition s_step (s : sst) (l : slabel) : outcome sst sevent :=
  let h := s_h s in
  match l with
  | SLRaise v =>
      if v_ts v <? length h then
        let v1 := vadd v (TData (s_acc s)) in
        let x := S (s_newest s) in
        Next (SS (rmw r_acq r_rel h v1 x) (s_ev s) (s_q s) (s_op s) (s_rs s ++ [SRaise x (rmw_view r_acq h v1)]) (s_cp s) (S (s_acc s))) [SERaise x (s_acc s)]
      else Disabled
  | SLLock k =>                                                        (* recurring-event.hpp 54-62 *)
      match nth_error (s_rs s) k with
      | Some (SRaise j v) =>
          let v1 := vjoin v (s_ev s) in
          Next (SS h v1 [] (s_op s) (set_nth (s_rs s) k (SLoop j (s_q s) v1)) (s_cp s) (s_acc s)) []
      | _ => Disabled
      end
  | SLWake k i =>                                                      (* recurring-event.hpp 65-69, line 28 *)
      match nth_error (s_rs s) k with
      | Some (SLoop j (o :: os) v) =>
          match s_op s o with
          | SWait _ =>
              match rd h v i with
              | Some (x, w) =>
                  let v1 := s_load v i w in
                  Next (SS h (s_ev s) (s_q s) (upd (s_op s) o SDone) (set_nth (s_rs s) k (SLoop j os v1)) (s_cp s) (s_acc s)) [SEDone o (Some j) x (accs v1)]
              | None => Disabled
              end
          | _ => Fail UseAfterFree []
          end
      | _ => Disabled
      end
  | SLWait o t v i =>                                                  (* recurring-event.hpp 89-107, lines 23-25 *)
      let v1 := vjoin v (s_ev s) in
      match s_op s o, rd h v1 i with
      | SIdle, Some (x, w) =>
          if (t <=? v_ts v) && (v_ts v <? length h) then
            let v2 := s_load v1 i w in
            if x <? t then Fail AssertFailed [SEWait o t]              (* line 24 *)
            else if x <=? t
            then Next (SS h v2 (s_q s ++ [o]) (upd (s_op s) o (SWait t)) (s_rs s) (s_cp s) (s_acc s)) [SEWait o t]
            else Next (SS h v2 (s_q s) (upd (s_op s) o (SRun t)) (s_rs s) (s_cp s ++ [(o, v2)]) (s_acc s)) [SEWait o t]
          else Disabled
      | _, _ => Disabled
      end
  | SLFast k i =>                                                      (* recurring-event.hpp 109, line 28 *)
      match nth_error (s_cp s) k with
      | Some (o, v) =>
          match s_op s o, rd h v i with
          | SRun _, Some (x, w) =>
              let v1 := s_load v i w in
              Next (SS h (s_ev s) (s_q s) (upd (s_op s) o SDone) (s_rs s) (s_cp s) (s_acc s)) [SEDone o None x (accs v1)]
          | _, _ => Disabled
          end
      | None => Disabled
      end
  | SLNext v i =>
      if v_ts v <? length h then
        match rd h v i with
        | Some (x, w) => Next s [SENext (S x) (accs (s_load v i w))]
        | None => Disabled
        end
      else Disabled
  end.
End Orders.
