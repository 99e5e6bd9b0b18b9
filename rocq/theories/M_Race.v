(** Model of race_and_cancel (include/async/algorithm.hpp 336-443).

    One operation with [n] functors.  The operation made by functor i completes at any time after it was started, also inside of start(),
    inside of the cancel() call that cancels its token, and on any thread.  One step is the start of one operation, one access to the atomic
    n_done_, one cancel() call, one notification of the receiver or the destruction of the operation.

    Simplifications: start() is called at most once; start_inline() always returns false (include/async/execution.hpp 63-77), so that
    n_sync is 0 and lines 412-422 are not executed; what cancel() does is modelled in M_Cancel.v, here it is one access to cs_[j] (cancel()
    accesses the event in one critical section only, include/async/cancellation.hpp 326-347); n_done_ does not wrap around. *)
From Coq Require Import List Arith Bool.
From Verif Require Import Lts.
Import ListNotations.

(** start(): not called, in the fold of lines 409-410, returned *)
Inductive rmain := RIdle | RStarting | REnd.
(** A call of internal_receiver<i>::set_value(): at the head of the loop of line 366 with [j], where [m] is the value of n (at line 370
    if j = n); returned *)
Inductive ract := RA (i j m : nat) | RR (i : nat).

(** Whether the operation was destroyed; number of operations that were started; start(); n_done_; the operations that completed; calls of
    set_value() *)
Record rst := RS { r_dead : bool; r_idx : nat; r_main : rmain; r_n : nat; r_comp : list nat; r_acts : list ract }.
(** n_done_{0}, line 404 *)
Definition r_init : rst := RS false 0 RIdle 0 [] [].

Inductive rlabel :=
| RLStart                  (* start() *)
| RLStep                   (* one step of start() *)
| RLComp (i : nat)         (* operation i calls internal_receiver<i>::set_value() *)
| RLAct (k : nat)          (* one step of the k-th such call *)
| RLDestroy.               (* the operation is destroyed *)
(** start() called, operation i started, start() returned, operation i completed, cs_[j].cancel(), set_value() of operation i returned,
    receiver notified, destroyed *)
Inductive revent :=
| REStart | REChild (i : nat) | RERet | REComp (i : nat) | RECancel (j : nat) | RECRet (i : nat) | REDone | REDestroy.

Section N.
Variable n : nat.

(** Update of the k-th call (helper) *)
Definition r_with_act (s : rst) (k : nat) (a : ract) : rst := RS (r_dead s) (r_idx s) (r_main s) (r_n s) (r_comp s) (set_nth (r_acts s) k a).

Definition r_step (s : rst) (l : rlabel) : outcome rst revent :=
  match l with
  | RLStart =>
      match r_main s with
      | RIdle => if r_dead s then Fail UseAfterFree [REStart]
                 else Next (RS (r_dead s) (r_idx s) RStarting (r_n s) (r_comp s) (r_acts s)) [REStart]
      | _ => Disabled
      end
  | RLStep =>
      match r_main s with
      | RStarting =>
          if r_idx s <? n then                                         (* lines 409-410 *)
            if r_dead s then Fail UseAfterFree []
            else Next (RS (r_dead s) (S (r_idx s)) RStarting (r_n s) (r_comp s) (r_acts s)) [REChild (r_idx s)]
          else Next (RS (r_dead s) (r_idx s) REnd (r_n s) (r_comp s) (r_acts s)) [RERet]
      | _ => Disabled
      end
  | RLComp i =>                                                        (* lines 364-365 *)
      if (i <? r_idx s) && negb (memb i (r_comp s)) then
        if r_dead s then Fail UseAfterFree [REComp i]
        else Next (RS (r_dead s) (r_idx s) (r_main s) (S (r_n s)) (r_comp s ++ [i])
                     (r_acts s ++ [RA i (if r_n s =? 0 then 0 else n) (r_n s)])) [REComp i]
      else Disabled
  | RLAct k =>
      match nth_error (r_acts s) k with
      | Some (RA i j m) =>
          if j <? n then                                               (* lines 366-368 *)
            if j =? i then Next (r_with_act s k (RA i (S j) m)) []
            else if r_dead s then Fail UseAfterFree []
            else Next (r_with_act s k (RA i (S j) m)) [RECancel j]
          else if m + 1 =? n then                                      (* lines 370-371 *)
            if r_dead s then Fail UseAfterFree []
            else Next (r_with_act s k (RR i)) [REDone; RECRet i]
          else Next (r_with_act s k (RR i)) [RECRet i]
      | _ => Disabled
      end
  | RLDestroy => if r_dead s then Disabled
                 else Next (RS true (r_idx s) (r_main s) (r_n s) (r_comp s) (r_acts s)) [REDestroy]
  end.
End N.
