(** Model of when_all (include/async/algorithm.hpp 666-747).

    One operation with [n] senders.  The operation of a sender completes at any time after it was started, also inside of start() and on
    any thread.  One step is the start of the operation of one sender, one access to the atomic ctr_, one notification of the receiver or
    the destruction of the operation.  [dbg]: assertions are checked (otherwise the code is compiled with NDEBUG).

    Simplifications: start() is called at most once; start_inline() always returns false (include/async/execution.hpp 63-77), so
    n_fast is 0; ctr_ is a natural number (n fits into an int). *)
From Coq Require Import List Arith Bool.
From Verif Require Import Lts.
Import ListNotations.

(** start(): not called, in the loop of lines 706-711 or at line 713, at line 716, returned *)
Inductive amain := AIdle | AStarting | AMNotify | AEnd.

(** Whether the operation was destroyed; the number of senders whose operation was started; start(); ctr_; the senders that completed; the
    number of calls of receiver::set_value() that are at line 677 *)
Record ast := AS { a_dead : bool; a_idx : nat; a_main : amain; a_ctr : nat; a_comp : list nat; a_pend : nat }.

Inductive alabel :=
| ALStart                  (* start() *)
| ALStep                   (* one step of start() *)
| ALComp (i : nat)         (* the operation of sender i calls receiver::set_value() *)
| ALNotify                 (* receiver::set_value() notifies the receiver *)
| ALDestroy.               (* the operation is destroyed *)
Inductive aevent :=
| AEStart | AEChild (i : nat) | AERet | AEComp (i : nat) | AEDone | AEDestroy.

Section N.
Variable n : nat.
Variable dbg : bool.

(** ctr_{sizeof...(Senders)}, line 702 *)
Definition a_init : ast := AS false 0 AIdle n [] 0.

Definition a_step (s : ast) (l : alabel) : outcome ast aevent :=
  match l with
  | ALStart =>
      match a_main s with
      | AIdle => if a_dead s then Fail UseAfterFree [AEStart]
                 else Next (AS (a_dead s) (a_idx s) AStarting (a_ctr s) (a_comp s) (a_pend s)) [AEStart]
      | _ => Disabled
      end
  | ALStep =>
      match a_main s with
      | AStarting =>
          if a_dead s then Fail UseAfterFree []
          else if a_idx s <? n then                                    (* lines 708-709 *)
            Next (AS (a_dead s) (S (a_idx s)) AStarting (a_ctr s) (a_comp s) (a_pend s)) [AEChild (a_idx s)]
          else match a_ctr s with                                      (* lines 713-716, c == 0 or c > 0 *)
               | 0 => if dbg then Fail AssertFailed []
                      else Next (AS (a_dead s) (a_idx s) AMNotify (a_ctr s) (a_comp s) (a_pend s)) []
               | S _ => Next (AS (a_dead s) (a_idx s) AEnd (a_ctr s) (a_comp s) (a_pend s)) [AERet]
               end
      | AMNotify =>                                                    (* line 716 *)
          if a_dead s then Fail UseAfterFree []
          else Next (AS (a_dead s) (a_idx s) AEnd (a_ctr s) (a_comp s) (a_pend s)) [AEDone; AERet]
      | _ => Disabled
      end
  | ALComp i =>                                                        (* lines 674-676 *)
      if (i <? a_idx s) && negb (memb i (a_comp s)) then
        if a_dead s then Fail UseAfterFree [AEComp i]
        else match a_ctr s with
             | 0 => Fail (if dbg then AssertFailed else CounterUnderflow) [AEComp i]
             | S c => Next (AS (a_dead s) (a_idx s) (a_main s) c (a_comp s ++ [i]) (a_pend s + (if c =? 0 then 1 else 0))) [AEComp i]
             end
      else Disabled
  | ALNotify =>                                                        (* line 677 *)
      match a_pend s with
      | 0 => Disabled
      | S p => if a_dead s then Fail UseAfterFree []
               else Next (AS (a_dead s) (a_idx s) (a_main s) (a_ctr s) (a_comp s) p) [AEDone]
      end
  | ALDestroy => if a_dead s then Disabled
                 else Next (AS true (a_idx s) (a_main s) (a_ctr s) (a_comp s) (a_pend s)) [AEDestroy]
  end.
End N.
