(** Model of async::barrier (include/async/barrier.hpp 7-72) on top of recurring_event (include/async/recurring-event.hpp 45-70, 89-111) under the C++ memory
    model, see M_Weak.v.

    seq_ is a history of messages; it is written inside of critical sections of mutex_ and read by the condition of async_wait() inside of critical
    sections of the other mutex, evt_._mutex.  A critical section is one step.

    Client rules (built into the labels): the caller of async_wait(s) knows that s was returned, i.e. do_arrive read s before the call.

    Simplifications: no cancellation (M_Recurring.v has it); unbounded integers; a thread that calls the library has an arbitrary view;
    identifiers of operations are not re-used. *)
From Coq Require Import List Arith Bool ZArith.
From Verif Require Import Lts M_Weak.
Import ListNotations.

(** A wait: not started; queued, with its token; notified *)
Inductive bop := BIdle | BWait (s : nat) | BDone.
(** A call of evt_.raise() (line 52) after the completion of the phase p: before its critical section; its loop over the waiters it took *)
Inductive braise := BRaise (p : nat) (v : view) | BLoop (p : nat) (os : list nat) (v : view).

(** seq_ (line 60); what the last unlock of mutex_ (57) releases; counter_ (66), expected_ (63); what the last unlock of evt_._mutex releases; evt_.queue_;
    operations; calls of raise(); number of accesses of the clients *)
Record bst := BS { b_h : hist nat; b_lv : view; b_ctr : Z; b_exp : Z; b_ev : view; b_q : list nat; b_op : nat -> bop; b_rs : list braise; b_acc : nat }.

Inductive blabel :=
| BLArrive (n delta : Z) (v : view) (i : nat)  (* do_arrive(n, delta) by a thread with view v; its load reads the i-th message *)
| BLRaise (k : nat)                            (* the critical section of the k-th call of raise() *)
| BLWake (k : nat)                             (* one iteration of its loop *)
| BLWait (o s : nat) (v : view) (i : nat).     (* start() of a wait on the token s; the condition reads the i-th message *)
Inductive bevent :=
| BEArrive (s n : nat)                         (* do_arrive() returns the token s; n: the access of the caller just before the call *)
| BEPhase (s : nat)                            (* the phase s is complete *)
| BEWait (o s : nat)
| BENotify (o : nat) (by_ : option nat) (before : list nat).
                                               (* the receiver is notified: by start() or by raise() of a phase; the accesses that happen before that *)

Section Params.
Variable expected : Z.                         (* line 10 *)
(** Whether the store of line 46 releases and the load of line 28 acquires; in the code both are relaxed *)
Variables st_rel ld_acq : bool.
Definition b_init : bst := BS [(0, vbot)] vbot 0%Z expected vbot [] (fun _ => BIdle) [] 0.

Definition b_step (s : bst) (l : blabel) : outcome bst bevent :=
  let h := b_h s in
  match l with
  | BLArrive n delta v i =>                                            (* lines 33-55 *)
      if v_ts v <? length h then
        let v1 := vjoin (vadd v (TData (b_acc s))) (b_lv s) in         (* line 37 *)
        match rd h v1 i with                                           (* line 39: relaxed *)
        | Some (x, _) =>
            let v2 := vsee v1 i in
            let c := (b_ctr s + n)%Z in
            let e := (b_exp s + delta)%Z in
            if (e <? 0)%Z then Fail AssertFailed []                    (* line 40 *)
            else if (c =? e)%Z then                                    (* lines 45-48 *)
              if v_ts v2 =? newest h then
                let v3 := vsee v2 (length h) in
                Next (BS (h ++ [(S x, if st_rel then v3 else vbot)]) v3 0%Z e (b_ev s) (b_q s) (b_op s) (b_rs s ++ [BRaise x v3]) (S (b_acc s)))
                     [BEArrive x (b_acc s); BEPhase x]
              else Fail DataRace []
            else if (c <? e)%Z                                         (* line 50 *)
            then Next (BS h v2 c e (b_ev s) (b_q s) (b_op s) (b_rs s) (S (b_acc s))) [BEArrive x (b_acc s)]
            else Fail AssertFailed []
        | None => Disabled
        end
      else Disabled
  | BLRaise k =>                                                       (* recurring-event.hpp 54-62 *)
      match nth_error (b_rs s) k with
      | Some (BRaise p v) =>
          let v1 := vjoin v (b_ev s) in
          Next (BS h (b_lv s) (b_ctr s) (b_exp s) v1 [] (b_op s) (set_nth (b_rs s) k (BLoop p (b_q s) v1)) (b_acc s)) []
      | _ => Disabled
      end
  | BLWake k =>                                                        (* recurring-event.hpp 65-69 *)
      match nth_error (b_rs s) k with
      | Some (BLoop p (o :: os) v) =>
          match b_op s o with
          | BWait _ => Next (BS h (b_lv s) (b_ctr s) (b_exp s) (b_ev s) (b_q s) (upd (b_op s) o BDone) (set_nth (b_rs s) k (BLoop p os v)) (b_acc s))
                            [BENotify o (Some p) (accs v)]
          | _ => Fail UseAfterFree []
          end
      | _ => Disabled
      end
  | BLWait o t v i =>                                                  (* recurring-event.hpp 89-109, line 28 *)
      let v1 := vjoin v (b_ev s) in
      match b_op s o, rd h v1 i with
      | BIdle, Some (x, w) =>
          if (t <=? v_ts v) && (v_ts v <? length h) then
            let v2 := vsee (if ld_acq then vjoin v1 w else v1) i in
            if x =? t
            then Next (BS h (b_lv s) (b_ctr s) (b_exp s) v2 (b_q s ++ [o]) (upd (b_op s) o (BWait t)) (b_rs s) (b_acc s)) [BEWait o t]
            else Next (BS h (b_lv s) (b_ctr s) (b_exp s) v2 (b_q s) (upd (b_op s) o BDone) (b_rs s) (b_acc s)) [BEWait o t; BENotify o None (accs v2)]
          else Disabled
      | _, _ => Disabled
      end
  end.
End Params.
