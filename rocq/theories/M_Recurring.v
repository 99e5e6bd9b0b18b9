(** Model of async::recurring_event (include/async/recurring-event.hpp) as a wait primitive of M_Wait, and of its users
    async::sequenced_event (sequenced-event.hpp) and async::barrier (barrier.hpp). *)
From Coq Require Import List Arith Bool ZArith.
From Verif Require Import Lts M_Wait.
Import ListNotations.

(** recurring-event.hpp 14-19 *)
Inductive rst := RNone | RSubmitted | RPending | RCancelled.

(** recurring-event.hpp 112, 128, 130: frg::expected<maybe_cancelled, maybe_awaited> *)
Inductive rres := Awaited | CondFailed | Cancelled.

(** Result of a step of the code around a recurring_event. *)
Inductive gout (G GE : Type) :=
| GOk (g : G) (es : list GE)
| GNo
| GFail (f : failure) (es : list GE).
Arguments GOk {G GE} g es. Arguments GNo {G GE}. Arguments GFail {G GE} f es.

(** The code around a recurring_event: shared state [G] read by the wait condition, and the caller of raise().
    For a bare recurring_event the condition is an arbitrary user function, see [plain_user]. *)
Record ruser := RUser {
  UG : Type; UA : Type; UV : Type; UL : Type; UE : Type;
  u_init : UG;
  u_cond : UG -> UA -> option bool;    (* the condition passed to async_wait_if; None = an assertion in it fails *)
  u_out : UG -> rres -> UV;            (* the function passed to transform() around async_wait_if *)
  u_raise : UG -> option UG;           (* somebody is about to call raise(); None = nobody is *)
  u_step : UG -> UL -> gout UG UE      (* other steps of the code around *)
}.

Section Recurring.
Variable U : ruser.

(** recurring-event.hpp 191-200 (queue_), 42 (st_ of each node, by operation) *)
Record rstate := R { r_q : list nat; r_st : nat -> rst; r_g : UG U }.

(** raise(); a step of the code around the event; the events of the same names *)
Inductive rlabel := RRaise | RUserStep (l : UL U).
Inductive revent := ERaise | EUser (e : UE U).

(** No waits (lines 191-200) *)
Definition r_init : rstate := R [] (fun _ => RNone) (u_init U).

(** wait_if_operation::start(), recurring-event.hpp 95-109 *)
Definition r_start (s : rstate) (o : nat) (a : UA U) : start_out rstate (UV U) revent :=
  match r_st s o with
  | RNone =>
      match u_cond U (r_g s) a with
      | None => SFail AssertFailed
      | Some false => SFast (R (r_q s) (upd (r_st s) o RPending) (r_g s)) (u_out U (r_g s) CondFailed) []
      | Some true => SQueued (R (r_q s ++ [o]) (upd (r_st s) o RSubmitted) (r_g s)) []
      end
  | _ => SFail AssertFailed (* assert(st_ == state::none), line 96 *)
  end.

(** the set_value of the fast path, line 112, through transform() *)
Definition r_fast (s : rstate) (_ : UV U) : UV U := u_out U (r_g s) CondFailed.

(** try_cancel(), lines 74-84 *)
Definition r_try (s : rstate) (o : nat) : try_out rstate :=
  match r_st s o with
  | RSubmitted =>
      if memb o (r_q s) then TOk (R (remove1 o (r_q s)) (upd (r_st s) o RCancelled) (r_g s)) true else TFail BadUnlink
  | _ => TOk s false
  end.

(** resume_fn, lines 124-132 *)
Definition r_resume (s : rstate) (o : nat) : resume_out rstate (UV U) :=
  ROk s (u_out U (r_g s) (match r_st s o with RCancelled => Cancelled | _ => Awaited end)).

(** raise(), critical section, lines 57-63 (the loop of lines 67-71 is part of M_Wait) *)
Definition r_step (s : rstate) (l : rlabel) : prim_out rstate revent :=
  match l with
  | RRaise =>
      match u_raise U (r_g s) with
      | None => PNo
      | Some g =>
          if forallb (fun o => match r_st s o with RSubmitted => true | _ => false end) (r_q s)
          then POk (R [] (fun o => if memb o (r_q s) then RPending else r_st s o) g) (r_q s) [ERaise]
          else PFail AssertFailed [ERaise] (* line 61 *)
      end
  | RUserStep l =>
      match u_step U (r_g s) l with
      | GOk g es => POk (R (r_q s) (r_st s) g) [] (map EUser es)
      | GNo => PNo
      | GFail f es => PFail f (map EUser es)
      end
  end.

(** wait_if_operation as a user of cancellation_resolver, see M_Wait.v *)
Definition recurring_prim : prim :=
  Prim rstate (UA U) (UV U) rlabel revent r_init r_start r_try r_resume r_fast r_step.

End Recurring.
Arguments R {U}. Arguments r_q {U}. Arguments r_st {U}. Arguments r_g {U}.
Arguments RRaise {U}. Arguments RUserStep {U}. Arguments ERaise {U}. Arguments EUser {U}.

(** A bare recurring_event.  async_wait_if(cond): the argument of the operation is the value that cond() returns when it
    is evaluated in start() (lines 102; any value is possible at any time). async_wait() (lines 180-188) is the case
    [true], mapped through a transform that asserts that the result is not condition_failed. *)
Definition plain_user : ruser :=
  RUser unit bool rres Empty_set Empty_set tt (fun _ a => Some a) (fun _ r => r) (fun _ => Some tt) (fun _ l => match l with end).
Notation recurring := (recurring_prim plain_user).

(** sequenced-event.hpp 33: seq_; [sq_pend] counts the raise() calls that have incremented seq_ (line 13) but not yet
    called ev_.raise() (line 14).  Simplification: seq_ is unbounded (no 64-bit wrap-around). *)
Record seqst := Sq { sq_seq : nat; sq_pend : nat }.

Inductive slabel := SRaise | SNext.             (* raise(): fetch_add, line 13; next_sequence(), lines 17-19 *)
Inductive sevent := ESeqRaise | ESeqNext (n : nat).

(** The calls on a sequenced_event apart from waits, sequenced-event.hpp 12-19 (the call ev_.raise() of line 14 is RRaise) *)
Definition seq_step (g : seqst) (l : slabel) : gout seqst sevent :=
  match l with
  | SRaise => GOk (Sq (S (sq_seq g)) (S (sq_pend g))) [ESeqRaise]
  | SNext => GOk g [ESeqNext (S (sq_seq g))]
  end.

(** async_wait(in_seq), lines 21-29: the condition (with its assertion) and the result *)
Definition sequenced_user : ruser :=
  RUser seqst nat nat slabel sevent (Sq 0 0)
    (fun g in_seq => if Nat.leb in_seq (sq_seq g) then Some (Nat.leb (sq_seq g) in_seq) else None)
    (fun g _ => sq_seq g)
    (fun g => match sq_pend g with 0 => None | S n => Some (Sq (sq_seq g) n) end)
    seq_step.
Notation sequenced := (recurring_prim sequenced_user).

(** barrier.hpp 58-69: seq_, expected_, counter_; [b_pend] counts the do_arrive() calls between the critical section and
    evt_.raise() (line 53).  Simplification: no wrap-around of uint64_t / ptrdiff_t. *)
Record bst := Bar { b_seq : nat; b_exp : Z; b_cnt : Z; b_pend : nat }.

Inductive blabel := BArrive (n : Z) | BJoin (n : Z) | BDrop (n : Z).
Inductive bevent := EArrive (n d : Z) (tok : nat).  (* arrived n, expectation changed by d, returned token *)

(** do_arrive(), critical section, lines 35-51 *)
Definition bar_arrive (g : bst) (n d : Z) : gout bst bevent :=
  let ev := [EArrive n d (b_seq g)] in
  if Z.leb 0 (b_exp g + d) then
    let c := (b_cnt g + n)%Z in
    let e := (b_exp g + d)%Z in
    if Z.eqb c e then GOk (Bar (S (b_seq g)) e 0 (S (b_pend g))) ev
    else if Z.ltb c e then GOk (Bar (b_seq g) e c (b_pend g)) ev
    else GFail AssertFailed ev (* line 50 *)
  else GFail AssertFailed ev. (* line 40 *)

(** arrive, arrive_and_join, arrive_and_drop, lines 13-23 *)
Definition bar_step (g : bst) (l : blabel) : gout bst bevent :=
  match l with
  | BArrive n => bar_arrive g n 0
  | BJoin n => bar_arrive g n n
  | BDrop n => bar_arrive g 0 (- n)
  end.

(** async_wait(s), lines 25-29: async_wait_if() without a cancellation token, mapped to bool
    (recurring-event.hpp 163-170; true = awaited, false = condition_failed). *)
Definition barrier_user (expected : Z) : ruser :=
  RUser bst nat rres blabel bevent (Bar 0 expected 0 0)
    (fun g s => Some (Nat.eqb (b_seq g) s))
    (fun _ r => r)
    (fun g => match b_pend g with 0 => None | S n => Some (Bar (b_seq g) (b_exp g) (b_cnt g) n) end)
    bar_step.
Notation barrier expected := (recurring_prim (barrier_user expected)).
