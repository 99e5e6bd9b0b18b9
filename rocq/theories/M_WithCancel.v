(** Model of with_cancel_cb (include/async/cancellation.hpp 482-563).

    One operation that wraps an arbitrary operation op_, which completes at any time after it was started (also inside of start(), and on
    any thread) with an arbitrary value.  Any number of cancel() calls run concurrently.  One step is one critical section of the event's
    mutex, one access to the atomic cancel_state_, or the begin or end of one call of the cancel callback or of the receiver.  The
    operation is destroyed as soon as its receiver was notified.

    Simplifications: the event outlives the operation and is not reset; start() is called at most once; values are natural numbers (void
    is one of them); the write to value_ (line 506) is one step with the call of set_value(). *)
From Coq Require Import List Arith Bool.
From Verif Require Import Lts M_Suspend.
Import ListNotations.

(** Where the handler returns to: to start(), to the loop of cancel() *)
Inductive wcont := WStart | WRet.
(** A call in flight *)
Inductive wact :=
| WSet                     (* start(): at line 498 *)
| WGo                      (* start(): at line 499 *)
| WCall (k : wcont)        (* cancel_handler: at line 524 *)
| WCb (k : wcont)          (* cancel_handler: cb_() is running *)
| WSub (k : wcont)         (* cancel_handler: at line 526 *)
| WReset                   (* set_value(): at line 509 *)
| WVSub                    (* set_value(): at line 510 *)
| WCompl (k : wcont)       (* complete_(): at line 534 *)
| WEnd.
Definition wret (k : wcont) : wact := match k with WStart => WGo | WRet => WEnd end.

(** The wrapped operation: not started, started, completed *)
Inductive inner := INone | IRun | IDone.

(** Whether the operation was destroyed; start() was called; cobs_; _was_requested of the event; cancel_state_; value_; op_; calls in flight *)
Record wst := WS { w_dead : bool; w_started : bool; w_ph : ophase; w_req : bool; w_cs : nat; w_val : option nat; w_in : inner; w_acts : list wact }.
(** cancel_state_{2}, line 552 *)
Definition w_init : wst := WS false false OUnset false 2 None INone [].

Inductive wlabel :=
| WLStart                  (* start() *)
| WLCancel                 (* cancel() of the event of the token *)
| WLInner (v : nat)        (* op_ completes with v *)
| WLCbRet (k : nat)        (* the callback called by the k-th call returns *)
| WLStep (k : nat).        (* one step of the k-th call *)
Inductive wevent :=
| WEStart | WECancel | WEInnerStart | WEInner (v : nat) | WECb | WECbRet | WEDone (v : nat).

(** Updates of one field of the state (of the model; no code corresponds to them) *)
Definition w_with_act (s : wst) (k : nat) (a : wact) : wst :=
  WS (w_dead s) (w_started s) (w_ph s) (w_req s) (w_cs s) (w_val s) (w_in s) (set_nth (w_acts s) k a).
Definition w_with_ph (s : wst) (p : ophase) : wst :=
  WS (w_dead s) (w_started s) p (w_req s) (w_cs s) (w_val s) (w_in s) (w_acts s).
Definition w_with_in (s : wst) (i : inner) : wst :=
  WS (w_dead s) (w_started s) (w_ph s) (w_req s) (w_cs s) (w_val s) i (w_acts s).

(** cancel_state_.fetch_sub(1) == 1, then complete_(): lines 510-511, 526-527 *)
Definition w_sub (s : wst) (k : nat) (c : wcont) : outcome wst wevent :=
  match w_cs s with
  | 0 => Fail CounterUnderflow []
  | S n => Next (WS (w_dead s) (w_started s) (w_ph s) (w_req s) n (w_val s) (w_in s) (set_nth (w_acts s) k (if n =? 0 then WCompl c else wret c))) []
  end.

Section Tok.
Variable tok : bool.       (* whether the token is not empty *)

Definition wact_step (s : wst) (k : nat) (a : wact) : outcome wst wevent :=
  match a with
  | WEnd | WCb _ => Disabled
  | _ =>
    if w_dead s then Fail UseAfterFree []
    else match a with
    | WSet =>                                              (* lines 498, 158-176 *)
        if tok then
          match w_ph s with
          | OUnset => if w_req s then Next (w_with_act (w_with_ph s OTaken) k (WCall WStart)) []
                      else Next (w_with_act (w_with_ph s OSet) k WGo) []
          | _ => Fail AssertFailed []                      (* line 159 *)
          end
        else Next (w_with_act (w_with_ph s OSet) k WGo) []
    | WGo => Next (w_with_act (w_with_in s IRun) k WEnd) [WEInnerStart]      (* line 499 *)
    | WCall c => Next (w_with_act s k (WCb c)) [WECb]      (* line 524 *)
    | WSub c => w_sub s k c
    | WReset =>                                            (* lines 509, 182-193 *)
        match w_ph s with
        | OUnset => Next (w_with_act s k (WCompl WRet)) []
        | p => if negb tok then Next (w_with_act (w_with_ph s OGone) k (WCompl WRet)) []
               else if w_req s then Next (w_with_act s k WVSub) []
               else match p with
                    | OSet => Next (w_with_act (w_with_ph s OGone) k (WCompl WRet)) []
                    | _ => Fail BadUnlink []
                    end
        end
    | WVSub => w_sub s k WRet
    | WCompl c =>                                          (* lines 533-540 *)
        match w_val s with
        | None => Fail AssertFailed []
        | Some v => Next (w_with_act (WS true (w_started s) (w_ph s) (w_req s) (w_cs s) (w_val s) (w_in s) (w_acts s)) k (wret c)) [WEDone v]
        end
    | _ => Disabled
    end
  end.

Definition w_step (s : wst) (l : wlabel) : outcome wst wevent :=
  match l with
  | WLStart => if w_started s then Disabled
               else Next (WS (w_dead s) true (w_ph s) (w_req s) (w_cs s) (w_val s) (w_in s) (w_acts s ++ [WSet])) [WEStart]
  | WLCancel =>                                            (* lines 327-346 *)
      let linked := tok && match w_ph s with OSet => true | _ => false end in
      if w_dead s && linked then Fail UseAfterFree [WECancel]
      else Next (WS (w_dead s) (w_started s) (if linked then OTaken else w_ph s) true (w_cs s) (w_val s) (w_in s)
                   (if linked then w_acts s ++ [WCall WRet] else w_acts s)) [WECancel]
  | WLInner v =>                                           (* line 506 *)
      match w_in s with
      | IRun => if w_dead s then Fail UseAfterFree [WEInner v]
                else Next (WS (w_dead s) (w_started s) (w_ph s) (w_req s) (w_cs s) (Some v) IDone (w_acts s ++ [WReset])) [WEInner v]
      | _ => Disabled
      end
  | WLCbRet k => match nth_error (w_acts s) k with
                 | Some (WCb c) => Next (w_with_act s k (WSub c)) [WECbRet]
                 | _ => Disabled
                 end
  | WLStep k => match nth_error (w_acts s) k with Some a => wact_step s k a | None => Disabled end
  end.
End Tok.
