(** Model of suspend_indefinitely (include/async/cancellation.hpp 376-452).

    One operation with the tokens [toks], which may be empty ([None]) or belong to the same event.  Any number of cancel() calls of
    any events run concurrently with start().  One step is one critical section of an event's mutex, one access to the atomic st_, or
    the begin of a call of a functor.  The operation is destroyed as soon as its receiver was notified.

    Simplifications: st_ is represented by its three fields (the bits state_init and state_cancel, and the counter; N + 1 is assumed to
    fit into the 30 bits of the counter); the list of callbacks of an event is represented by its restriction to the observers of
    this operation, which are linked in the order of their indices, because start() sets them in that order; events outlive the
    operation and are not reset; start() is called at most once. *)
From Coq Require Import List Arith Bool.
From Verif Require Import Lts.
Import ListNotations.

(** An observer obs_[i] (cancellation_observer, lines 145-207): [OUnset] has no event, [OSet] was given its token and is linked
    (if the token is not empty), [OTaken] is no longer linked because its event is cancelled, [OGone]: try_reset() returned true *)
Inductive ophase := OUnset | OSet | OTaken | OGone.

(** Where transition_() returns to: to the loop of start() at index [i], to the end of start(), to the loop of cancel() *)
Inductive ucont := KStart (i : nat) | KRet | KLoop (rest : list nat).
(** A call in flight *)
Inductive uact :=
| UIdle                                  (* start() was not called *)
| USet (i : nat)                         (* start(): at the head of the loop, line 396 *)
| UOr (c : bool) (k : ucont)             (* transition_(state_cancel if c, else state_init): at line 407 *)
| UTry (i ctr : nat) (k : ucont)         (* transition_(): at the head of the loop, line 420 *)
| USub (ctr : nat) (k : ucont)           (* transition_(): at line 428 *)
| ULoop (rest : list nat)                (* cancel(): at the head of the loop, line 342 *)
| UEnd.
Definition uret (k : ucont) : uact := match k with KStart i => USet i | KRet => UEnd | KLoop r => ULoop r end.

(** Whether the operation was destroyed; st_ & state_init, st_ & state_cancel, st_ & state_ctr; observers; _was_requested of the events;
    the call of start(); the calls of cancel() *)
Record ust := US { u_dead : bool; u_init : bool; u_canc : bool; u_ctr : nat; u_ph : nat -> ophase; u_req : nat -> bool; u_main : uact; u_acts : list uact }.

(** Steps: start(), cancel() of event e, one step of start() or of the k-th call of cancel() *)
Inductive ulabel := LStart | LCancel (e : nat) | LStep (w : option nat).
(** start() called, cancel() called, receiver notified *)
Inductive uevent := EStart | ECancel (e : nat) | EDone.

Section Toks.
Variable toks : list (option nat).
(** Number of tokens; the i-th token *)
Definition u_n : nat := length toks.
Definition tk (i : nat) : option nat := nth i toks None.

(** st_{N + 1}, line 448 *)
Definition u_start : ust := US false false false (u_n + 1) (fun _ => OUnset) (fun _ => false) UIdle [].

(** The call of start() (None) or the k-th call of cancel(); updates of one field of the state (of the model; no code corresponds to them) *)
Definition u_act (s : ust) (w : option nat) : option uact := match w with None => Some (u_main s) | Some k => nth_error (u_acts s) k end.
Definition u_with_act (s : ust) (w : option nat) (a : uact) : ust :=
  match w with
  | None => US (u_dead s) (u_init s) (u_canc s) (u_ctr s) (u_ph s) (u_req s) a (u_acts s)
  | Some k => US (u_dead s) (u_init s) (u_canc s) (u_ctr s) (u_ph s) (u_req s) (u_main s) (set_nth (u_acts s) k a)
  end.
Definition u_with_ph (s : ust) (i : nat) (x : ophase) : ust :=
  US (u_dead s) (u_init s) (u_canc s) (u_ctr s) (upd (u_ph s) i x) (u_req s) (u_main s) (u_acts s).

Definition uact_step (s : ust) (w : option nat) (a : uact) : outcome ust uevent :=
  match a with
  | USet i =>
      if u_dead s then Fail UseAfterFree []
      else if i <? u_n then                                              (* lines 396-397, 158-176 *)
        match tk i with
        | None => Next (u_with_act (u_with_ph s i OSet) w (USet (S i))) []
        | Some e =>
            match u_ph s i with
            | OUnset => if u_req s e
                        then Next (u_with_act (u_with_ph s i OTaken) w (UOr true (KStart (S i)))) []
                        else Next (u_with_act (u_with_ph s i OSet) w (USet (S i))) []
            | _ => Fail AssertFailed []                                  (* line 159 *)
            end
        end
      else Next (u_with_act s w (UOr false KRet)) []                     (* line 399 *)
  | UOr c k =>                                                           (* lines 407-419 *)
      if u_dead s then Fail UseAfterFree []
      else
        let i' := u_init s || negb c in
        let c' := u_canc s || c in
        let s' := US (u_dead s) i' c' (u_ctr s) (u_ph s) (u_req s) (u_main s) (u_acts s) in
        Next (u_with_act s' w (if negb (u_init s && u_canc s) && (i' && c') then UTry 0 1 k else USub 1 k)) []
  | UTry i ctr k =>
      if i <? u_n then                                                   (* lines 420-423, 182-193 *)
        if u_dead s then Fail UseAfterFree []
        else match tk i, u_ph s i with
             | None, _ | _, OUnset => Next (u_with_act (u_with_ph s i OGone) w (UTry (S i) (S ctr) k)) []
             | Some e, p => if u_req s e then Next (u_with_act s w (UTry (S i) ctr k)) []
                            else match p with
                                 | OSet => Next (u_with_act (u_with_ph s i OGone) w (UTry (S i) (S ctr) k)) []
                                 | _ => Fail BadUnlink []
                                 end
             end
      else Next (u_with_act s w (USub ctr k)) []
  | USub ctr k =>                                                        (* lines 428-434 *)
      if u_dead s then Fail UseAfterFree []
      else if u_ctr s <? ctr then Fail AssertFailed []                   (* line 429 *)
      else if u_ctr s =? ctr then
        if negb (u_init s) || (u_ctr s =? 0) then Fail AssertFailed []   (* lines 431-432 *)
        else Next (u_with_act (US true (u_init s) (u_canc s) 0 (u_ph s) (u_req s) (u_main s) (u_acts s)) w (uret k)) [EDone]
      else Next (u_with_act (US false (u_init s) (u_canc s) (u_ctr s - ctr) (u_ph s) (u_req s) (u_main s) (u_acts s)) w (uret k)) []
  | ULoop [] => Next (u_with_act s w UEnd) []                            (* line 342 *)
  | ULoop (_ :: rest) =>                                                 (* lines 343-345, 382-384 *)
      if u_dead s then Fail UseAfterFree [] else Next (u_with_act s w (UOr true (KLoop rest))) []
  | UIdle | UEnd => Disabled
  end.

(** Is observer i linked at event e?  (helpers) *)
Definition is_set (p : ophase) : bool := match p with OSet => true | _ => false end.
Definition linked (s : ust) (e i : nat) : bool := is_set (u_ph s i) && match tk i with Some e' => e' =? e | None => false end.

Definition u_step (s : ust) (l : ulabel) : outcome ust uevent :=
  match l with
  | LStart => match u_main s with
              | UIdle => Next (u_with_act s None (USet 0)) [EStart]
              | _ => Disabled
              end
  | LCancel e =>                                                         (* lines 327-340 *)
      let taken := filter (linked s e) (seq 0 u_n) in
      if u_dead s && negb (length taken =? 0) then Fail UseAfterFree [ECancel e]
      else Next (US (u_dead s) (u_init s) (u_canc s) (u_ctr s) (fun i => if (i <? u_n) && linked s e i then OTaken else u_ph s i) (upd (u_req s) e true)
                   (u_main s) (u_acts s ++ [ULoop taken])) [ECancel e]
  | LStep w => match u_act s w with Some a => uact_step s w a | None => Disabled end
  end.
End Toks.
