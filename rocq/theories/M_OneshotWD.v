(** Accesses to async::oneshot_primitive itself (include/async/oneshot-event.hpp 27-128) under the C++ memory model, and its destruction: M_OneshotW.v with a
    record of these accesses.  oneshot_primitive has an implicit destructor, so the model of the destruction is an access to the whole object.

    The exchange of raise() (line 54), the load of start() (line 75) and every compare-exchange (lines 80-85) are accesses to state_; the m-th one is the memory
    token TCall m, which the thread of the call knows from then on.  The loop of raise() (lines 57-61) uses the nodes only.

    A client destroys the primitive if (built into the label JDel) for every wait that was started it knows that start() has returned or that the wait was
    notified, and if for every raise() it knows of that call or of the notification of some wait.  It does not wait for raise() to return.  It does not call
    the primitive afterwards.

    Simplifications: as in M_OneshotW.v. *)
From Coq Require Import List Arith Bool.
From Verif Require Import Lts M_Mutex M_Weak M_OneshotPrim M_OneshotW M_WaitGroupWD.
Import ListNotations.

(** Who makes an access: raise(), start() of a wait *)
Inductive qwho := RRaise | RWait (o : nat).

(** The primitive; the accesses to it; the waits that were started; the waits that were notified, with the accesses to the primitive that happen before the
    notification; is the primitive destroyed? *)
Record jst := JS { j_q : qst; j_who : list qwho; j_ops : list nat; j_not : list (nat * list nat); j_dead : bool }.
Inductive jlabel :=
| JStep (l : qlabel)
| JDel (kn : list nat).       (* the client destroys the primitive; the accesses to it that happen before that *)
Inductive jevent := JE (e : qevent) | JEDel.

(** the k-th call makes the m-th access *)
Definition q_mark (s : qst) (k m : nat) : qst :=
  match nth_error (q_act s) k with
  | Some (a, v) => QS (q_h s) (q_next s) (q_op s) (set_nth (q_act s) k (a, vadd v (TCall m))) (q_acc s)
  | None => s
  end.
(** the start() of o is in flight *)
Definition in_start (s : qst) (o : nat) : bool := existsb (fun p => match fst p with QLoad o' | QLoop o' _ => o' =? o | _ => false end) (q_act s).

(** Does the destroying thread know of all of these accesses? *)
Definition sub (c kn : list nat) : bool := forallb (fun m => memb m kn) c.
Definition j_told (z : jst) (kn : list nat) (m : nat) (w : qwho) : bool :=
  match w with
  | RRaise => memb m kn || existsb (fun n => sub (snd n) kn) (j_not z)
  | RWait o => memb m kn || existsb (fun n => (fst n =? o) && sub (snd n) kn) (j_not z)
  end.
Definition j_may (z : jst) (kn : list nat) : bool :=
  forallb (fun o => negb (in_start (j_q z) o)) (j_ops z) &&
  forallb (fun m => match nth_error (j_who z) m with Some w => j_told z kn m w | None => true end) (seq 0 (length (j_who z))).

(** No accesses yet *)
Definition j_init : jst := JS q_init [] [] [] false.

Section J.
Variables x_acq x_rel c_acq c_rel l_acq f_acq : bool.   (* as in M_OneshotW *)
Notation qstep := (q_step x_acq x_rel c_acq c_rel l_acq f_acq).

(** A step of M_OneshotW.v with its events *)
Definition j_lift (r : outcome qst qevent) (f : qst -> jst) : outcome jst jevent :=
  match r with Next s es => Next (f s) (map JE es) | Disabled => Disabled | Fail x es => Fail x (map JE es) end.

(** One step of M_OneshotW.v, with the accesses to st_ recorded, or the destruction *)
Definition j_step (z : jst) (l : jlabel) : outcome jst jevent :=
  let s := j_q z in
  let m := length (j_who z) in
  match l with
  | JStep (QStart o v) =>
      if j_dead z then Disabled
      else j_lift (qstep s (QStart o v)) (fun s' => JS s' (j_who z) (j_ops z ++ [o]) (j_not z) false)
  | JStep (QRaise v) =>
      if j_dead z then Disabled
      else j_lift (qstep s (QRaise (vadd v (TCall m)))) (fun s' => JS s' (j_who z ++ [RRaise]) (j_ops z) (j_not z) false)
  | JStep (QStep k i spur) =>
      match nth_error (q_act s) k with
      | Some (QLoad o, _) | Some (QLoop o (DPtr _), _) =>
          match qstep (q_mark s k m) (QStep k i spur) with
          | Disabled => Disabled
          | r => if j_dead z then Fail UseAfterFree [] else j_lift r (fun s' => JS s' (j_who z ++ [RWait o]) (j_ops z) (j_not z) false)
          end
      | Some (QLoop o DFired, v) | Some (QCompl o _, v) =>
          j_lift (qstep s (QStep k i spur)) (fun s' => JS s' (j_who z) (j_ops z) ((o, calls v) :: j_not z) (j_dead z))
      | _ => j_lift (qstep s (QStep k i spur)) (fun s' => JS s' (j_who z) (j_ops z) (j_not z) (j_dead z))
      end
  | JDel kn =>
      if j_dead z then Disabled
      else if j_may z kn then
        if sub (seq 0 (length (j_who z))) kn then Next (JS s (j_who z) (j_ops z) (j_not z) true) [JEDel] else Fail DataRace []
      else Disabled
  end.
End J.
