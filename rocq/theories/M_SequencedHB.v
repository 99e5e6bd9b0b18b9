(** Model of async::sequenced_event (include/async/sequenced-event.hpp 11-34) with cancellation under the C++ memory model.

    The waits are those of recurring_event (M_Recurring), with the happens-before relation of M_WaitHB.  This model adds seq_: loads may return old
    numbers.  Coherence: a thread does not read a number that is older than one whose fetch_add happens before the load, or than one it read before in
    the same call.  A load that reads a number synchronizes with the fetch_add calls that made it and all the earlier ones (they form a release sequence).

    Client rule (built into the labels): the caller of async_wait(in_seq) knows that the sequence number reached in_seq, i.e. a fetch_add that made this number
    or a later one happens before the call.

    Simplifications: seq_ is unbounded.  The access of the client that M_WaitHB puts before each call also marks the fetch_add: who knows of one knows of
    the other (there is nothing between them).  What the load of the condition (line 23) acquires is forgotten, except for the number itself (fewer edges and more
    executions than in C++, hence the theorems are stronger). *)
From Coq Require Import List Arith Bool.
From Verif Require Import Lts M_Wait M_WaitHB M_WaitLocks M_Recurring.
Import ListNotations.

(** The code around the recurring_event.  The argument of a wait is in_seq and the number that the condition reads (lines 22-26); the result is that of
    async_wait_if(), the load of line 28 is part of [q_step].  The user step is the fetch_add of raise(), line 13. *)
Definition seqc_user : ruser :=
  RUser seqst (nat * nat) rres unit nat (Sq 0 0)
    (fun _ a => let '(t, x) := a in if t <=? x then Some (x <=? t) else None)
    (fun _ r => r)
    (fun g => match sq_pend g with 0 => None | S n => Some (Sq (sq_seq g) n) end)
    (fun g _ => GOk (Sq (S (sq_seq g)) (S (sq_pend g))) [S (sq_seq g)]).
Notation sequenced_c := (recurring_prim seqc_user).

Section Q.
Notation P := sequenced_c.
Variable eager : bool.                     (* as in M_Wait *)
(** Whether the fetch_add acquires and releases and whether the loads acquire; they do in the code *)
Variables r_acq r_rel ld_acq : bool.

(** The state of M_WaitHB; for each number, starting with 1, the position of its fetch_add in the log and what a load that reads it acquires; the calls of raise() that have not yet
    called ev_.raise(): the number and what happens before that point; the number that the condition of each wait read *)
Record qst := QS { q_h : hst P; q_msg : list (nat * hb); q_rs : list (option (nat * hb)); q_lo : nat -> nat }.
Definition q_init : qst := QS (h_init P) [] [] (fun _ => 0).

Inductive qlabel :=
| QRaise (v : hb)                                          (* fetch_add of raise() by a thread that knows of the accesses v, line 13 *)
| QLock (k : nat)                                          (* ev_.raise() of the k-th call of raise(), line 14: its critical section *)
| QWait (o : nat) (tok : option nat) (t : nat) (v : hb) (i : nat) (* start() of async_wait(t); the condition reads the number i *)
| QPath (o : nat) (x : path) (i : nat)                     (* one step of an activity of o; if the wait is over, line 28 reads the number i *)
| QCancel (e : nat) (v : hb)
| QCanNext (k : nat)
| QWakeNext (k : nat)
| QDestroy (o : nat)
| QNext (v : hb) (i : nat).                                (* next_sequence(), line 18, reads the number i *)
Inductive qevent :=
| QE (e : hevent P)                                        (* an event of M_WaitHB *)
| QERaise (j : nat) (v : hb)                               (* raise() makes the number j; the accesses that happen before the end of the fetch_add *)
| QELock (j : nat) (os : list nat)                         (* the raise() that made j takes over the waits os *)
| QEDone (o : nat) (r : rres) (x : nat) (v : hb)           (* the wait o returns x; the accesses that happen before *)
| QENext (x : nat) (v : hb).                               (* next_sequence() returns x *)

(** The log of accesses; the number of values of seq_ so far (helpers) *)
Definition q_log (s : qst) : log := m_log (h_m (q_h s)).
Definition q_num (s : qst) : nat := length (q_msg s).
(** What a load of the number i acquires; what the fetch_add acquires *)
Definition q_rel (s : qst) (i : nat) : hb := match i with 0 => [] | S j => match nth_error (q_msg s) j with Some (_, w) => w | None => [] end end.
(** The largest number whose fetch_add is in v *)
Definition q_known (s : qst) (v : hb) : nat :=
  list_max (map (fun j => match nth_error (q_msg s) j with Some (d, _) => if memb d v then S j else 0 | None => 0 end) (seq 0 (q_num s))).
(** The number i can be read by a thread that knows of the number p *)
Definition q_can (s : qst) (p i : nat) : bool := (p <=? i) && (i <=? q_num s).
Definition q_hstep := hstep P eager (recurring_lk seqc_user) true true.
Definition q_put (s : qst) (h : hst P) : qst := QS h (q_msg s) (q_rs s) (q_lo s).
Definition q_lift (s : qst) (l : hlabel P) : outcome qst qevent :=
  match q_hstep (q_h s) l with
  | Next h es => Next (q_put s h) (map QE es)
  | Disabled => Disabled
  | Fail f es => Fail f (map QE es)
  end.
(** The notification in the events of a step *)
Definition q_done (es : list (hevent P)) : option (rres * hb) :=
  match es with [HE (EDone _ r) v] => Some (r : rres, v) | _ => None end.

Definition q_step (s : qst) (l : qlabel) : outcome qst qevent :=
  match l with
  | QRaise v =>
      match q_hstep (q_h s) (HPrim (P := P) (RUserStep (tt : UL seqc_user)) v) with
      | Next h es =>
          let w := last (h_wk h) [] in             (* what happens before the end of the step *)
          let m := q_rel s (q_num s) in
          Next (QS h (q_msg s ++ [(length (q_log s), if r_rel then w ++ m else m)])
                     (q_rs s ++ [Some (S (q_num s), if r_acq then w ++ m else w)]) (q_lo s))
               (map QE es ++ [QERaise (S (q_num s)) w])
      | Disabled => Disabled
      | Fail f es => Fail f (map QE es)
      end
  | QLock k =>
      match nth_error (q_rs s) k with
      | Some (Some (j, w)) =>
          match q_hstep (q_h s) (HPrim (P := P) (RRaise : rlabel seqc_user) w) with
          | Next h es => Next (QS h (q_msg s) (set_nth (q_rs s) k None) (q_lo s)) (map QE es ++ [QELock j (r_q (c_prim (h_s (q_h s))))])
          | Disabled => Disabled
          | Fail f es => Fail f (map QE es)
          end
      | _ => Disabled
      end
  | QWait o tok t v i =>
      let w := closure (q_log s) v in
      if (t <=? q_known s w) && q_can s (q_known s (w ++ m_mu (h_m (q_h s)))) i then
        match q_hstep (q_h s) (HStart (P := P) o tok (t, i) v) with
        | Next h es => Next (QS h (q_msg s) (q_rs s) (upd (q_lo s) o i)) (map QE es)
        | Disabled => Disabled
        | Fail f es => Fail f (map QE es)
        end
      else Disabled
  | QPath o x i =>
      match q_hstep (q_h s) (HPath o x) with
      | Next h es =>
          match q_done es with
          | Some (r, w) =>
              if q_can s (q_known s w) i && match x with PathL => q_lo s o <=? i | _ => true end
              then Next (q_put s h) (map QE es ++ [QEDone o r i (if ld_acq then w ++ q_rel s i else w)]) else Disabled
          | None => Next (q_put s h) (map QE es)
          end
      | Disabled => Disabled
      | Fail f es => Fail f (map QE es)
      end
  | QCancel e v => q_lift s (HCancel e v)
  | QCanNext k => q_lift s (HCanNext k)
  | QWakeNext k => q_lift s (HWakeNext k)
  | QDestroy o => q_lift s (HDestroy o)
  | QNext v i =>
      let w := closure (q_log s) v in
      if q_can s (q_known s w) i then Next s [QENext (S i) (if ld_acq then w ++ q_rel s i else w)] else Disabled
  end.
End Q.
