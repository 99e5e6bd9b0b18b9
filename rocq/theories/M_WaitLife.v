(** The lifetime of cancellation_event objects and of the wait primitives themselves: the machine of M_Wait with the destruction of
    these objects added.

    Modelled code: the destructor ~cancellation_event (cancellation.hpp 44-47); the implicit destructors of async::queue,
    recurring_event, sequenced_event, barrier, wait_group and oneshot_event; and which steps access which object:
      - cancellation_event: listen() (cancellation.hpp 246-255), transition_ (300-307), cancel() (337-339; its loop 342-346 only uses
        the local list and the nodes);
      - the primitive: start() (its critical section), try_cancel_fn, resume_fn and the set_value of the fast path (sequenced_event
        reads seq_ there, sequenced-event.hpp 27; for the other primitives counting these as accesses is a simplification that
        only adds failures), and the member functions of the primitive.
    The loops that call complete() after a critical section only use a local list and the nodes (queue.hpp 65-66, recurring-event.hpp
    67-71, wait-group.hpp 69-73).

    An access to a destroyed object fails with UseAfterFree.  A client does not call a member function of a destroyed object, nor
    start a wait on a destroyed primitive or with a token of a destroyed event: such steps are disabled. *)
From Coq Require Import List Arith Bool.
From Verif Require Import Lts M_Wait M_Queue M_Recurring M_WaitGroup.
Import ListNotations.

(** What an API step of a primitive is for its lifetime: the call of a member function by the client; a later access to the primitive by
    a call in flight; or a step of a call in flight that does not access the primitive. *)
Inductive access := ACall | AUse | ANone.

(** A primitive with its accesses and with the condition under which clients destroy it (in addition to: the receivers of all of its
    waits were notified). *)
Record lifeof (P : prim) := LifeOf { lf_acc : PS P -> PL P -> access; lf_may : PS P -> bool }.
Arguments LifeOf {P}. Arguments lf_acc {P}. Arguments lf_may {P}.

Section Life.
Variable P : prim.
Variable L : lifeof P.
Variable eager : bool.   (* as in M_Wait *)
(** If true, clients may destroy a cancellation_event as soon as the receivers of all waits with a token of it were notified.
    If false, they do so only after start() and complete() of these waits have returned as well. *)
Variable early : bool.

(** The state of M_Wait; the waits started so far; the destroyed events; is the primitive destroyed? *)
Record life := FS { f_base : cst P; f_ops : list nat; f_ev : nat -> bool; f_pr : bool }.
Definition f_init : life := FS (c_init P) [] (fun _ => false) false.

Inductive flabel :=
| FStep (l : label P)
| FDelEv (e : nat)       (* the client destroys the cancellation_event e *)
| FDelPrim.              (* the client destroys the primitive *)
Inductive fevent :=
| FE (x : event P)
| EDelEv (e : nat)
| EDelPrim.

(** Is the event of the token destroyed? *)
Definition dead_tok (h : life) (t : option nat) : bool := match t with Some e => f_ev h e | None => false end.

(** Is the step a client's call on a destroyed object? *)
Definition bad_call (h : life) (l : label P) : bool :=
  match l with
  | LStart _ tok _ => f_pr h || dead_tok h tok
  | LCancel e => f_ev h e
  | LPrim pl => f_pr h && match lf_acc L (c_prim (f_base h)) pl with ACall => true | _ => false end
  | _ => false
  end.
(** Does the step access a destroyed object? *)
Definition bad_use (h : life) (l : label P) : bool :=
  match l with
  | LPath o x =>
      match get_pc x (c_op (f_base h) o) with
      | PListen | PUnreg => dead_tok h (o_tok (c_op (f_base h) o))
      | PTry | PResume | PFast => f_pr h
      | _ => false
      end
  | LPrim pl => f_pr h && match lf_acc L (c_prim (f_base h)) pl with AUse => true | _ => false end
  | _ => false
  end.

(** Does the operation use the event e?  Have start() and complete() of it returned? *)
Definition uses_tok (r : opst P) (e : nat) : bool := match o_tok r with Some e' => Nat.eqb e' e | None => false end.
Definition ended_lp (r : opst P) : bool := ended (o_l r) && ended (o_p r).

(** The operations that were started *)
Definition note_start (l : label P) (ops : list nat) : list nat := match l with LStart o _ _ => o :: ops | _ => ops end.

Definition life_step (h : life) (l : flabel) : outcome life fevent :=
  let s := f_base h in
  match l with
  | FStep l =>
      if bad_call h l then Disabled else
      match step P eager s l with
      | Next s' es => if bad_use h l then Fail UseAfterFree (map FE es) else Next (FS s' (note_start l (f_ops h)) (f_ev h) (f_pr h)) (map FE es)
      | Disabled => Disabled
      | Fail f es => Fail (if bad_use h l then UseAfterFree else f) (map FE es)
      end
  | FDelEv e =>
      if negb (f_ev h e) &&
         forallb (fun o => let r := c_op s o in negb (uses_tok r e) || (o_done r && (early || ended_lp r))) (f_ops h)
      then match e_cbs (c_ev s e) with
           | [] => Next (FS s (f_ops h) (upd (f_ev h) e true) (f_pr h)) [EDelEv e]
           | _ => Fail AssertFailed [EDelEv e]   (* cancellation.hpp 45 *)
           end
      else Disabled
  | FDelPrim =>
      if negb (f_pr h) && lf_may L (c_prim s) && forallb (fun o => o_done (c_op s o)) (f_ops h)
      then Next (FS s (f_ops h) (f_ev h) true) [EDelPrim]
      else Disabled
  end.

End Life.
Arguments FS {P}. Arguments f_base {P}. Arguments f_ops {P}. Arguments f_ev {P}. Arguments f_pr {P}.
Arguments FStep {P}. Arguments FDelEv {P}. Arguments FDelPrim {P}.
Arguments FE {P}. Arguments EDelEv {P}. Arguments EDelPrim {P}.

(** A primitive that is never destroyed, for statements about the events alone *)
Definition kept (P : prim) : lifeof P := LifeOf (fun _ _ => ACall) (fun _ => false).

(** queue.hpp: put(), emplace(), maybe_get() are one access each (50-63, 150-155). *)
Definition queue_life (T : Type) : lifeof (queue_prim T) := LifeOf (fun _ _ => ACall) (fun _ => true).
(** recurring-event.hpp: raise() is one access (57-63). *)
Definition recurring_life : lifeof recurring := LifeOf (fun _ _ => ACall) (fun _ => true).

(** sequenced-event.hpp 12-15: the call of ev_.raise() is an access of a raise() in flight.  [idle]: clients wait until all calls of raise()
    have reached the end of that critical section before they destroy the sequenced_event. *)
Definition sequenced_life (idle : bool) : lifeof sequenced :=
  LifeOf (fun _ l => match l : PL sequenced with RRaise => AUse | RUserStep _ => ACall end)
         (fun s : PS sequenced => negb idle || Nat.eqb (sq_pend (r_g s)) 0).
(** barrier.hpp 52-53: so is the call of evt_.raise(); [idle] as above, for the arrivals. *)
Definition barrier_life (e0 : BinNums.Z) (idle : bool) : lifeof (barrier e0) :=
  LifeOf (fun _ l => match l : PL (barrier e0) with RRaise => AUse | RUserStep _ => ACall end)
         (fun s : PS (barrier e0) => negb idle || Nat.eqb (b_pend (r_g s)) 0).

(** wait-group.hpp 41-74: the steps of done() up to the decrement; what follows does not access the group (69-73, 205-208).  The start() of an
    operation wrapped by wait_in_group is a call of add() by the client (227), its set_value is a call of done() by a library call (204).
    Clients destroy the group when its counter is zero. *)
Definition wait_group_life (V : Type) (n0 : nat) : lifeof (wait_group V n0) :=
  LifeOf (fun (s : PS (wait_group V n0)) (l : PL (wait_group V n0)) =>
            match l with
            | WStep k => match nth_error (w_dn s) k with Some (_, DOut) => ANone | _ => AUse end
            | WInDone _ _ => AUse
            | WAdd _ | WDone | WInStart _ => ACall
            end)
         (fun s : PS (wait_group V n0) => Nat.eqb (w_ctr s) 0).
