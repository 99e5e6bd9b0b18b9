(** Accesses to async::wait_group itself (include/async/wait-group.hpp 14-186) under the C++ memory model, and its destruction: M_WaitGroupW.v with a record
    of these accesses.  wait_group has an implicit destructor, so the model of the destruction is an access to the whole object.

    Every add(), every step of done() up to the decrement, and every critical section of start() is an access to the group; the m-th one is the memory token
    TCall m, which the thread of the call knows from then on.  The loop of lines 69-73 only uses a local list and the nodes; it does not access the group.

    A client destroys the group if (built into the label ZDel)
      - a wait was notified whose start() is preceded (in the happens-before relation) by all calls of add(),
      - the destroying thread knows of the calls of add(), of that notification, and of every other wait: that its start() has returned or that it was notified.
    It does not wait for calls of done() to return.  It does not call the group afterwards.

    Simplifications: as in M_WaitGroupW.v (no cancellation).  The unlock of mutex_ belongs to the step of its critical section; the next critical section begins after it. *)
From Coq Require Import List Arith Bool.
From Verif Require Import Lts M_Weak M_WaitGroupW.
Import ListNotations.

(** Who makes an access: add(), done() for a unit, start() of a wait *)
Inductive who := WAdd | WDone (u : nat) | WWait (o : nat).

(** The recorded accesses to the group that a view knows of *)
Definition calls (v : view) : list nat := flat_map (fun t => match t with TCall m => [m] | _ => [] end) (v_tok v).

(** The group; the accesses to it; the waits that were notified, with the units whose add() happens before their start(), and the accesses to the group that
    happen before the notification; is the group destroyed? *)
Record zst := ZS { z_g : gst; z_who : list who; z_not : list (nat * list nat * list nat); z_dead : bool }.
Inductive zlabel :=
| ZStep (l : glabel)
| ZDel (kn : list nat).       (* the client destroys the group; the accesses to the group that happen before that *)
Inductive zevent := ZE (e : gevent) | ZEDel.

(** the k-th call of done() makes the m-th access *)
Definition g_mark (s : gst) (k m : nat) : gst :=
  match nth_error (g_dn s) k with
  | Some (u, pc, v) => GS (g_h s) (g_lv s) (g_q s) (g_op s) (g_un s) (set_nth (g_dn s) k (u, pc, vadd v (TCall m))) (g_wk s) (g_acc s)
  | None => s
  end.

(** Does the destroying thread know of the m-th access (or of an event that tells it)? *)
Definition told (z : zst) (kn : list nat) (m : nat) (w : who) : bool :=
  match w with
  | WAdd => memb m kn
  | WDone _ => true
  | WWait o => memb m kn || existsb (fun n => match n with (o', _, c) => (o' =? o) && forallb (fun m' => memb m' kn) c end) (z_not z)
  end.
Definition may_del (z : zst) (kn : list nat) : bool :=
  existsb (fun n => match n with (_, us, c) => forallb (fun m => memb m kn) c && forallb (fun u => memb u us) (seq 0 (length (g_un (z_g z)))) end) (z_not z) &&
  forallb (fun m => match nth_error (z_who z) m with Some w => told z kn m w | None => true end) (seq 0 (length (z_who z))).

Section Z.
Variable n0 : nat.
Variables d_acq d_rel a_acq a_rel : bool.   (* as in M_WaitGroupW *)
Notation gstep := (g_step d_acq d_rel a_acq a_rel).
Definition z_init : zst := ZS (g_init n0) [] [] false.

(** A step of M_WaitGroupW.v with its events *)
Definition z_lift (r : outcome gst gevent) (f : gst -> zst) : outcome zst zevent :=
  match r with Next s es => Next (f s) (map ZE es) | Disabled => Disabled | Fail x es => Fail x (map ZE es) end.

Definition z_step (z : zst) (l : zlabel) : outcome zst zevent :=
  let s := z_g z in
  let m := length (z_who z) in
  match l with
  | ZStep (GLAdd n v) =>
      if z_dead z then Disabled
      else z_lift (gstep s (GLAdd n (vadd v (TCall m)))) (fun s' => ZS s' (z_who z ++ [WAdd]) (z_not z) false)
  | ZStep (GLDone u v) =>
      if z_dead z then Disabled
      else z_lift (gstep s (GLDone u v)) (fun s' => ZS s' (z_who z) (z_not z) false)
  | ZStep (GLStep k i) =>
      match nth_error (g_dn s) k with
      | Some (u, _, _) =>
          match gstep (g_mark s k m) (GLStep k i) with
          | Disabled => Disabled
          | r => if z_dead z then Fail UseAfterFree [] else z_lift r (fun s' => ZS s' (z_who z ++ [WDone u]) (z_not z) false)
          end
      | None => Disabled
      end
  | ZStep (GLWait o v i) =>
      if z_dead z then Disabled
      else z_lift (gstep s (GLWait o (vadd v (TCall m)) i)) (fun s' =>
        ZS s' (z_who z ++ [WWait o])
           match g_op s' o with
           | GDone => (o, known_units s v, calls (g_lv s')) :: z_not z          (* notified by start() *)
           | _ => z_not z
           end false)
  | ZStep (GLWake k) =>
      z_lift (gstep s (GLWake k)) (fun s' =>
        ZS s' (z_who z)
           match nth_error (g_wk s) k with
           | Some (o :: _, v) => match g_op s o with GWait us => (o, us, calls v) :: z_not z | _ => z_not z end
           | _ => z_not z
           end (z_dead z))
  | ZDel kn =>
      if z_dead z then Disabled
      else if may_del z kn then
        if forallb (fun m => memb m kn) (seq 0 (length (z_who z))) then Next (ZS s (z_who z) (z_not z) true) [ZEDel] else Fail DataRace []
      else Disabled
  end.
End Z.
