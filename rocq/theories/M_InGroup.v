(** Model of wait_in_group (include/async/wait-group.hpp 188-251) under the C++ memory model: M_WaitGroupWD.v with wrapped operations.

    The accesses to a wrapped operation i ([operation_], lines 196-234) are: its construction and start(); the read of wg_ by receiver_::set_value() (line 206); the read of
    originalr_ after done() has returned (lines 207-210).  They are recorded in the views of M_WaitGroupW.v as the tokens [acc_in i 0], [acc_in i 1] and [acc_in i 2].

    Client rules (built into the labels): done() is not called by others for the unit of a wrapped operation; the original operation completes at most once, and its start() happens
    before that; the group is destroyed as in M_WaitGroupWD.v; a wrapped operation is destroyed by a thread that knows that its receiver was notified.  If [early], it may also be destroyed
    once a wait was notified whose start() the start of the wrapped operation happens before.

    Simplifications: the value is not modelled (M_WaitGroup.v has it); an operation that is not started is not destroyed; start() of a wrapped operation is one step, the fetch_add() of line 90 (the
    original operation is started after it, its start() is arbitrary client code). *)
From Coq Require Import List Arith Bool.
From Verif Require Import Lts M_Weak M_WaitGroupW M_WaitGroupWD.
Import ListNotations.

(** A wrapped operation: not started; started, with its unit; its set_value() is in the k-th call of done(); its receiver was notified *)
Inductive iop := IIdle | IRun (u : nat) | ICall (u k : nat) | IDone.
(** The group; the wrapped operations; which of them are destroyed; their units; the loop (lines 69-73) of each call of done() that reached zero; the receivers that were notified, with the accesses to
    wrapped operations that happen before the notification *)
Record ist := IS { i_z : zst; i_op : nat -> iop; i_dead : nat -> bool; i_un : list nat; i_lp : nat -> option nat; i_not : list (nat * list nat) }.

(** Tokens of the accesses to a wrapped operation; those that a view knows of *)
Definition acc_in (i j : nat) : nat := 3 * i + j.
Definition objs (v : view) : list nat := flat_map (fun t => match t with TObj m => [m] | _ => [] end) (v_tok v).

Inductive ilabel :=
| ILBase (l : zlabel)                   (* a step of the group, as in M_WaitGroupWD.v *)
| ILStart (i : nat) (v : view)          (* start() of the wrapped operation i by a thread with view v *)
| ILComp (i : nat) (v : view)           (* its original operation calls receiver_::set_value() *)
| ILOut (i : nat)                       (* done() has returned: the receiver of i is notified *)
| ILDel (i : nat) (kn : list nat).      (* the client destroys i; the accesses to wrapped operations that happen before that *)
Inductive ievent :=
| IE (e : zevent)                       (* an event of the group *)
| IEStart (i u : nat)                   (* i is started; its unit *)
| IEComp (i n : nat)                    (* the original operation of i completes, right after the n-th access of the clients *)
| IEOut (i : nat) (before : list nat)   (* the receiver of i is notified; the accesses of the clients that happen before that *)
| IEDel (i : nat).

Section I.
Variable n0 : nat.
Variables d_acq d_rel a_acq a_rel : bool.   (* as in M_WaitGroupW *)
Variable early : bool.                      (* see above *)
Notation zstep := (z_step d_acq d_rel a_acq a_rel).
(** No wrapped operation is started; lines 220-224 *)
Definition i_init : ist := IS (z_init n0) (fun _ => IIdle) (fun _ => false) [] (fun _ => None) [].

(** The unit of a wrapped operation, from its start to the end of done() *)
Definition unit_of (x : iop) : option nat := match x with IRun u | ICall u _ => Some u | _ => None end.
(** The accesses to i so far *)
Definition acc_of_op (i : nat) (x : iop) : list nat :=
  match x with IIdle => [] | IRun _ => [acc_in i 0] | ICall _ _ => [acc_in i 0; acc_in i 1] | IDone => [acc_in i 0; acc_in i 1; acc_in i 2] end.
(** Does the destroying thread know that the receiver of i was notified?  Was a wait notified that waited for i? *)
Definition told_out (s : ist) (i : nat) (kn : list nat) : bool := existsb (fun n => (fst n =? i) && forallb (fun m => memb m kn) (snd n)) (i_not s).
Definition told_wait (s : ist) (i : nat) : bool :=
  match unit_of (i_op s i) with Some u => existsb (fun n => match n with (_, us, _) => memb u us end) (z_not (i_z s)) | None => false end.
(** Is the step a call of done() for the unit of a wrapped operation? *)
Definition is_own (s : ist) (l : zlabel) : bool := match l with ZStep (GLDone u _) => memb u (i_un s) | _ => false end.
(** The loop of a call of done() that reaches zero *)
Definition note_loop (s : ist) (l : zlabel) (z' : zst) : nat -> option nat :=
  match l with
  | ZStep (GLStep k _) => if length (g_wk (z_g (i_z s))) <? length (g_wk (z_g z')) then upd (i_lp s) k (Some (length (g_wk (z_g (i_z s))))) else i_lp s
  | _ => i_lp s
  end.
(** The k-th call of done() has returned *)
Definition returned (s : ist) (k : nat) : option view :=
  match nth_error (g_dn (z_g (i_z s))) k with
  | Some (_, GEnd, v) =>
      match i_lp s k with
      | None => Some v
      | Some j => match nth_error (g_wk (z_g (i_z s))) j with Some ([], _) => Some v | _ => None end
      end
  | _ => None
  end.

(** wait-group.hpp 188-251 *)
Definition i_step (s : ist) (l : ilabel) : outcome ist ievent :=
  let z := i_z s in
  match l with
  | ILBase l =>
      if is_own s l then Disabled
      else match zstep z l with
           | Next z' es => Next (IS z' (i_op s) (i_dead s) (i_un s) (note_loop s l z') (i_not s)) (map IE es)
           | Disabled => Disabled
           | Fail f es => Fail f (map IE es)
           end
  | ILStart i v =>                                       (* lines 225-228: wg_.add(1), start of the original operation *)
      match i_op s i with
      | IIdle =>
          let u := length (g_un (z_g z)) in
          match zstep z (ZStep (GLAdd 1 v)) with
          | Next z' es => Next (IS z' (upd (i_op s) i (IRun u)) (i_dead s) (u :: i_un s) (i_lp s) (i_not s)) (IEStart i u :: map IE es)
          | Disabled => Disabled
          | Fail f es => Fail f (map IE es)
          end
      | _ => Disabled
      end
  | ILComp i v =>                                        (* line 206: op_.wg_.done() *)
      match i_op s i with
      | IRun u =>
          if negb (memb (acc_in i 0) (objs v)) then Disabled
          else if i_dead s i || z_dead z then Fail UseAfterFree []
          else match zstep z (ZStep (GLDone u (vadd v (TObj (acc_in i 1))))) with
               | Next z' es =>
                   Next (IS z' (upd (i_op s) i (ICall u (length (g_dn (z_g z))))) (i_dead s) (i_un s) (i_lp s) (i_not s)) (IEComp i (g_acc (z_g z)) :: map IE es)
               | Disabled => Disabled
               | Fail f es => Fail f (map IE es)
               end
      | _ => Disabled
      end
  | ILOut i =>                                           (* lines 207-210: set_value(op_.originalr_, ...) *)
      match i_op s i with
      | ICall u k =>
          match returned s k with
          | Some v =>
              if i_dead s i then Fail UseAfterFree []
              else Next (IS z (upd (i_op s) i IDone) (i_dead s) (i_un s) (i_lp s) ((i, objs (vadd v (TObj (acc_in i 2)))) :: i_not s)) [IEOut i (accs v)]
          | None => Disabled
          end
      | _ => Disabled
      end
  | ILDel i kn =>
      if i_dead s i then Disabled
      else if told_out s i kn || (early && told_wait s i) then
        if forallb (fun m => memb m kn) (acc_of_op i (i_op s i))
        then Next (IS z (i_op s) (upd (i_dead s) i true) (i_un s) (i_lp s) (i_not s)) [IEDel i]
        else Fail DataRace []
      else Disabled
  end.
End I.
