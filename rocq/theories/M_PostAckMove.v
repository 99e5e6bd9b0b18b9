(** The objects of type post_ack_handle (include/async/post-ack.hpp 175-244): construction, moving, swapping, assignment and destruction, on top of M_PostAck.v.

    A variable has the members nd_ and acked_ (mech_ is moved along with nd_ and does not change).  nd_ is represented by the poll operation that returned the handle, because M_PostAck.v
    names the handles like that.  The handle that is passed to the receiver of a poll operation is moved to a variable at most once.

    Simplifications: swap(), and hence construction and assignment, is one step; so is ack() if it does not have to retire the post, including acked_ = true (line 223). *)
From Coq Require Import List Arith Bool.
From Verif Require Import Lts M_Wait M_PostAck.
Import ListNotations.

(** Lines 241-243 *)
Record hvar := HVr { hv_nd : option nat; hv_acked : bool }.
Definition hv_null : hvar := HVr None false.

Section Move.
Context {T : Type}.
Notation P := (post_ack T).
Variable eager : bool.

(** The state of M_PostAck; the variables that exist; the results of poll operations that were not moved to a variable yet; for each handle the variable on which ack() is running *)
Record vst := VS { v_s : cst P; v_var : nat -> option hvar; v_avail : nat -> bool; v_ack : nat -> option nat }.
Definition v_init : vst := VS (c_init P) (fun _ => None) (fun _ => false) (fun _ => None).

Inductive vlabel :=
| MBase (l : label P)                 (* a step that does not involve handles *)
| MNew (x o : nat)                    (* variable x is constructed from the result of the poll operation o *)
| MNull (x : nat)                     (* variable x is constructed without handle *)
| MCtor (y x : nat)                   (* post_ack_handle y{std::move(x)} *)
| MAssign (y x : nat)                 (* y = std::move(x) *)
| MSwap (x y : nat)
| MDestroy (x : nat)
| MAck (x : nat) | MAckStep (o : nat) (* x.ack() begins; goes on *)
| MRead (x : nat)                     (* *x or x-> *)
| MBool (x : nat).                    (* static_cast<bool>(x) *)

Inductive vevent :=
| VB (e : event P)
| VNew (x o : nat) | VNull (x : nat) | VCtor (y x : nat) | VAssign (y x : nat) | VSwap (x y : nat) | VDestroy (x : nat)
| VAck (x : nat) | VAcked (x : nat) (* ack() is called; returns *) | VRead (x : nat) | VBool (x : nat) (b : bool).

(** swap(), lines 181-186 *)
Definition hv_swap (a b : hvar) : hvar * hvar := (HVr (hv_nd b) (hv_acked b), HVr (hv_nd a) (hv_acked a)).
(** ~post_ack_handle(), lines 200-202 *)
Definition hv_drop_ok (a : hvar) : bool := match hv_nd a with None => true | Some _ => hv_acked a end.
(** acked_ = true, line 223 *)
Definition hv_ack (a : hvar) : hvar := HVr (hv_nd a) true.

(** The poll operations that deliver a handle *)
Definition gets (o : nat) (es : list (event P)) : bool := existsb (fun e : event P => match e with EDone o' (Some _) => o' =? o | _ => false end) es.
Definition handle_step (l : label P) : bool := match l with LPrim (KAck _) | LPrim (KAckStep _) | LPrim (KRead _) => true | _ => false end.

(** The handle of poll o is not in the middle of ack() *)
Definition acked_now (s : cst P) (o : nat) : bool := match k_hd (c_prim s) o with HErase _ | HComp _ => false | _ => true end.

Definition v_step (s : vst) (l : vlabel) : outcome vst vevent :=
  let var := v_var s in
  match l with
  | MBase l =>
      if handle_step l then Disabled else
      match step P eager (v_s s) l with
      | Next s' es => Next (VS s' var (fun o => gets o es || v_avail s o) (v_ack s)) (map VB es)
      | Disabled => Disabled
      | Fail f es => Fail f (map VB es)
      end
  | MNew x o =>
      match var x with
      | None => if v_avail s o then Next (VS (v_s s) (upd var x (Some (HVr (Some o) false))) (upd (v_avail s) o false) (v_ack s)) [VNew x o] else Disabled
      | Some _ => Disabled
      end
  | MNull x => match var x with None => Next (VS (v_s s) (upd var x (Some hv_null)) (v_avail s) (v_ack s)) [VNull x] | Some _ => Disabled end      (* line 188 *)
  | MCtor y x =>                                       (* lines 195-198 *)
      match var y, var x with
      | None, Some a => let '(b, a') := hv_swap hv_null a in Next (VS (v_s s) (upd (upd var y (Some b)) x (Some a')) (v_avail s) (v_ack s)) [VCtor y x]
      | _, _ => Disabled
      end
  | MAssign y x =>                                     (* lines 204-207: the parameter is constructed from x, swapped with y and destroyed *)
      match var x with
      | None => Disabled
      | Some a =>
          let '(par, a') := hv_swap hv_null a in
          let var1 := upd var x (Some a') in
          match var1 y with
          | None => Disabled
          | Some b => let '(b', par') := hv_swap b par in
              if hv_drop_ok par' then Next (VS (v_s s) (upd var1 y (Some b')) (v_avail s) (v_ack s)) [VAssign y x] else Fail AssertFailed [VAssign y x]
          end
      end
  | MSwap x y =>
      match var x, var y with
      | Some a, Some b => let '(a', b') := hv_swap a b in Next (VS (v_s s) (upd (upd var x (Some a')) y (Some b')) (v_avail s) (v_ack s)) [VSwap x y]
      | _, _ => Disabled
      end
  | MDestroy x =>
      match var x with
      | Some a => if hv_drop_ok a then Next (VS (v_s s) (upd var x None) (v_avail s) (v_ack s)) [VDestroy x] else Fail AssertFailed [VDestroy x]
      | None => Disabled
      end
  | MAck x =>                                          (* lines 209-223 *)
      match var x with
      | None => Disabled
      | Some (HVr None _) | Some (HVr _ true) => Fail AssertFailed [VAck x]        (* lines 210-211 *)
      | Some (HVr (Some o) false) =>
          match step P eager (v_s s) (LPrim (KAck o : PL P)) with
          | Next s' es =>
              if acked_now s' o then Next (VS s' (upd var x (Some (HVr (Some o) true))) (v_avail s) (v_ack s)) (VAck x :: map VB es ++ [VAcked x])
              else Next (VS s' var (v_avail s) (upd (v_ack s) o (Some x))) (VAck x :: map VB es)
          | Disabled => Disabled
          | Fail f es => Fail f (VAck x :: map VB es)
          end
      end
  | MAckStep o =>
      match v_ack s o with
      | None => Disabled
      | Some x =>
          match step P eager (v_s s) (LPrim (KAckStep o : PL P)) with
          | Next s' es =>
              if acked_now s' o then
                match var x with
                | Some a => Next (VS s' (upd var x (Some (hv_ack a))) (v_avail s) (upd (v_ack s) o None)) (map VB es ++ [VAcked x])
                | None => Fail UseAfterFree (map VB es ++ [VAcked x])
                end
              else Next (VS s' var (v_avail s) (v_ack s)) (map VB es)
          | Disabled => Disabled
          | Fail f es => Fail f (map VB es)
          end
      end
  | MRead x =>                                         (* lines 230-238 *)
      match var x with
      | None => Disabled
      | Some (HVr None _) => Fail AssertFailed [VRead x]
      | Some (HVr (Some o) _) =>
          match step P eager (v_s s) (LPrim (KRead o : PL P)) with
          | Next s' es => Next (VS s' var (v_avail s) (v_ack s)) (VRead x :: map VB es)
          | Disabled => Disabled
          | Fail f es => Fail f (VRead x :: map VB es)
          end
      end
  | MBool x => match var x with Some a => Next s [VBool x (match hv_nd a with Some _ => true | None => false end)] | None => Disabled end    (* lines 226-228 *)
  end.
End Move.
