(** Model of the type-erased callables of include/async/basic.hpp: any_receiver<T> (196-248), callback<R(Args...)> (250-294) and
    run_queue_item::arm (302-322).

    A functor (receiver) is a class, given by a number, and the bytes of the object, also a number (it fits into a pointer and is trivially
    copyable, lines 199-203, 270-275).  [beh c st a] is what operator() (set_value()) of the class c does with the argument a to an object with
    the bytes st: the bytes afterwards, and what it returns (or does outside of the object).

    Simplifications: one argument; variables are not re-used for objects of another kind; run_queue, which would call and
    clear _cb, is declared in the header but not defined anywhere, so that nothing clears _cb. *)
From Coq Require Import List Arith Bool.
From Verif Require Import Lts.
Import ListNotations.

(** A variable: no object; callback (null, or invoke<F> and the storage, lines 292-293); any_receiver (lines 216-217); run_queue_item (line 318) *)
Inductive eobj := ONone | OCb (f : option (nat * nat)) | ORcv (c st : nat) | OItem (f : option (nat * nat)).
Definition evars := nat -> eobj.
Definition e_init : evars := fun _ => ONone.

Inductive elabel :=
| LNull (x : nat)               (* callback x; *)
| LCb (x c st : nat)            (* callback x{f}; f has the class c and the bytes st *)
| LRcv (x c st : nat)           (* any_receiver x{r}; *)
| LCopy (x y : nat)             (* x = y, or x is a copy of y: callbacks or any_receivers (implicit, trivial) *)
| LBool (x : nat)               (* static_cast<bool>(x) of a callback *)
| LCall (x a : nat)             (* x(a) of a callback *)
| LSet (x a : nat)              (* x.set_value(a) of an any_receiver *)
| LItem (x : nat)               (* run_queue_item x; *)
| LArm (x y : nat).             (* x.arm(y) *)
Inductive eevent :=
| VNull (x : nat) | VMake (x c st : nat) | VCopy (x y : nat) | VBool (x : nat) (b : bool)
| VCall (x c st a r : nat)      (* the functor in the callback x runs, on an object with the bytes st, with argument a, and returns r *)
| VSet (x c st a r : nat)       (* the same for set_value() of the receiver in the any_receiver x *)
| VArm (x y : nat).

Section Beh.
Variable beh : nat -> nat -> nat -> nat * nat.
Definition e_step (s : evars) (l : elabel) : outcome evars eevent :=
  match l with
  | LNull x => match s x with ONone => Next (upd s x (OCb None)) [VNull x] | _ => Disabled end                  (* lines 265-266 *)
  | LCb x c st => match s x with ONone => Next (upd s x (OCb (Some (c, st)))) [VMake x c st] | _ => Disabled end (* lines 276-279 *)
  | LRcv x c st => match s x with ONone => Next (upd s x (ORcv c st)) [VMake x c st] | _ => Disabled end         (* lines 204-210, 229-235 *)
  | LCopy x y =>
      match s x, s y with
      | (ONone | OCb _), OCb f => Next (upd s x (OCb f)) [VCopy x y]
      | (ONone | ORcv _ _), ORcv c st => Next (upd s x (ORcv c st)) [VCopy x y]
      | _, _ => Disabled
      end
  | LBool x => match s x with OCb f => Next s [VBool x (match f with Some _ => true | None => false end)] | _ => Disabled end  (* lines 281-283 *)
  | LCall x a =>                                                       (* lines 285-287 *)
      match s x with
      | OCb (Some (c, st)) =>                                          (* lines 259-262: [object] is a copy of _object *)
          Next s [VCall x c st a (snd (beh c st a))]
      | OCb None => Fail NullDeref []
      | _ => Disabled
      end
  | LSet x a =>                                                        (* lines 206-209, 212-214, 231-234, 237-239: a pointer to stor_ *)
      match s x with
      | ORcv c st => Next (upd s x (ORcv c (fst (beh c st a)))) [VSet x c st a (snd (beh c st a))]
      | _ => Disabled
      end
  | LItem x => match s x with ONone => Next (upd s x (OItem None)) [] | _ => Disabled end
  | LArm x y =>                                                        (* lines 311-315 *)
      match s x, s y with
      | OItem (Some _), OCb _ => Fail AssertFailed []                  (* line 312 *)
      | OItem None, OCb None => Fail AssertFailed []                   (* line 313 *)
      | OItem None, OCb (Some f) => Next (upd s x (OItem (Some f))) [VArm x y]
      | _, _ => Disabled
      end
  end.
End Beh.
