(** Specification vocabulary for type-erased callables, on traces. *)
From Coq Require Import List Arith Bool.
From Verif Require Import Lts M_Erased.
Import ListNotations.

Section Beh.
Variable beh : nat -> nat -> nat -> nat * nat.
(** The functor that a variable would hold if it were a plain variable of the type of the functor (or a std::function): class and
    bytes.  Copies are independent of each other, and a call changes the object it is made on. *)
Definition ref_event (m : nat -> option (nat * nat)) (e : eevent) : nat -> option (nat * nat) :=
  match e with
  | VMake x c st => upd m x (Some (c, st))
  | VNull x => upd m x None
  | VCopy x y => upd m x (m y)
  | VCall x _ _ a _ | VSet x _ _ a _ => upd m x (match m x with Some (c', st') => Some (c', fst (beh c' st' a)) | None => None end)
  | _ => m
  end.
Definition ref (tr : list eevent) : nat -> option (nat * nat) := fold_left ref_event tr (fun _ => None).
(** The same, but the object that a call changes is thrown away. *)
Definition val_event (m : nat -> option (nat * nat)) (e : eevent) : nat -> option (nat * nat) :=
  match e with VCall _ _ _ _ _ => m | _ => ref_event m e end.
Definition valr (tr : list eevent) : nat -> option (nat * nat) := fold_left val_event tr (fun _ => None).

(** the calls of callbacks (of set_value()) run the functors that the reference m says, and return what these return *)
Definition calls_run (m : list eevent -> nat -> option (nat * nat)) (tr : list eevent) : Prop :=
  forall t1 x c st a r t2, tr = t1 ++ VCall x c st a r :: t2 -> m t1 x = Some (c, st) /\ r = snd (beh c st a).
Definition sets_run (m : list eevent -> nat -> option (nat * nat)) (tr : list eevent) : Prop :=
  forall t1 x c st a r t2, tr = t1 ++ VSet x c st a r :: t2 -> m t1 x = Some (c, st) /\ r = snd (beh c st a).
(** operator bool says whether there is a functor *)
Definition bools (m : list eevent -> nat -> option (nat * nat)) (tr : list eevent) : Prop :=
  forall t1 x b t2, tr = t1 ++ VBool x b :: t2 -> (b = true <-> m t1 x <> None).
(** the calls of the functors of class c do not change the bytes of the object *)
Definition stateless (c : nat) : Prop := forall st a, fst (beh c st a) = st.
End Beh.

(** client rule: callbacks that are called are not null, and no item is armed twice or with a null callback *)
Definition nonnull (m : list eevent -> nat -> option (nat * nat)) (tr : list eevent) (l : elabel) : Prop :=
  match l with
  | LCall x _ => m tr x <> None
  | LArm x y => m tr y <> None /\ forall z, ~ In (VArm x z) tr
  | _ => True
  end.
