(** Nestings with when_all that do not fail: specification. *)
From Coq Require Import List Arith Bool.
From Verif Require Import Lts M_Nest.
Import ListNotations.

(** It waits for a leaf operation before it completes, whatever user functions return. *)
Inductive aw : ex -> Prop :=
| aw_leaf : forall i, aw (XLeaf i)
| aw_trans : forall x f, aw x -> aw (XTrans x f)
| aw_ite : forall c a b, aw a -> aw b -> aw (XIte c a b)
| aw_let : forall p g body, (forall v, aw (body v)) -> aw (XLet p g body)
| aw_seq : forall x l y, In y (x :: l) -> aw y -> aw (XSeq x l)
| aw_all : forall x l y, In y (x :: l) -> aw y -> aw (XAll x l).
(** No race_and_cancel, and each when_all has a sender that waits for a leaf operation *)
Inductive ok : ex -> Prop :=
| ok_inv : forall f, ok (XInv f)
| ok_leaf : forall i, ok (XLeaf i)
| ok_trans : forall x f, ok x -> ok (XTrans x f)
| ok_ite : forall c a b, ok a -> ok b -> ok (XIte c a b)
| ok_rep : forall c g body, (forall v, ok (body v)) -> ok (XRep c g body)
| ok_let : forall p g body, (forall v, ok (body v)) -> ok (XLet p g body)
| ok_seq : forall x l, (forall y, In y (x :: l) -> ok y) -> ok (XSeq x l)
| ok_all : forall x l y, (forall y, In y (x :: l) -> ok y) -> In y (x :: l) -> aw y -> ok (XAll x l).
(** start() of a when_all has not returned. *)
Fixpoint pend (o : op) : bool :=
  match o with
  | OTrans _ o' | ORep _ _ _ o' | OSeq _ o' => pend o'
  | OAll st _ os => (st <=? length os) || existsb pend os
  | _ => false
  end.
Definition is_comp (e : nevent) : bool := match e with NComp _ _ => true | _ => false end.
(** Executions in which leaf operations complete only when no call of start() of a when_all is running, as in a program with one thread whose operations
    complete in its event loop *)
Definition c_step (o : op) (l : nlabel) : outcome op nevent :=
  match n_step o l with
  | Next o' es => if existsb is_comp es && pend o then Disabled else Next o' es
  | r => r
  end.
