(** The call stack of nestings: bounds on expressions and executions. *)
From Coq Require Import List Arith Bool.
From Verif Require Import Lts M_Nest M_NestStack.
Import ListNotations.

(** start() of every expression inside of it needs at most [m] frames; no when_all and race_and_cancel *)
Inductive width (m : nat) : ex -> Prop :=
| wd_inv : forall f, 1 <= m -> width m (XInv f)
| wd_leaf : forall i, 1 <= m -> width m (XLeaf i)
| wd_trans : forall x f, width m x -> width m (XTrans x f)
| wd_ite : forall c a b, 1 <= m -> width m a -> width m b -> width m (XIte c a b)
| wd_rep : forall c g body, 2 <= m -> (forall v, width m (body v)) -> width m (XRep c g body)
| wd_let : forall p g body, 1 <= m -> (forall v, width m (body v)) -> width m (XLet p g body)
| wd_seq : forall x l, sfr (XSeq x l) <= m -> (forall y, In y (x :: l) -> width m y) -> width m (XSeq x l).
(** Steps since a leaf operation returned for the last time *)
Fixpoint since (n : nat) (ls : list hlabel) : nat :=
  match ls with [] => n | HReturn :: ls' => since 0 ls' | HL _ :: ls' => since (S n) ls' end.
