(** The call stack of nestings whose leaf operations complete later: specification. *)
From Coq Require Import List Arith Bool.
From Verif Require Import Lts M_Nest M_NestStack.
Import ListNotations.

(** Executions in which leaf operations do not complete inside of their start() *)
Definition a_step (s : hst) (l : hlabel) : outcome hst nevent :=
  if h_on s && waits (h_op s) then match l with HReturn => h_step s HReturn | HL _ => Disabled end else h_step s l.
(** Expressions in which each iteration of a loop waits for a leaf operation, and a number of frames; with [true], it always waits for one before it completes *)
Inductive gr : ex -> bool -> nat -> Prop :=
| g_inv : forall f d, 1 <= d -> gr (XInv f) false d
| g_leaf : forall i b d, 1 <= d -> gr (XLeaf i) b d
| g_trans : forall x f b e d, gr x b e -> e + 1 <= d -> gr (XTrans x f) b d
| g_ite : forall c x y b e d, gr x b e -> gr y b e -> e + 1 <= d -> gr (XIte c x y) b d
| g_rep : forall c g body e d, (forall v, gr (body v) true e) -> 2 * e + 4 <= d -> gr (XRep c g body) false d
| g_let : forall p g body b e d, (forall v, gr (body v) b e) -> e + 1 <= d -> gr (XLet p g body) b d
| g_seq : forall x l b e d, (forall y, In y (x :: l) -> gr y false e) -> (b = true -> exists y, In y (x :: l) /\ gr y true e) -> (2 + e) * S (length l) + 1 <= d -> gr (XSeq x l) b d.
