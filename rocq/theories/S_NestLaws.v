(** Laws of nested algorithms: which expressions of M_Nest.v mean the same. *)
From Coq Require Import List Arith Bool Permutation.
From Verif Require Import Lts M_Nest.
Import ListNotations.

(** Expressions that differ by applications of the laws, anywhere inside *)
Inductive eqv : ex -> ex -> Prop :=
| q_refl : forall x, eqv x x
| q_sym : forall x y, eqv x y -> eqv y x
| q_tran : forall x y z, eqv x y -> eqv y z -> eqv x z
(* inside of an expression *)
| q_trans : forall x y f, eqv x y -> eqv (XTrans x f) (XTrans y f)
| q_ite : forall c a b a' b', eqv a a' -> eqv b b' -> eqv (XIte c a b) (XIte c a' b')
| q_rep : forall c g body body', (forall v, eqv (body v) (body' v)) -> eqv (XRep c g body) (XRep c g body')
| q_let : forall p g body body', (forall v, eqv (body v) (body' v)) -> eqv (XLet p g body) (XLet p g body')
| q_seq : forall x y l m, eqv x y -> eqvl l m -> eqv (XSeq x l) (XSeq y m)
| q_all : forall x y l m, eqv x y -> eqvl l m -> eqv (XAll x l) (XAll y m)
| q_race : forall r x y l m, eqv x y -> eqvl l m -> eqv (XRace r x l) (XRace r y m)
(* sequence() of one sender; nested sequences *)
| q_single : forall x, eqv (XSeq x []) x
| q_first : forall x l m, eqv (XSeq (XSeq x l) m) (XSeq x (l ++ m))
| q_later : forall x l y m n, eqv (XSeq x (l ++ XSeq y m :: n)) (XSeq x (l ++ y :: m ++ n))
(* transform() moves to the last one *)
| q_trans_seq : forall x l y f, eqv (XTrans (XSeq x (l ++ [y])) f) (XSeq x (l ++ [XTrans y f]))
| q_trans_ite : forall c a b f, eqv (XTrans (XIte c a b) f) (XIte c (XTrans a f) (XTrans b f))
| q_trans_let : forall p g body f, eqv (XTrans (XLet p g body) f) (XLet p g (fun v => XTrans (body v) f))
(* what follows a choice moves into it *)
| q_seq_ite : forall c a b l, eqv (XSeq (XIte c a b) l) (XIte c (XSeq a l) (XSeq b l))
| q_seq_let : forall p g body l, eqv (XSeq (XLet p g body) l) (XLet p g (fun v => XSeq (body v) l))
(* when_all() in any order; nested *)
| q_perm : forall x y l m, Permutation (x :: l) (y :: m) -> eqv (XAll x l) (XAll y m)
| q_flat : forall x l m, eqv (XAll (XAll x l) m) (XAll x (l ++ m))
with eqvl : list ex -> list ex -> Prop :=
| ql_nil : eqvl [] []
| ql_cons : forall x y l m, eqv x y -> eqvl l m -> eqvl (x :: l) (y :: m).
