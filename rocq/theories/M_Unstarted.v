(** Destruction of nested operations that were connected but never started (include/async/algorithm.hpp 82-802, cancellation.hpp 484-592, wait-group.hpp 188-251); see M_Connect.v for the cells and the simplifications. *)
From Coq Require Import List Bool.
From Verif Require Import M_Connect.
Import ListNotations.

(** The destructor of an operation on which start() was not called: then_op_ and else_op_ of ite() are not valid (lines 189-194), repeat_while() and sequence() have an empty box_, but the destructor of let()
    destroys its inner operation anyway (461-463) *)
Fixpoint dtor0 (e : sexp) (p : path) (r : rcv) (tk : list cell) : list action :=
  match e with
  | SLeaf l => opt (l_env_d l) [AEnv r] ++ opt (l_tok_d l) (uses tk) ++ [AEnd (p, FOp)]
  | STransform s => dtor0 s p (RVal r) tk
  | SLambda s => dtor0 s (0 :: p) r tk ++ [AEnd (p, FFn)]
  | SWithCancel s => [AEnd (p, FObs); AEnd (p, FDr); AEnd (p, FCb)] ++ dtor0 s (0 :: p) (RPtr p r) tk
  | SInGroup s => dtor0 s (0 :: p) (RPtr p r) tk ++ [AEnd (p, FDr)]
  | SIte _ _ _ => [AEnd (p, FDr)]
  | SLet s => dtor s (0 :: p) r tk ++ [AEnd (p, FDr); AEnd (p, FFn)]
  | SRepeat _ _ => [AEnd (p, FDr)]
  | SSequence _ => [AEnd (p, FDr)]
  | SWhenAll l => [AEnd (p, FCtr)] ++ dtors0 l 0 p (RPtr p r) tk ++ [AEnd (p, FDr)]
  | SRace l => [AEnd (p, FCtr); AEnd (p, FCs)] ++ dtors0 l 0 p (RPtr p r) ((p, FCs) :: tk) ++ [AEnd (p, FDr)]
  end
with dtors0 (l : slist) (i : nat) (p : path) (r : rcv) (tk : list cell) : list action :=
  match l with SNil => [] | SCons _ s l => dtors0 l (S i) p r tk ++ dtor0 s (i :: p) r tk end.

(** The life of an operation that is connected to the receiver of a client and destroyed without start() *)
Definition life0 (e : sexp) (env : nat) : list action := conn e [] (RRoot env) [] ++ dtor0 e [] (RRoot env) [].
