(** Specification vocabulary for operations that are destroyed without start(). *)
From Coq Require Import List Bool.
From Verif Require Import M_Connect S_Connect.
Import ListNotations.

(** Does the destructor of an operation below call get_env(), or use the tokens, if nothing was started?  ite(), let(), repeat_while() and sequence() have no inner operation before start(). *)
Fixpoint asks_u (e : sexp) : bool :=
  match e with
  | SLeaf l => l_env_d l
  | STransform s | SLambda s | SWithCancel s | SInGroup s => asks_u s
  | SIte _ _ _ | SLet _ | SRepeat _ _ | SSequence _ => false
  | SWhenAll l | SRace l => asks_us l
  end
with asks_us (l : slist) : bool := match l with SNil => false | SCons _ s l => asks_u s || asks_us l end.
Fixpoint toks_u (e : sexp) : bool :=
  match e with
  | SLeaf l => l_tok_d l
  | STransform s | SLambda s | SWithCancel s | SInGroup s => toks_u s
  | SIte _ _ _ | SLet _ | SRepeat _ _ | SSequence _ => false
  | SWhenAll l | SRace l => toks_us l
  end
with toks_us (l : slist) : bool := match l with SNil => false | SCons _ s l => toks_u s || toks_us l end.

(** What clients have to avoid: the conditions of [careful] for the operations that are connected at once, and let() among these. *)
Fixpoint careful_u (e : sexp) : bool :=
  match e with
  | SLeaf _ | SIte _ _ _ | SRepeat _ _ | SSequence _ => true
  | SLet _ => false
  | STransform s | SLambda s | SInGroup s => careful_u s
  | SWithCancel s => negb (asks_c s) && negb (asks_u s) && careful_u s
  | SWhenAll l => carefuls_u l
  | SRace l => negb (eager l) && negb (toks_cs l) && negb (toks_us l) && carefuls_u l
  end
with carefuls_u (l : slist) : bool := match l with SNil => true | SCons _ s l => careful_u s && carefuls_u l end.
