(** Specification vocabulary for the construction and destruction of nested operations. *)
From Coq Require Import List Arith Bool.
From Verif Require Import M_Connect.
Import ListNotations.

(** Does connect() of the sender, respectively the destructor of its operation, call get_env() on the receiver?  Does it use the tokens in scope? *)
Fixpoint asks_c (e : sexp) : bool :=
  match e with
  | SLeaf l => l_env_c l
  | STransform s | SLambda s | SWithCancel s | SInGroup s => asks_c s
  | SIte _ _ _ | SLet _ | SRepeat _ _ | SSequence _ => false
  | SWhenAll l | SRace l => asks_cs l
  end
with asks_cs (l : slist) : bool := match l with SNil => false | SCons _ s l => asks_c s || asks_cs l end.
Fixpoint toks_c (e : sexp) : bool :=
  match e with
  | SLeaf l => l_tok_c l
  | STransform s | SLambda s | SWithCancel s | SInGroup s => toks_c s
  | SIte _ _ _ | SLet _ | SRepeat _ _ | SSequence _ => false
  | SWhenAll l | SRace l => toks_cs l
  end
with toks_cs (l : slist) : bool := match l with SNil => false | SCons _ s l => toks_c s || toks_cs l end.
Fixpoint asks_d (e : sexp) : bool :=
  match e with
  | SLeaf l => l_env_d l
  | STransform s | SLambda s | SWithCancel s | SInGroup s | SLet s => asks_d s
  | SIte b s1 s2 => asks_d (if b then s1 else s2)
  | SRepeat _ _ | SSequence _ => false
  | SWhenAll l | SRace l => asks_ds l
  end
with asks_ds (l : slist) : bool := match l with SNil => false | SCons _ s l => asks_d s || asks_ds l end.
Fixpoint toks_d (e : sexp) : bool :=
  match e with
  | SLeaf l => l_tok_d l
  | STransform s | SLambda s | SWithCancel s | SInGroup s | SLet s => toks_d s
  | SIte b s1 s2 => toks_d (if b then s1 else s2)
  | SRepeat _ _ | SSequence _ => false
  | SWhenAll l | SRace l => toks_ds l
  end
with toks_ds (l : slist) : bool := match l with SNil => false | SCons _ s l => toks_d s || toks_ds l end.
(** Does a functor use its token when it is called? *)
Fixpoint eager (l : slist) : bool := match l with SNil => false | SCons u _ l => u || eager l end.

(** What clients have to avoid: below with_cancel_cb(), no connect() and no destructor calls get_env(); below race_and_cancel(), no functor, no connect() and no destructor uses the token. *)
Fixpoint careful (e : sexp) : bool :=
  match e with
  | SLeaf _ => true
  | STransform s | SLambda s | SInGroup s | SLet s => careful s
  | SWithCancel s => negb (asks_c s) && negb (asks_d s) && careful s
  | SIte b s1 s2 => careful (if b then s1 else s2)
  | SRepeat n s => (n =? 0) || careful s
  | SSequence l | SWhenAll l => carefuls l
  | SRace l => negb (eager l) && negb (toks_cs l) && negb (toks_ds l) && carefuls l
  end
with carefuls (l : slist) : bool := match l with SNil => true | SCons _ s l => careful s && carefuls l end.
