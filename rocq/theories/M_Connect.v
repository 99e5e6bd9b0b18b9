(** Construction and destruction of the operations of nested algorithms (include/async/algorithm.hpp 82-802, cancellation.hpp 484-592, wait-group.hpp 188-251): in which order the
    members of an operation are initialized by connect() and destroyed by the destructor, and what is used meanwhile.

    A sender expression is connected to a receiver, started, completes, and its operation is destroyed.  Each phase is the list of what happens to the members of the operations, in program order.  Senders of
    clients (leaves) may call get_env() on their receiver, and use the cancellation tokens that were passed to the functors of the enclosing race_and_cancel(), in each phase; a functor of race_and_cancel() may use
    its token when it is called.

    Simplifications: everything runs on one thread, and the operations of when_all() and race_and_cancel() complete one after the other (the interleavings are in M_Nest.v); every
    operation is started and completes before it is destroyed; members that are always initialized and destroyed together, with no call of client code in between, are one cell; values are not modelled.  A token that is not one of
    race_and_cancel() belongs to an event of the client, which is constructed before. *)
From Coq Require Import List Arith Bool.
Import ListNotations.

(** The address of an operation in the tree of operations, innermost index first; a part of an operation:
    - FOp: the operation of a leaf
    - FDr: dr_ (r_, originalr_) with the members that are initialized before or after it without client code in between
    - FCtr: ctr_ of when_all() (line 722), n_sync_ and n_done_ of race_and_cancel() (429-430)
    - FCs: cs_ of race_and_cancel() (428)
    - FCb, FObs: cb_, and ct_, cobs_, cancel_state_, value_ of with_cancel_cb() (cancellation.hpp 543-563)
    - FFn: fn_ of lambda() (762), pred_, func_ and imm_ of let() (472-474) *)
Definition path := list nat.
Inductive field := FOp | FDr | FCtr | FCs | FCb | FObs | FFn.
Definition cell : Type := path * field.
Definition field_eq (a b : field) : {a = b} + {a <> b}.
Proof. decide equality. Defined.
Definition cell_eq (a b : cell) : {a = b} + {a <> b}.
Proof. destruct a as [p f], b as [q g]. destruct (list_eq_dec Nat.eq_dec p q), (field_eq f g); [left|right..]; congruence. Defined.

(** Receivers: the one of the client, with its environment; one that contains the downstream receiver (transform, lines 87-106, 109-129); one that points to the operation at p, which contains it *)
Inductive rcv := RRoot (e : nat) | RVal (r : rcv) | RPtr (p : path) (r : rcv).
(** Whose environment get_env() finds (lines 97, 120, 292, 374, 614, 680; cancellation.hpp 514; wait-group.hpp 213); the dr_ that it reads *)
Fixpoint env_of (r : rcv) : nat := match r with RRoot e => e | RVal r | RPtr _ r => env_of r end.
Fixpoint reads (r : rcv) : list cell := match r with RRoot _ => [] | RVal r => reads r | RPtr p r => (p, FDr) :: reads r end.

(** A sender of a client: does it call get_env() on its receiver, or use the tokens, in connect(), in start(), in the destructor of the operation? *)
Record leaf := LF { l_env_c : bool; l_tok_c : bool; l_env_s : bool; l_tok_s : bool; l_env_d : bool; l_tok_d : bool }.
(** Sender expressions; the choice of ite() and the number of iterations of repeat_while(); for each functor of race_and_cancel(), whether it uses its token when it is called *)
Inductive sexp :=
| SLeaf (l : leaf)
| STransform (s : sexp)
| SLambda (s : sexp)
| SWithCancel (s : sexp)
| SInGroup (s : sexp)
| SIte (b : bool) (s1 s2 : sexp)
| SLet (s : sexp)
| SRepeat (n : nat) (s : sexp)
| SSequence (l : slist)
| SWhenAll (l : slist)
| SRace (l : slist)
with slist := SNil | SCons (use : bool) (s : sexp) (l : slist).

(** What happens: the initialization of a cell, its destruction, its use, get_env() on a receiver *)
Inductive action := AInit (c : cell) | AEnd (c : cell) | AUse (c : cell) | AEnv (r : rcv).
Definition opt (b : bool) (l : list action) : list action := if b then l else [].
Definition uses (tk : list cell) : list action := map AUse tk.

(** The functors of race_and_cancel() are called, lines 393-400 *)
Fixpoint functors (l : slist) (p : path) : list action := match l with SNil => [] | SCons u _ l => opt u [AUse (p, FCs)] ++ functors l p end.

(** connect(), the constructor of the operation at p; the tokens in scope *)
Fixpoint conn (e : sexp) (p : path) (r : rcv) (tk : list cell) : list action :=
  match e with
  | SLeaf l => opt (l_env_c l) [AEnv r] ++ opt (l_tok_c l) (uses tk) ++ [AInit (p, FOp)]
  | STransform s => conn s p (RVal r) tk                                                            (* lines 139-142, 159-162 *)
  | SLambda s => [AInit (p, FFn); AUse (p, FFn)] ++ conn s (0 :: p) r tk                            (* 755-756 *)
  | SWithCancel s => conn s (0 :: p) (RPtr p r) tk ++ [AInit (p, FCb); AInit (p, FDr); AInit (p, FObs)]   (* cancellation.hpp 487-491: op_ is the first member *)
  | SInGroup s => [AInit (p, FDr)] ++ conn s (0 :: p) (RPtr p r) tk                                 (* wait-group.hpp 220-224 *)
  | SIte _ _ _ => [AInit (p, FDr)]                                                                  (* 181-183 *)
  | SLet _ => [AInit (p, FFn); AInit (p, FDr)]                                                      (* 455-456 *)
  | SRepeat _ _ => [AInit (p, FDr)]                                                                 (* 254-255 *)
  | SSequence _ => [AInit (p, FDr)]                                                                 (* 515-516 *)
  | SWhenAll l => [AInit (p, FDr)] ++ conns l 0 p (RPtr p r) tk ++ [AInit (p, FCtr)]                (* 701-704 *)
  | SRace l => [AInit (p, FDr)] ++ functors l p ++ conns l 0 p (RPtr p r) ((p, FCs) :: tk) ++ [AInit (p, FCs); AInit (p, FCtr)]   (* 404-405, members 426-430: ops_ before cs_ *)
  end
with conns (l : slist) (i : nat) (p : path) (r : rcv) (tk : list cell) : list action :=
  match l with SNil => [] | SCons _ s l => conn s (i :: p) r tk ++ conns l (S i) p r tk end.

(** The destructor *)
Fixpoint dtor (e : sexp) (p : path) (r : rcv) (tk : list cell) : list action :=
  match e with
  | SLeaf l => opt (l_env_d l) [AEnv r] ++ opt (l_tok_d l) (uses tk) ++ [AEnd (p, FOp)]
  | STransform s => dtor s p (RVal r) tk
  | SLambda s => dtor s (0 :: p) r tk ++ [AEnd (p, FFn)]
  | SWithCancel s => [AEnd (p, FObs); AEnd (p, FDr); AEnd (p, FCb)] ++ dtor s (0 :: p) (RPtr p r) tk
  | SInGroup s => dtor s (0 :: p) (RPtr p r) tk ++ [AEnd (p, FDr)]
  | SIte b s1 s2 => dtor (if b then s1 else s2) (0 :: p) r tk ++ [AEnd (p, FDr)]                    (* 189-194 *)
  | SLet s => dtor s (0 :: p) r tk ++ [AEnd (p, FDr); AEnd (p, FFn)]                                (* 461-463 *)
  | SRepeat _ _ => [AEnd (p, FDr)]                                                                  (* box_ is empty *)
  | SSequence _ => [AEnd (p, FDr)]
  | SWhenAll l => [AEnd (p, FCtr)] ++ dtors l 0 p (RPtr p r) tk ++ [AEnd (p, FDr)]
  | SRace l => [AEnd (p, FCtr); AEnd (p, FCs)] ++ dtors l 0 p (RPtr p r) ((p, FCs) :: tk) ++ [AEnd (p, FDr)]
  end
with dtors (l : slist) (i : nat) (p : path) (r : rcv) (tk : list cell) : list action :=
  match l with SNil => [] | SCons _ s l => dtors l (S i) p r tk ++ dtor s (i :: p) r tk end.

(** From start() to the call of set_value() on r *)
Fixpoint go (e : sexp) (p : path) (r : rcv) (tk : list cell) : list action :=
  match e with
  | SLeaf l => opt (l_env_s l) [AEnv r] ++ opt (l_tok_s l) (uses tk) ++ [AUse (p, FOp)]
  | STransform s => go s p (RVal r) tk
  | SLambda s => go s (0 :: p) r tk
  | SWithCancel s => [AUse (p, FObs)] ++ go s (0 :: p) (RPtr p r) tk ++ [AUse (p, FObs); AUse (p, FDr)]     (* cancellation.hpp 497-500, 506-511, 533-540 *)
  | SInGroup s => [AUse (p, FDr)] ++ go s (0 :: p) (RPtr p r) tk ++ [AUse (p, FDr)]                         (* wait-group.hpp 225-228, 206-210 *)
  | SIte b s1 s2 => let s := if b then s1 else s2 in [AUse (p, FDr)] ++ conn s (0 :: p) r tk ++ go s (0 :: p) r tk            (* 196-208 *)
  | SLet s => [AUse (p, FFn); AUse (p, FDr)] ++ conn s (0 :: p) r tk ++ go s (0 :: p) r tk                                    (* 466-470 *)
  | SRepeat n s =>                                                                                                            (* 261-289 *)
      concat (repeat ([AUse (p, FDr)] ++ conn s (0 :: p) (RPtr p r) tk ++ go s (0 :: p) (RPtr p r) tk ++ dtor s (0 :: p) (RPtr p r) tk) n) ++ [AUse (p, FDr)]
  | SSequence l => steps l p (RPtr p r) tk ++ [AUse (p, FDr)]                                                                 (* 522-612 *)
  | SWhenAll l => gos l 0 p (RPtr p r) tk [(p, FCtr)] ++ [AUse (p, FDr)]                                                      (* 673-679 *)
  | SRace l => gos l 0 p (RPtr p r) ((p, FCs) :: tk) [(p, FCtr); (p, FCs)] ++ [AUse (p, FDr)]                                 (* 362-372 *)
  end
(** the operations of when_all() and race_and_cancel(), each completion uses the cells [own] *)
with gos (l : slist) (i : nat) (p : path) (r : rcv) (tk own : list cell) : list action :=
  match l with SNil => [] | SCons _ s l => go s (i :: p) r tk ++ uses own ++ gos l (S i) p r tk own end
(** the operations of sequence(), one after the other in box_ *)
with steps (l : slist) (p : path) (r : rcv) (tk : list cell) : list action :=
  match l with SNil => [] | SCons _ s l => ([AUse (p, FDr)] ++ conn s (0 :: p) r tk ++ go s (0 :: p) r tk ++ dtor s (0 :: p) r tk) ++ steps l p r tk end.

(** The life of an operation with the receiver of a client *)
Definition life (e : sexp) (env : nat) : list action := conn e [] (RRoot env) [] ++ go e [] (RRoot env) [] ++ dtor e [] (RRoot env) [].

(** Which cells are initialized; the environments that get_env() returned.  It fails if a cell is used before its initialization or after its destruction, initialized twice, or destroyed twice *)
Definition mem := cell -> bool.
Definition set (m : mem) (c : cell) (b : bool) : mem := fun c' => if cell_eq c' c then b else m c'.
Definition act (m : mem) (a : action) : option (mem * list nat) :=
  match a with
  | AInit c => if m c then None else Some (set m c true, [])
  | AEnd c => if m c then Some (set m c false, []) else None
  | AUse c => if m c then Some (m, []) else None
  | AEnv r => if forallb m (reads r) then Some (m, [env_of r]) else None
  end.
Fixpoint exec (m : mem) (l : list action) : option (mem * list nat) :=
  match l with
  | [] => Some (m, [])
  | a :: l => match act m a with Some (m', es) => match exec m' l with Some (m2, es') => Some (m2, es ++ es') | None => None end | None => None end
  end.
Definition fresh : mem := fun _ => false.
