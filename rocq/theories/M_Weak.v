(** The fragment of the C++20 memory model that the weak-memory models (M_MutexW, ...) use: one atomic location whose
    modification order is a list of messages, views (what happens before a point of a thread), and the platform mutex.

    - A view consists of a lower bound for the messages that the thread may still read (coherence), and of the accesses to
      non-atomic memory that happen before the current point of the thread.
    - A load may return any message that is not older than the view of the thread, not only the newest one.
    - An acquire operation joins the view released by the message it reads.
    - A read-modify-write operation reads the newest message, and continues the release sequences it belongs to: its
      message releases everything that the message it replaces releases, plus its own view if it is a release operation.
    - A relaxed store releases nothing.
    - A compare-exchange that fails is a load.  compare_exchange_strong fails only if it reads another value than expected.

    Not modelled: fences, consume and seq_cst order (not used by the modelled code), load buffering (the program order
    and the reads-from relation together are acyclic in every modelled execution), executions in which a store is placed
    before messages that do not happen before it; instead of that, a model that contains plain stores fails with DataRace
    if the position of the store is not determined. *)
From Coq Require Import List Arith Bool.
From Verif Require Import Lts.
Import ListNotations.

(** Accesses to non-atomic memory *)
Inductive memtok :=
| TData (n : nat)   (* the n-th access of the clients to the data they protect or hand over by the primitive *)
| TObj (o : nat)    (* the construction of the operation o (its list hook, its receiver, ...) *)
| TCall (n : nat).  (* the n-th access of the calls to the primitive itself (only in the models of its destruction) *)

(** A view: the newest message known of, and the ghost tokens; the view of nothing; the union of two views *)
Record view := V { v_ts : nat; v_tok : list memtok }.
Definition vbot : view := V 0 [].
Definition vjoin (a b : view) : view := V (Nat.max (v_ts a) (v_ts b)) (v_tok a ++ v_tok b).
Definition vadd (v : view) (t : memtok) : view := V (v_ts v) (t :: v_tok v).
(** the thread has seen the i-th message *)
Definition vsee (v : view) (i : nat) : view := V (Nat.max (v_ts v) i) (v_tok v).

(** A message: the value and the released view; the modification order, oldest message first *)
Notation hist A := (list (A * view)).
Definition newest {A} (h : hist A) : nat := pred (length h).
(** a load by a thread with view v that reads the i-th message *)
Definition rd {A} (h : hist A) (v : view) (i : nat) : option (A * view) := if v_ts v <=? i then nth_error h i else None.
(** what the newest message releases *)
Definition rel_of {A} (h : hist A) : view := match nth_error h (newest h) with Some (_, w) => w | None => vbot end.
(** a successful read-modify-write operation: the new modification order and the new view of the thread *)
Definition rmw_view {A} (acq : bool) (h : hist A) (v : view) : view := vsee (if acq then vjoin v (rel_of h) else v) (length h).
Definition rmw {A} (acq rel : bool) (h : hist A) (v : view) (x : A) : hist A :=
  h ++ [(x, if rel then vjoin (rel_of h) (rmw_view acq h v) else rel_of h)].
(** a relaxed store *)
Definition store_rlx {A} (h : hist A) (x : A) : hist A := h ++ [(x, vbot)].

(** The accesses to the data that a view knows of; does it know that object o is written? *)
Definition accs (v : view) : list nat := flat_map (fun t => match t with TData n => [n] | _ => [] end) (v_tok v).
Definition knows (v : view) (o : nat) : bool := existsb (fun t => match t with TObj o' => o' =? o | _ => false end) (v_tok v).
