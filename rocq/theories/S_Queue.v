(** Specification of async::queue on traces. *)
From Coq Require Import List Arith Bool.
From Verif Require Import Lts M_Wait S_Wait M_Queue.
Import ListNotations.

Section Spec.
Context {T : Type}.
Notation trace := (list (event (queue_prim T))).

(** The items put into the queue, in order. *)
Fixpoint puts (tr : trace) : list T :=
  match tr with
  | [] => []
  | EPrim (EPut x) :: tr' => x :: puts tr'
  | _ :: tr' => puts tr'
  end.

(** The consumers, in the order in which they entered the queue: async_get operations (with their identity)
    and maybe_get calls (with their result). *)
Inductive consumer := Getter (o : nat) | Taker (r : option T).

Fixpoint consumers (tr : trace) : list consumer :=
  match tr with
  | [] => []
  | EStart o _ _ :: tr' => Getter o :: consumers tr'
  | EPrim (EMaybeGet r) :: tr' => Taker r :: consumers tr'
  | _ :: tr' => consumers tr'
  end.

Definition opt_list (r : option T) : list T := match r with Some x => [x] | None => [] end.

(** The items handed out to a list of consumers if the async_get operation [o] gets [res o]. *)
Definition handed (res : nat -> option T) (c : consumer) : list T :=
  match c with Getter o => opt_list (res o) | Taker r => opt_list r end.

(** What the receivers were told so far; None for operations that were not notified. *)
Fixpoint reported (tr : trace) (o : nat) : option T :=
  match tr with
  | [] => None
  | EDone o' v :: tr' => if Nat.eqb o' o then v else reported tr' o
  | _ :: tr' => reported tr' o
  end.

End Spec.
Arguments consumer T : clear implicits.
