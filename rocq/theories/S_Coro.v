(** Specification of co_await: what a program does, without any coroutines. *)
From Coq Require Import List Arith Bool.
From Verif Require Import Lts M_Result M_Coro.
Import ListNotations.

(** The events of the leaves *)
Definition obs (tr : list kevent) : list kevent := filter (fun e => match e with EStart _ | EComp _ => true | _ => false end) tr.
Definition dones (tr : list kevent) : list nat := flat_map (fun e => match e with EDone v => [v] | _ => [] end) tr.
Definition allocs (tr : list kevent) : list nat := flat_map (fun e => match e with EAlloc n => [n] | _ => [] end) tr.
Definition frees (tr : list kevent) : list nat := flat_map (fun e => match e with EFree n => [n] | _ => [] end) tr.
Definition starts (tr : list kevent) : list nat := flat_map (fun e => match e with EStart l => [l] | _ => [] end) tr.

(** [ret p tr v]: p, as a sequential program in which a leaf is a call that blocks, does tr and returns v. *)
Inductive ret : prog -> list kevent -> nat -> Prop :=
| ret_ret v : ret (Ret v) [] v
| ret_leaf l k x tr v : ret (k x) tr v -> ret (Leaf l k) (EStart l :: EComp x :: tr) v
| ret_call p k t1 x t2 v : ret p t1 x -> ret (k x) t2 v -> ret (Call p k) (t1 ++ t2) v
| ret_drop p k tr v : ret k tr v -> ret (Drop p k) tr v.
(** [pre p tr]: the sequential program p may have done tr so far. *)
Inductive pre : prog -> list kevent -> Prop :=
| pre_nil p : pre p []
| pre_start l k : pre (Leaf l k) [EStart l]
| pre_leaf l k x tr : pre (k x) tr -> pre (Leaf l k) (EStart l :: EComp x :: tr)
| pre_in p k tr : pre p tr -> pre (Call p k) tr
| pre_call p k t1 x t2 : ret p t1 x -> pre (k x) t2 -> pre (Call p k) (t1 ++ t2)
| pre_drop p k tr : pre k tr -> pre (Drop p k) tr.

(** All threads have returned from the library and from the coroutines. *)
Definition k_quiet (s : kst) : Prop := forall st, In st (k_ths s) -> st = [].
(** The number of co_await expressions that were evaluated (and of coroutines that were dropped) *)
Definition awaits (tr : list kevent) : nat := length (starts tr) + length (allocs tr).
(** The height of the highest call stack *)
Definition height (s : kst) : nat := list_max (map (@length frame) (k_ths s)).
(** Thread t executes the body of a coroutine of the program. *)
Definition runs (s : kst) (t : nat) : Prop := exists c p st, nth_error (k_ths s) t = Some (KBody c p :: st).
