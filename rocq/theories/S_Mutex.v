(** Specification vocabulary for mutex and shared_mutex, on traces. *)
From Coq Require Import List Arith Bool.
From Verif Require Import Lts M_Mutex.
Import ListNotations.

Notation ltrace := (list levent).

(** Number of acquisitions in exclusive ([x] = true) or shared mode: completed lock operations and successful tries *)
Definition is_acq (x : bool) (e : levent) : bool :=
  match e with EAcq _ y => Bool.eqb y x | ETry y b => Bool.eqb y x && b | _ => false end.
Definition acqs (x : bool) (tr : ltrace) : nat := length (filter (is_acq x) tr).
(** Number of calls of unlock() resp. unlock_shared() *)
Definition is_unl (x : bool) (e : levent) : bool := match e with EUnlock y => Bool.eqb y x | _ => false end.
Definition unls (x : bool) (tr : ltrace) : nat := length (filter (is_unl x) tr).
(** Number of owners *)
Definition held (x : bool) (tr : ltrace) : nat := acqs x tr - unls x tr.

(** Client rule: unlock() and unlock_shared() are called by owners of the respective kind. *)
Definition owners_unlock (tr : ltrace) : Prop := forall t1 x t2, tr = t1 ++ EUnlock x :: t2 -> unls x t1 < acqs x t1.

(** Operations in the order in which they were suspended / were taken off the list / acquired after having been suspended *)
Definition susps (tr : ltrace) : list nat := flat_map (fun e => match e with ESusp o => [o] | _ => [] end) tr.
Definition hands (tr : ltrace) : list nat := flat_map (fun e => match e with EHand o => [o] | _ => [] end) tr.
Definition acquired (tr : ltrace) : list nat := flat_map (fun e => match e with EAcq o _ => [o] | _ => [] end) tr.
Definition started_ops (tr : ltrace) : list nat := flat_map (fun e => match e with EStart o _ => [o] | _ => [] end) tr.

(** [o] was suspended before [o'] was started *)
Definition suspended_first (o o' : nat) (tr : ltrace) : Prop := exists t1 x t2, tr = t1 ++ EStart o' x :: t2 /\ In o (susps t1).

(** Operations that acquired the lock after having been suspended, in the order of acquisition *)
Definition served (tr : ltrace) : list nat := filter (fun o => existsb (Nat.eqb o) (susps tr)) (acquired tr).

(** No call is in flight. *)
Definition m_quiet (s : mst) : Prop := forall a, In a (m_act s) -> a = AEnd.
(** Steps of calls in flight; number of spurious failures *)
Definition internal (l : mlabel) : Prop := match l with MStep _ _ => True | _ => False end.
Definition nspur (ls : list mlabel) : nat := length (filter (fun l => match l with MStep _ true => true | _ => false end) ls).
