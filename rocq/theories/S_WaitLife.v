(** Specification vocabulary for the lifetime of cancellation events and of primitives. *)
From Coq Require Import List Arith Bool.
From Verif Require Import Lts M_Wait M_WaitLife.
Import ListNotations.

Section Spec.
Context {P : prim}.

(** The same schedule and the same trace without the destructions *)
Fixpoint steps_of (ls : list (flabel P)) : list (label P) :=
  match ls with
  | [] => []
  | FStep l :: ls' => l :: steps_of ls'
  | _ :: ls' => steps_of ls'
  end.
Fixpoint waits_of (tr : list (fevent P)) : list (event P) :=
  match tr with
  | [] => []
  | FE x :: tr' => x :: waits_of tr'
  | _ :: tr' => waits_of tr'
  end.

(** The result of a run, without the destructions *)
Definition undeleted (r : result (life P) (fevent P)) : result (cst P) (event P) :=
  match r with
  | Running h tr => Running (f_base h) (waits_of tr)
  | Stuck => Stuck
  | Failed f tr => Failed f (waits_of tr)
  end.

End Spec.
