(** Specification vocabulary for the machine with lists. *)
From Coq Require Import List Arith Bool.
From Verif Require Import Lts M_Wait M_WaitLists.
Import ListNotations.

(** Forget the hooks *)
Definition forget {P : prim} (r : result (lst P) (event P)) : result (cst P) (event P) :=
  match r with Running h tr => Running (l_base h) tr | Stuck => Stuck | Failed f tr => Failed f tr end.

(** Operation [o] is in the list of callbacks of an event, or in the local list of a call of cancel(). *)
Definition in_event_list {P : prim} (o : nat) (s : cst P) : Prop :=
  (exists e, In o (e_cbs (c_ev s e))) \/ exists lp, In lp (c_cn s) /\ In o (lp_rest lp).

(** Operation [o] is in the list of the primitive, or in the local list of code that calls complete(). *)
Definition in_wait_list {P : prim} (L : listof P) (o : nat) (s : cst P) : Prop :=
  In o (li_q L (c_prim s)) \/ (li_keep L = true /\ exists lp, In lp (c_wk s) /\ In o (lp_rest lp)).
