(** The intrusive lists of the wait primitives and of cancellation_event, with the hooks of their nodes: the machine of M_Wait with the
    checks of frg::intrusive_list added.

    Modelled code: every use of a list in cancellation.hpp (253, 305-306, 339, 342-345), queue.hpp (37-38, 57, 89),
    recurring-event.hpp (59, 67-71, 79-80, 107), wait-group.hpp (65, 69-73, 82-83, 109), promise.hpp (76-77, 96, 100-104, 259),
    post-ack.hpp (63, 99-106, 109-112, 342).

    An operation has two hooks: the one of its cancellation_resolver (cancellation.hpp 21), for _cbs of a cancellation_event or for
    the local list of cancel(), and the one of its node (queue.hpp 30, recurring-event.hpp 40, wait-group.hpp 34, promise.hpp 58,
    post-ack.hpp 51), for the list of the primitive or for the local list of the code that wakes.

    Contract of frg::intrusive_list (a dependency, its code is not part of the repository): a hook knows whether it is linked; linking a
    linked hook and unlinking an unlinked hook are failing assertions; linking, unlinking and splicing write to the neighbours.
    Simplification: such an operation counts as an access to all nodes of the list.  Destroying a linked node counts as a failure. *)
From Coq Require Import List Arith Bool.
From Verif Require Import Lts M_Wait M_Queue M_Recurring M_WaitGroup M_Future M_PostAck.
Import ListNotations.

(** The list of a primitive; [li_keep]: the nodes that a step takes out of it stay linked, in a local list, from which the code that
    calls complete() pops them; otherwise they are unlinked in the critical section. *)
Record listof (P : prim) := ListOf { li_q : PS P -> list nat; li_keep : bool }.
Arguments ListOf {P}. Arguments li_q {P}. Arguments li_keep {P}.

Section Lists.
Variable P : prim.
Variable L : listof P.
Variable eager : bool.

(** The state of M_Wait and, for every operation, whether the hook of its resolver and the hook of its node are linked *)
Record lst := LS { l_base : cst P; l_ev : nat -> bool; l_pr : nat -> bool }.
Definition l_init0 : lst := LS (c_init P) (fun _ => false) (fun _ => false).

(** Do all these operations exist?  Their hooks are not linked any more (helpers) *)
Definition alive_all (s : cst P) (os : list nat) : bool := forallb (fun o => o_alive (c_op s o)) os.
Definition unhook (f : nat -> bool) (os : list nat) : nat -> bool := fun o => if memb o os then false else f o.

(** push_back of [o] to a list with nodes [q] *)
Definition li_push (s : cst P) (q : list nat) (o : nat) (f : nat -> bool) : failure + (nat -> bool) :=
  if negb (alive_all s q) then inl UseAfterFree else if f o then inl AssertFailed else inr (upd f o true).
(** erase or pop_front of the nodes [os] of a list with nodes [q] *)
Definition li_erase (s : cst P) (q os : list nat) (f : nat -> bool) : failure + (nat -> bool) :=
  if negb (alive_all s q) then inl UseAfterFree else if negb (forallb f os) then inl AssertFailed else inr (unhook f os).
(** splice of a list with nodes [q] *)
Definition li_splice (s : cst P) (q : list nat) (f : nat -> bool) : failure + (nat -> bool) :=
  if negb (alive_all s q) then inl UseAfterFree else inr f.

(** What a step does to the hooks of the resolvers *)
Definition ev_hooks (s : cst P) (f : nat -> bool) (l : label P) : failure + (nat -> bool) :=
  match l with
  | LPath o x =>
      match get_pc x (c_op s o), o_tok (c_op s o) with
      | PListen, Some e => (* cancellation.hpp 252-253 *)
          if e_req (c_ev s e) then inr f else li_push s (e_cbs (c_ev s e)) o f
      | PUnreg, Some e =>  (* cancellation.hpp 303-306 *)
          if e_req (c_ev s e) then inr f else li_erase s (e_cbs (c_ev s e)) [o] f
      | _, _ => inr f
      end
  | LCancel e => li_splice s (e_cbs (c_ev s e)) f   (* cancellation.hpp 339 *)
  | LCanNext k =>                                   (* cancellation.hpp 343-344 *)
      match nth_error (c_cn s) k with
      | Some lp => match lp_rest lp with o :: _ => li_erase s (lp_rest lp) [o] f | [] => inr f end
      | None => inr f
      end
  | LDestroy o => if f o then inl BadUnlink else inr f
  | _ => inr f
  end.

(** What a step does to the hooks of the nodes *)
Definition pr_hooks (s : cst P) (f : nat -> bool) (l : label P) : failure + (nat -> bool) :=
  match l with
  | LStart o _ a =>   (* queue.hpp 89, recurring-event.hpp 107, wait-group.hpp 109, promise.hpp 259, post-ack.hpp 342 *)
      match p_start P (c_prim s) o a with SQueued _ _ => li_push s (li_q L (c_prim s)) o f | _ => inr f end
  | LPath o x =>      (* queue.hpp 37-38, recurring-event.hpp 79-80, wait-group.hpp 82-83, promise.hpp 76-77, post-ack.hpp 63 *)
      match get_pc x (c_op s o) with
      | PTry => match p_try P (c_prim s) o with TOk _ true => li_erase s (li_q L (c_prim s)) [o] f | _ => inr f end
      | _ => inr f
      end
  | LWakeNext k =>    (* recurring-event.hpp 68-69, wait-group.hpp 70-71, promise.hpp 101-102, post-ack.hpp 110 *)
      match nth_error (c_wk s) k with
      | Some lp =>
          match lp_rest lp with o :: _ => if li_keep L then li_erase s (lp_rest lp) [o] f else inr f | [] => inr f end
      | None => inr f
      end
  | LPrim pl =>       (* queue.hpp 57, recurring-event.hpp 59, wait-group.hpp 65, promise.hpp 96, post-ack.hpp 99-106 *)
      match p_step P (c_prim s) pl with
      | POk _ taken _ => if li_keep L then li_splice s (li_q L (c_prim s)) f else li_erase s (li_q L (c_prim s)) taken f
      | _ => inr f
      end
  | LDestroy o => if f o then inl BadUnlink else inr f
  | _ => inr f
  end.

(** A step of M_Wait together with what it does to the hooks *)
Definition lists_step (h : lst) (l : label P) : outcome lst (event P) :=
  let s := l_base h in
  match step P eager s l with
  | Next s' es =>
      match ev_hooks s (l_ev h) l, pr_hooks s (l_pr h) l with
      | inl x, _ => Fail x es
      | _, inl x => Fail x es
      | inr f, inr g => Next (LS s' f g) es
      end
  | Disabled => Disabled
  | Fail x es => Fail x es
  end.

End Lists.
Arguments LS {P}. Arguments l_base {P}. Arguments l_ev {P}. Arguments l_pr {P}.

(** queue.hpp 163-170: sinks_; emplace() pops the sink in its critical section (line 57) *)
Definition queue_list (T : Type) : listof (queue_prim T) := ListOf (fun s : PS (queue_prim T) => q_sinks s) false.
(** recurring-event.hpp 193-200: queue_ *)
Definition recurring_list (U : ruser) : listof (recurring_prim U) := ListOf (fun s : PS (recurring_prim U) => r_q s) true.
(** wait-group.hpp 178-185: queue_ *)
Definition wait_group_list (V : Type) (n0 : nat) : listof (wait_group V n0) := ListOf (fun s : PS (wait_group V n0) => w_q s) true.
(** promise.hpp 62-69: queue_ *)
Definition future_list (T : Type) : listof (future_prim T) := ListOf (fun s : PS (future_prim T) => f_q s) true.
(** post-ack.hpp 165-172: poll_queue_ *)
Definition post_ack_list (T : Type) : listof (post_ack T) := ListOf (fun s : PS (post_ack T) => k_pq s) true.
