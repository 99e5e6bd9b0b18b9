(** Accesses to async::detail::mutex itself (include/async/mutex.hpp 9-179) under the C++ memory model: M_MutexW.v with a record of
    these accesses, in order to say when the mutex may be destroyed.

    Every step of a call of start() or unlock() and every successful try_lock() is an access to the mutex; the n-th one is the memory
    token TCall n, which the thread of the call knows from then on.  Nothing else changes.  (The steps that only call set_value() on a
    receiver are recorded as well, although they do not access the mutex.)

    Not recorded: failing calls of try_lock(); the caller has to order them by other means. *)
From Coq Require Import List Arith Bool.
From Verif Require Import Lts M_Mutex M_Weak M_MutexW.
Import ListNotations.

(** the k-th call makes the n-th access *)
Definition x_mark (s : xst) (k n : nat) : xst :=
  match nth_error (x_act s) k with Some (a, v) => x_set s k a (vadd v (TCall n)) | None => s end.
Definition x_lift (n : nat) (r : outcome xst wevent) : outcome (xst * nat) wevent :=
  match r with Next s es => Next (s, n) es | Disabled => Disabled | Fail f es => Fail f es end.

(** the mutex and the number of accesses to it *)
Definition z_init : xst * nat := (x_init, 0).
Definition z_step (z : xst * nat) (l : xlabel) : outcome (xst * nat) wevent :=
  let (s, n) := z in
  match l with
  | XStep k i spur => x_lift (S n) (x_step (x_mark s k n) l)
  | XTry v i =>
      match cas_read false false (x_h s) v i MNone with
      | CasOk => x_lift (S n) (x_step s (XTry (vadd v (TCall n)) i))
      | _ => x_lift n (x_step s l)
      end
  | _ => x_lift n (x_step s l)
  end.
