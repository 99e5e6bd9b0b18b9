(** Accesses to async::detail::shared_mutex itself (include/async/mutex.hpp 181-612) under the C++ memory model: M_SharedMutexW.v with a
    record of these accesses, as in M_MutexWD.v.

    Not recorded: calls of try_lock_shared() (not those of start()) and failing calls of try_lock(); the caller has to order them by other means. *)
From Coq Require Import List Arith Bool.
From Verif Require Import Lts M_Mutex M_SharedMutex M_Weak M_SharedMutexW.
Import ListNotations.

(** the k-th call makes the n-th access, unless it is try_lock_shared() *)
Definition is_try (a : ract) : bool := match a with STry None | STryL None _ => true | _ => false end.
Definition y_mark (s : yst) (k n : nat) : yst * nat :=
  match nth_error (y_act s) k with
  | Some (a, v) => if is_try a then (s, n) else (y_set s k a (vadd v (TCall n)), S n)
  | None => (s, n)
  end.
Definition y_lift (n : nat) (r : outcome yst sevent) : outcome (yst * nat) sevent :=
  match r with Next s es => Next (s, n) es | Disabled => Disabled | Fail f es => Fail f es end.

(** No accesses yet; one step of M_SharedMutexW.v with the accesses to the mutex recorded *)
Definition u_init : yst * nat := (y_init, 0).
Definition u_step (d : ord) (z : yst * nat) (l : ylabel) : outcome (yst * nat) sevent :=
  let (s, n) := z in
  match l with
  | YStep k i spur => let (s1, n1) := y_mark s k n in y_lift n1 (y_step d s1 l)
  | YTryX v i =>
      match casr_read false false (y_h s) v i (RV MNone 0) with
      | RCasOk => y_lift (S n) (y_step d s (YTryX (vadd v (TCall n)) i))
      | _ => y_lift n (y_step d s l)
      end
  | _ => y_lift n (y_step d s l)
  end.
