(** wait_group with cancellation (M_WaitGroupC) together with the happens-before relation of the C++ memory model.

    M_WaitHB adds the happens-before relation to the runs of M_WaitGroupC; it knows the mutex of the group, the mutexes of the events and state_ of the operations.
    This model adds the edges of ctr_: a read-modify-write of ctr_ reads the newest message.  It also computes what the threads know about ctr_ (a parameter of the labels
    of M_WaitGroupC) from the happens-before relation.

    Simplifications: the access of the client that M_WaitHB puts before each step of the primitive stands for itself only before add() and before the first step of done();
    before a later step of done() it marks the position of that step.  It is in the log before the step locks mutex_, but it is only known to threads that know of the whole step.
    A relaxed load does not synchronize. *)
From Coq Require Import List Arith Bool.
From Verif Require Import Lts M_Wait M_WaitHB M_WaitGroupC.
Import ListNotations.

(** The step of done() that locks mutex_ (lines 60-66) *)
Definition y_lk (s : yst) (l : ylabel) : bool :=
  match l with
  | YStep k _ => match nth_error (y_dn s) k with Some (_, YLoop 1, _) => true | _ => false end
  | _ => false
  end.

Section X.
Variable n0 : nat. Variable pick : nat -> nat.   (* as in M_WaitGroupC *)
Variable eager : bool.                           (* as in M_Wait *)
Variables acq rel : bool.                        (* whether the decrements of ctr_ acquire and release (lines 55, 63); both in the code *)
Notation P := (wait_group_c n0 pick).

(** The state of M_WaitHB; what the newest message of ctr_ releases; what happens before the current point of each call of done(); for each read-modify-write of ctr_
    its position in the log and the position of the value that it wrote *)
Record xst := XS { x_h : hst P; x_ctr : hb; x_dv : list hb; x_msg : list (nat * nat) }.
Definition x_init : xst := XS (h_init P) [] [] [].

(** The log of accesses; the state of the group (helpers) *)
Definition x_log (s : xst) : log := m_log (h_m (x_h s)).
Definition x_prim (s : xst) : yst := c_prim (h_s (x_h s)).
(** The position of the newest value of ctr_ that a thread knows of after the accesses v *)
Definition x_known (s : xst) (v : hb) : nat := list_max (map snd (filter (fun m => memb (fst m) (closure (x_log s) v)) (x_msg s))).

(** Whether a step writes ctr_ *)
Definition x_rmw (s : xst) (l : ylabel) : bool :=
  match y_step (x_prim s) l with POk ps _ _ => length (y_h (x_prim s)) <? length (y_h ps) | _ => false end.

(** The label of M_WaitHB; the arguments that depend on the happens-before relation are replaced *)
Definition x_label (s : xst) (l : hlabel P) : hlabel P :=
  match l with
  | HStart o tok a v => HStart (P := P) o tok (x_known s v, snd a) v
  | HPrim pl v =>
      match (pl : ylabel) with
      | YAdd n => HPrim (P := P) (YAdd n) v
      | YDone u _ => HPrim (P := P) (YDone u (x_known s v)) v
      | YStep k i => HPrim (P := P) (YStep k i) (nth k (x_dv s) [] ++ if x_rmw s (YStep k i) && acq then x_ctr s else [])
      end
  | l => l
  end.

Definition x_step (s : xst) (l : hlabel P) : outcome xst (hevent P) :=
  let l' := x_label s l in
  match hstep P eager y_lk true true (x_h s) l' with
  | Next h es =>
      match l' with
      | HPrim pl _ =>
          let w := last (h_wk h) [] in             (* what happens before the end of the step *)
          let rmw := x_rmw s pl in
          Next (XS h
                   (if rmw && match (pl : ylabel) with YAdd _ => true | _ => rel end then w ++ x_ctr s else x_ctr s)   (* lines 55, 63, 90 *)
                   match (pl : ylabel) with YAdd _ => x_dv s | YDone _ _ => x_dv s ++ [w] | YStep k _ => set_nth (x_dv s) k w end
                   (if rmw then (length (x_log s), length (y_h (x_prim s))) :: x_msg s else x_msg s)) es
      | _ => Next (XS h (x_ctr s) (x_dv s) (x_msg s)) es
      end
  | Disabled => Disabled
  | Fail f es => Fail f es
  end.
End X.
Arguments x_h {n0 pick}. Arguments x_ctr {n0 pick}. Arguments x_dv {n0 pick}. Arguments x_msg {n0 pick}. Arguments XS {n0 pick}.
Arguments x_log {n0 pick}. Arguments x_prim {n0 pick}. Arguments x_known {n0 pick}. Arguments x_rmw {n0 pick}.
