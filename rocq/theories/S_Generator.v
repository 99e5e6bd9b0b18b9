(** Specification of generator<T>. *)
From Coq Require Import List Arith Bool.
From Verif Require Import Lts M_Generator.
Import ListNotations.

(** What the body produced: the yielded values, and the end *)
Definition g_made (tr : list gevent) : list (option nat) := flat_map (fun e => match e with GEYield v => [Some v] | GEReturn => [None] | _ => [] end) tr.
(** What the consumer got *)
Definition g_got (tr : list gevent) : list (option nat) := flat_map (fun e => match e with GEDone _ v => [v] | _ => [] end) tr.
(** The next() operations in the order in which they were started; in which they completed *)
Definition g_nexts (tr : list gevent) : list nat := flat_map (fun e => match e with GENext n => [n] | _ => [] end) tr.
Definition g_dones (tr : list gevent) : list nat := flat_map (fun e => match e with GEDone n _ => [n] | _ => [] end) tr.

(** No next() operation is running. *)
Definition g_idle (tr : list gevent) : Prop := forall n, In n (g_nexts tr) -> In n (g_dones tr).
(** What the client must respect: next() operations are started one after the other, each once, and not after the generator was destroyed;
    an operation is destroyed after it completed; the generator is destroyed while no operation is running. *)
Definition g_rule (tr : list gevent) : Prop := forall t1 e t2, tr = t1 ++ e :: t2 ->
  match e with
  | GENext n => ~ In n (g_nexts t1) /\ g_idle t1 /\ ~ In GEDestroy t1
  | GEFree n => In n (g_dones t1)
  | GEDestroy => g_idle t1
  | _ => True
  end.
(** ... and next() is not called after the end was reported. *)
Definition g_noend (tr : list gevent) : Prop := forall t1 n t2, tr = t1 ++ GENext n :: t2 -> ~ In None (g_got t1).

Definition g_internal (l : glabel) : Prop := match l with GLTake | GLComp => True | _ => False end.
Definition g_quiet (s : gst) : Prop := forall l, g_internal l -> g_step s l = Disabled.
