(** Property theorems for type-erased callables: C89, C90. *)
From Coq Require Import List Arith Bool Lia.
From Verif Require Import Lts M_Erased S_Erased P_Erased.
Import ListNotations.

(** ** C89: a type-erased callable behaves like the functor in it *)
(** any_receiver: each set_value() runs the receiver in the state which it would have without type erasure, copies being independent. *)
Theorem C89_any_receiver : forall beh ls s tr, run (e_step beh) e_init ls = Running s tr -> sets_run beh (ref beh) tr.
Proof. exact any_receiver_runs. Qed.
Print Assumptions C89_any_receiver.

(** callback: this is false, because operator() passes the stored functor by value (lines 259, 286): what a call changes in the functor is lost. *)
Definition count : nat -> nat -> nat -> nat * nat := fun _ st a => (st + a, st + a).   (* [n = 0] (auto a) mutable { return n += a; } *)
Theorem C89_callback_refuted : exists beh ls s tr, run (e_step beh) e_init ls = Running s tr /\ ~ calls_run beh (ref beh) tr.
Proof.
  exists count, [LCb 0 0 0; LCall 0 1; LCall 0 1].
  assert (E : exists s tr, run (e_step count) e_init [LCb 0 0 0; LCall 0 1; LCall 0 1] = Running s tr /\ tr = [VMake 0 0 0; VCall 0 0 0 1 1] ++ VCall 0 0 0 1 1 :: []) by (witness; vmrefl).
  destruct E as (s & tr & E & Et). exists s, tr. split; [exact E|]. intros H. destruct (H _ _ _ _ _ _ _ Et) as [F _]. vm_compute in F. discriminate.
Qed.
Print Assumptions C89_callback_refuted.

(** What holds: each call runs a fresh copy of the functor that the callback was constructed with ... *)
Theorem C89_callback_partial : forall beh ls s tr, run (e_step beh) e_init ls = Running s tr -> calls_run beh (valr beh) tr.
Proof. exact callback_runs. Qed.
Print Assumptions C89_callback_partial.
(** ... which is the same as the functor itself if calls do not change functors. *)
Theorem C89_callback_stateless_partial : forall beh ls s tr, run (e_step beh) e_init ls = Running s tr -> (forall c, stateless beh c) -> calls_run beh (ref beh) tr.
Proof. exact callback_stateless. Qed.
Print Assumptions C89_callback_stateless_partial.

(** *** Witnesses *)
(** the same calls through an any_receiver, and a copy of it that is made in between *)
Example er_rcv : exists s tr, run (e_step count) e_init [LRcv 0 0 0; LSet 0 1; LCopy 1 0; LSet 0 1; LSet 1 10; LSet 0 1] = Running s tr /\
  tr = [VMake 0 0 0; VSet 0 0 0 1 1; VCopy 1 0; VSet 0 0 1 1 2; VSet 1 0 1 10 11; VSet 0 0 2 1 3].
Proof. witness. vmrefl. Qed.
(** a functor that only adds to what it captured, in two callbacks; then one is assigned to the other *)
Definition add : nat -> nat -> nat -> nat * nat := fun _ st a => (st, st + a).
Example er_cb : exists s tr, run (e_step add) e_init [LCb 0 0 5; LCb 1 0 7; LCall 0 1; LCall 1 1; LCopy 0 1; LCall 0 2] = Running s tr /\
  tr = [VMake 0 0 5; VMake 1 0 7; VCall 0 0 5 1 6; VCall 1 0 7 1 8; VCopy 0 1; VCall 0 0 7 2 9] /\ forall c, stateless add c.
Proof. witness. split; [vmrefl|]. intros c st a. reflexivity. Qed.

(** ** C90: failures of callback and run_queue_item *)
(** Calling a callback fails exactly if it is null; arm() fails exactly if the callback is null or the item was armed before; nothing else fails.
    operator bool says whether a callback is null. *)
Theorem C90_failures : forall beh ls s tr l, run (e_step beh) e_init ls = Running s tr -> e_step beh s l <> Disabled ->
  (exists f es, e_step beh s l = Fail f es) <-> ~ nonnull (ref beh) tr l.
Proof. exact fails_iff. Qed.
Print Assumptions C90_failures.
Theorem C90_callback_bool : forall beh ls s tr, run (e_step beh) e_init ls = Running s tr -> bools (ref beh) tr.
Proof. exact callback_bool. Qed.
Print Assumptions C90_callback_bool.
(** An item can be armed only once in its life, whatever happens in between. *)
Theorem C90_arm_once : forall beh ls s tr x y l z, run (e_step beh) e_init ls = Running s tr -> In (VArm x y) tr -> l = LArm x z -> forall s' es, e_step beh s l <> Next s' es.
Proof. exact arm_once. Qed.
Print Assumptions C90_arm_once.

(** *** Witnesses *)
Example er_null : exists tr, run (e_step add) e_init [LNull 0; LBool 0; LCall 0 1] = Failed NullDeref tr.
Proof. eexists. vm_compute. reflexivity. Qed.
Example er_arm : exists s tr, run (e_step add) e_init [LCb 0 0 5; LNull 1; LBool 0; LBool 1; LItem 2; LArm 2 0] = Running s tr /\
  tr = [VMake 0 0 5; VNull 1; VBool 0 true; VBool 1 false; VArm 2 0].
Proof. witness. vmrefl. Qed.
Example er_arm_twice : exists tr, run (e_step add) e_init [LCb 0 0 5; LItem 2; LArm 2 0; LArm 2 0] = Failed AssertFailed tr.
Proof. eexists. vm_compute. reflexivity. Qed.
Example er_arm_null : exists tr, run (e_step add) e_init [LNull 0; LItem 2; LArm 2 0] = Failed AssertFailed tr.
Proof. eexists. vm_compute. reflexivity. Qed.
