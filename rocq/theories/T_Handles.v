(** Property theorems for promise / future handles: C31 (the shared state is freed exactly once). *)
From Coq Require Import List Arith Bool.
From Verif Require Import Lts M_Handles S_Handles P_Handles.
Import ListNotations.

(** ** C31 *)
(** Freed at most once, and exactly if it was created and no handle owns it any more: in particular at every moment of the
    execution, so neither early nor late. *)
Theorem C31_handles_freed : forall ls s tr k, hrun ls = Running s tr ->
  frees k tr <= 1 /\ (frees k tr = 1 <-> k < sp_next (owners (calls_of tr)) /\ ~ owned (owners (calls_of tr)) k).
Proof. exact h_freed. Qed.
Print Assumptions C31_handles_freed.

(** The handles refer to the states that the calls say. *)
Theorem C31_handles_refer : forall ls s tr h, hrun ls = Running s tr -> st_of s h = own (owners (calls_of tr)) h.
Proof. exact h_handles. Qed.
Print Assumptions C31_handles_refer.

(** No access to a freed state, no null pointer, no double free, for clients that obey the rule ... *)
Theorem C31_handles_partial : forall ls f tr, hrun ls = Failed f tr -> ~ calls_ok tr.
Proof. exact h_fail. Qed.
Print Assumptions C31_handles_partial.

(** ... which is the weakest possible: every other call fails. *)
Theorem C31_handles_rule : forall ls s tr, hrun ls = Running s tr -> calls_ok tr.
Proof. exact h_ok. Qed.
Print Assumptions C31_handles_rule.

(** Without the rule, copying handles alone can go wrong: assigning from an empty future (line 228 has no null check) and
    assigning a future to itself when it is the only handle (lines 221-229). *)
Theorem C31_handles_refuted_empty : exists ls tr, hrun ls = Failed NullDeref tr /\
  calls_of tr = [DefFuture; DefFuture; CopyAssign 0 1].
Proof.
  exists [DefFuture; DefFuture; CopyAssign 0 1]. witness. vmrefl.
Qed.
Print Assumptions C31_handles_refuted_empty.

Theorem C31_handles_refuted_self : exists ls tr, hrun ls = Failed UseAfterFree tr /\
  calls_of tr = [NewPromise; GetFuture 0; Drop 0; CopyAssign 1 1].
Proof.
  exists [NewPromise; GetFuture 0; Drop 0; CopyAssign 1 1]. witness. vmrefl.
Qed.
Print Assumptions C31_handles_refuted_self.

(** Witness: a promise, three futures, copies, moves, swaps and assignments; two states, both freed in the end. *)
Definition hdemo : list hcall :=
  [NewPromise; GetFuture 0; CopyFuture 1; MoveFuture 1; NewPromise; GetFuture 4; CopyAssign 1 5; SwapFuture 1 2;
   MoveAssign 3 5; CopyAssign 2 2; UseFuture 1; SetValue 0; MovePromise 4; AssignPromise 0 6; SwapPromise 0 4;
   Drop 1; Drop 5; Drop 4; Drop 3; Drop 2; Drop 0; Drop 6].
Example C31_handles_demo : exists s tr, hrun hdemo = Running s tr /\
  filter (fun e => match e with EFree _ => true | _ => false end) tr = [EFree 0; EFree 1] /\ frees 0 tr = 1 /\ frees 1 tr = 1 /\ frees 2 tr = 0.
Proof. witness. split; [vmrefl|split; [vmrefl|split; vmrefl]]. Qed.

(** ... where the first state is freed when its last owner goes, and the second one is still owned then. *)
Example C31_handles_demo_mid : exists s tr, hrun (firstn 17 hdemo) = Running s tr /\
  frees 0 tr = 1 /\ frees 1 tr = 0 /\ ~ owned (owners (calls_of tr)) 0 /\ owned (owners (calls_of tr)) 1 /\ calls_ok tr.
Proof.
  assert (H : exists s tr, hrun (firstn 17 hdemo) = Running s tr /\
     owners (calls_of tr) = SP [None; None; Some 1; Some 1; Some 1; None; None] 2 /\ frees 0 tr = 1 /\ frees 1 tr = 0) by (witness; split; [vmrefl|split; vmrefl]).
  destruct H as (s & tr & Hr & Ho & H1 & H2). exists s, tr. rewrite Ho. split; [exact Hr|]. split; [exact H1|]. split; [exact H2|]. split; [|split].
  - intros [h Hh]. do 7 (destruct h as [|h]; [discriminate|]). destruct h; discriminate.
  - exists 2. reflexivity.
  - exact (h_ok _ _ _ Hr).
Qed.
