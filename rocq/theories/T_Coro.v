(** C69-C71: co_await. *)
From Coq Require Import List Arith Bool Lia.
From Verif Require Import Lts M_Result M_Coro S_Coro P_Coro.
Import ListNotations.

(** ** C69 *)
(** No object is used outside of its lifetime, no coroutine is resumed that is not suspended, no empty optional is read, no assertion fails. *)
Theorem C69_co_await_safe p ls f tr : run k_step (k_init p) ls <> Failed f tr.
Proof. exact (coro_safe p ls f tr). Qed.
Print Assumptions C69_co_await_safe.
(** The coroutines do what the sequential program does: leaves are started in program order, each one after its predecessor completed and with
    the continuation that the value of the predecessor selects. *)
Theorem C69_co_await_order p ls s tr : run k_step (k_init p) ls = Running s tr -> pre p (obs tr).
Proof. exact (coro_pre p ls s tr). Qed.
Print Assumptions C69_co_await_order.
(** The program is done at most once, with the value that the sequential program returns. *)
Theorem C69_co_await_value p ls s tr : run k_step (k_init p) ls = Running s tr -> dones tr = [] \/ exists v, dones tr = [v] /\ ret p (obs tr) v.
Proof. exact (coro_value p ls s tr). Qed.
Print Assumptions C69_co_await_value.
(** Nothing is lost: once all threads returned, the program is done, or it waits for a leaf and that leaf can complete with any value. *)
Theorem C69_co_await_complete p ls s tr : run k_step (k_init p) ls = Running s tr -> k_quiet s ->
  (exists v, dones tr = [v]) \/
  (exists l t c, obs tr = t ++ [EStart l] /\ forall v, exists s', k_step s (LComp c None v) = Next s' [EComp v]).
Proof. exact (coro_quiet p ls s tr). Qed.
Print Assumptions C69_co_await_complete.
(** A thread inside of the library or of a coroutine is never blocked. *)
Theorem C69_co_await_moves p ls s tr t f st : run k_step (k_init p) ls = Running s tr -> nth_error (k_ths s) t = Some (f :: st) ->
  exists s' es, k_step s (LStep t) = Next s' es.
Proof. exact (coro_moves p ls s tr t f st). Qed.
Print Assumptions C69_co_await_moves.
(** The coroutines of a program never run on two threads at the same time. *)
Theorem C69_co_await_one_thread p ls s tr t1 t2 : run k_step (k_init p) ls = Running s tr -> runs s t1 -> runs s t2 -> t1 = t2.
Proof. exact (coro_one p ls s tr t1 t2). Qed.
Print Assumptions C69_co_await_one_thread.

(** A coroutine that calls another one, which awaits leaf 1 and returns its value plus 1; then the caller awaits leaf 2 and returns the sum. *)
Definition ex_prog : prog := Call (Leaf 1 (fun x => Ret (S x))) (fun y => Leaf 2 (fun z => Ret (y + z))).
(** Leaf 1 completes on another thread while the first one is still inside of start(): the first thread continues the caller.  Leaf 2 completes inside of
    its start(). *)
Example C69_overtaken :
  exists s, run k_step (k_init ex_prog)
    [LStep 0; LStep 0; LStep 0; LStep 0;                           (* call, start the callee, start leaf 1 *)
     LComp 1 None 7; LStep 1; LStep 1; LStep 1; LStep 1; LStep 1; LStep 1; LStep 1;   (* thread 1 finishes the callee *)
     LStep 0; LStep 0; LStep 0;                                    (* thread 0 returns from start() of the leaf; exchange *)
     LStep 0; LStep 0; LStep 0; LStep 0; LStep 0; LStep 0;         (* and continues the caller *)
     LComp 0 (Some 0) 30; LStep 0; LStep 0; LStep 0; LStep 0] =
    Running s [EAlloc 1; EStart 1; EComp 7; EFree 1; EStart 2; EComp 30; EDone 38; EFree 0] /\ nth_error (k_ths s) 1 = Some [].
Proof. witness. vmrefl. Qed.
(** Leaf 1 completes after the first thread returned: the second thread continues the caller. *)
Example C69_later :
  exists s, run k_step (k_init ex_prog)
    [LStep 0; LStep 0; LStep 0; LStep 0; LStep 0; LStep 0; LStep 0; LStep 0; LStep 0; LStep 0;
     LComp 1 None 7; LStep 1; LStep 1; LStep 1; LStep 1; LStep 1; LStep 1; LStep 1; LStep 1; LStep 1; LStep 1] =
    Running s [EAlloc 1; EStart 1; EComp 7; EFree 1; EStart 2] /\ nth_error (k_ths s) 0 = Some [].
Proof. witness. vmrefl. Qed.
Example C69_spec : ret ex_prog [EStart 1; EComp 7; EStart 2; EComp 30] 38 /\ ~ ret ex_prog [EStart 1; EComp 7; EStart 2; EComp 30] 37 /\
                   ~ pre ex_prog [EStart 2].
Proof.
  assert (H0 : ret ex_prog [EStart 1; EComp 7; EStart 2; EComp 30] 38).
  { apply (ret_call _ _ [EStart 1; EComp 7] 8 [EStart 2; EComp 30] 38); [apply ret_leaf; constructor|]. apply (ret_leaf 2 _ 30 []). constructor. }
  split; [exact H0|]. split.
  - intros H. destruct (ret_det _ _ _ H0 _ _ [] [] H eq_refl). discriminate.
  - intros H. inversion H; subst; clear H.
    + match goal with H : pre (Leaf 1 _) _ |- _ => inversion H end.
    + match goal with H : ret (Leaf 1 _) _ _ |- _ => inversion H; subst; clear H end. discriminate.
Qed.

(** ** C70 *)
(** Every coroutine frame is created once and destroyed at most once. *)
Theorem C70_co_await_frames p ls s tr : run k_step (k_init p) ls = Running s tr ->
  NoDup (0 :: allocs tr) /\ NoDup (frees tr) /\ incl (frees tr) (0 :: allocs tr).
Proof. exact (coro_frees p ls s tr). Qed.
Print Assumptions C70_co_await_frames.
(** No frame is leaked: when the program is done, all of them have been destroyed. *)
Theorem C70_co_await_no_leak p ls s tr v : run k_step (k_init p) ls = Running s tr -> In v (dones tr) -> incl (0 :: allocs tr) (frees tr).
Proof. exact (coro_leak p ls s tr v). Qed.
Print Assumptions C70_co_await_no_leak.
(** A coroutine that is not awaited is destroyed, too. *)
Example C70_drop :
  exists s, run k_step (k_init (Drop (Ret 1) (Leaf 3 (fun x => Ret x)))) [LStep 0; LStep 0; LStep 0; LComp 0 None 5; LStep 1; LStep 1; LStep 1; LStep 1] =
    Running s [EAlloc 1; EFree 1; EStart 3; EComp 5; EDone 5; EFree 0] /\ k_cs s <> [].
Proof. witness. discriminate. Qed.

(** ** C71 *)
(** A coroutine that awaits, in a loop, operations that complete at once uses more and more stack: the height of the call stack is not bounded, neither
    if the operations are coroutines that return without suspending *)
Theorem C71_stack_refuted b : exists ls s tr, run k_step (k_init calls) ls = Running s tr /\ b < height s /\ length (k_ths s) = 1.
Proof. exact (calls_tall b). Qed.
Print Assumptions C71_stack_refuted.
(** nor if they are leaves that complete inside of start(). *)
Theorem C71_stack_leaf_refuted b :
  exists ls s tr, run k_step (k_init leaves) ls = Running s tr /\ b < height s /\ length (k_ths s) = 1 /\ allocs tr = [].
Proof. exact (leaves_tall b). Qed.
Print Assumptions C71_stack_leaf_refuted.
(** It is at most linear in the number of co_await expressions that were evaluated. *)
Theorem C71_stack_linear_partial p ls s tr : run k_step (k_init p) ls = Running s tr -> height s <= 1 + 5 * awaits tr.
Proof. exact (coro_height p ls s tr). Qed.
Print Assumptions C71_stack_linear_partial.
