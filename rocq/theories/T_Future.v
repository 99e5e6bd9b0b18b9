(** Property theorems for async::promise / async::future: C01-C05 (cancellable waits), C30. *)
From Coq Require Import List Arith Bool.
From Verif Require Import Lts M_Wait S_Wait P_Wait M_Future S_Future P_Future.
Import ListNotations.

Notation frun T eager ls := (run (step (future_prim T) eager) (c_init (future_prim T)) ls).

(** ** C01: at most once *)
Theorem C01_future : forall T eager ls s tr, frun T eager ls = Running s tr ->
  forall o, notified o tr <= 1 /\ (notified o tr = 1 -> started o tr).
Proof.
  exact (fun T eager ls s tr Hr o => conj (t_once _ _ eager (future_tlaws T) ls s tr Hr o)
    (fun H => t_started _ _ eager (future_tlaws T) ls s tr Hr o (eq_ind_r (fun n => n > 0) (le_n 1) H))).
Qed.
Print Assumptions C01_future.

(** ** C02: never lost *)
Theorem C02_future_cancelled : forall T eager ls s tr, frun T eager ls = Running s tr -> all_returned s ->
  forall o, started o tr -> cancel_requested o tr -> notified o tr = 1.
Proof. exact (fun T eager => t_cancelled _ _ eager (future_tlaws T)). Qed.
Print Assumptions C02_future_cancelled.

Theorem C02_future_pending : forall T eager ls s tr o, frun T eager ls = Running s tr -> all_returned s ->
  started o tr -> notified o tr = 1 \/ (sets tr = [] /\ ~ cancel_requested o tr).
Proof. exact fut_pending. Qed.
Print Assumptions C02_future_pending.

Theorem C02_future_finishes : forall T eager ls s tr, frun T eager ls = Running s tr ->
  exists n, finishes_within eager n s tr.
Proof. exact (fun T eager => t_finishes _ _ eager (future_tlaws T)). Qed.
Print Assumptions C02_future_finishes.

Theorem C02_future_progress : forall T eager ls s tr, frun T eager ls = Running s tr -> stuck eager s -> all_returned s.
Proof. exact (fun T eager => t_progress _ _ eager (future_tlaws T)). Qed.
Print Assumptions C02_future_progress.

(** ** C03: truthful results *)
(** get() without token: the assertions on the result (lines 325-334) cannot fail. *)
Theorem C03_future_default_token : forall T eager ls s tr o a v, frun T eager ls = Running s tr ->
  In (EStart (P := future_prim T) o None a) tr -> In (EDone (P := future_prim T) o v) tr -> v <> None.
Proof. exact fut_default_token. Qed.
Print Assumptions C03_future_default_token.

Theorem C03_future_cancelled : forall T eager ls s t1 o t2,
  frun T eager ls = Running s (t1 ++ EDone (P := future_prim T) o None :: t2) -> cancel_requested o t1.
Proof. exact fut_none_requested. Qed.
Print Assumptions C03_future_cancelled.

Theorem C03_future_success : forall T eager ls s t1 o x t2,
  frun T eager ls = Running s (t1 ++ EDone (P := future_prim T) o (Some x) :: t2) -> sets t1 = [x].
Proof. exact fut_some. Qed.
Print Assumptions C03_future_success.

(** ** C04: no access after completion *)
Theorem C04_future_refuted : exists ls tr, frun nat true ls = Failed UseAfterFree tr /\ set_once tr.
Proof. exact fut_uaf. Qed.
Print Assumptions C04_future_refuted.

Theorem C04_future_partial : forall T eager ls f tr, frun T eager ls = Failed f tr -> set_once tr ->
  eager = true /\ f = UseAfterFree /\ exists o, In (EDestroy o) tr /\ notified o tr = 1 /\ cancel_requested o tr.
Proof. exact fut_rule_fail. Qed.
Print Assumptions C04_future_partial.

Theorem C04_future_lazy_partial : forall T ls f tr, frun T false ls = Failed f tr -> ~ set_once tr.
Proof. exact fut_safe. Qed.
Print Assumptions C04_future_lazy_partial.

(** ** C05 *)
Theorem C05_future : forall T eager ls s tr e, frun T eager ls = Running s tr ->
  (forall o, uses_event o e tr -> notified o tr = 1) -> e_cbs (c_ev s e) = [].
Proof. exact (fun T eager => t_event_clean _ _ eager (future_tlaws T)). Qed.
Print Assumptions C05_future.

(** ** C30: the value *)
(** No get() completes with a value before set_value(), and it is the value that was set (by the one call). *)
Theorem C30_future_value : forall T eager ls s t1 o x t2,
  frun T eager ls = Running s (t1 ++ EDone (P := future_prim T) o (Some x) :: t2) -> sets t1 = [x].
Proof. exact fut_some. Qed.
Print Assumptions C30_future_value.

(** After set_value() every get(), started before or after, completes once the calls in flight have returned. *)
Theorem C30_future_complete : forall T eager ls s tr o, frun T eager ls = Running s tr -> all_returned s ->
  sets tr <> [] -> started o tr -> notified o tr = 1.
Proof. exact fut_after. Qed.
Print Assumptions C30_future_complete.

(** It completes without value only if it was started and cancelled before set_value() took effect. *)
Theorem C30_future_none : forall T eager ls s t1 o t2,
  frun T eager ls = Running s (t1 ++ EDone (P := future_prim T) o None :: t2) -> cancelled_before_set o t1.
Proof. exact fut_none. Qed.
Print Assumptions C30_future_none.

(** set_value() and get() trip no assertion as long as set_value() is called once. *)
Theorem C30_future_asserts : forall T eager ls tr, frun T eager ls = Failed AssertFailed tr -> exists x y, sets tr = [x; y].
Proof.
  exact (fun T eager ls tr Hr => match fut_fail T eager ls AssertFailed tr Hr with
    | or_introl (conj _ H) => H
    | or_intror (conj _ (conj H _)) => match H in _ = f return match f with AssertFailed => True | UseAfterFree => exists x y, sets tr = [x; y] | _ => True end with eq_refl => I end
    end).
Qed.
Print Assumptions C30_future_asserts.

(** The model runs the two critical sections of set_value() as one step.  In the code, between them every start() takes
    the fast path and every try_cancel() fails, so that the second section takes exactly the nodes that were linked at
    the time of the first. *)
Theorem C30_future_split : forall T (s : fst_ T) x cs, f_val s = None -> (forall c, In c cs -> quiet c) ->
  fine_run s (CSet x :: cs ++ [CWake]) =
  (FS (Some x) [] (f_can s), OSet :: map (fun c => match c with CTry _ => OTry false | _ => OStart false end) cs ++ [OWake (f_q s)]).
Proof. exact fine_split. Qed.
Print Assumptions C30_future_split.

(** ** Witnesses *)
Notation FP := (future_prim nat).

(** Operation 0 waits and is cancelled before set_value(5), 1 is cancelled while set_value() is waking it, 2 has no token,
    3 starts afterwards with the cancelled token. *)
Definition fdemo : list (label FP) :=
  [LStart (P := FP) 0 (Some 3) tt; LPath 0 PathL; LPath 0 PathL; LStart (P := FP) 1 (Some 4) tt; LPath 1 PathL; LPath 1 PathL;
   LStart (P := FP) 2 None tt; LPath 2 PathL; LPath 2 PathL;
   LCancel 3; LCanNext 0; LPath 0 PathC; LPath 0 PathC; LPath 0 PathC;
   LPrim (FSet 5 : PL FP); LCancel 4; LWakeNext 0; LCanNext 1; LPath 1 PathC; LPath 1 PathP; LPath 1 PathC; LPath 1 PathP; LPath 1 PathC;
   LWakeNext 0; LPath 2 PathP; LPath 2 PathP; LStart (P := FP) 3 (Some 3) tt; LPath 3 PathL].

Example fdemo_trace : exists s, frun nat true fdemo =
  Running s [EStart (P := FP) 0 (Some 3) tt; EStart (P := FP) 1 (Some 4) tt; EStart (P := FP) 2 None tt; ECancel 3;
             EDone (P := FP) 0 None; EPrim (ESet 5 : PE FP); ECancel 4; EDone (P := FP) 1 (Some 5); EDone (P := FP) 2 (Some 5);
             EStart (P := FP) 3 (Some 3) tt; EDone (P := FP) 3 (Some 5)] /\ all_returned s.
Proof.
  witness.
  apply (t_returned_final _ _ true (future_tlaws nat) fdemo); vmrefl.
Qed.

(** the two sections with three calls in between *)
Example fine_demo : fine_run (FS None [4; 7] (fun _ => false)) (CSet 5 :: [CTry 7; CStart 9; CTry 4] ++ [CWake]) =
  (FS (Some 5) [] (fun _ => false), [OSet; OTry false; OStart false; OTry false; OWake [4; 7]]).
Proof. reflexivity. Qed.
