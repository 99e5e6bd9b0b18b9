(** Executable labelled transition systems, runs and their induction principles. *)
From Coq Require Import List Arith Lia Bool.
Import ListNotations.

(** Why a step goes wrong.  These are the outcomes the C++ code must never reach. *)
Inductive failure :=
| AssertFailed      (* an assert()/FRG_ASSERT in the code evaluates to false *)
| UseAfterFree      (* an object is accessed after it was destroyed *)
| BadUnlink         (* intrusive_list::erase()/iterator_to() on a node that is not in that list *)
| NullDeref         (* a null pointer is dereferenced *)
| CounterUnderflow  (* an unsigned counter is decremented below zero *)
| SelfDeadlock      (* a platform mutex is locked by the thread that already holds it *)
| ResumeFinished    (* coroutine_handle::resume() on a coroutine suspended at its final suspend point *)
| Panicked          (* platform::panic() *)
| DataRace.         (* conflicting accesses to non-atomic memory are not ordered by happens-before *)

Inductive outcome (S E : Type) : Type :=
| Next (s : S) (es : list E)          (* the step is taken; [es] are the observable events it emits *)
| Disabled                            (* the label is not applicable in this state *)
| Fail (f : failure) (es : list E).   (* the step ends in failure [f] after emitting [es] *)
Arguments Next {S E} s es.
Arguments Disabled {S E}.
Arguments Fail {S E} f es.

(** The result of executing a list of labels: the final state and the trace of observable events. *)
Inductive result (S E : Type) : Type :=
| Running (s : S) (tr : list E)
| Stuck
| Failed (f : failure) (tr : list E).
Arguments Running {S E} s tr.
Arguments Stuck {S E}.
Arguments Failed {S E} f tr.

Section Runs.
Context {S L E : Type}.
Variable step : S -> L -> outcome S E.

Fixpoint run_from (s : S) (tr : list E) (ls : list L) : result S E :=
  match ls with
  | [] => Running s tr
  | l :: ls' =>
      match step s l with
      | Next s' es => run_from s' (tr ++ es) ls'
      | Disabled => Stuck
      | Fail f es => Failed f (tr ++ es)
      end
  end.

Definition run (init : S) (ls : list L) : result S E := run_from init [] ls.

(** Induction principle for safety properties that relate states and traces, for clients that obey a
    prefix-closed rule [C] on traces. *)
Lemma run_from_inv_client (C : list E -> Prop) (J : S -> list E -> Prop) :
  (forall tr es, C (tr ++ es) -> C tr) ->
  (forall s tr l s' es, J s tr -> step s l = Next s' es -> C (tr ++ es) -> J s' (tr ++ es)) ->
  forall ls s0 tr0 s tr, J s0 tr0 -> run_from s0 tr0 ls = Running s tr -> C tr -> J s tr.
Proof.
  intros Hpre Hstep ls.
  induction ls as [|l ls IH]; intros s0 tr0 s tr HJ Hrun HC; simpl in Hrun.
  - injection Hrun as <- <-. exact HJ.
  - destruct (step s0 l) as [s' es| |f es] eqn:Hs; try discriminate.
    apply (IH s' (tr0 ++ es)); auto.
    apply (Hstep s0 tr0 l); auto.
    clear - Hrun HC Hpre.
    revert s' es tr0 Hrun. induction ls as [|l ls IH]; intros s' es tr0 Hrun; simpl in Hrun.
    + injection Hrun as <- <-. exact HC.
    + destruct (step s' l) as [s'' es'| |f es'] eqn:Hs; try discriminate.
      apply (Hpre _ es'). apply (IH s''); auto.
Qed.

Lemma run_from_trace_prefix (ls : list L) :
  forall s0 tr0 s tr, run_from s0 tr0 ls = Running s tr -> exists es, tr = tr0 ++ es.
Proof.
  induction ls as [|l ls IH]; intros s0 tr0 s tr Hrun; simpl in Hrun.
  - injection Hrun as <- <-. exists []. now rewrite app_nil_r.
  - destruct (step s0 l) as [s' es| |f es]; try discriminate.
    destruct (IH _ _ _ _ Hrun) as [es' ->]. exists (es ++ es'). now rewrite app_assoc.
Qed.

Lemma run_inv_client (C : list E -> Prop) (J : S -> list E -> Prop) (init : S) :
  (forall tr es, C (tr ++ es) -> C tr) ->
  J init [] ->
  (forall s tr l s' es, J s tr -> step s l = Next s' es -> C (tr ++ es) -> J s' (tr ++ es)) ->
  forall ls s tr, run init ls = Running s tr -> C tr -> J s tr.
Proof.
  intros Hpre Hinit Hstep ls s tr Hrun HC.
  exact (run_from_inv_client C J Hpre Hstep ls init [] s tr Hinit Hrun HC).
Qed.

Lemma run_inv (J : S -> list E -> Prop) (init : S) :
  J init [] ->
  (forall s tr l s' es, J s tr -> step s l = Next s' es -> J s' (tr ++ es)) ->
  forall ls s tr, run init ls = Running s tr -> J s tr.
Proof.
  intros Hinit Hstep ls s tr Hrun.
  exact (run_inv_client (fun _ => True) J init (fun _ _ _ => I) Hinit
           (fun s tr l s' es HJ Hs _ => Hstep s tr l s' es HJ Hs) ls s tr Hrun I).
Qed.

(** A failing run is a successful run followed by one failing step. *)
Lemma run_from_failed (ls : list L) :
  forall s0 tr0 f tr, run_from s0 tr0 ls = Failed f tr ->
  exists ls1 l s tr1 es, run_from s0 tr0 ls1 = Running s tr1 /\ step s l = Fail f es /\ tr = tr1 ++ es.
Proof.
  induction ls as [|l ls IH]; intros s0 tr0 f tr Hrun; simpl in Hrun; [discriminate|].
  destruct (step s0 l) as [s' es| |f' es] eqn:Hs; try discriminate.
  - destruct (IH _ _ _ _ Hrun) as (ls1 & l1 & s & tr1 & es1 & H1 & H2 & H3).
    exists (l :: ls1), l1, s, tr1, es1. simpl. rewrite Hs. auto.
  - injection Hrun as <- <-. exists [], l, s0, tr0, es. simpl. auto.
Qed.

Lemma run_safe_client (C : list E -> Prop) (J : S -> list E -> Prop) (init : S) :
  (forall tr es, C (tr ++ es) -> C tr) ->
  J init [] ->
  (forall s tr l s' es, J s tr -> step s l = Next s' es -> C (tr ++ es) -> J s' (tr ++ es)) ->
  (forall s tr l f es, J s tr -> C (tr ++ es) -> step s l <> Fail f es) ->
  forall ls f tr, run init ls = Failed f tr -> ~ C tr.
Proof.
  intros Hpre Hinit Hstep Hsafe ls f tr Hrun HC.
  destruct (run_from_failed ls _ _ _ _ Hrun) as (ls1 & l & s & tr1 & es & H1 & H2 & ->).
  apply (Hsafe s tr1 l f es); auto.
  apply (run_inv_client C J init Hpre Hinit Hstep ls1); auto.
  exact (Hpre _ _ HC).
Qed.

Lemma run_safe (J : S -> list E -> Prop) (init : S) :
  J init [] ->
  (forall s tr l s' es, J s tr -> step s l = Next s' es -> J s' (tr ++ es)) ->
  (forall s tr l f es, J s tr -> step s l <> Fail f es) ->
  forall ls f tr, run init ls <> Failed f tr.
Proof.
  intros Hinit Hstep Hsafe ls f tr Hrun.
  exact (run_safe_client (fun _ => True) J init (fun _ _ _ => I) Hinit
           (fun s tr l s' es HJ Hs _ => Hstep s tr l s' es HJ Hs)
           (fun s tr l f es HJ _ => Hsafe s tr l f es HJ) ls f tr Hrun I).
Qed.

Lemma run_from_app (ls1 : list L) :
  forall ls2 s0 tr0, run_from s0 tr0 (ls1 ++ ls2) =
  match run_from s0 tr0 ls1 with
  | Running s tr => run_from s tr ls2
  | r => r
  end.
Proof.
  induction ls1 as [|l ls1 IH]; intros ls2 s0 tr0; simpl; [reflexivity|].
  destruct (step s0 l); auto.
Qed.

(** Every event of a trace was emitted by some step. *)
Lemma run_from_split_event (ls : list L) :
  forall s0 tr0 s tr0' x es2, run_from s0 tr0 ls = Running s (tr0 ++ tr0' ++ x :: es2) ->
  exists ls1 l ls2 s1 s2 tr1 e1 e2,
    ls = ls1 ++ l :: ls2 /\ run_from s0 tr0 ls1 = Running s1 (tr0 ++ tr1) /\ step s1 l = Next s2 (e1 ++ x :: e2) /\
    tr0' = tr1 ++ e1 /\ run_from s2 (tr0 ++ tr1 ++ e1 ++ x :: e2) ls2 = Running s (tr0 ++ tr0' ++ x :: es2).
Proof.
  induction ls as [|l ls IH]; intros s0 tr0 s tr0' x es2 Hrun; simpl in Hrun.
  - injection Hrun as _ H. apply (f_equal (@length E)) in H. rewrite !app_length in H. simpl in H. lia.
  - destruct (step s0 l) as [s1 es| |f es] eqn:Hs; try discriminate.
    destruct (run_from_trace_prefix ls _ _ _ _ Hrun) as [es' Hes].
    rewrite <- app_assoc in Hes. apply app_inv_head in Hes.
    destruct (app_eq_app _ _ _ _ Hes) as (l0 & [[H1 H2]|[H1 H2]]).
    + (* tr0' = es ++ l0 *)
      assert (Hrun' : run_from s1 (tr0 ++ es) ls = Running s ((tr0 ++ es) ++ l0 ++ x :: es2)).
      { rewrite Hrun. f_equal. subst tr0'. now rewrite <- !app_assoc. }
      destruct (IH _ _ _ _ _ _ Hrun') as (ls1 & l1 & ls2 & s2 & s3 & tr1 & e1 & e2 & -> & Hr1 & Hs1 & -> & Hr2).
      exists (l :: ls1), l1, ls2, s2, s3, (es ++ tr1), e1, e2. split; [reflexivity|].
      split; [simpl; rewrite Hs, Hr1, <- app_assoc; reflexivity|].
      split; [exact Hs1|]. split; [subst tr0'; now rewrite <- app_assoc|].
      rewrite <- !app_assoc in *. rewrite Hr2. f_equal. subst tr0'. now rewrite <- !app_assoc.
    + (* es = tr0' ++ l0, x :: es2 = l0 ++ es' *)
      destruct l0 as [|y l0].
      * rewrite app_nil_r in H1. simpl in H2.
        assert (Hrun' : run_from s1 (tr0 ++ es) ls = Running s ((tr0 ++ es) ++ [] ++ x :: es2)).
        { rewrite Hrun. f_equal. subst es. now rewrite <- !app_assoc. }
        destruct (IH _ _ _ _ _ _ Hrun') as (ls1 & l1 & ls2 & s2 & s3 & tr1 & e1 & e2 & -> & Hr1 & Hs1 & He & Hr2).
        symmetry in He. apply app_eq_nil in He. destruct He as [-> ->].
        exists (l :: ls1), l1, ls2, s2, s3, es, [], e2. split; [reflexivity|].
        split; [simpl; rewrite Hs, Hr1; now rewrite app_nil_r|].
        split; [exact Hs1|]. split; [subst es; now rewrite app_nil_r|].
        simpl in Hr2 |- *. rewrite <- !app_assoc in Hr2. rewrite Hr2. f_equal. subst es. reflexivity.
      * simpl in H2. injection H2 as <- H2.
        exists [], l, ls, s0, s1, [], tr0', l0. split; [reflexivity|].
        split; [simpl; now rewrite app_nil_r|]. split; [now rewrite Hs, H1|]. split; [reflexivity|].
        simpl. subst es. exact Hrun.
Qed.

Lemma run_split_event (init : S) ls s tr0 x es2 :
  run init ls = Running s (tr0 ++ x :: es2) ->
  exists ls1 l ls2 s1 s2 tr1 e1 e2,
    ls = ls1 ++ l :: ls2 /\ run init ls1 = Running s1 tr1 /\ step s1 l = Next s2 (e1 ++ x :: e2) /\
    tr0 = tr1 ++ e1 /\ run_from s2 (tr1 ++ e1 ++ x :: e2) ls2 = Running s (tr0 ++ x :: es2).
Proof. exact (run_from_split_event ls init [] s tr0 x es2). Qed.

End Runs.

(** Computing with runs. *)
Definition trace_of {S E : Type} (r : result S E) : option (list E) := match r with Running _ tr => Some tr | _ => None end.
Definition state_of {S E : Type} (d : S) (r : result S E) : S := match r with Running s _ => s | _ => d end.
Definition failure_of {S E : Type} (r : result S E) : option (failure * list E) := match r with Failed f tr => Some (f, tr) | _ => None end.

Lemma running_intro {S E} (d : S) (r : result S E) tr : trace_of r = Some tr -> r = Running (state_of d r) tr.
Proof. destruct r; simpl; intros H; congruence. Qed.
Definition is_running {S E : Type} (r : result S E) : bool := match r with Running _ _ => true | _ => false end.
Definition events_of {S E : Type} (r : result S E) : list E := match r with Running _ tr => tr | Failed _ tr => tr | Stuck => [] end.
Definition fails_with {S E : Type} (r : result S E) : option failure := match r with Failed f _ => Some f | _ => None end.
Lemma running_any {S E} (d : S) (r : result S E) : is_running r = true -> r = Running (state_of d r) (events_of r).
Proof. destruct r; simpl; intros H; congruence. Qed.
Lemma failed_any {S E} (r : result S E) f : fails_with r = Some f -> r = Failed f (events_of r).
Proof. destruct r; simpl; intros H; congruence. Qed.
Lemma failed_intro {S E} (r : result S E) f tr : failure_of r = Some (f, tr) -> r = Failed f tr.
Proof. destruct r; simpl; intros H; congruence. Qed.

(** Reflexivity by computation, left to the kernel (no normal forms are read back). *)
Ltac vmrefl := match goal with |- ?a = ?b => exact_no_check (eq_refl b) end.
(** exists s, run ... = Running s tr /\ ... *)
Ltac witness :=
  match goal with
  | |- exists s, run ?st ?i ?ls = Running s ?tr /\ _ =>
      exists (state_of i (run st i ls)); split; [apply running_intro; vmrefl|]
  | |- exists s tr, run ?st ?i ?ls = Running s tr /\ _ =>
      exists (state_of i (run st i ls)); exists (events_of (run st i ls)); split; [apply running_any; vmrefl|]
  | |- exists tr, run ?st ?i ?ls = Failed ?f tr =>
      exists (events_of (run st i ls)); apply failed_any; vmrefl
  | |- exists tr, run ?st ?i ?ls = Failed ?f tr /\ _ =>
      exists (events_of (run st i ls)); split; [apply failed_any; vmrefl|]
  end.

(** Total maps from identifiers. *)
Definition upd {A : Type} (f : nat -> A) (k : nat) (v : A) : nat -> A :=
  fun n => if Nat.eqb n k then v else f n.

Lemma upd_same {A} (f : nat -> A) k v : upd f k v k = v.
Proof. unfold upd. now rewrite Nat.eqb_refl. Qed.

Lemma upd_other {A} (f : nat -> A) k v n : n <> k -> upd f k v n = f n.
Proof. unfold upd. intros H. apply Nat.eqb_neq in H. now rewrite H. Qed.

(** Replace the [i]-th element of a list. *)
Fixpoint set_nth {A : Type} (l : list A) (i : nat) (x : A) : list A :=
  match l, i with
  | [], _ => []
  | _ :: t, 0 => x :: t
  | h :: t, S i' => h :: set_nth t i' x
  end.

(** Remove the first occurrence of [x]. *)
Fixpoint remove1 (x : nat) (l : list nat) : list nat :=
  match l with
  | [] => []
  | h :: t => if Nat.eqb h x then t else h :: remove1 x t
  end.

Definition memb (x : nat) (l : list nat) : bool := existsb (Nat.eqb x) l.
Definition cnt (x : nat) (l : list nat) : nat := count_occ Nat.eq_dec l x.

Fixpoint sum (l : list nat) : nat := match l with [] => 0 | h :: t => h + sum t end.
