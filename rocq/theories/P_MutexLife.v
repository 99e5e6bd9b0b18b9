(** When mutex and shared_mutex may be destroyed: C85. *)
From Coq Require Import List Arith Bool Lia.
From Verif Require Import Lts ListFacts M_Mutex S_Mutex P_Mutex M_SharedMutex S_SharedMutex P_SharedMutex P_SharedMutexMain.
Import ListNotations.

Ltac inner H :=
  match type of H with context [match ?b with _ => _ end] => lazymatch b with context [match _ with _ => _ end] => fail | _ => destruct b eqn:? end end.

Section Only.
Context {A : Type}.
Variable g : A -> bool.
(** all calls with g are the k-th one *)
Definition only (k : nat) (l : list A) : Prop := forall j a, nth_error l j = Some a -> g a = true -> j = k.
Lemma only_set k (l : list A) i a b : only k l -> nth_error l i = Some b -> (g a = true -> g b = true) -> only k (set_nth l i a).
Proof.
  intros H Hb Ha j c Hj Hg. destruct (Nat.eq_dec i j) as [->|Hne].
  - rewrite (nth_error_set_nth_same _ _ _ _ Hb) in Hj. injection Hj as <-. eauto.
  - rewrite nth_error_set_nth_other in Hj by exact Hne. eauto.
Qed.
Lemma only_snoc k (l : list A) a : only k l -> g a = false -> only k (l ++ [a]).
Proof.
  intros H Ha j c Hj Hg. destruct (Nat.lt_ge_cases j (length l)) as [Hl|Hl].
  - rewrite nth_error_app1 in Hj by exact Hl. eauto.
  - rewrite nth_error_app2 in Hj by exact Hl. apply nth_error_In in Hj. destruct Hj as [<-|[]]. congruence.
Qed.
Lemma only_new (l : list A) a : (forall b, In b l -> g b = false) -> only (length l) (l ++ [a]).
Proof.
  intros H j c Hj Hg. destruct (Nat.lt_ge_cases j (length l)) as [Hl|Hl].
  - rewrite nth_error_app1 in Hj by exact Hl. apply nth_error_In in Hj. apply H in Hj. congruence.
  - rewrite nth_error_app2 in Hj by exact Hl. destruct (j - length l) as [|[]] eqn:E; simpl in Hj; try discriminate. lia.
Qed.
End Only.

(** ** mutex *)
(** unlock() calls that have not yet given up the mutex *)
Definition giving (a : mact) : bool := match a with AUnl | AUnlCas | AUnlLock => true | _ => false end.
Lemma only_step k s l s' es : only giving k (m_act s) -> l <> MUnlock -> m_step s l = Next s' es -> only giving k (m_act s').
Proof.
  intros H Hl Hs. destruct l as [o| | |i spur]; simpl in Hs.
  - destruct (m_op s o); try discriminate. injection Hs as <- <-. now apply only_snoc.
  - destruct (m_st s); injection Hs as <- <-; exact H.
  - congruence.
  - destruct (nth_error (m_act s) i) as [a|] eqn:Hi; [|discriminate].
    assert (Hn : forall a', (giving a' = true -> giving a = true) -> only giving k (set_nth (m_act s) i a')) by (intros a' Ha; exact (only_set _ _ _ _ _ _ H Hi Ha)).
    destruct a as [o|o|o v|o| | | |o|]; simpl in Hs; unfold suspend, notify in Hs; repeat (inner Hs; try discriminate); try discriminate; injection Hs as <- <-; apply Hn; auto.
Qed.
Lemma only_run k ls : forall s tr s' tr', only giving k (m_act s) -> ~ In MUnlock ls -> run_from m_step s tr ls = Running s' tr' -> only giving k (m_act s').
Proof.
  induction ls as [|l ls IH]; intros s tr s' tr' H Hn Hr; cbn [run_from] in Hr; [injection Hr as <- <-; exact H|].
  destruct (m_step s l) as [s1 es| |] eqn:Hs; try discriminate. simpl in Hn. apply (IH s1 (tr ++ es) s' tr' (only_step _ _ _ _ _ H (fun E => Hn (or_introl E)) Hs)); tauto.
Qed.
Lemma m_destroy ls1 s1 tr1 ls2 s tr : run m_step m_init ls1 = Running s1 tr1 -> run m_step m_init (ls1 ++ MUnlock :: ls2) = Running s tr -> owners_unlock tr ->
  ~ In MUnlock ls2 -> nth_error (m_act s) (length (m_act s1)) = Some AEnd -> incl (started_ops tr) (acquired tr) -> m_quiet s.
Proof.
  intros H1 H2 Hrule Hn Hk Hall. pose proof (m_inv _ _ _ H2 Hrule) as HI. unfold run in H1, H2. rewrite run_from_app, H1 in H2. cbn [run_from m_step] in H2.
  destruct (run_from_trace_prefix m_step _ _ _ _ _ H2) as [t2 Et].
  assert (Hu : unls true tr1 < acqs true tr1) by (rewrite Et, <- app_assoc in Hrule; apply (rule_unlock tr1 true), (rule_prefix _ t2); rewrite <- app_assoc; exact Hrule).
  assert (HI1 : MI s1 tr1) by (apply (m_inv ls1 s1 tr1 H1); rewrite Et, <- app_assoc in Hrule; exact (rule_prefix _ _ Hrule)).
  assert (Hg : forall b, In b (m_act s1) -> giving b = false).
  { intros b Hb. pose proof (mi_tok _ _ HI1) as Ht. pose proof (sum_map_le tok _ _ Hb) as Hle. destruct b; simpl in *; auto; destruct (m_st s1); lia. }
  assert (Ho : only giving (length (m_act s1)) (m_act s)).
  { refine (only_run _ _ _ _ _ _ _ Hn H2). exact (only_new giving (m_act s1) AUnl Hg). }
  intros a Ha. apply In_nth_error in Ha. destruct Ha as [j Hj].
  assert (Hop : forall o, In o (aop a) -> False).
  { intros o Hin. destruct (place_started _ _ HI _ _ _ Hj Hin) as [Hst _]. assert (In o (acquired tr)) by (apply Hall, (mi_start _ _ HI); congruence).
    apply (proj2 (mi_acq _ _ HI)) in H. congruence. }
  destruct a as [o|o|o v|o| | | |o|]; try (destruct (Hop o (or_introl eq_refl))); try reflexivity; rewrite (Ho _ _ Hj eq_refl) in Hj; congruence.
Qed.

(** ** shared_mutex *)
Definition rgiving (a : ract) : bool := match a with XUnl | XUnlCas _ | XUnlLock | SUnl | SUnl1 _ | SUnl2 _ => true | _ => false end.
Lemma r_only_step k s l s' es : only rgiving k (r_act s) -> (forall x, l <> RUnlock x) -> r_step s l = Next s' es -> only rgiving k (r_act s').
Proof.
  intros H Hl Hs. destruct l as [o x| | |x|i spur]; simpl in Hs.
  - destruct (r_op s o); try discriminate. injection Hs as <- <-. apply only_snoc; [exact H|]. now destruct x.
  - destruct (rval_eqb _ _); injection Hs as <- <-; exact H.
  - injection Hs as <- <-. now apply only_snoc.
  - now destruct (Hl x).
  - destruct (nth_error (r_act s) i) as [a|] eqn:Hi; [|discriminate].
    assert (Hn : forall a', (rgiving a' = true -> rgiving a = true) -> only rgiving k (set_nth (r_act s) i a')) by (intros a' Ha; exact (only_set _ _ _ _ _ _ H Hi Ha)).
    destruct a; simpl in Hs; unfold sunl2_step, r_suspend, r_hand, try_ret in Hs; repeat (inner Hs; try discriminate); try discriminate; injection Hs as <- <-; apply Hn; auto.
Qed.
Lemma r_only_run k ls : forall s tr s' tr', only rgiving k (r_act s) -> (forall x, ~ In (RUnlock x) ls) -> run_from r_step s tr ls = Running s' tr' -> only rgiving k (r_act s').
Proof.
  induction ls as [|l ls IH]; intros s tr s' tr' H Hn Hr; cbn [run_from] in Hr; [injection Hr as <- <-; exact H|].
  destruct (r_step s l) as [s1 es| |] eqn:Hs; try discriminate. simpl in Hn. apply (IH s1 (tr ++ es) s' tr' (r_only_step _ _ _ _ _ H (fun x E => Hn x (or_introl E)) Hs)); [|exact Hr]. intros x Hx. apply (Hn x). auto.
Qed.
Lemma r_destroy ls1 s1 tr1 ls2 s tr : run r_step r_init ls1 = Running s1 tr1 -> run r_step r_init (ls1 ++ RUnlock true :: ls2) = Running s tr -> owners_unlock tr ->
  (forall x, ~ In (RUnlock x) ls2) -> nth_error (r_act s) (length (r_act s1)) = Some REnd -> incl (started_ops tr) (acquired tr) ->
  (forall v, ~ In (STry None) (r_act s) /\ ~ In (STryL None v) (r_act s)) -> r_quiet s.
Proof.
  intros H1 H2 Hrule Hn Hk Hall Htry. pose proof (r_inv _ _ _ H2 Hrule) as HI. unfold run in H1, H2. rewrite run_from_app, H1 in H2. cbn [run_from r_step] in H2.
  destruct (run_from_trace_prefix r_step _ _ _ _ _ H2) as [t2 Et].
  assert (Hu : unls true tr1 < acqs true tr1) by (rewrite Et, <- app_assoc in Hrule; apply (rule_unlock tr1 true), (rule_prefix _ t2); rewrite <- app_assoc; exact Hrule).
  assert (HI1 : RI s1 tr1) by (apply (r_inv ls1 s1 tr1 H1); rewrite Et, <- app_assoc in Hrule; exact (rule_prefix _ _ Hrule)).
  assert (Hg : forall b, In b (r_act s1) -> rgiving b = false).
  { intros b Hb. pose proof (ri_tok _ _ HI1 true) as Ht. pose proof (ri_tok _ _ HI1 false) as Hf. pose proof (ri_unl _ _ HI1 false) as Uf. pose proof (ri_none _ _ HI1) as N.
    pose proof (sum_map_le (tk true) _ _ Hb) as Hle. pose proof (sum_map_le (tk false) _ _ Hb) as Hlf. unfold own in *.
    destruct (v_c (r_st s1)); [lia|..]; (destruct (v_n (r_st s1) =? 0) eqn:E; [apply Nat.eqb_eq in E|lia]); destruct b; simpl in *; auto; lia. }
  assert (Ho : only rgiving (length (r_act s1)) (r_act s)).
  { refine (r_only_run _ _ _ _ _ _ _ Hn H2). exact (only_new rgiving (r_act s1) XUnl Hg). }
  intros a Ha. assert (Ha' := Ha). apply In_nth_error in Ha. destruct Ha as [j Hj].
  assert (Hop : forall nd, In nd (aops a) -> False).
  { intros nd Hin. destruct (r_place_started _ _ HI _ _ _ Hj Hin) as [Hst _]. assert (In (fst nd) (acquired tr)) by (apply Hall, (ri_start _ _ HI); congruence).
    apply (proj2 (ri_acq _ _ HI)) in H. congruence. }
  assert (Hl := ri_lc _ _ HI a Ha'). destruct a as [o|o|o v|[o|]|[o|] v|o|o v|nd| |v| | |v|v|[|nd p]|]; simpl in Hop; 
  try (exfalso; eapply Hop; left; reflexivity); try reflexivity; try (rewrite (Ho _ _ Hj eq_refl) in Hj; congruence).
  - now destruct (Htry (RV MNone 0)).
  - now destruct (Htry v).
  - now destruct Hl.
Qed.
