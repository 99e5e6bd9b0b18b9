(** The happens-before model of cancellation_event: what the steps change. *)
From Coq Require Import List Arith Bool Lia.
From Verif Require Import Lts ListFacts M_HB P_HB M_Cancel S_Cancel P_Cancel P_CancelInv P_CancelStep M_CancelHB S_CancelHB P_CancelHB.
Import ListNotations.

Ltac cinv Hs := repeat match goal with H : KI _ _ |- _ => clear H end; cbn [c_step] in Hs; unfold c_push, c_erase in Hs;
  repeat match type of Hs with context [match ?x with _ => _ end] => destruct x eqn:? end; try discriminate; injection Hs as <- <-.
Ltac cs := cbn [c_ev c_nd c_fns c_loops c_with_ev c_with_nd c_with_fns c_with_loops c_kill e_req e_cbs e_lock e_alive n_life n_obs n_tok] in *.

Section Step.
Context {s : cst} {tr : list cevent} {l : clabel} {s' : cst} {es : list cevent}.
Hypothesis K : KI s tr.
Hypothesis K' : KI s' (tr ++ es).
Hypothesis Hs : c_step s l = Next s' es.

Lemma ev_keep e : ~ evs s l e -> c_ev s' e = c_ev s e.
Proof.
  unfold evs, sts. intros H.
  destruct l as [c t|c|c t f|c|c|e0|e0|e0|e0|i|k|k]; cbn [sec] in H; cinv Hs; cs; try reflexivity;
    try (rewrite upd_other'; [reflexivity|]; intros ->; apply H; left; left; congruence).
  - rewrite upd_other'; [reflexivity|]. intros ->. apply H. left. right. left. exists c. auto.
  - rewrite upd_other'; [reflexivity|]. intros ->. apply H. left. right. right. reflexivity.
  - rewrite upd_other'; [reflexivity|]. intros ->. apply H. right. subst. eauto.
Qed.
Lemma sts_ok e : sts s l e -> e_alive (c_ev s e) = true /\ e_lock (c_ev s e) = false.
Proof.
  assert (Q : forall x, negb (ev_ok s x) = false -> e_alive (c_ev s x) = true /\ e_lock (c_ev s x) = false).
  { intros x Hx. apply negb_false_iff, andb_true_iff in Hx. destruct Hx as [A B]. apply negb_true_iff in B. auto. }
  intros [H|[(c & -> & H)|H]]; [|cinv Hs; apply Q; auto; congruence|subst; cinv Hs; apply Q; auto].
  destruct l as [c [x|]|c|c [x|] f|c|c|e0|e0|e0|e0|i|k|k]; cbn [sec] in H; try discriminate; cinv Hs; try congruence; try (injection H as ->); try (apply Q; assumption); try (rewrite H in *; match goal with E : Some _ = Some _ |- _ => injection E as -> end);
    try (match goal with E : negb _ = false |- _ => apply negb_false_iff in E; auto end).
  all: try (apply Q; rewrite Heqb; reflexivity).
  all: try (match goal with E1 : negb (e_alive (c_ev s ?n)) = false, E2 : e_lock (c_ev s ?n) = false |- _ => apply negb_false_iff in E1; split; congruence end).
Qed.
Lemma sec_keep e : sec s l = Some e -> e_alive (c_ev s' e) = true /\ e_lock (c_ev s' e) = false.
Proof.
  intros H. destruct (sts_ok e (or_introl H)) as [A B].

  destruct l as [c [x|]|c|c [x|] f|c|c|e0|e0|e0|e0|i|k|k]; cbn [sec] in H; try discriminate; cinv Hs; cs; try congruence; try (injection H as ->); auto;
    try (rewrite upd_same'; auto); try (unfold upd; destruct (e =? _) eqn:E; [apply Nat.eqb_eq in E; subst|]; auto).
  all: cs; auto.
Qed.
Lemma ctor_lock c e : l = LNew c (Some e) -> e_req (c_ev s e) = true -> e_lock (c_ev s' e) = true.
Proof. intros -> H. cinv Hs; try congruence. cs. now rewrite upd_same'. Qed.
Lemma delev_dead e : l = LDelEv e -> e_alive (c_ev s' e) = false.
Proof. intros ->. cinv Hs. cs. now rewrite upd_same'. Qed.
Lemma ret_ev k c e : l = LRet k -> nth_error (c_fns s) k = Some (FRun c e HCtor) -> e_alive (c_ev s' e) = e_alive (c_ev s e).
Proof. intros -> H. cinv Hs; try congruence. injection H as -> -> . cs. now rewrite upd_same'. Qed.

Lemma nd_keep c : ~ mk l c -> c_nd s' c = c_nd s c.
Proof. intros H. destruct l; cbn [mk] in H; cinv Hs; cs; try reflexivity; rewrite upd_other'; auto. Qed.
Lemma mkn_fresh c : mkn l c -> fresh s c = true /\ nlive s' c = true.
Proof. unfold fresh, nlive. intros H. destruct l; cbn [mkn] in H; try contradiction; subst; cinv Hs; cs; try (rewrite upd_same'); auto; congruence. Qed.
Lemma del_live c : l = LDel c -> nlive s c = true /\ nlive s' c = false /\ fresh s' c = false.
Proof. intros ->. cinv Hs; cs; unfold nlive, fresh in *; cs; rewrite upd_same'; cs; repeat split; destruct (n_life (c_nd s c)); try reflexivity; discriminate. Qed.
Lemma sn_live c : sn s l c -> ~ mk l c -> nlive s c = true.
Proof.
  intros H Hm. destruct l; cbn [sn mk] in *; try tauto; subst.
  - cinv Hs; match goal with E : _ && _ = true |- _ => apply andb_true_iff in E; tauto end.
  - cinv Hs; match goal with E : _ && _ = true |- _ => apply andb_true_iff in E; tauto end.
  - destruct H as [rest H]. cinv Hs; try congruence. injection H as -> ->. simpl in Heqb. apply andb_true_iff in Heqb. tauto.
Qed.
Lemma fresh_back c : fresh s' c = true -> fresh s c = true /\ ~ sn s l c /\ ~ mk l c.
Proof.
  intros Hf. assert (Hl : nlive s' c = false) by (unfold fresh, nlive in *; destruct (n_life (c_nd s' c)); congruence).
  assert (Hm : ~ mk l c).
  { intros Hm. assert (mkn l c \/ l = LDel c) as [H|H] by (destruct l; simpl in *; try tauto; right; congruence); [destruct (mkn_fresh c H)|destruct (del_live c H) as (_ & _ & X)]; congruence. }
  unfold fresh in Hf. rewrite nd_keep in Hf by exact Hm. split; [exact Hf|]. split; [|exact Hm]. intros Hn. apply sn_live in Hn; auto. unfold nlive in Hn. destruct (n_life (c_nd s c)); congruence.
Qed.
Lemma cbs_live e c : In c (e_cbs (c_ev s e)) -> nlive s c = true /\ fresh s c = false /\ inc s c = true /\ n_tok (c_nd s c) = Some e /\ e_req (c_ev s e) = false /\ ~ In c (rests s).
Proof.
  intros H. pose proof (proj1 (forallb_forall _ _) (k_cbs_live _ _ K e) c H) as A. split; [exact A|]. split; [unfold fresh, nlive in *; destruct (n_life (c_nd s c)); congruence|].
  pose proof (k_in _ _ K _ _ H) as T. assert (I : inc s c = true) by (unfold inc; rewrite T; now apply memb_In). split; [exact I|]. split; [exact T|]. split.
  - destruct (e_req (c_ev s e)) eqn:E; auto. rewrite (k_cbs_req _ _ K _ E) in H. destruct H.
  - pose proof (o_in _ _ _ _ _ _ _ _ _ (k_ok _ _ K c)) as O. apply It in I. specialize (O I). rewrite <- memb_In, <- It. tauto.
Qed.
Lemma rest_live c : In c (rests s) -> nlive s c = true /\ fresh s c = false.
Proof. intros H. pose proof (k_rest_live _ _ K _ H) as A. split; [exact A|]. unfold fresh, nlive in *; destruct (n_life (c_nd s c)); congruence. Qed.
End Step.

Lemma rests_in s c : In c (rests s) <-> exists i L, nth_error (c_loops s) i = Some L /\ In c (l_rest L).
Proof.
  unfold rests. rewrite in_flat_map. split.
  - intros (L & H1 & H2). apply In_nth_error in H1. destruct H1 as (i & H1). eauto.
  - intros (i & L & H1 & H2). exists L. split; [eapply nth_error_In; eauto|exact H2].
Qed.

Section Step2.
Context {s : cst} {tr : list cevent} {l : clabel} {s' : cst} {es : list cevent}.
Hypothesis K : KI s tr.
Hypothesis K' : KI s' (tr ++ es).
Hypothesis Hs : c_step s l = Next s' es.

Lemma cbs_back e c : In c (e_cbs (c_ev s' e)) -> (In c (e_cbs (c_ev s e)) /\ ~ mk l c) \/ (mkn l c /\ sec s l = Some e /\ post s l = []).
Proof.
  intros H. assert (Hlive : nlive s' c = true) by (destruct (cbs_live K' _ _ H); auto).
  assert (D : l <> LDel c) by (intros E; destruct (del_live Hs c E) as (_ & X & _); congruence).
  assert (M : In c (e_cbs (c_ev s e)) -> ~ mk l c).
  { intros Hi Hm. assert (mkn l c \/ l = LDel c) as [Hx|Hx] by (destruct l; simpl in *; try tauto; right; congruence); [|auto].
    destruct (mkn_fresh Hs c Hx) as [Hf _]. destruct (cbs_live K _ _ Hi) as (_ & X & _). congruence. }
  assert (G : In c (e_cbs (c_ev s e)) \/ (mkn l c /\ sec s l = Some e /\ post s l = [])); [|destruct G; auto].
  clear M D Hlive. destruct l as [c0 t|c0|c0 t f|c0|c0|e0|e0|e0|e0|i|k|k]; cbn [sec post mkn]; cinv Hs; cs; auto; try (left; assumption);
    revert H; unfold upd; match goal with |- context [e =? ?x] => destruct (Nat.eqb_spec e x) as [E0|]; [try subst e|] end; cs; auto; intros H; try (destruct H; fail); try (apply In_remove1 in H; auto; fail).
  all: try (rewrite negb_true_iff in Heqb0); apply in_app_or in H; (destruct H as [H|[<-|[]]]; [left; exact H|right; rewrite ?Heqb0; auto]).
Qed.
Lemma cbs_fwd e c : In c (e_cbs (c_ev s e)) -> ~ In c (e_cbs (c_ev s' e)) -> ((l = LUnbind c \/ l = LReset c) /\ sec s l = Some e) \/ l = LDel c \/ (l = LCancel e /\ In c (rests s')).
Proof.
  intros H H'. assert (Hr : forall c0, ~ In c (remove1 c0 (e_cbs (c_ev s e))) -> c0 = c).
  { intros c0 Hn. destruct (Nat.eq_dec c0 c); auto. exfalso. apply Hn. apply In_remove1_NoDup; auto. apply K. }
  destruct l as [c0 t|c0|c0 t f|c0|c0|e0|e0|e0|e0|i|k|k]; cbn [sec]; cinv Hs; cs; try (exfalso; apply H'; assumption);
    revert H'; unfold upd; match goal with |- context [e =? ?x] => destruct (Nat.eqb_spec e x) as [E0|]; [try subst e|] end; cs; intros H'; try (exfalso; apply H'; assumption); try (exfalso; apply H', in_or_app; auto; fail).
  - apply Hr in H'. subst. auto.
  - apply Hr in H'. subst. auto.
  - apply Hr in H'. subst. auto.
  - right. right. split; [reflexivity|]. unfold rests. cs. rewrite flat_map_app, in_app_iff. right. simpl. rewrite app_nil_r. exact H.
  - match goal with E : e_cbs _ = [] |- _ => rewrite E in H end. destruct H.
Qed.
Lemma rest_fwd c : In c (rests s) -> ~ In c (rests s') -> exists rest, head s l c rest.
Proof.
  rewrite !rests_in. intros (i & L & Hi & Hc) H'. assert (Hk : c_loops s' = c_loops s -> False) by (intros E; apply H'; rewrite E; eauto).
  destruct l as [c0 t|c0|c0 t f|c0|c0|e0|e0|e0|e0|j|k|k]; try (exfalso; apply Hk; cinv Hs; reflexivity).
  - exfalso. cinv Hs. apply H'. exists i, L. cs. rewrite nth_error_app1; [auto|]. apply nth_error_Some. congruence.
  - cinv Hs; cs.
    + exfalso. apply H'. destruct (Nat.eq_dec j i) as [->|Hne]; [|exists i, L; rewrite nth_error_set_nth_other; auto]. rewrite Heqo in Hi. injection Hi as <-. exists i. eexists. rewrite (nth_error_set_nth_same _ _ _ _ Heqo). split; [reflexivity|]. exact Hc.
    + exfalso. apply H'. destruct (Nat.eq_dec j i) as [->|Hne]; [|exists i, L; rewrite nth_error_set_nth_other; auto]. rewrite Heqo in Hi. injection Hi as <-. exists i. eexists. rewrite (nth_error_set_nth_same _ _ _ _ Heqo). split; [reflexivity|]. exact Hc.
    + destruct (Nat.eq_dec j i) as [->|Hne]; [|exfalso; apply H'; exists i, L; rewrite nth_error_set_nth_other; auto]. rewrite Heqo in Hi. injection Hi as <-. destruct Hc as [<-|Hc]; [eexists; exists i; split; [reflexivity|exact Heqo]|].
      exfalso. apply H'. exists i. eexists. rewrite (nth_error_set_nth_same _ _ _ _ Heqo). split; [reflexivity|exact Hc].
Qed.
Lemma loop_back i L c : nth_error (c_loops s') i = Some L -> In c (l_rest L) ->
  (exists L0, nth_error (c_loops s) i = Some L0 /\ In c (l_rest L0)) \/ (exists e, l = LCancel e /\ In c (e_cbs (c_ev s e)) /\ i = length (c_loops s)).
Proof.
  intros Hi Hc. destruct l as [c0 t|c0|c0 t f|c0|c0|e0|e0|e0|e0|j|k|k]; try (left; exists L; split; [|exact Hc]; rewrite <- Hi; cinv Hs; reflexivity).
  - cinv Hs. cs. destruct (nth_snoc _ _ _ _ Hi) as [Ho|[-> ->]]; [left; eauto|right]. exists e0. auto.
  - left. cinv Hs; cs; destruct (Nat.eq_dec j i) as [->|Hne]; try (rewrite nth_error_set_nth_other in Hi by auto; eauto; fail); rewrite (nth_error_set_nth_same _ _ _ _ Heqo) in Hi; injection Hi as <-; eexists; (split; [eassumption|]); simpl in *; auto; contradiction.
Qed.
Lemma fns_back c e : In (FRun c e HCtor) (c_fns s') -> In (FRun c e HCtor) (c_fns s) \/ (l = LNew c (Some e) /\ e_req (c_ev s e) = true).
Proof.
  intros H. destruct l as [c0 t|c0|c0 t f|c0|c0|e0|e0|e0|e0|j|k|k]; cinv Hs; cs; auto; try (apply in_app_or in H; destruct H as [H|[H|[]]]; auto; discriminate).
  - apply in_app_or in H. destruct H as [H|[H|[]]]; auto. right. injection H as -> ->. auto.
  - apply In_set_nth in H. destruct H as [H|H]; [discriminate|auto].
  - apply In_set_nth in H. destruct H as [H|H]; [discriminate|auto].
  - apply In_set_nth in H. destruct H as [H|H]; [discriminate|auto].
Qed.
Lemma ctor_locked c e : In (FRun c e HCtor) (c_fns s) -> e_lock (c_ev s e) = true.
Proof.
  intros H. pose proof (k_lock _ _ K e) as E. destruct (e_lock (c_ev s e)); auto. exfalso. apply in_split in H. destruct H as (a & b & H). rewrite H, map_app, sum_app in E. simpl in E. rewrite Nat.eqb_refl in E. lia.
Qed.
(** A node is in one list pending only. *)
Lemma rest_uniq i j L1 L2 c : nth_error (c_loops s) i = Some L1 -> nth_error (c_loops s) j = Some L2 -> In c (l_rest L1) -> In c (l_rest L2) -> i = j.
Proof.
  pose proof (k_ndr _ _ K) as N. unfold rests in N. revert i j N. generalize (c_loops s). clear. intros loops. induction loops as [|L loops IH]; intros i j N H1 H2 C1 C2; [destruct i; discriminate|].
  simpl in N. assert (D : forall x, In x (l_rest L) -> ~ In x (flat_map l_rest loops)) by (intros x A B; revert N A; generalize (l_rest L); clear - B; intros r; induction r as [|y r IH]; simpl; intros N A; [destruct A|]; inversion_clear N; destruct A as [->|A]; [apply H, in_or_app; auto|auto]).
  assert (N' : NoDup (flat_map l_rest loops)) by (revert N; generalize (l_rest L); clear; intros r; induction r as [|y r IH]; simpl; auto; intros N; inversion_clear N; auto).
  destruct i as [|i], j as [|j]; simpl in *; auto.
  - injection H1 as ->. exfalso. apply (D c C1), in_flat_map. exists L2. split; [eapply nth_error_In; eauto|auto].
  - injection H2 as ->. exfalso. apply (D c C2), in_flat_map. exists L1. split; [eapply nth_error_In; eauto|auto].
Qed.
(** The events of a step *)
Lemma es_cancel e : In (KCancel e) es -> l = LCancel e.
Proof. destruct l; cinv Hs; simpl; intros H; repeat destruct H as [H|H]; try discriminate; try contradiction; try (destruct force; discriminate); congruence. Qed.
Lemma es_gives c ev : In ev es -> gives c ev = true -> mkn l c.
Proof.
  intros H G. destruct l as [c0 t|c0|c0 t f|c0|c0|e0|e0|e0|e0|j|k|k]; cinv Hs; cbn [In mkn] in *; repeat destruct H as [H|H]; try contradiction; subst ev; try discriminate G; try (now apply Nat.eqb_eq in G); try (destruct f; try discriminate G; now apply Nat.eqb_eq in G); destruct t; try discriminate G; now apply Nat.eqb_eq in G.
Qed.
(** A call of the constructor or of force_set() with an event whose cancellation is requested *)
Lemma ctor_es c e : l = LNew c (Some e) -> e_req (c_ev s e) = true -> es = [KNew c (Some e); KRun c HCtor].
Proof. intros -> E. cinv Hs; congruence. Qed.
End Step2.
