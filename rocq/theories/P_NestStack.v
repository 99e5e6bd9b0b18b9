(** The call stack of nestings: proofs. *)
From Coq Require Import List Arith Bool Lia.
From Verif Require Import Lts ListFacts M_Nest S_Nest P_Nest M_NestStack S_NestStack.
Import ListNotations.

Inductive kw (m : nat) : kont -> Prop :=
| kw_set : kw m KSet
| kw_ite : forall a b, width m a -> width m b -> kw m (KIte a b)
| kw_repc : forall c g body, (forall v, width m (body v)) -> kw m (KRepC c g body)
| kw_repf : forall c g body, (forall v, width m (body v)) -> kw m (KRepF c g body)
| kw_letp : forall g body, (forall v, width m (body v)) -> kw m (KLetP g body)
| kw_letf : forall body, (forall v, width m (body v)) -> kw m (KLetF body).
Inductive ow (m : nat) : op -> Prop :=
| ow_new : forall x, width m x -> ow m (ONew x)
| ow_leaf : forall i, ow m (OLeaf i)
| ow_fn : forall f k, kw m k -> ow m (OFn f k)
| ow_trans : forall f o, ow m o -> ow m (OTrans f o)
| ow_rep : forall c g body o, (forall v, width m (body v)) -> ow m o -> ow m (ORep c g body o)
| ow_seq : forall l o, (forall y, In y l -> width m y) -> ow m o -> ow m (OSeq l o)
| ow_set : forall v, ow m (OSet v)
| ow_fin : ow m OFin.
Lemma width_sfr m x : width m x -> sfr x <= m.
Proof. induction x using ex_ind'; intros W; inversion W; subst; simpl in *; auto. Qed.
Lemma start_ow m x : width m x -> forall o es, o_start x = (o, es) -> ow m o.
Proof.
  induction x using ex_ind'; intros W o es E; inversion W; subst; simpl in E; try (inversion E; subst; constructor; try constructor; assumption).
  - destruct (o_start x) as [o1 es1]. inversion E; subst. constructor. eapply IHx; eauto.
  - destruct (o_start x) as [o1 es1]. inversion E; subst. constructor; [intros y Hy; match goal with H : forall y, _ -> width m y |- _ => apply H end; now right|]. eapply IHx; eauto. match goal with H : forall y, _ -> width m y |- _ => apply H end. now left.
Qed.
Lemma start_of_ow m x o es : width m x -> start_of x = Next o es -> ow m o.
Proof. unfold start_of. destruct (o_start x) as [o1 es1] eqn:E. intros W F. inversion F; subst. eapply start_ow; eauto. Qed.
Lemma push_ow m o e : ow m o -> push o e <= m + 2.
Proof.
  induction o using op_ind'; intros W; inversion W as [x' Wx| |f' k' Wk|? ? Wo|? ? ? ? Wb Wo|? ? Wl Wo| |]; subst; simpl; try lia.
  - apply width_sfr in Wx. lia.
  - inversion Wk as [|a b Wa Wb|? ? ? Wb|? ? ? Wb|? ? Wb|? Wb]; subst; destruct e as [v|]; try lia; [destruct (v =? 0)| |]; try (pose proof (width_sfr m _ Wa)); try (pose proof (width_sfr m _ Wb)); try (pose proof (width_sfr m _ (Wb v))); lia.
  - specialize (IHo Wo). destruct o; simpl in *; lia.
  - specialize (IHo Wo). destruct o; simpl in *; lia.
  - specialize (IHo Wo). destruct l as [|x l]; [destruct o; simpl in *; lia|]. pose proof (width_sfr m _ (Wl x (or_introl eq_refl))). destruct o; simpl in *; lia.
Qed.
Lemma step_ow m o : forall p e o' es, ow m o -> o_step o p e = Next o' es -> ow m o'.
Proof.
  induction o using op_ind'; intros p e o' es W E; inversion W as [x' Wx| |f' k' Wk|? ? Wo|? ? ? ? Wb Wo|? ? Wl Wo| |]; subst; simpl in E; try discriminate.
  - destruct p, e; inversion E; subst. constructor.
  - destruct p, e as [v|]; try discriminate. unfold k_step in E. apply emit_next in E as (es' & E & _).
    inversion Wk as [|a b Wa Wb|? ? ? Wb|? ? ? Wb|? ? Wb|? Wb]; subst.
    + inversion E; subst. constructor.
    + eapply start_of_ow; [|exact E]. destruct (v =? 0); assumption.
    + destruct (v =? 0); inversion E; subst; repeat constructor; assumption.
    + apply within_next in E as (o1 & E & ->). constructor; [assumption|]. eapply start_of_ow; [|exact E]. auto.
    + inversion E; subst. repeat constructor; assumption.
    + eapply start_of_ow; [|exact E]. auto.
  - destruct (set_dec o) as [[v ->]|Hs]; [destruct p, e; inversion E; subst; repeat constructor|].
    assert (F : within (OTrans f) (o_step o p e) = Next o' es) by (destruct o; try exact E; now destruct (Hs v)). apply within_next in F as (o1 & F & ->). constructor. eauto.
  - destruct (set_dec o) as [[v ->]|Hs]; [destruct p, e; inversion E; subst; repeat constructor; assumption|].
    assert (F : within (ORep c g body) (o_step o p e) = Next o' es) by (destruct o; try exact E; now destruct (Hs v)). apply within_next in F as (o1 & F & ->). constructor; eauto.
  - destruct (set_dec o) as [[v ->]|Hs].
    + destruct p, e, l as [|x l]; try discriminate; [inversion E; subst; constructor|]. apply within_next in E as (o1 & F & ->). constructor; [intros y Hy; apply Wl; now right|]. eapply start_of_ow; [|exact F]. apply Wl. now left.
    + assert (F : within (OSeq l) (o_step o p e) = Next o' es) by (destruct o; try exact E; now destruct (Hs v)). apply within_next in F as (o1 & F & ->). constructor; eauto.
Qed.
Lemma n_step_ow m o l o' es : ow m o -> n_step o l = Next o' es -> ow m o'.
Proof.
  intros W E. destruct l as [|p|p v]; simpl in E.
  - destruct o; try discriminate. inversion W; subst. eapply start_of_ow; eauto.
  - destruct p; [destruct o; try (eapply step_ow; [exact W|exact E]); inversion E; subst; constructor|eapply step_ow; eauto].
  - eapply step_ow; eauto.
Qed.
Lemma stack_bound m ls : forall s k tr0 s' tr, ow m (h_op s) -> (if h_on s then h_n s else h_n s + 1) <= (m + 2) * k + 1 -> (h_on s = false -> h_n s = 0) ->
  run_from h_step s tr0 ls = Running s' tr -> h_n s' <= (m + 2) * since k ls + 1.
Proof.
  induction ls as [|l ls IH]; intros s k tr0 s' tr W B Z R; simpl in R.
  - inversion R; subst. simpl. destruct (h_on s'); lia.
  - destruct l as [l|]; simpl in R.
    + destruct (n_step (h_op s) l) as [o es| |] eqn:E; try discriminate. cbn [since]. eapply IH; [| | |exact R]; cbn [h_op h_n h_on]; [eapply n_step_ow; eauto| |discriminate].
      pose proof (push_ow m (h_op s) (env_of l) W). destruct (h_on s); nia.
    + destruct (h_on s && waits (h_op s)); try discriminate. cbn [since]. eapply IH; [| | |exact R]; cbn [h_op h_n h_on]; [exact W|lia|reflexivity].
Qed.

(** Calls return only while a leaf operation and no user function is running. *)
Lemma waits_rl o : seqo o -> waits o = true -> rl o = 1 /\ rf o = 0.
Proof. induction o using op_ind'; intros S W; inversion S; subst; simpl in *; try discriminate; auto. Qed.
Lemma seq_run x ls : sequential x -> forall o tr, run n_step (n_init x) ls = Running o tr -> seqo o.
Proof.
  intros Q o tr R. apply (run_inv n_step (fun o _ => seqo o) (n_init x)) with (ls := ls) (tr := tr); [constructor; exact Q| |exact R]. intros s tr0 l s' es Hs E. exact (proj1 (seq_n_step s l Hs) s' es E).
Qed.
Lemma seq_rl_rf o : seqo o -> rl o + rf o <= 1.
Proof. induction o using op_ind'; intros S; inversion S; subst; simpl in *; auto. Qed.
