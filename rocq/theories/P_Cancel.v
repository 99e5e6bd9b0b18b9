(** Invariant of cancellation_event with callbacks and observers. *)
From Coq Require Import List Arith Bool Lia.
From Verif Require Import Lts ListFacts M_Cancel S_Cancel.
Import ListNotations.

Notation crun := (run c_step c_init).
Notation "! b" := (Is_true b) (at level 9, b at level 9, format "! b").

Lemma It b : Is_true b <-> b = true.
Proof. destruct b; simpl; intuition discriminate. Qed.
Lemma Ifl b : ~ Is_true b -> b = false.
Proof. destruct b; simpl; tauto. Qed.

(** ** Summary of the part of a trace that concerns one node *)
Record nv := NV { v_t : option nat; v_an : bool; v_ao : bool; v_u : bool; v_r : bool; v_f : bool; v_d : bool; v_x : bool; v_xc : bool; v_c : bool; v_s : bool }.
Definition nv0 : nv := NV None false false false false false false false false false false.
Definition some {A} (o : option A) : bool := match o with Some _ => true | None => false end.
Definition first {A} (a b : option A) : option A := match a with Some _ => a | None => b end.
Definition is_tok (t : option nat) (e : nat) : bool := match t with Some e' => e' =? e | None => false end.

Definition nvstep (c : nat) (v : nv) (ev : cevent) : nv :=
  match ev with
  | KNew c' tok => if c' =? c then NV (first (v_t v) tok) (v_an v || some tok) (v_ao v) (v_u v) (v_r v) (v_f v) (v_d v) (v_x v) (v_xc v) (v_c v) (v_s v) else v
  | KSet c' tok b => if c' =? c then NV (first (v_t v) tok) (v_an v) (v_ao v || some tok && b) (v_u v) (v_r v) (v_f v) (v_d v) (v_x v) (v_xc v) (v_c v) (v_s v || some tok && negb b) else v
  | KForce c' tok => if c' =? c then NV (first (v_t v) tok) (v_an v) (v_ao v || some tok) (v_u v) (v_r v) (v_f v) (v_d v) (v_x v) (v_xc v) (v_c v) (v_s v) else v
  | KUnbind c' => if c' =? c then NV (v_t v) (v_an v) (v_ao v) true (v_r v) (v_f v) (v_d v) (v_x v) (v_xc v) (v_c v) (v_s v) else v
  | KReset c' b => if c' =? c then NV (v_t v) (v_an v) (v_ao v) (v_u v) (v_r v || b) (v_f v || negb b) (v_d v) (v_x v) (v_xc v) (v_c v) (v_s v) else v
  | KDel c' => if c' =? c then NV (v_t v) (v_an v) (v_ao v) (v_u v) (v_r v) (v_f v) true (v_x v) (v_xc v) (v_c v) (v_s v) else v
  | KRun c' h => if c' =? c then NV (v_t v) (v_an v) (v_ao v) (v_u v) (v_r v) (v_f v) (v_d v) true (v_xc v || match h with HCtor => true | _ => false end) (v_c v) (v_s v) else v
  | KCancel e => if is_tok (v_t v) e then NV (v_t v) (v_an v) (v_ao v) (v_u v) (v_r v) (v_f v) (v_d v) (v_x v) (v_xc v) (v_c v || (v_an v || v_ao v) && negb (v_u v || v_r v || v_d v)) (v_s v) else v
  | _ => v
  end.
Definition nvw (c : nat) (tr : list cevent) : nv := fold_left (nvstep c) tr nv0.

Lemma nvw_app c tr es : nvw c (tr ++ es) = fold_left (nvstep c) es (nvw c tr).
Proof. apply fold_left_app. Qed.

(** The summary is what the trace says. *)
Ltac nvt := intros c tr; induction tr as [|ev tr IH] using rev_ind; [split; [intros []|discriminate]|];
  rewrite nvw_app; cbn [fold_left]; rewrite in_app_iff, IH; clear IH; set (v := nvw c tr); clearbody v;
  destruct ev as [c' t|c'|c' t b|c' t|c' b|c'|e|e|e|e b|c' h|c'|c' b]; cbn [nvstep];
  try (destruct (Nat.eqb_spec c' c)); try (destruct (is_tok (v_t v) e)); simpl; try (destruct b); try (destruct h); simpl; rewrite ?orb_true_iff, ?orb_false_r; intuition congruence.
Lemma v_u_iff : forall c tr, In (KUnbind c) tr <-> v_u (nvw c tr) = true.
Proof. nvt. Qed.
Lemma v_r_iff : forall c tr, In (KReset c true) tr <-> v_r (nvw c tr) = true.
Proof. nvt. Qed.
Lemma v_f_iff : forall c tr, In (KReset c false) tr <-> v_f (nvw c tr) = true.
Proof. nvt. Qed.
Lemma v_d_iff : forall c tr, In (KDel c) tr <-> v_d (nvw c tr) = true.
Proof. nvt. Qed.
Lemma v_xc_iff : forall c tr, In (KRun c HCtor) tr <-> v_xc (nvw c tr) = true.
Proof. nvt. Qed.
Lemma runs_app a b : runs (a ++ b) = runs a ++ runs b.
Proof. apply flat_map_app. Qed.
Lemma v_x_iff c tr : In c (runs tr) <-> v_x (nvw c tr) = true.
Proof.
  induction tr as [|ev tr IH] using rev_ind; [split; [intros []|discriminate]|]. rewrite nvw_app, runs_app. cbn [fold_left]. rewrite in_app_iff, IH. clear IH. set (v := nvw c tr). clearbody v.
  destruct ev as [c' t|c'|c' t b|c' t|c' b|c'|e|e|e|e b|c' h|c'|c' b]; cbn [nvstep];
  try (destruct (Nat.eqb_spec c' c)); try (destruct (is_tok (v_t v) e)); simpl; intuition congruence.
Qed.
Lemma v_an_iff c tr : (exists e, In (KNew c (Some e)) tr) <-> v_an (nvw c tr) = true.
Proof.
  induction tr as [|ev tr IH] using rev_ind; [split; [intros [? []]|discriminate]|]. rewrite nvw_app. cbn [fold_left]. 
  assert (E : (exists e, In (KNew c (Some e)) (tr ++ [ev])) <-> (exists e, In (KNew c (Some e)) tr) \/ exists e, ev = KNew c (Some e)).
  { split; [intros [e H]; apply In_snoc in H; destruct H; eauto|intros [[e H]|[e H]]; exists e; apply In_snoc; auto]. }
  rewrite E, IH. clear E IH. set (v := nvw c tr). clearbody v.
  destruct ev as [c' t|c'|c' t b|c' t|c' b|c'|e|e|e|e b|c' h|c'|c' b]; cbn [nvstep];
  try (destruct (Nat.eqb_spec c' c)); try (destruct (is_tok (v_t v) e)); simpl; rewrite ?orb_true_iff;
  try (split; [intros [H|[? H]]; [auto|congruence]|auto]; fail).
  subst c'. destruct t as [e|]; simpl; split; intros [H|H]; auto; try (right; eauto; fail); try discriminate; destruct H; discriminate.
Qed.
Lemma v_ao_iff c tr : (exists e, In (KSet c (Some e) true) tr \/ In (KForce c (Some e)) tr) <-> v_ao (nvw c tr) = true.
Proof.
  induction tr as [|ev tr IH] using rev_ind; [split; [intros [? [[]|[]]]|discriminate]|]. rewrite nvw_app. cbn [fold_left]. 
  assert (E : (exists e, In (KSet c (Some e) true) (tr ++ [ev]) \/ In (KForce c (Some e)) (tr ++ [ev])) <-> (exists e, In (KSet c (Some e) true) tr \/ In (KForce c (Some e)) tr) \/ exists e, ev = KSet c (Some e) true \/ ev = KForce c (Some e)).
  { split; [intros [e H]; rewrite !In_snoc in H; destruct H as [[H|H]|[H|H]]; eauto 6|intros [[e H]|[e H]]; exists e; rewrite !In_snoc; destruct H; auto]. }
  rewrite E, IH. clear E IH. set (v := nvw c tr). clearbody v.
  destruct ev as [c' t|c'|c' t b|c' t|c' b|c'|e|e|e|e b|c' h|c'|c' b]; cbn [nvstep];
  try (destruct (Nat.eqb_spec c' c)); try (destruct (is_tok (v_t v) e)); simpl; rewrite ?orb_true_iff;
  try (split; [intros [H|[? [H|H]]]; [auto|congruence|congruence]|auto]; fail); subst c'.
  - destruct t as [e|], b; simpl; split; intros [H|H]; auto; try (right; eauto; fail); try discriminate; destruct H as [? [?|?]]; discriminate.
  - destruct t as [e|]; simpl; split; intros [H|H]; auto; try (right; eauto; fail); try discriminate; destruct H as [? [?|?]]; discriminate.
Qed.
Lemma v_s_iff c tr : (exists e, In (KSet c (Some e) false) tr) <-> v_s (nvw c tr) = true.
Proof.
  induction tr as [|ev tr IH] using rev_ind; [split; [intros [? []]|discriminate]|]. rewrite nvw_app. cbn [fold_left]. 
  assert (E : (exists e, In (KSet c (Some e) false) (tr ++ [ev])) <-> (exists e, In (KSet c (Some e) false) tr) \/ exists e, ev = KSet c (Some e) false).
  { split; [intros [e H]; apply In_snoc in H; destruct H; eauto|intros [[e H]|[e H]]; exists e; apply In_snoc; auto]. }
  rewrite E, IH. clear E IH. set (v := nvw c tr). clearbody v.
  destruct ev as [c' t|c'|c' t b|c' t|c' b|c'|e|e|e|e b|c' h|c'|c' b]; cbn [nvstep];
  try (destruct (Nat.eqb_spec c' c)); try (destruct (is_tok (v_t v) e)); simpl; rewrite ?orb_true_iff;
  try (split; [intros [H|[? H]]; [auto|congruence]|auto]; fail); subst c'.
  destruct t as [e|], b; simpl; split; intros [H|H]; auto; try (right; eauto; fail); try discriminate; destruct H; discriminate.
Qed.

Lemma uses_snoc c e tr ev : uses c e (tr ++ [ev]) <-> uses c e tr \/ ev = KNew c (Some e) \/ (exists b, ev = KSet c (Some e) b) \/ ev = KForce c (Some e).
Proof.
  unfold uses. rewrite !In_snoc. split.
  - intros [[H|H]|[[b H]|[H|H]]]; auto 6. apply In_snoc in H. destruct H; eauto 7.
  - intros [[H|[[b H]|H]]|[H|[[b H]|H]]]; auto 6; right; left; exists b; apply In_snoc; auto.
Qed.
Lemma uses_mono c e t1 t2 : uses c e t1 -> uses c e (t1 ++ t2).
Proof. unfold uses. rewrite !in_app_iff. intros [H|[[b H]|H]]; auto 6. right. left. exists b. rewrite in_app_iff. auto. Qed.
Lemma armed_uses c e tr : armed c e tr -> uses c e tr.
Proof. unfold armed, uses. intros [H|[H|H]]; eauto. Qed.
Definition uniq (c : nat) (tr : list cevent) : Prop := forall e e', uses c e tr -> uses c e' tr -> e = e'.
Lemma uniq_prefix c t1 t2 : uniq c (t1 ++ t2) -> uniq c t1.
Proof. intros H e e' H1 H2. apply H; now apply uses_mono. Qed.
Lemma v_t_uses c e tr : v_t (nvw c tr) = Some e -> uses c e tr.
Proof.
  revert e. induction tr as [|ev tr IH] using rev_ind; intros e; [discriminate|]. rewrite nvw_app. cbn [fold_left]. rewrite uses_snoc. specialize (IH e). revert IH. set (v := nvw c tr). clearbody v.
  destruct ev as [c' t|c'|c' t b|c' t|c' b|c'|e'|e'|e'|e' b|c' h|c'|c' b]; cbn [nvstep];
  try (destruct (Nat.eqb_spec c' c)); try (destruct (is_tok (v_t v) e')); simpl; auto; intros IH; subst c'; unfold first; destruct (v_t v) as [x|]; auto; intros ->; eauto 6.
Qed.
Lemma uses_v_t c e tr : uses c e tr -> v_t (nvw c tr) <> None.
Proof.
  revert e. induction tr as [|ev tr IH] using rev_ind; intros e; [intros [[]|[[? []]|[]]]|]. rewrite nvw_app. cbn [fold_left]. rewrite uses_snoc. specialize (IH e). revert IH. set (v := nvw c tr). clearbody v.
  intros IH [H|H]; [specialize (IH H)|clear IH].
  - destruct ev as [c' t|c'|c' t b|c' t|c' b|c'|e'|e'|e'|e' b|c' h|c'|c' b]; cbn [nvstep];
    try (destruct (Nat.eqb_spec c' c)); try (destruct (is_tok (v_t v) e')); simpl; auto; unfold first; destruct (v_t v); auto; congruence.
  - destruct H as [->|[[b ->]| ->]]; cbn [nvstep]; rewrite Nat.eqb_refl; simpl; unfold first; destruct (v_t v); congruence.
Qed.
Lemma v_t_iff c e tr : uniq c tr -> uses c e tr <-> v_t (nvw c tr) = Some e.
Proof.
  intros Hu. split; [|apply v_t_uses]. intros H. pose proof (uses_v_t _ _ _ H) as Hn. destruct (v_t (nvw c tr)) as [e'|] eqn:E; [|congruence]. f_equal. apply Hu; auto. now apply v_t_uses.
Qed.
Lemma v_a_iff c e tr : uniq c tr -> armed c e tr <-> v_an (nvw c tr) || v_ao (nvw c tr) = true /\ v_t (nvw c tr) = Some e.
Proof.
  intros Hu. rewrite <- (v_t_iff c e tr Hu), orb_true_iff, <- v_an_iff, <- v_ao_iff. split.
  - intros H. split; [|now apply armed_uses]. destruct H as [H|[H|H]]; eauto.
  - intros [[[e' H]|[e' H]] Hs].
    + assert (e' = e) as -> by (apply Hu; auto; left; auto). now left.
    + assert (e' = e) as -> by (apply Hu; auto; right; destruct H; [left; eauto|auto]). destruct H; [right; now left|right; now right].
Qed.
Lemma v_rem_iff c tr : removed c tr <-> v_u (nvw c tr) || v_r (nvw c tr) || v_d (nvw c tr) = true.
Proof. unfold removed. rewrite !orb_true_iff, <- v_u_iff, <- v_r_iff, <- v_d_iff. tauto. Qed.
Lemma called_snoc c e tr ev : called c e (tr ++ [ev]) <-> called c e tr \/ ev = KCancel e /\ armed c e tr /\ ~ removed c tr.
Proof.
  split.
  - intros (t1 & t2 & E & H1 & H2). destruct t2 as [|y t2 _] using rev_ind.
    + apply app_inj_tail in E. destruct E as [-> ->]. right. auto.
    + left. replace (t1 ++ KCancel e :: t2 ++ [y]) with ((t1 ++ KCancel e :: t2) ++ [y]) in E by (rewrite <- app_assoc; reflexivity). apply app_inj_tail in E. destruct E as [-> _]. exists t1, t2. auto.
  - intros [(t1 & t2 & -> & H1 & H2)|(-> & H1 & H2)]; [exists t1, (t2 ++ [ev]); rewrite <- app_assoc; auto|exists tr, []; auto].
Qed.
Lemma v_c_iff c e tr : uniq c tr -> called c e tr <-> v_c (nvw c tr) = true /\ v_t (nvw c tr) = Some e.
Proof.
  induction tr as [|ev tr IH] using rev_ind; intros Hu; [split; [intros ([|] & ? & E & _); discriminate|intros [E _]; discriminate]|].
  pose proof (uniq_prefix _ _ _ Hu) as Hu1. specialize (IH Hu1). rewrite called_snoc, IH, (v_a_iff _ _ _ Hu1), v_rem_iff, nvw_app. cbn [fold_left].
  assert (Hst : forall t, v_c (nvw c tr) = true -> v_t (nvw c tr) <> None /\ first (v_t (nvw c tr)) t = v_t (nvw c tr)).
  { intros t Hc. assert (Hs : v_t (nvw c tr) <> None).
    { clear - Hc. revert Hc. induction tr as [|ev tr IH] using rev_ind; [discriminate|]. rewrite nvw_app. cbn [fold_left]. revert IH. set (v := nvw c tr). clearbody v. intros IH.
      destruct ev as [c' t|c'|c' t b|c' t|c' b|c'|e'|e'|e'|e' b|c' h|c'|c' b]; cbn [nvstep];
        try (destruct (Nat.eqb_spec c' c)); try (destruct (is_tok (v_t v) e') eqn:Ht); simpl; auto; intros H; try (specialize (IH H)); unfold first; destruct (v_t v); try congruence; discriminate. }
    split; auto. unfold first. destruct (v_t (nvw c tr)); congruence. }
  revert Hst. set (v := nvw c tr). clearbody v. clear. intros Hst.
  destruct ev as [c' t|c'|c' t b|c' t|c' b|c'|e'|e'|e'|e' b|c' h|c'|c' b]; cbn [nvstep];
  try (destruct (Nat.eqb_spec c' c)); simpl; try (intuition congruence; fail);
  try (split; [intros [[H1 H2]|[H _]]; [destruct (Hst t H1) as [_ ->]; auto|discriminate]|intros [H1 H2]; destruct (Hst t H1) as [_ E]; rewrite E in H2; auto]; fail).
  destruct (is_tok (v_t v) e') eqn:Ht; simpl.
  - unfold is_tok in Ht. destruct (v_t v) as [x|] eqn:Ev; [|discriminate]. apply Nat.eqb_eq in Ht. subst x.
    destruct (v_c v), (v_an v || v_ao v), (v_u v || v_r v || v_d v); simpl; intuition congruence.
  - split; [intros [H|(E & [_ H2] & _)]; auto|auto]. injection E as ->. rewrite H2 in Ht. simpl in Ht. rewrite Nat.eqb_refl in Ht. discriminate.
Qed.
Lemma reqd_app e a b : reqd e (a ++ b) = fold_left (fun b ev => match ev with KCancel e' => if e' =? e then true else b | KResetEv e' => if e' =? e then false else b | _ => b end) b (reqd e a).
Proof. apply fold_left_app. Qed.
Definition canc (e : nat) (tr : list cevent) : bool := existsb (fun ev => match ev with KCancel e' => e' =? e | _ => false end) tr.
Lemma canc_iff e tr : canc e tr = true <-> In (KCancel e) tr.
Proof.
  unfold canc. rewrite existsb_exists. split; [intros (ev & H & E); destruct ev; try discriminate; apply Nat.eqb_eq in E; now subst|intros H; exists (KCancel e); split; auto; apply Nat.eqb_refl].
Qed.
