(** Invariant and properties of race_and_cancel. *)
From Coq Require Import List Arith Bool Lia.
From Verif Require Import Lts ListFacts M_Race S_Race.
Import ListNotations.

Lemma r_dones_app a b : r_dones (a ++ b) = r_dones a + r_dones b.
Proof. unfold r_dones. now rewrite filter_app, app_length. Qed.
Lemma r_children_app a b : r_children (a ++ b) = r_children a ++ r_children b.
Proof. apply flat_map_app. Qed.
Lemma r_comps_app a b : r_comps (a ++ b) = r_comps a ++ r_comps b.
Proof. apply flat_map_app. Qed.
Lemma r_cancels_app a b : r_cancels (a ++ b) = r_cancels a ++ r_cancels b.
Proof. apply flat_map_app. Qed.
Lemma r_comps_In tr i : In i (r_comps tr) <-> In (REComp i) tr.
Proof.
  unfold r_comps. rewrite in_flat_map. split.
  - intros (e & He & H). destruct e; simpl in H; try contradiction. destruct H as [->|[]]. exact He.
  - intros H. exists (REComp i). simpl. auto.
Qed.
Lemma r_cancels_In tr i : In i (r_cancels tr) <-> In (RECancel i) tr.
Proof.
  unfold r_cancels. rewrite in_flat_map. split.
  - intros (e & He & H). destruct e; simpl in H; try contradiction. destruct H as [->|[]]. exact He.
  - intros H. exists (RECancel i). simpl. auto.
Qed.
Lemma r_rule_prefix tr es : r_rule (tr ++ es) -> r_rule tr.
Proof. intros H t1 t2 ->. apply (H t1 (t2 ++ es)). now rewrite <- app_assoc. Qed.
Lemma r_dones_In tr : r_dones tr > 0 <-> In REDone tr.
Proof.
  induction tr as [|x tr IH]; simpl; [split; [intros H; inversion H|tauto]|]. unfold r_dones in *. simpl. destruct x; simpl; rewrite ?IH; split; auto; try lia; intros [H|H]; auto; discriminate.
Qed.
Lemma full_In comp m : NoDup comp -> (forall i, In i comp -> i < m) -> length comp = m -> forall i, i < m -> In i comp.
Proof.
  intros Hd Hl Hlen i Hi. apply (NoDup_length_incl Hd (l' := seq 0 m)); [rewrite seq_length; lia| |apply in_seq; lia]. intros j Hj. apply in_seq. specialize (Hl j Hj). lia.
Qed.

(** the numbers below [j] without [w] *)
Definition below (w j : nat) : list nat := filter (fun x => negb (x =? w)) (seq 0 j).
Lemma below_S w j : below w (S j) = if j =? w then below w j else below w j ++ [j].
Proof. unfold below. rewrite seq_S, filter_app. simpl. destruct (j =? w); simpl; [apply app_nil_r|reflexivity]. Qed.
Lemma below_In w j x : In x (below w j) <-> x < j /\ x <> w.
Proof. unfold below. rewrite filter_In, in_seq, negb_true_iff, Nat.eqb_neq. lia. Qed.

Section N.
Variable n : nat.
Hypothesis Hn : 0 < n.
Notation r_step := (r_step n).
Notation rrun := (run r_step r_init).

(** the [k]-th call *)
Definition act_ok (comp : list nat) (k : nat) (a : ract) : Prop :=
  match a with
  | RA i j m => nth_error comp k = Some i /\ m = k /\ j <= n /\ (k > 0 -> j = n)
  | RR i => nth_error comp k = Some i
  end.
Definition canc (acts : list ract) : list nat :=
  match acts with [] => [] | RA w j _ :: _ => below w j | RR w :: _ => below w n end.
Definition done (acts : list ract) : nat := match nth_error acts (n - 1) with Some (RR _) => 1 | _ => 0 end.

Record RI (s : rst) (tr : list revent) : Prop := {
  ri_n : r_n s = length (r_comp s);
  ri_nd : NoDup (r_comp s);
  ri_comp : r_comps tr = r_comp s;
  ri_lt : forall i, In i (r_comp s) -> i < r_idx s;
  ri_idx : r_idx s <= n;
  ri_main : match r_main s with RIdle => r_idx s = 0 | RStarting => True | REnd => r_idx s = n end;
  ri_start : r_main s <> RIdle <-> In REStart tr;
  ri_child : r_children tr = seq 0 (r_idx s);
  ri_len : length (r_acts s) = length (r_comp s);
  ri_acts : forall k a, nth_error (r_acts s) k = Some a -> act_ok (r_comp s) k a;
  ri_canc : r_cancels tr = canc (r_acts s);
  ri_done : r_dones tr = done (r_acts s);
  ri_ret : forall i, In (RECRet i) tr <-> In (RR i) (r_acts s);
  ri_dead : r_rule tr -> r_dead s = true -> In REDone tr /\ match r_acts s with RA _ _ _ :: _ => False | _ => True end
}.
Lemma ri_init : RI r_init [].
Proof.
  constructor; simpl; auto; try tauto; try lia; try discriminate.
  - constructor.
  - intros [|k] a; discriminate.
  - unfold done. destruct (n - 1); reflexivity.
Qed.

Ltac sn := repeat rewrite In_snoc; repeat rewrite r_dones_app; repeat rewrite r_children_app; repeat rewrite r_comps_app; repeat rewrite r_cancels_app.
Ltac rc := cbn [r_dead r_idx r_main r_n r_comp r_acts] in *.
Lemma nth_snoc {A} (l : list A) x k a : nth_error (l ++ [x]) k = Some a -> nth_error l k = Some a \/ k = length l /\ a = x.
Proof.
  intros H. destruct (Nat.lt_ge_cases k (length l)) as [L|L]; [rewrite nth_error_app1 in H; auto|]. rewrite nth_error_app2 in H by auto. right.
  destruct (k - length l) as [|d] eqn:E; simpl in H; [injection H as <-; split; auto; lia|destruct d; discriminate].
Qed.
Lemma act_ok_snoc comp k a i : act_ok comp k a -> act_ok (comp ++ [i]) k a.
Proof.
  assert (L : forall x, nth_error comp k = Some x -> nth_error (comp ++ [i]) k = Some x) by (intros x H; rewrite nth_error_app1; auto; apply nth_error_Some; congruence).
  destruct a; simpl; intuition.
Qed.
Lemma canc_set acts k a a' : nth_error acts k = Some a -> canc (set_nth acts k a') = match k with 0 => canc [a'] | S _ => canc acts end.
Proof. destruct acts as [|b acts], k; try discriminate; reflexivity. Qed.
Lemma done_set acts k a a' : nth_error acts k = Some a -> (forall i, a' <> RR i) -> (forall i, a <> RR i) -> done (set_nth acts k a') = done acts.
Proof.
  intros H Ha' Ha. unfold done. destruct (Nat.eq_dec k (n - 1)) as [E|E].
  - rewrite <- E, (nth_error_set_nth_same _ _ _ _ H), H. destruct a as [? ? ?|x]; [|destruct (Ha x); auto]. destruct a' as [? ? ?|x]; auto. destruct (Ha' x). reflexivity.
  - now rewrite nth_error_set_nth_other by auto.
Qed.
Lemma done_ret acts k a i : nth_error acts k = Some a -> (forall i, a <> RR i) -> done (set_nth acts k (RR i)) = done acts + (if k + 1 =? n then 1 else 0).
Proof.
  intros H Ha. unfold done. destruct (k + 1 =? n) eqn:E; [apply Nat.eqb_eq in E|apply Nat.eqb_neq in E].
  - replace (n - 1) with k by lia. rewrite (nth_error_set_nth_same _ _ _ _ H), H. destruct a; auto. destruct (Ha i0). reflexivity.
  - rewrite nth_error_set_nth_other by lia. lia.
Qed.
Lemma RR_set acts k i j m x : nth_error acts k = Some (RA i j m) -> (In (RR x) (set_nth acts k (RR i)) <-> In (RR x) acts \/ x = i).
Proof.
  intros H. split.
  - intros G. apply In_set_nth in G. destruct G as [G|G]; [injection G as ->|]; auto.
  - intros [G| ->]; [|eapply set_nth_In; eauto]. destruct (In_set_nth_intro _ _ (RR i) _ _ H G) as [X|X]; [discriminate|exact X].
Qed.
Lemma RR_keep acts k i j j' m x : nth_error acts k = Some (RA i j m) -> (In (RR x) (set_nth acts k (RA i j' m)) <-> In (RR x) acts).
Proof.
  intros H. split.
  - intros G. apply In_set_nth in G. destruct G as [G|G]; [discriminate|auto].
  - intros G. destruct (In_set_nth_intro _ _ (RA i j' m) _ _ H G) as [X|X]; [discriminate|exact X].
Qed.

(** one step of the [k]-th call *)
Lemma ri_move dead idx main c comp acts tr k i j m a' es :
  RI (RS dead idx main c comp acts) tr -> nth_error acts k = Some (RA i j m) ->
  act_ok comp k a' ->
  (forall e, In e es -> match e with RECancel _ | REDone | RECRet _ => True | _ => False end) ->
  canc acts ++ r_cancels es = match k with 0 => canc [a'] | S _ => canc acts end ->
  done acts + r_dones es = done (set_nth acts k a') ->
  (forall x, In (RECRet x) es <-> In (RR x) (set_nth acts k a') /\ ~ In (RR x) acts) ->
  (forall x, In (RR x) acts -> In (RR x) (set_nth acts k a')) ->
  RI (RS dead idx main c comp (set_nth acts k a')) (tr ++ es).
Proof.
  intros [H1 H2 H3 H4 H5 H6 H7 H8 H9 H10 H11 H12 H13 H14] Hk Ha He Hc Hd Hr1 Hr2. rc.
  assert (N1 : r_comps es = []) by (apply flat_map_nil; intros x Hx; specialize (He x Hx); destruct x; auto; contradiction).
  assert (N2 : r_children es = []) by (apply flat_map_nil; intros x Hx; specialize (He x Hx); destruct x; auto; contradiction).
  constructor; rc; auto.
  - sn. now rewrite N1, app_nil_r.
  - rewrite in_app_iff, H7. split; auto. intros [H|H]; auto. destruct (He _ H).
  - sn. now rewrite N2, app_nil_r.
  - now rewrite set_nth_length.
  - intros k0 b Hb. destruct (Nat.eq_dec k k0) as [->|E].
    + rewrite (nth_error_set_nth_same _ _ _ _ Hk) in Hb. injection Hb as <-. exact Ha.
    + rewrite nth_error_set_nth_other in Hb by auto. auto.
  - sn. now rewrite H11, Hc, (canc_set _ _ _ _ Hk).
  - sn. lia.
  - intros x. rewrite in_app_iff, H13, Hr1. split; [intros [H|[H _]]; auto|].
    intros H. destruct (in_dec (fun a b : ract => ltac:(decide equality; apply Nat.eq_dec) : {a = b} + {a <> b}) (RR x) acts); auto.
  - intros Hr Hdd. destruct (H14 (r_rule_prefix _ _ Hr) Hdd) as [G1 G2]. split; [apply in_app_iff; auto|]. destruct acts as [|[|] acts], k; simpl; auto; try contradiction. discriminate.
Qed.

Lemma r_rule_last tr : r_rule (tr ++ [REDestroy]) -> In REDone tr /\ forall w, r_first tr w -> In (RECRet w) tr.
Proof. intros H. exact (H tr [] eq_refl). Qed.

Lemma ri_step s tr l s' es : RI s tr -> r_step s l = Next s' es -> RI s' (tr ++ es).
Proof.
  intros HI Hs. destruct s as [dead idx main c comp acts]. destruct l; cbn [M_Race.r_step] in Hs; rc.
  - destruct main; try discriminate. destruct dead; try discriminate. injection Hs as <- <-. destruct HI as [H1 H2 H3 H4 H5 H6 H7 H8 H9 H10 H11 H12 H13 H14]. rc. constructor; rc; auto; sn; simpl; rewrite ?app_nil_r; auto.
    + rewrite <- H7. split; [auto|discriminate].
    + unfold r_dones at 2. simpl. lia.
    + intros i. rewrite in_app_iff, H13. simpl. intuition discriminate.
    + discriminate.
  - destruct main; try discriminate. destruct (idx <? n) eqn:El; [apply Nat.ltb_lt in El; destruct dead; try discriminate|apply Nat.ltb_ge in El]; injection Hs as <- <-; destruct HI as [H1 H2 H3 H4 H5 H6 H7 H8 H9 H10 H11 H12 H13 H14]; rc; constructor; rc; auto; sn; simpl; rewrite ?app_nil_r; auto.
    + intros i Hi. specialize (H4 i Hi). lia.
    + rewrite <- H7. split; [auto|discriminate].
    + rewrite H8. now rewrite <- seq_S.
    + unfold r_dones at 2. simpl. lia.
    + intros i. rewrite in_app_iff, H13. simpl. intuition discriminate.
    + discriminate.
    + lia.
    + rewrite <- H7. split; [left; discriminate|discriminate].
    + unfold r_dones at 2. simpl. lia.
    + intros i. rewrite in_app_iff, H13. simpl. intuition discriminate.
    + intros Hr Hd. destruct (H14 (r_rule_prefix _ _ Hr) Hd). split; auto.
  - destruct (i <? idx) eqn:El; try discriminate. apply Nat.ltb_lt in El. destruct (memb i comp) eqn:Em; try discriminate. apply memb_not_In in Em. cbn [negb andb] in Hs.
    destruct dead; try discriminate. injection Hs as <- <-. destruct HI as [H1 H2 H3 H4 H5 H6 H7 H8 H9 H10 H11 H12 H13 H14]. rc. constructor; rc; auto; sn; simpl; rewrite ?app_nil_r; auto.
    + rewrite app_length. simpl. lia.
    + now apply NoDup_snoc.
    + now rewrite H3.
    + intros j Hj. apply In_snoc in Hj. destruct Hj as [Hj| ->]; auto.
    + rewrite <- H7. split; auto. intros [H|H]; auto. discriminate.
    + rewrite !app_length. simpl. lia.
    + intros k a Ha. apply nth_snoc in Ha. destruct Ha as [Ha|[-> ->]]; [apply act_ok_snoc; auto|]. simpl. rewrite H9, nth_error_app2, Nat.sub_diag by lia. repeat split; auto.
      * destruct (c =? 0); lia.
      * intros Hc. destruct (c =? 0) eqn:E; auto. apply Nat.eqb_eq in E. lia.
    + rewrite H11. destruct acts as [|b acts]; [|reflexivity]. simpl in H9. rewrite H1, <- H9. reflexivity.
    + unfold r_dones at 2. simpl. rewrite H12. unfold done. destruct (Nat.lt_ge_cases (n - 1) (length acts)) as [L|L]; [rewrite nth_error_app1; auto|]. rewrite nth_error_app2 by auto.
      rewrite (proj2 (nth_error_None acts (n - 1))) by auto. destruct (n - 1 - length acts) as [|[|]]; reflexivity.
    + intros j. rewrite in_app_iff, In_snoc, H13. simpl. intuition discriminate.
    + discriminate.
  - destruct (nth_error acts k) as [a|] eqn:Hk; try discriminate. destruct a as [i j m|i]; try discriminate. pose proof (ri_acts _ _ HI _ _ Hk) as (A1 & A2 & A3 & A4). rc.
    assert (HN : forall x, nth_error acts k = Some (RR x) -> False) by congruence.
    destruct (j <? n) eqn:El; [apply Nat.ltb_lt in El|apply Nat.ltb_ge in El].
    + subst m. assert (k = 0) by (destruct k; auto; specialize (A4 ltac:(lia)); lia). subst k.
      assert (Hca : canc acts = below i j) by (destruct acts as [|b acts]; [discriminate|]; simpl in Hk; injection Hk as ->; reflexivity).
      destruct (j =? i) eqn:Eji; [|destruct dead; try discriminate]; injection Hs as <- <-; eapply ri_move; eauto; simpl; try tauto.
      * repeat split; auto; lia.
      * rewrite app_nil_r, Hca, below_S, Eji. reflexivity.
      * rewrite (done_set _ _ _ _ Hk); [unfold r_dones; simpl; lia|discriminate|discriminate].
      * intros x. rewrite (RR_keep _ _ _ _ _ _ _ Hk). tauto.
      * intros x. now rewrite (RR_keep _ _ _ _ _ _ _ Hk).
      * repeat split; auto; lia.
      * intros e [<-|[]]. exact I.
      * rewrite Hca, below_S, Eji. reflexivity.
      * rewrite (done_set _ _ _ _ Hk); [unfold r_dones; simpl; lia|discriminate|discriminate].
      * intros x. rewrite (RR_keep _ _ _ _ _ _ _ Hk). intuition discriminate.
      * intros x. now rewrite (RR_keep _ _ _ _ _ _ _ Hk).
    + assert (j = n) by lia. subst j m.
      assert (Hni : ~ In (RR i) acts).
      { intros G. apply In_nth_error in G. destruct G as [k' G]. pose proof (ri_acts _ _ HI _ _ G) as G1. simpl in G1. assert (k = k'); [|subst k'; congruence].
        apply (proj1 (NoDup_nth_error comp) (ri_nd _ _ HI)); [apply nth_error_Some; congruence|congruence]. }
      assert (HG : forall es, (forall e, In e es -> match e with REDone => True | _ => False end) -> r_dones es = (if k + 1 =? n then 1 else 0) -> RI (RS dead idx main c comp (set_nth acts k (RR i))) (tr ++ es ++ [RECRet i])).
      { intros es0 He0 Hd0. eapply ri_move; eauto.
        - intros e He. apply In_snoc in He. destruct He as [He| ->]; auto. specialize (He0 e He). destruct e; auto.
        - sn. simpl. replace (r_cancels es0) with (@nil nat). 2:{ symmetry. apply flat_map_nil. intros x Hx. specialize (He0 x Hx). destruct x; auto; contradiction. }
          simpl. rewrite app_nil_r. destruct k; auto. destruct acts as [|b acts]; [discriminate|]. simpl in Hk; injection Hk as ->. reflexivity.
        - sn. rewrite (done_ret _ _ _ _ Hk) by discriminate. unfold r_dones at 2. simpl. lia.
        - intros x. sn. rewrite (RR_set _ _ _ _ _ _ Hk). split.
          + intros [H|H]; [destruct (He0 _ H)|]. injection H as ->. auto.
          + intros [[H| ->] H2]; [contradiction|auto].
        - intros x H. rewrite (RR_set _ _ _ _ _ _ Hk). auto.
        }
      destruct (k + 1 =? n) eqn:Ek; [destruct dead; try discriminate|]; injection Hs as <- <-.
      * apply (HG [REDone]); [intros e [<-|[]]; exact I|reflexivity].
      * apply (HG []); [intros e []|reflexivity].
  - destruct dead; try discriminate. injection Hs as <- <-. destruct HI as [H1 H2 H3 H4 H5 H6 H7 H8 H9 H10 H11 H12 H13 H14]. rc. constructor; rc; auto; sn; simpl; rewrite ?app_nil_r; auto.
    + rewrite <- H7. split; auto. intros [H|H]; auto. discriminate.
    + unfold r_dones at 2. simpl. lia.
    + intros i. rewrite in_app_iff, H13. simpl. intuition discriminate.
    + intros Hr _. apply r_rule_last in Hr. destruct Hr as [R1 R2]. split; [auto|]. destruct acts as [|[w j m|w] acts]; auto.
      pose proof (H10 0 _ eq_refl) as (A1 & _). destruct comp as [|w' comp]; [discriminate|]. injection A1 as ->. assert (F : r_first tr w) by (exists comp; congruence).
      specialize (R2 w F). apply H13 in R2. destruct R2 as [R2|R2]; [discriminate|]. apply In_nth_error in R2. destruct R2 as [k R2].
      pose proof (H10 (S k) (RR w) R2) as A. simpl in A. inversion H2 as [|? ? N1 N2]; subst. apply N1. eapply nth_error_In; eauto.
Qed.
Lemma ri_run ls s tr : rrun ls = Running s tr -> RI s tr.
Proof. apply (run_inv r_step RI); [apply ri_init|]. intros s0 tr0 l s1 es HI Hs. exact (ri_step _ _ _ _ _ HI Hs). Qed.

(** ** The properties *)
Lemma ri_full s tr : RI s tr -> length (r_comp s) = n -> r_idx s = n /\ forall i, i < n -> In i (r_comp s).
Proof.
  intros HI H.
  assert (F : forall i, i < n -> In i (r_comp s)) by (apply full_In; auto; [apply HI|intros i Hi; pose proof (ri_lt _ _ HI i Hi); pose proof (ri_idx _ _ HI); lia]).
  split; auto. pose proof (ri_idx _ _ HI). pose proof (ri_lt _ _ HI _ (F (n - 1) ltac:(lia))). lia.
Qed.
Lemma comp_le s tr : RI s tr -> length (r_comp s) <= n.
Proof.
  intros HI. rewrite <- (seq_length n 0). apply NoDup_incl_length; [apply HI|]. intros i Hi. apply in_seq. pose proof (ri_lt _ _ HI i Hi). pose proof (ri_idx _ _ HI). lia.
Qed.
Lemma r_safe ls f tr : rrun ls = Failed f tr -> ~ r_rule tr.
Proof.
  apply (run_safe_client r_step r_rule RI); [apply r_rule_prefix|apply ri_init| |].
  - intros s0 tr0 l s1 es HI Hs _. exact (ri_step _ _ _ _ _ HI Hs).
  - intros s tr0 l f0 es HI Hr Hs. pose proof (r_rule_prefix _ _ Hr) as Hr0. pose proof (comp_le _ _ HI) as Hle.
    assert (Hd : r_dead s = true -> length (r_comp s) = n /\ (forall i j m, nth_error (r_acts s) 0 = Some (RA i j m) -> False) /\ forall i j m, nth_error (r_acts s) (n - 1) = Some (RA i j m) -> False).
    { intros Hd. pose proof (ri_dead _ _ HI Hr0 Hd) as [H1 H2]. apply r_dones_In in H1. rewrite (ri_done _ _ HI) in H1. unfold done in H1. destruct (nth_error (r_acts s) (n - 1)) as [[]|] eqn:E; try lia.
      repeat split; try congruence.
      - assert (n - 1 < length (r_acts s)) by (apply nth_error_Some; congruence). rewrite (ri_len _ _ HI) in H. lia.
      - intros i0 j m E0. destruct (r_acts s) as [|a acts]; [discriminate|]. injection E0 as ->. exact H2. }
    destruct l; cbn [M_Race.r_step] in Hs.
    + destruct (r_main s) eqn:Em; try discriminate. destruct (r_dead s); try discriminate. destruct Hd as [Hd _]; auto. destruct (ri_full _ _ HI Hd) as [Hf _]. pose proof (ri_main _ _ HI) as Hm. rewrite Em in Hm. lia.
    + destruct (r_main s) eqn:Em; try discriminate. destruct (r_idx s <? n) eqn:El; try discriminate. apply Nat.ltb_lt in El. destruct (r_dead s); try discriminate. destruct Hd as [Hd _]; auto. destruct (ri_full _ _ HI Hd) as [Hf _]. lia.
    + destruct (i <? r_idx s) eqn:El; try discriminate. apply Nat.ltb_lt in El. destruct (memb i (r_comp s)) eqn:Emm; try discriminate. cbn [andb negb] in Hs. apply memb_not_In in Emm. destruct (r_dead s); try discriminate.
      destruct Hd as [Hd _]; auto. destruct (ri_full _ _ HI Hd) as [Hf1 Hf2]. apply Emm, Hf2. lia.
    + destruct (nth_error (r_acts s) k) as [[i j m|]|] eqn:Hk; try discriminate. pose proof (ri_acts _ _ HI _ _ Hk) as (A1 & A2 & A3 & A4). destruct (r_dead s) eqn:Edd.
      * destruct Hd as (_ & D1 & D2); auto. destruct (j <? n) eqn:El; [apply Nat.ltb_lt in El|].
        -- destruct k; [exact (D1 _ _ _ Hk)|]. specialize (A4 ltac:(lia)). lia.
        -- destruct (m + 1 =? n) eqn:E; try discriminate. apply Nat.eqb_eq in E. apply (D2 i j m). replace (n - 1) with k by lia. exact Hk.
      * destruct (j <? n); [destruct (j =? i)|destruct (m + 1 =? n)]; discriminate.
    + destruct (r_dead s); discriminate.
Qed.

Lemma r_once ls s tr : rrun ls = Running s tr -> r_dones tr <= 1.
Proof. intros H. rewrite (ri_done _ _ (ri_run _ _ _ H)). unfold done. destruct (nth_error _ _) as [[]|]; lia. Qed.

Lemma r_quiet_done ls s tr : rrun ls = Running s tr -> r_quiet s -> (forall i, i < n -> In (REComp i) tr) -> In REDone tr.
Proof.
  intros H [_ Hq] Hall. pose proof (ri_run _ _ _ H) as HI. apply r_dones_In. rewrite (ri_done _ _ HI). unfold done.
  assert (n <= length (r_comp s)). { rewrite <- (seq_length n 0). apply NoDup_incl_length; [apply seq_NoDup|]. intros i Hi. apply in_seq in Hi. rewrite <- (ri_comp _ _ HI). apply r_comps_In, Hall. lia. }
  rewrite <- (ri_len _ _ HI) in H0. destruct (nth_error (r_acts s) (n - 1)) as [a|] eqn:E; [|apply nth_error_None in E; lia]. destruct (Hq a (nth_error_In _ _ E)) as [i ->]. lia.
Qed.

(** what a step emits *)
Lemma r_emits s l s' es : r_step s l = Next s' es ->
  match l with
  | RLStart => es = [REStart]
  | RLStep => (exists i, es = [REChild i]) \/ es = [RERet]
  | RLComp i => es = [REComp i]
  | RLDestroy => es = [REDestroy]
  | RLAct k => exists i j m, nth_error (r_acts s) k = Some (RA i j m) /\
      (j < n /\ j = i /\ es = [] \/ j < n /\ j <> i /\ es = [RECancel j] \/ n <= j /\ m + 1 = n /\ es = [REDone; RECRet i] \/ n <= j /\ m + 1 <> n /\ es = [RECRet i])
  end.
Proof.
  intros Hs. destruct l; cbn [M_Race.r_step] in Hs.
  - destruct (r_main s), (r_dead s); congruence.
  - destruct (r_main s); try discriminate. destruct (_ <? _); [destruct (r_dead s); try discriminate|]; injection Hs as _ <-; eauto.
  - destruct (_ && _); try discriminate. destruct (r_dead s); congruence.
  - destruct (nth_error (r_acts s) k) as [[i j m|]|]; try discriminate. exists i, j, m. split; auto.
    destruct (j <? n) eqn:E1; [apply Nat.ltb_lt in E1|apply Nat.ltb_ge in E1].
    + destruct (j =? i) eqn:E2; [apply Nat.eqb_eq in E2|apply Nat.eqb_neq in E2; destruct (r_dead s); try discriminate]; injection Hs as _ <-; auto.
    + destruct (m + 1 =? n) eqn:E2; [apply Nat.eqb_eq in E2; destruct (r_dead s); try discriminate|apply Nat.eqb_neq in E2]; injection Hs as _ <-; eauto 10.
  - destruct (r_dead s); congruence.
Qed.

Lemma split1 {A} (e1 e2 : list A) x y : e1 ++ y :: e2 = [x] -> x = y /\ e1 = [] /\ e2 = [].
Proof. destruct e1 as [|? [|]]; simpl; intros H; try discriminate. injection H as <- <-. auto. Qed.
Ltac one X := apply split1 in X; destruct X as (X & -> & ->); try discriminate X.

Lemma r_after ls s t1 t2 : rrun ls = Running s (t1 ++ REDone :: t2) -> forall i, i < n -> In (REComp i) t1.
Proof.
  intros Hrun i Hi. destruct (run_split_event r_step _ _ _ _ _ _ Hrun) as (ls1 & l & ls2 & s1 & s2 & tr1 & e1 & e2 & -> & Hr1 & Hst & -> & Hr2).
  pose proof (ri_run _ _ _ Hr1) as HI. apply in_app_iff. left. apply r_comps_In. rewrite (ri_comp _ _ HI). apply (ri_full _ _ HI); auto.
  apply r_emits in Hst. destruct l; try (one Hst).
  - destruct Hst as [[j X]|X]; one X.
  - destruct Hst as (i0 & j & m & Hk & X). pose proof (ri_acts _ _ HI _ _ Hk) as (A1 & A2 & A3 & A4). pose proof (comp_le _ _ HI). assert (k < length (r_comp s1)) by (apply nth_error_Some; congruence).
    destruct X as [(_ & _ & X)|[(_ & _ & X)|[(_ & Em & X)|(_ & _ & X)]]]; [destruct e1; discriminate|one X|lia|one X].
Qed.

Lemma r_started ls s tr : rrun ls = Running s tr -> NoDup (r_children tr) /\ (r_quiet s -> In REStart tr -> r_children tr = seq 0 n).
Proof.
  intros H. pose proof (ri_run _ _ _ H) as HI. rewrite (ri_child _ _ HI). split; [apply seq_NoDup|]. intros [Hq _] Hs. apply (ri_start _ _ HI) in Hs. destruct Hq as [Hq|Hq]; [contradiction|].
  pose proof (ri_main _ _ HI) as Hm. rewrite Hq in Hm. now rewrite Hm.
Qed.

(** the losers are cancelled before the winner's call returns *)
Lemma r_losers ls s t1 t2 w : rrun ls = Running s (t1 ++ RECRet w :: t2) -> r_first t1 w -> forall j, j < n -> j <> w -> In (RECancel j) t1.
Proof.
  intros Hrun Hw j Hj Hjw. destruct (run_split_event r_step _ _ _ _ _ _ Hrun) as (ls1 & l & ls2 & s1 & s2 & tr1 & e1 & e2 & -> & Hr1 & Hst & -> & Hr2).
  pose proof (ri_run _ _ _ Hr1) as HI. apply in_app_iff. left. apply r_cancels_In. rewrite (ri_canc _ _ HI).
  apply r_emits in Hst. destruct l; try (one Hst).
  - destruct Hst as [[i X]|X]; one X.
  - destruct Hst as (i0 & j0 & m & Hk & X). pose proof (ri_acts _ _ HI _ _ Hk) as (A1 & A2 & A3 & A4).
    assert (E : i0 = w /\ n <= j0 /\ r_comps e1 = []).
    { destruct X as [(_ & _ & X)|[(_ & _ & X)|[(E1 & Em & X)|(E1 & _ & X)]]]; [destruct e1; discriminate|one X| |].
      - destruct e1 as [|x [|y e1]]; try discriminate; [injection X as -> X _; auto|]. exfalso. injection X as _ _ X. destruct e1; discriminate.
      - one X. injection X as <-. auto. }
    destruct E as (-> & Hj0 & Ee). destruct Hw as [l Hw]. rewrite r_comps_app, Ee, app_nil_r, (ri_comp _ _ HI) in Hw.
    assert (k = 0). { apply (proj1 (NoDup_nth_error (r_comp s1)) (ri_nd _ _ HI)); [apply nth_error_Some; congruence|]. rewrite A1, Hw. reflexivity. }
    subst m k. destruct (r_acts s1) as [|a acts]; [discriminate|]. simpl in Hk; injection Hk as ->. simpl. apply below_In. lia.
Qed.

(** a token is cancelled at most once, after the completion of the winner, and it is not the winner's *)
Lemma r_cancel_cause ls s t1 t2 j : rrun ls = Running s (t1 ++ RECancel j :: t2) -> j < n /\ ~ In (RECancel j) t1 /\ exists w, r_first t1 w /\ j <> w.
Proof.
  intros Hrun. destruct (run_split_event r_step _ _ _ _ _ _ Hrun) as (ls1 & l & ls2 & s1 & s2 & tr1 & e1 & e2 & -> & Hr1 & Hst & -> & Hr2).
  pose proof (ri_run _ _ _ Hr1) as HI. apply r_emits in Hst. destruct l; try (one Hst).
  - destruct Hst as [[i X]|X]; one X.
  - destruct Hst as (i & j0 & m & Hk & X). pose proof (ri_acts _ _ HI _ _ Hk) as (A1 & A2 & A3 & A4).
    destruct X as [(_ & _ & X)|[(E1 & E2 & X)|[(E1 & Em & X)|(E1 & _ & X)]]]; [destruct e1; discriminate| | |one X].
    + one X. injection X as ->. rewrite app_nil_r. split; auto. assert (k = 0) by (destruct k; auto; specialize (A4 ltac:(lia)); lia). subst m k. split.
      * rewrite <- r_cancels_In, (ri_canc _ _ HI). destruct (r_acts s1) as [|a acts]; [discriminate|]. simpl in Hk; injection Hk as ->. simpl. rewrite below_In. lia.
      * exists i. split; auto. unfold r_first. rewrite (ri_comp _ _ HI). destruct (r_comp s1) as [|x l]; [discriminate|]. injection A1 as ->. eauto.
    + destruct e1 as [|x [|y e1]]; try discriminate. exfalso. injection X as _ _ X. destruct e1; discriminate.
Qed.

Lemma r_progress s : (forall l, r_internal l -> r_step s l = Disabled) -> r_quiet s.
Proof.
  intros H. split.
  - pose proof (H RLStep I) as H1. cbn [M_Race.r_step] in *. destruct (r_main s); auto. destruct (_ <? _); [destruct (r_dead s)|]; discriminate.
  - intros a Ha. apply In_nth_error in Ha. destruct Ha as [k Hk]. pose proof (H (RLAct k) I) as H1. cbn [M_Race.r_step] in *. rewrite Hk in H1. destruct a as [i j m|i]; eauto. exfalso.
    destruct (j <? n); [destruct (j =? i); try discriminate|destruct (m + 1 =? n); try discriminate]; destruct (r_dead s); discriminate.
Qed.
Definition aw (a : ract) : nat := match a with RA _ j _ => S (n - j) | RR _ => 0 end.
Definition rmeas (s : rst) : nat := sum (map aw (r_acts s)) + (n - r_idx s) + match r_main s with RStarting => 1 | _ => 0 end.
Lemma r_finishes s : exists m, forall ls tr s' tr', Forall r_internal ls -> run_from r_step s tr ls = Running s' tr' -> length ls <= m.
Proof.
  exists (rmeas s). intros ls. revert s. induction ls as [|l ls IH]; intros s tr s' tr' Hf Hr; simpl; [lia|].
  inversion Hf as [|? ? Hl Hf']; subst. simpl in Hr. destruct (r_step s l) as [s1 es| |] eqn:Hs; try discriminate. specialize (IH _ _ _ _ Hf' Hr). enough (rmeas s1 < rmeas s) by lia.
  unfold rmeas. destruct l; try contradiction; cbn [M_Race.r_step] in Hs.
  - destruct (r_main s) eqn:Em; try discriminate. destruct (r_idx s <? n) eqn:El; [apply Nat.ltb_lt in El; destruct (r_dead s); try discriminate|]; injection Hs as <- _; simpl; lia.
  - destruct (nth_error (r_acts s) k) as [[i j m|]|] eqn:Hk; try discriminate.
    assert (K : forall a', aw a' < aw (RA i j m) -> sum (map aw (set_nth (r_acts s) k a')) < sum (map aw (r_acts s))) by (intros a' Hlt; pose proof (sum_map_set_nth aw _ _ a' _ Hk); lia).
    destruct (j <? n) eqn:E1; [apply Nat.ltb_lt in E1|apply Nat.ltb_ge in E1].
    + specialize (K (RA i (S j) m) ltac:(cbn [aw]; lia)). destruct (j =? i); [|destruct (r_dead s); try discriminate]; injection Hs as <- _; cbn [r_with_act r_acts r_idx r_main]; lia.
    + specialize (K (RR i) ltac:(cbn [aw]; lia)). destruct (m + 1 =? n); [destruct (r_dead s); try discriminate|]; injection Hs as <- _; cbn [r_with_act r_acts r_idx r_main]; lia.
Qed.
End N.
