(** Invariant and properties of when_all. *)
From Coq Require Import List Arith Bool Lia.
From Verif Require Import Lts ListFacts M_WhenAll S_WhenAll.
Import ListNotations.

Lemma a_dones_app a b : a_dones (a ++ b) = a_dones a + a_dones b.
Proof. unfold a_dones. now rewrite filter_app, app_length. Qed.
Lemma a_children_app a b : a_children (a ++ b) = a_children a ++ a_children b.
Proof. apply flat_map_app. Qed.
Lemma a_rule_prefix n tr es : a_rule n (tr ++ es) -> a_rule n tr.
Proof. intros H t1 e t2 ->. apply (H t1 e (t2 ++ es)). now rewrite <- app_assoc. Qed.
Lemma a_rule_last n tr e : a_rule n (tr ++ [e]) -> match e with AEDestroy => In AEDone tr | AEComp i => In AERet tr \/ exists j, j < n /\ j <> i /\ ~ In (AEComp j) tr | _ => True end.
Proof. intros H. exact (H tr e [] eq_refl). Qed.
Lemma a_dones_In tr : a_dones tr > 0 <-> In AEDone tr.
Proof.
  induction tr as [|x tr IH]; simpl; [split; [intros H; inversion H|tauto]|]. unfold a_dones in *. simpl. destruct x; simpl; rewrite ?IH; split; auto; try lia; intros [H|H]; auto; discriminate.
Qed.

Section N.
Variable n : nat.
Variable dbg : bool.
Hypothesis Hn : 0 < n.
Notation a_step := (a_step n dbg).
Notation arun := (run a_step (a_init n)).
Definition ac (tr : list aevent) : Prop := dbg = true \/ a_rule n tr.
Lemma ac_prefix tr es : ac (tr ++ es) -> ac tr.
Proof. intros [H|H]; [now left|right; exact (a_rule_prefix _ _ _ H)]. Qed.

Record AI (s : ast) (tr : list aevent) : Prop := {
  ai_ctr : a_ctr s + length (a_comp s) = n;
  ai_nd : NoDup (a_comp s);
  ai_comp : forall i, In i (a_comp s) <-> In (AEComp i) tr;
  ai_lt : forall i, In i (a_comp s) -> i < a_idx s;
  ai_idx : a_idx s <= n;
  ai_main : match a_main s with AIdle => a_idx s = 0 | AStarting => True | AMNotify => False | AEnd => a_idx s = n end;
  ai_start : a_main s <> AIdle <-> In AEStart tr;
  ai_ret : a_main s = AEnd <-> In AERet tr;
  ai_child : a_children tr = seq 0 (a_idx s);
  ai_pend : a_pend s + a_dones tr = if a_ctr s =? 0 then 1 else 0;
  ai_dead : a_rule n tr -> a_dead s = true -> In AEDone tr;
  ai_rule : a_rule n tr -> a_ctr s = 0 -> a_main s = AEnd
}.
Lemma ai_init : AI (a_init n) [].
Proof.
  constructor; simpl; auto; try tauto; try lia; try discriminate; try (split; [congruence|tauto]).
  - constructor.
  - destruct (n =? 0) eqn:E; auto. apply Nat.eqb_eq in E. lia.
Qed.

Lemma full_In comp m : NoDup comp -> (forall i, In i comp -> i < m) -> length comp = m -> forall i, i < m -> In i comp.
Proof.
  intros Hd Hl Hlen i Hi. apply (NoDup_length_incl Hd (l' := seq 0 m)); [rewrite seq_length; lia| |apply in_seq; lia]. intros j Hj. apply in_seq. specialize (Hl j Hj). lia.
Qed.
Lemma ai_full s tr : AI s tr -> a_ctr s = 0 -> a_idx s = n /\ forall i, i < n -> In i (a_comp s).
Proof.
  intros HI Hc. pose proof (ai_ctr _ _ HI) as H. rewrite Hc in H. simpl in H.
  assert (F : forall i, i < n -> In i (a_comp s)) by (apply full_In; auto; [apply HI|intros i Hi; pose proof (ai_lt _ _ HI i Hi); pose proof (ai_idx _ _ HI); lia]).
  split; auto. pose proof (ai_idx _ _ HI). pose proof (ai_lt _ _ HI _ (F (n - 1) ltac:(lia))). lia.
Qed.

Ltac sn := repeat rewrite In_snoc; repeat rewrite a_dones_app; repeat rewrite a_children_app.
Lemma ai_step s tr l s' es : AI s tr -> a_step s l = Next s' es -> ac (tr ++ es) -> AI s' (tr ++ es).
Proof.
  intros HI Hs Hc. destruct HI as [H1 H2 H3 H4 H5 H6 H7 H8 H9 H10 H11 H12]. destruct s as [dead idx main ctr comp pend].
  cbn [a_dead a_idx a_main a_ctr a_comp a_pend] in *. destruct l; cbn [M_WhenAll.a_step a_dead a_idx a_main a_ctr a_comp a_pend] in Hs.
  - destruct main; try discriminate. destruct dead; try discriminate. injection Hs as <- <-. constructor; cbn [a_dead a_idx a_main a_ctr a_comp a_pend]; auto.
    + intros i. rewrite H3. sn. intuition discriminate.
    + sn. split; auto. discriminate.
    + sn. rewrite <- H8. split; [discriminate|intuition discriminate].
    + sn. simpl. now rewrite app_nil_r.
    + sn. simpl. unfold a_dones at 2. simpl. lia.
    + discriminate.
    + intros Hr E. specialize (H12 (a_rule_prefix _ _ _ Hr) E). discriminate.
  - destruct main; try discriminate; [|contradiction]. destruct dead; try discriminate. destruct (idx <? n) eqn:El.
    + apply Nat.ltb_lt in El. injection Hs as <- <-. constructor; cbn [a_dead a_idx a_main a_ctr a_comp a_pend]; auto.
      * intros i. rewrite H3. sn. intuition discriminate.
      * intros i Hi. specialize (H4 i Hi). lia.
      * sn. rewrite <- H7. split; auto. discriminate.
      * sn. rewrite <- H8. split; [discriminate|intuition discriminate].
      * sn. rewrite H9. rewrite seq_S. reflexivity.
      * sn. unfold a_dones at 2. simpl. lia.
      * discriminate.
      * intros Hr E. apply H12; auto. exact (a_rule_prefix _ _ _ Hr).
    + apply Nat.ltb_ge in El. destruct ctr as [|c].
      * destruct dbg eqn:Ed; [discriminate|]. destruct Hc as [Hc|Hc]; [congruence|]. injection Hs as <- <-. rewrite app_nil_r in Hc. specialize (H12 Hc eq_refl). discriminate.
      * injection Hs as <- <-. constructor; cbn [a_dead a_idx a_main a_ctr a_comp a_pend]; auto; try lia; try discriminate.
        -- intros i. rewrite H3. sn. intuition discriminate.
        -- sn. rewrite <- H7. split; [intros _; left|]; discriminate.
        -- sn. split; auto.
        -- sn. simpl. now rewrite app_nil_r.
        -- sn. unfold a_dones at 2. simpl in *. lia.
  - destruct (i <? idx) eqn:El; try discriminate. apply Nat.ltb_lt in El. destruct (memb i comp) eqn:Em; try discriminate. apply memb_not_In in Em. cbn [negb andb] in Hs.
    destruct dead; try discriminate. destruct ctr as [|c]; try discriminate. injection Hs as <- <-. constructor; cbn [a_dead a_idx a_main a_ctr a_comp a_pend]; auto.
    + rewrite app_length. simpl. lia.
    + now apply NoDup_snoc.
    + intros j. sn. rewrite H3. split; intros [H|H]; auto; right; congruence.
    + intros j Hj. apply In_snoc in Hj. destruct Hj as [Hj| ->]; auto.
    + sn. rewrite <- H7. split; auto. intros [H|H]; auto. discriminate.
    + sn. rewrite <- H8. split; auto. intros [H|H]; auto. discriminate.
    + sn. simpl. now rewrite app_nil_r.
    + sn. unfold a_dones at 2. simpl in *. lia.
    + discriminate.
    + intros Hr ->. apply a_rule_last in Hr. destruct Hr as [Hr|(j & Hj & Hji & Hnj)]; [now apply H8|]. exfalso.
      assert (F : forall k, k < n -> In k (comp ++ [i])).
      { apply full_In; [now apply NoDup_snoc| |rewrite app_length; simpl; lia]. intros k Hk. apply In_snoc in Hk. destruct Hk as [Hk| ->]; [specialize (H4 _ Hk)|]; lia. }
      specialize (F j Hj). apply In_snoc in F. rewrite H3 in F. tauto.
  - destruct pend as [|p]; try discriminate. destruct dead; try discriminate. injection Hs as <- <-. constructor; cbn [a_dead a_idx a_main a_ctr a_comp a_pend]; auto.
    + intros i. rewrite H3. sn. intuition discriminate.
    + sn. rewrite <- H7. split; auto. intros [H|H]; auto. discriminate.
    + sn. rewrite <- H8. split; auto. intros [H|H]; auto. discriminate.
    + sn. simpl. now rewrite app_nil_r.
    + sn. unfold a_dones at 2. simpl in *. lia.
    + intros _. discriminate.
    + intros Hr E. apply H12; auto. exact (a_rule_prefix _ _ _ Hr).
  - destruct dead; try discriminate. injection Hs as <- <-. constructor; cbn [a_dead a_idx a_main a_ctr a_comp a_pend]; auto.
    + intros i. rewrite H3. sn. intuition discriminate.
    + sn. rewrite <- H7. split; auto. intros [H|H]; auto. discriminate.
    + sn. rewrite <- H8. split; auto. intros [H|H]; auto. discriminate.
    + sn. simpl. now rewrite app_nil_r.
    + sn. unfold a_dones at 2. simpl in *. lia.
    + intros Hr _. apply a_rule_last in Hr. sn. auto.
    + intros Hr E. apply H12; auto. exact (a_rule_prefix _ _ _ Hr).
Qed.
Lemma ai_run ls s tr : arun ls = Running s tr -> ac tr -> AI s tr.
Proof. apply (run_inv_client a_step ac AI); [apply ac_prefix|apply ai_init|]. intros s0 tr0 l s1 es HI Hs Hc. exact (ai_step _ _ _ _ _ HI Hs Hc). Qed.

Lemma a_safe ls f tr : arun ls = Failed f tr -> ~ a_rule n tr.
Proof.
  apply (run_safe_client a_step (a_rule n) AI); [apply a_rule_prefix|apply ai_init| |].
  - intros s0 tr0 l s1 es HI Hs Hc. apply (ai_step _ _ _ _ _ HI Hs). now right.
  - intros s tr0 l f0 es HI Hr Hs. pose proof (a_rule_prefix _ _ _ Hr) as Hr0.
    assert (Hd : a_dead s = true -> a_main s = AEnd /\ a_pend s = 0 /\ a_ctr s = 0).
    { intros Hd. pose proof (ai_dead _ _ HI Hr0 Hd) as H. apply a_dones_In in H. pose proof (ai_pend _ _ HI) as Hp. destruct (a_ctr s) eqn:E; simpl in Hp; [|lia]. rewrite (ai_rule _ _ HI Hr0 E). repeat split. lia. }
    destruct l; cbn [M_WhenAll.a_step] in Hs.
    + destruct (a_main s) eqn:Em; try discriminate. destruct (a_dead s); try discriminate. destruct Hd; [auto|discriminate].
    + destruct (a_main s) eqn:Em; try discriminate.
      * destruct (a_dead s). { destruct Hd; [auto|discriminate]. } destruct (a_idx s <? n); try discriminate. destruct (a_ctr s) eqn:E; try discriminate. pose proof (ai_rule _ _ HI Hr0 E). congruence.
      * pose proof (ai_main _ _ HI) as H. rewrite Em in H. contradiction.
    + destruct (i <? a_idx s) eqn:El; try discriminate. apply Nat.ltb_lt in El. destruct (memb i (a_comp s)) eqn:Emm; try discriminate. cbn [andb negb] in Hs. apply memb_not_In in Emm.
      assert (a_ctr s = 0). { destruct (a_dead s); [now apply Hd|]. destruct (a_ctr s); auto. discriminate. }
      destruct (ai_full _ _ HI H) as [E F]. apply Emm, F. lia.
    + destruct (a_pend s) eqn:Ep; try discriminate. destruct (a_dead s); try discriminate. destruct Hd as (_ & H & _); [auto|discriminate].
    + destruct (a_dead s); discriminate.
Qed.

Lemma a_once ls s tr : arun ls = Running s tr -> dbg = true \/ a_rule n tr -> a_dones tr <= 1.
Proof. intros H Hc. pose proof (ai_pend _ _ (ai_run _ _ _ H Hc)). destruct (a_ctr s); simpl in *; lia. Qed.

Lemma a_after ls s t1 t2 : arun ls = Running s (t1 ++ AEDone :: t2) -> dbg = true \/ a_rule n (t1 ++ AEDone :: t2) -> forall i, i < n -> In (AEComp i) t1.
Proof.
  intros Hrun Hc i Hi. destruct (run_split_event a_step _ _ _ _ _ _ Hrun) as (ls1 & l & ls2 & s1 & s2 & tr1 & e1 & e2 & -> & Hr1 & Hst & -> & Hr2).
  assert (Hc1 : ac tr1). { unfold ac. destruct Hc as [Hc|Hc]; [auto|right]. rewrite <- app_assoc in Hc. exact (a_rule_prefix _ _ _ Hc). }
  pose proof (ai_run _ _ _ Hr1 Hc1) as HI. apply in_app_iff. left. apply (ai_comp _ _ HI), ai_full with (tr := tr1); auto.
  pose proof (ai_pend _ _ HI) as Hp. destruct l; cbn [M_WhenAll.a_step] in Hst.
  - destruct (a_main s1); try discriminate. destruct (a_dead s1); try discriminate. injection Hst as _ X. destruct e1 as [|? [|]]; discriminate.
  - pose proof (ai_main _ _ HI) as Hm. destruct (a_main s1); try discriminate; [|contradiction]. destruct (a_dead s1); try discriminate. destruct (_ <? _); [injection Hst as _ X; destruct e1 as [|? [|]]; discriminate|].
    destruct (a_ctr s1); auto. injection Hst as _ X; destruct e1 as [|? [|]]; discriminate.
  - destruct (_ && _); try discriminate. destruct (a_dead s1); try discriminate. destruct (a_ctr s1); auto. injection Hst as _ X. destruct e1 as [|? [|]]; discriminate.
  - destruct (a_pend s1); try discriminate. destruct (a_ctr s1); auto. simpl in Hp. lia.
  - destruct (a_dead s1); try discriminate. injection Hst as _ X. destruct e1 as [|? [|]]; discriminate.
Qed.

Lemma a_complete ls s tr : arun ls = Running s tr -> dbg = true \/ a_rule n tr -> a_quiet s -> (forall i, i < n -> In (AEComp i) tr) -> In AEDone tr.
Proof.
  intros H Hc [_ Hp] Hall. pose proof (ai_run _ _ _ H Hc) as HI. apply a_dones_In. pose proof (ai_pend _ _ HI) as E. rewrite Hp in E. simpl in E.
  assert (a_ctr s = 0). { pose proof (ai_ctr _ _ HI). assert (n <= length (a_comp s)). { rewrite <- (seq_length n 0). apply NoDup_incl_length; [apply seq_NoDup|]. intros i Hi. apply in_seq in Hi. apply (ai_comp _ _ HI), Hall. lia. } lia. }
  rewrite H0 in E. simpl in E. lia.
Qed.

Lemma a_started ls s tr : arun ls = Running s tr -> dbg = true \/ a_rule n tr -> NoDup (a_children tr) /\ (a_quiet s -> In AEStart tr -> a_children tr = seq 0 n).
Proof.
  intros H Hc. pose proof (ai_run _ _ _ H Hc) as HI. rewrite (ai_child _ _ HI). split; [apply seq_NoDup|]. intros [Hq _] Hs. apply (ai_start _ _ HI) in Hs. destruct Hq as [Hq|Hq]; [contradiction|].
  pose proof (ai_main _ _ HI) as Hm. rewrite Hq in Hm. now rewrite Hm.
Qed.

Lemma a_progress s : (forall l, a_internal l -> a_step s l = Disabled) -> a_quiet s.
Proof.
  intros H. pose proof (H ALStep I) as H1. pose proof (H ALNotify I) as H2. cbn [M_WhenAll.a_step] in *. split.
  - destruct (a_main s); auto; destruct (a_dead s); try discriminate. destruct (_ <? _); try discriminate. destruct (a_ctr s); try discriminate. destruct dbg; discriminate.
  - destruct (a_pend s); auto. destruct (a_dead s); discriminate.
Qed.
Definition ameas (s : ast) : nat := a_pend s + (n - a_idx s) + match a_main s with AStarting => 2 | AMNotify => 1 | _ => 0 end.
Lemma a_finishes s : exists m, forall ls tr s' tr', Forall a_internal ls -> run_from a_step s tr ls = Running s' tr' -> length ls <= m.
Proof.
  exists (ameas s). intros ls. revert s. induction ls as [|l ls IH]; intros s tr s' tr' Hf Hr; simpl; [lia|].
  inversion Hf as [|? ? Hl Hf']; subst. simpl in Hr. destruct (a_step s l) as [s1 es| |] eqn:Hs; try discriminate. specialize (IH _ _ _ _ Hf' Hr). enough (ameas s1 < ameas s) by lia.
  unfold ameas. destruct l; try contradiction; cbn [M_WhenAll.a_step] in Hs.
  - destruct (a_main s) eqn:Em; try discriminate; destruct (a_dead s); try discriminate.
    + destruct (a_idx s <? n) eqn:El; [apply Nat.ltb_lt in El; injection Hs as <- _; simpl; lia|]. destruct (a_ctr s); [destruct dbg; try discriminate|]; injection Hs as <- _; simpl; lia.
    + injection Hs as <- _; simpl; lia.
  - destruct (a_pend s) eqn:Ep; try discriminate. destruct (a_dead s); try discriminate. injection Hs as <- _; simpl; lia.
Qed.
End N.
