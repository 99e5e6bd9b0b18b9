(** generator<T>: the invariant. *)
From Coq Require Import List Arith Bool Lia.
From Verif Require Import Lts ListFacts M_Generator S_Generator.
Import ListNotations.

Lemma made_app a b : g_made (a ++ b) = g_made a ++ g_made b. Proof. apply flat_map_app. Qed.
Lemma got_app a b : g_got (a ++ b) = g_got a ++ g_got b. Proof. apply flat_map_app. Qed.
Lemma nexts_app a b : g_nexts (a ++ b) = g_nexts a ++ g_nexts b. Proof. apply flat_map_app. Qed.
Lemma dones_app a b : g_dones (a ++ b) = g_dones a ++ g_dones b. Proof. apply flat_map_app. Qed.
Lemma g_rule_pre tr es : g_rule (tr ++ es) -> g_rule tr.
Proof. intros Hr t1 e t2 ->. apply (Hr t1 e (t2 ++ es)). now rewrite <- app_assoc. Qed.

Lemma NoDup_app_l {A} (a b : list A) : NoDup (a ++ b) -> NoDup a.
Proof. induction a as [|x a IH]; simpl; [constructor|]. intros H. inversion H; subst. constructor; auto. intros Hx. apply H2, in_or_app; auto. Qed.
(** The next() operation that is running *)
Definition waits (s : gst) : list nat := match g_cont s, g_pc s with Some n, _ => [n] | None, YComp n => [n] | None, _ => [] end.
(** What was produced and not delivered *)
Definition undel (s : gst) : list (option nat) := match g_pc s with YNone => [] | _ => [g_cur s] end.
Definition ended (s : gst) : list (option nat) := match g_co s with GFinal => [None] | _ => [] end.
Definition gshape (s : gst) : Prop :=
  let 'GS c p ct cu ops al := s in
  match c, p, ct with
  | GRun, YNone, Some n | GInner, YNone, Some n => cu = None /\ In n ops /\ al = true
  | GSusp, YTake, Some n | GSusp, YComp n, None => cu <> None /\ In n ops /\ al = true
  | GFinal, YTake, Some n | GFinal, YComp n, None => cu = None /\ In n ops /\ al = true
  | GSusp, YNone, None | GFinal, YNone, None => cu = None
  | _, _, _ => False
  end.
Definition K (s : gst) (tr : list gevent) : Prop :=
  gshape s /\ g_nexts tr = g_dones tr ++ waits s /\ g_made tr = g_got tr ++ undel s /\ NoDup (g_nexts tr) /\
  (exists vs, g_made tr = map Some vs ++ ended s) /\ (g_alive s = false -> In GEDestroy tr) /\ length (g_got tr) = length (g_dones tr).

Lemma K_init : K g_init [].
Proof. repeat split; try discriminate; try constructor. exists []. reflexivity. Qed.

Lemma idle_waits s tr : K s tr -> g_idle tr -> waits s = [].
Proof.
  intros (_ & Hn & _ & Hnd & _) Hi. destruct (waits s) as [|n w]; [reflexivity|]. exfalso.
  rewrite Hn in Hnd. apply (NoDup_app_disjoint _ _ Hnd n); [|left; reflexivity].
  apply Hi. rewrite Hn. apply in_or_app. right. left. reflexivity.
Qed.
Lemma done_notwait s tr n : K s tr -> In n (g_dones tr) -> ~ In n (waits s).
Proof. intros (_ & Hn & _ & Hnd & _) Hi Hw. rewrite Hn in Hnd. exact (NoDup_app_disjoint _ _ Hnd n Hi Hw). Qed.

Lemma K_step s tr l s' es : K s tr -> g_step s l = Next s' es -> g_rule (tr ++ es) -> K s' (tr ++ es).
Proof.
  intros HK Hs Hr. pose proof (idle_waits s tr HK) as Hidle. pose proof (done_notwait s tr) as Hdw.
  assert (Hnow : forall e, es = [e] -> match e with GENext n => ~ In n (g_nexts tr) /\ g_idle tr /\ ~ In GEDestroy tr
                                      | GEFree n => In n (g_dones tr) | GEDestroy => g_idle tr | _ => True end).
  { intros e ->. exact (Hr tr e [] eq_refl). }
  pose proof HK as (Hsh & Hn & Hm & Hnd & (vs & Hvs) & Hal & Hlen).
  destruct s as [c p ct cu ops al]. unfold K. rewrite !nexts_app, !dones_app, !made_app, !got_app, !in_app_iff, !app_length.
  destruct l as [n|v| | | | | |n|]; simpl in Hs; unfold g_use in Hs; simpl in Hs.
  - destruct (memb n ops); [discriminate|]. destruct al; [|discriminate]. destruct c; try discriminate. injection Hs as <- <-.
    destruct (Hnow _ eq_refl) as (Hf & Hi & Hd). specialize (Hidle Hi).
    destruct p, ct; simpl in *; try tauto; try discriminate. subst cu. unfold waits, undel, ended in *. simpl in *. rewrite !app_nil_r in *.
    repeat split; auto; try congruence; try (exists vs; rewrite ?app_nil_r; assumption); try (apply NoDup_snoc; auto).
  - destruct c; try discriminate. destruct p; try discriminate. destruct al; try discriminate. injection Hs as <- <-.
    destruct ct as [n|]; [|destruct Hsh]. destruct Hsh as (-> & Hop & _). unfold waits, undel, ended in *. simpl in *. rewrite !app_nil_r in *.
    repeat split; auto; try congruence; try discriminate. exists (vs ++ [v]). rewrite Hvs, map_app, app_nil_r. reflexivity.
  - destruct c; try discriminate. destruct p; try discriminate. destruct al; try discriminate. injection Hs as <- <-.
    destruct ct as [n|]; [|destruct Hsh]. destruct Hsh as (-> & Hop & _). unfold waits, undel, ended in *. simpl in *. rewrite !app_nil_r in *.
    repeat split; auto; try congruence. exists vs. congruence.
  - destruct c; try discriminate. destruct al; try discriminate. injection Hs as <- <-.
    destruct p, ct; simpl in Hsh; try tauto. unfold waits, undel, ended in *. simpl in *. rewrite !app_nil_r in *. intuition eauto; exists vs; rewrite ?app_nil_r; assumption.
  - destruct c; try discriminate. destruct al; try discriminate. injection Hs as <- <-.
    destruct p, ct; simpl in Hsh; try tauto. unfold waits, undel, ended in *. simpl in *. rewrite !app_nil_r in *. intuition eauto; exists vs; rewrite ?app_nil_r; assumption.
  - destruct p; try discriminate. destruct al; try discriminate. destruct ct as [n|]; try discriminate. injection Hs as <- <-.
    unfold waits, undel, ended in *. simpl in *. rewrite !app_nil_r in *. destruct c; try tauto; intuition eauto; exists vs; rewrite ?app_nil_r; assumption.
  - destruct p as [| |n]; try discriminate. destruct al; try discriminate. destruct (memb n ops); [|discriminate]. injection Hs as <- <-.
    unfold waits, undel, ended in *. destruct ct; [destruct c; simpl in Hsh; tauto|]. simpl in *. rewrite !app_nil_r in *.
    destruct c; try tauto; intuition eauto; try discriminate; exists vs; rewrite ?app_nil_r; assumption.
  - destruct (memb n ops); [|discriminate]. injection Hs as <- <-. pose proof (Hnow _ eq_refl) as Hd. specialize (Hdw n HK Hd).
    unfold waits, undel, ended in *. simpl in *. rewrite !app_nil_r in *.
    assert (Hk : forall m, ~ In n [m] -> In m ops -> In m (remove1 n ops)).
    { intros m Hne Hm1. clear - Hne Hm1. induction ops as [|h t IH]; simpl in *; [tauto|]. destruct (h =? n) eqn:He.
      - apply Nat.eqb_eq in He. destruct Hm1; [|auto]. exfalso. apply Hne. left. congruence.
      - simpl. tauto. }
    repeat split; auto; [|exists vs; exact Hvs].
    destruct c, p, ct; auto; destruct Hsh as (H1 & H2 & H3); auto.
  - destruct al; [|discriminate]. injection Hs as <- <-. pose proof (Hnow _ eq_refl) as Hi. specialize (Hidle Hi).
    unfold waits, undel, ended in *. simpl in *. rewrite !app_nil_r in *.
    repeat split; auto; [|exists vs; exact Hvs]. destruct c, p, ct; try tauto; try discriminate.
Qed.

(** Under the rule, the only failure is to call next() after the end. *)
Lemma K_fail s tr l f es : K s tr -> g_rule (tr ++ es) -> g_step s l = Fail f es ->
  f = ResumeFinished /\ (exists n, l = GLNext n /\ es = [GENext n]) /\ In None (g_got tr).
Proof.
  intros HK Hr Hs. pose proof (idle_waits s tr HK) as Hidle.
  assert (Hnow : forall e, es = [e] -> match e with GENext n => ~ In n (g_nexts tr) /\ g_idle tr /\ ~ In GEDestroy tr
                                      | GEFree n => In n (g_dones tr) | GEDestroy => g_idle tr | _ => True end).
  { intros e ->. exact (Hr tr e [] eq_refl). }
  pose proof HK as (Hsh & Hn & Hm & Hnd & (vs & Hvs) & Hal & Hlen).
  destruct s as [c p ct cu ops al].
  destruct l as [n|v| | | | | |n|]; simpl in Hs; unfold g_use in Hs; simpl in Hs.
  - destruct (memb n ops); [discriminate|]. destruct al; [|injection Hs as <- <-; destruct (Hnow _ eq_refl) as (_ & _ & Hd); destruct (Hd (Hal eq_refl))].
    unfold waits, undel, ended in *.
    destruct c; try discriminate; injection Hs as <- <-; destruct (Hnow _ eq_refl) as (Hf & Hi & Hd); specialize (Hidle Hi);
    destruct p, ct; simpl in *; try tauto; try discriminate.
    rewrite !app_nil_r in *. repeat split; [eauto|]. rewrite <- Hm, Hvs. apply in_or_app. right. left. reflexivity.
  - exfalso. destruct c; try discriminate. destruct p; try discriminate. destruct al; try discriminate. destruct ct; simpl in Hsh; intuition discriminate.
  - exfalso. destruct c; try discriminate. destruct p; try discriminate. destruct al; try discriminate. destruct ct; simpl in Hsh; intuition discriminate.
  - exfalso. destruct c; try discriminate. destruct al; try discriminate. destruct p, ct; simpl in Hsh; intuition discriminate.
  - exfalso. destruct c; try discriminate. destruct al; try discriminate. destruct p, ct; simpl in Hsh; intuition discriminate.
  - exfalso. destruct p; try discriminate. destruct c, ct, al; simpl in Hsh; intuition discriminate.
  - exfalso. destruct p as [| |n]; try discriminate. destruct c, ct; simpl in Hsh; try tauto; destruct Hsh as (_ & Hi & ->); apply memb_In in Hi; rewrite Hi in Hs; discriminate.
  - destruct (memb n ops); discriminate.
  - destruct al; discriminate.
Qed.

Section run.
  Variables (ls : list glabel) (s : gst) (tr : list gevent).
  Hypothesis Hrun : run g_step g_init ls = Running s tr.
  Hypothesis Hr : g_rule tr.
  Lemma K_run : K s tr.
  Proof. exact (run_inv_client g_step g_rule K g_init g_rule_pre K_init K_step ls s tr Hrun Hr). Qed.

  (** The results are those that the body produced, in order: values, then null. *)
  Lemma gen_values : (exists u, g_made tr = g_got tr ++ u /\ length u <= 1) /\
    exists vs, g_made tr = map Some vs \/ g_made tr = map Some vs ++ [None].
  Proof.
    destruct K_run as (_ & _ & Hm & _ & (vs & Hvs) & _). split.
    - exists (undel s). split; [exact Hm|]. unfold undel. destruct (g_pc s); simpl; lia.
    - exists vs. rewrite Hvs. unfold ended. destruct (g_co s); rewrite ?app_nil_r; auto.
  Qed.
  (** The next() operations complete in order, once each. *)
  Lemma gen_once : NoDup (g_dones tr) /\ exists w, g_nexts tr = g_dones tr ++ w /\ length w <= 1.
  Proof.
    destruct K_run as (_ & Hn & _ & Hnd & _). split.
    - rewrite Hn in Hnd. exact (NoDup_app_l _ _ Hnd).
    - exists (waits s). split; [exact Hn|]. unfold waits. destruct (g_cont s), (g_pc s); simpl; lia.
  Qed.
  (** Everything that was produced is delivered; a next() operation that has not completed waits for a body that can go on. *)
  Lemma gen_complete : g_quiet s -> g_got tr = g_made tr /\
    (g_idle tr \/ (exists s', g_step s GLWake = Next s' [GEWake]) \/ (forall v, exists s', g_step s (GLYield v) = Next s' [GEYield v])).
  Proof.
    intros Hq. pose proof (Hq GLTake I) as H1. pose proof (Hq GLComp I) as H2. pose proof K_run as (Hsh & Hn & Hm & _ & _ & Hal & _).
    assert (Hidle : waits s = [] -> g_idle tr). { intros Hw n. rewrite Hn, Hw, app_nil_r. auto. }
    destruct s as [c p ct cu ops al]. unfold waits, undel in *. simpl in *. unfold g_use in *. simpl in *.
    destruct p as [| |n].
    - rewrite app_nil_r in Hm. split; [auto|]. destruct c, ct; try tauto; destruct Hsh as (_ & _ & ->); eauto.
    - exfalso. destruct al, ct; discriminate.
    - exfalso. destruct al; [destruct (memb n ops)|]; discriminate.
  Qed.
  (** A waiting body was resumed for a consumer. *)
  Lemma gen_waited t1 v t2 : tr = t1 ++ GEYield v :: t2 -> ~ g_idle t1.
  Proof.
    intros He. subst tr. destruct (run_split_event g_step g_init ls s t1 (GEYield v) t2 Hrun) as (ls1 & l & ls2 & s1 & s2 & tr1 & e1 & e2 & _ & H1 & Hs & -> & _).
    assert (HK : K s1 tr1).
    { apply (run_inv_client g_step g_rule K g_init g_rule_pre K_init K_step ls1 s1 tr1 H1).
      rewrite <- app_assoc in Hr. exact (g_rule_pre _ _ Hr). }
    assert (He1 : e1 = [] /\ waits s1 <> []).
    { destruct HK as (Hsh & _). destruct s1 as [c p ct cu ops al]. unfold waits. simpl in *. unfold g_use in Hs. simpl in Hs.
      destruct l as [n|w| | | | | |n|];
      repeat match type of Hs with (match ?x with _ => _ end) = _ => destruct x; try discriminate end;
      injection Hs as Hs' He; destruct e1 as [|y e1]; simpl in He; try discriminate He; try (injection He as He He'; try discriminate He; try (destruct e1; discriminate He')).
      split; [reflexivity|]. destruct ct; [discriminate|destruct Hsh]. }
    destruct He1 as [-> Hw]. rewrite app_nil_r. intros Hi. exact (Hw (idle_waits s1 tr1 HK Hi)).
  Qed.
End run.

Lemma gen_safe ls f tr : run g_step g_init ls = Failed f tr -> g_rule tr ->
  f = ResumeFinished /\ exists t n, tr = t ++ [GENext n] /\ In None (g_got t).
Proof.
  intros Hrun Hr. destruct (run_from_failed g_step ls _ _ _ _ Hrun) as (ls1 & l & s & tr1 & es & H1 & H2 & ->).
  pose proof (run_inv_client g_step g_rule K g_init g_rule_pre K_init K_step ls1 s tr1 H1 (g_rule_pre _ _ Hr)) as HK.
  destruct (K_fail s tr1 l f es HK Hr H2) as (-> & (n & _ & ->) & Hg). eauto.
Qed.
(** After the end, no next() works. *)
Lemma gen_after_end ls s tr n : run g_step g_init ls = Running s tr -> g_rule tr -> g_quiet s -> In None (g_got tr) ->
  g_rule (tr ++ [GENext n]) -> ~ In n (g_ops s) -> g_step s (GLNext n) = Fail ResumeFinished [GENext n].
Proof.
  intros Hrun Hr Hq Hg Hr' Hf. pose proof (K_run ls s tr Hrun Hr) as HK. pose proof HK as (Hsh & _ & Hm & _ & (vs & Hvs) & Hal & _).
  destruct (Hr' tr (GENext n) [] eq_refl) as (_ & _ & Hd).
  destruct s as [c p ct cu ops al]. unfold ended, undel in *. simpl in *. apply memb_not_In in Hf. rewrite Hf.
  destruct al; [|destruct (Hd (Hal eq_refl))]. destruct c; try reflexivity. exfalso.
  rewrite Hvs, app_nil_r in Hm. assert (Hi : In None (map Some vs)) by (rewrite Hm; apply in_or_app; auto).
  apply in_map_iff in Hi. destruct Hi as (x & Hx & _). discriminate.
Qed.
