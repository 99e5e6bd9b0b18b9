(** result<T>: the invariant. *)
From Coq Require Import List Arith Bool Lia.
From Verif Require Import Lts ListFacts M_Result S_Result.
Import ListNotations.

(** Which states occur, by the progress of start() and of the coroutine *)
Definition shape (s : rst) : Prop :=
  let 'RS c p nt ct cf v al := s in
  match p, c with
  | PInit, CInit => nt = false /\ ct = false /\ cf = Indet /\ v = None
  | PIn, CRun true => nt = false /\ ct = true /\ cf = Indet /\ v = None
  | PIn, CFin true => nt = false /\ ct = true /\ cf = Indet /\ v <> None
  | PBack, CSusp | PBack, CRun false => nt = false /\ ct = true /\ cf = Indet /\ v = None
  | PBack, CFin false => nt = false /\ ct = true /\ cf = Indet /\ v <> None
  | PBack, CEnd => nt = false /\ ct = true /\ cf = PastSuspend /\ v <> None
  | PNote, CEnd => nt = false /\ ct = true /\ v <> None
  | PRet, CSusp | PRet, CRun false => nt = false /\ ct = true /\ cf = PastStart /\ v = None
  | PRet, CFin false => nt = false /\ ct = true /\ cf = PastStart /\ v <> None
  | PRet, CEnd => ct = true /\ v <> None
  | _, _ => False
  end.
(** The receiver has been notified. *)
Definition notified (s : rst) : bool := match r_pc s, r_co s, r_note s with PRet, CEnd, false => true | _, _, _ => false end.
Definition started (s : rst) : bool := match r_pc s with PInit => false | _ => true end.
Definition vals (s : rst) : list nat := match r_val s with Some x => [x] | None => [] end.

Definition J (s : rst) (tr : list revent) : Prop :=
  shape s /\ r_rets tr = vals s /\ r_dones tr = (if notified s then vals s else []) /\
  (In REStart tr <-> started s = true) /\
  (r_alive s = false -> In REDestroy tr /\ (notified s = true \/ started s = false)) /\
  (forall t1 t2 x, tr = t1 ++ REDone x :: t2 -> In (REReturn x) t1).

Lemma In_rets tr x : In x (r_rets tr) <-> In (REReturn x) tr.
Proof.
  unfold r_rets. rewrite in_flat_map. split; [|intros H; exists (REReturn x); simpl; auto].
  intros ([] & He & Hx); simpl in Hx; try tauto. destruct Hx as [->|[]]. exact He.
Qed.
Lemma In_dones tr x : In x (r_dones tr) <-> In (REDone x) tr.
Proof.
  unfold r_dones. rewrite in_flat_map. split; [|intros H; exists (REDone x); simpl; auto].
  intros ([] & He & Hx); simpl in Hx; try tauto. destruct Hx as [->|[]]. exact He.
Qed.
Lemma rets_app a b : r_rets (a ++ b) = r_rets a ++ r_rets b. Proof. apply flat_map_app. Qed.
Lemma dones_app a b : r_dones (a ++ b) = r_dones a ++ r_dones b. Proof. apply flat_map_app. Qed.
Lemma r_rule_pre tr es : r_rule (tr ++ es) -> r_rule tr.
Proof.
  intros Hr t1 t2 He. destruct (Hr t1 (t2 ++ es)) as [Hd|Hs]; [rewrite He, <- app_assoc; reflexivity|auto|].
  right. intros Hc. apply Hs, in_or_app. auto.
Qed.
Lemma snoc_cons_inv {A} (tr t1 t2 : list A) e x : tr ++ [e] = t1 ++ x :: t2 ->
  (t1 = tr /\ e = x /\ t2 = []) \/ exists t2', tr = t1 ++ x :: t2'.
Proof.
  destruct (exists_last (l := x :: t2)) as (t2' & y & Hy); [discriminate|]. rewrite Hy, app_assoc. intros H.
  apply app_inj_tail in H. destruct H as [-> ->]. destruct t2' as [|z t2']; simpl in Hy.
  - injection Hy as -> ->. left. rewrite app_nil_r. auto.
  - injection Hy as -> ->. right. eauto.
Qed.
Lemma J_init : J r_init [].
Proof.
  unfold J. repeat split; try discriminate; simpl; try tauto. intros t1 t2 x H. destruct t1; discriminate.
Qed.

Lemma J_step s tr l s' es : J s tr -> r_step s l = Next s' es -> r_rule (tr ++ es) -> J s' (tr ++ es).
Proof.
  destruct s as [c p nt ct cf v al]. intros (Hsh & Hv & Hd & Hst & Hal & Hord) Hs Hr.
  assert (Hord' : forall e, (forall x, e = REDone x -> In (REReturn x) tr) ->
                    forall t1 t2 x, tr ++ [e] = t1 ++ REDone x :: t2 -> In (REReturn x) t1).
  { intros e He t1 t2 x Ht. apply snoc_cons_inv in Ht. destruct Ht as [(-> & -> & _)|(t2' & ->)]; [auto|eauto]. }
  assert (Hnd : forall e, es = [e] -> e = REDestroy -> notified (RS c p nt ct cf v al) = true \/ started (RS c p nt ct cf v al) = false).
  { intros e -> ->. destruct (Hr tr [] eq_refl) as [(x & Hx)|Hx].
    - apply In_dones in Hx. rewrite Hd in Hx. destruct (notified _); [auto|destruct Hx].
    - right. destruct (started _); [|reflexivity]. exfalso. apply Hx, in_or_app. left. apply Hst. reflexivity. }
  unfold J. rewrite rets_app, dones_app, Hv, Hd, in_app_iff, in_app_iff, Hst.
  destruct l; simpl in Hs; unfold use in Hs; simpl in Hs, Hsh, Hal;
  destruct p; try discriminate; destruct c as [|[]| |[]|]; try discriminate; try tauto;
  repeat match goal with H : _ /\ _ |- _ => destruct H end; subst;
  repeat match goal with
  | x : bool |- _ => destruct x; try discriminate
  | x : cfp |- _ => destruct x; try discriminate
  | x : option nat |- _ => destruct x; try discriminate
  end; try congruence; injection Hs as <- <-; simpl; rewrite ?app_nil_r;
  (split; [repeat split; try discriminate; congruence|]); (split; [reflexivity|]); (split; [reflexivity|]);
  (split; [cbn [started r_pc]; intuition congruence|]);
  (split; [try discriminate; try (specialize (Hal eq_refl)); try (specialize (Hnd _ eq_refl eq_refl)); simpl in *; intuition congruence|]);
  try exact Hord; apply Hord'; intros y Hy; try discriminate; injection Hy as <-; apply In_rets; rewrite Hv; simpl; auto.
Qed.

Lemma J_safe s tr l f es : J s tr -> r_step s l = Fail f es -> ~ r_rule (tr ++ es).
Proof.
  destruct s as [c p nt ct cf v al]. intros (Hsh & Hv & Hd & Hst & Hal & Hord) Hs Hr.
  destruct l; simpl in Hs; unfold use in Hs; simpl in Hs, Hsh, Hal;
  destruct p; try discriminate; destruct c as [|[]| |[]|]; try discriminate; try tauto;
  repeat match goal with H : _ /\ _ |- _ => destruct H end; subst;
  repeat match goal with
  | x : bool |- _ => destruct x; try discriminate
  | x : cfp |- _ => destruct x; try discriminate
  | x : option nat |- _ => destruct x; try discriminate
  end; try congruence; auto; destruct (Hal eq_refl) as [Hi [Hx|Hx]]; try discriminate Hx.
  injection Hs as <- <-. apply in_split in Hi. destruct Hi as (t1 & t2 & He).
  destruct (Hr t1 (t2 ++ [REStart])) as [(x & Hd')|Hn].
  - rewrite He, <- app_assoc. reflexivity.
  - assert (Hi : In x (r_dones tr)) by (apply In_dones; rewrite He; apply in_or_app; auto). rewrite Hd in Hi. destruct Hi.
  - apply Hn, in_or_app. simpl. auto.
Qed.

Section run.
  Variables (ls : list rlabel) (s : rst) (tr : list revent).
  Hypothesis Hrun : run r_step r_init ls = Running s tr.
  Hypothesis Hr : r_rule tr.
  Lemma J_run : J s tr.
  Proof. exact (run_inv_client r_step r_rule J r_init r_rule_pre J_init (fun s0 tr0 l s' es Hj Hs Hc => J_step s0 tr0 l s' es Hj Hs Hc) ls s tr Hrun Hr). Qed.
  (** The receiver is notified once, with the value that the coroutine returned, after it returned. *)
  Lemma result_once : r_dones tr = [] \/ exists v, r_dones tr = [v] /\ r_rets tr = [v].
  Proof.
    destruct J_run as (_ & Hv & Hd & _). rewrite Hv, Hd. destruct (notified s); [|auto]. unfold vals. destruct (r_val s) as [x|]; eauto.
  Qed.
  Lemma result_order t1 t2 v : tr = t1 ++ REDone v :: t2 -> In (REReturn v) t1.
  Proof. apply J_run. Qed.
  Lemma result_complete v : r_quiet s -> In (REReturn v) tr -> r_dones tr = [v].
  Proof.
    intros Hq Hi. apply In_rets in Hi. destruct J_run as (Hsh & Hv & Hd & _ & Hal & _). rewrite Hv in Hi. rewrite Hd.
    pose proof (Hq RLFinal I) as H1. pose proof (Hq RLExch I) as H2. pose proof (Hq RLNotify I) as H3. pose proof (Hq RLNotifyInline I) as H4.
    destruct s as [c p nt ct cf w al]. unfold vals in *. simpl in *. unfold use in *. simpl in *.
    destruct w as [w|]; [|destruct Hi]. destruct Hi as [->|[]].
    destruct p; destruct c as [|[]| |[]|]; try tauto; repeat match goal with H : _ /\ _ |- _ => destruct H end;
    destruct al, nt; try discriminate; try congruence; reflexivity.
  Qed.
  (** Until it returns, the coroutine can go on: whoever resumes it. *)
  Lemma result_runs : In REStart tr -> r_rets tr = [] -> (exists s' , r_step s RLResume = Next s' [REResume]) \/ (exists s', r_step s RLSuspend = Next s' [RESuspend]).
  Proof.
    intros Hi Hn. destruct J_run as (Hsh & Hv & Hd & Hst & Hal & _). rewrite Hv in Hn. apply Hst in Hi.
    destruct s as [c p nt ct cf w al]. unfold vals in *. simpl in *. unfold use in *. simpl in *.
    destruct w as [w|]; [discriminate|].
    assert (Hal' : al = true). { destruct al; [reflexivity|]. destruct (Hal eq_refl) as [_ [Hx|Hx]]; [|congruence].
      unfold notified in Hx. simpl in Hx. destruct p; try discriminate. destruct c; try discriminate. destruct Hsh. congruence. }
    subst al. destruct p; try discriminate; destruct c as [|[]| |[]|]; try tauto;
    repeat match goal with H : _ /\ _ |- _ => destruct H end; try congruence; eauto.
  Qed.
End run.
Lemma result_safe ls f tr : run r_step r_init ls = Failed f tr -> ~ r_rule tr.
Proof.
  exact (run_safe_client r_step r_rule J r_init r_rule_pre J_init
    (fun s tr0 l s' es Hj Hs Hc => J_step s tr0 l s' es Hj Hs Hc) (fun s tr0 l f es Hj Hc Hs => J_safe s tr0 l f es Hj Hs Hc) ls f tr).
Qed.
Definition weight (s : rst) : nat :=
  match r_co s with CFin _ => 4 | _ => 0 end + match r_pc s with PBack => 2 | PNote => 1 | _ => 0 end + (if r_note s then 1 else 0).
Lemma result_finishes s ls tr s' tr' : Forall r_internal ls -> run_from r_step s tr ls = Running s' tr' -> length ls <= 7.
Proof.
  intros Hf Hrun. assert (H : length ls <= weight s).
  { revert s tr Hrun. induction Hf as [|l ls Hl Hls IH]; intros s tr Hrun; simpl; [lia|]. simpl in Hrun.
    destruct (r_step s l) as [s1 es| |] eqn:Hs; try discriminate. specialize (IH _ _ Hrun).
    assert (weight s1 < weight s); [|lia]. clear - Hl Hs. destruct s as [c p nt ct cf v al].
    destruct l; simpl in Hl; try tauto; simpl in Hs; unfold use in Hs; simpl in Hs; unfold weight.
    - destruct c as [| | |st|]; try discriminate. destruct al; try discriminate. injection Hs as <- <-. simpl. destruct st, p, cf, nt; simpl; lia.
    - destruct p; try discriminate. destruct al; try discriminate. injection Hs as <- <-. simpl. destruct cf; simpl; lia.
    - destruct nt; try discriminate. destruct al; try discriminate. destruct v; try discriminate. injection Hs as <- <-. simpl. lia.
    - destruct p; try discriminate. destruct al; try discriminate. destruct v; try discriminate. injection Hs as <- <-. simpl. lia. }
  unfold weight in H. destruct (r_co s), (r_pc s), (r_note s); simpl in H; lia.
Qed.
