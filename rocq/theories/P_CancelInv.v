(** Invariant of cancellation_event with callbacks and observers. *)
From Coq Require Import List Arith Bool Lia.
From Verif Require Import Lts ListFacts M_Cancel S_Cancel P_Cancel.
Import ListNotations.

(** One node: whether it is not yet used / exists / is an observer / has an event / is in _cbs / is in a list pending, whether cancellation
    of its event is / was ever requested; the summary of the trace *)
Record OK (fr lv ob has inc rst rq cn : bool) (v : nv) : Prop := {
  o_none : !fr -> ~ !lv /\ ~ !has /\ ~ !inc /\ ~ !rst /\ ~ !(v_an v) /\ ~ !(v_ao v) /\ ~ !(v_u v) /\ ~ !(v_r v) /\ ~ !(v_f v) /\ ~ !(v_x v) /\ ~ !(v_xc v) /\ ~ !(v_c v) /\ ~ !(v_s v);
  o_del : !(v_d v) <-> ~ !fr /\ ~ !lv;
  o_cb : ~ !ob -> ~ !(v_r v) /\ ~ !(v_f v) /\ ~ !(v_ao v) /\ ~ !(v_s v);
  o_ob : !ob -> ~ !(v_u v) /\ ~ !(v_an v);
  o_in : !inc -> !lv /\ !has /\ (!(v_an v) \/ !(v_ao v)) /\ ~ !(v_u v) /\ ~ !(v_r v) /\ ~ !(v_x v) /\ ~ !(v_s v) /\ ~ !rq /\ ~ !rst;
  o_rst : !rst -> !lv /\ !has /\ !rq /\ !(v_c v) /\ ~ !(v_x v) /\ ~ !(v_r v) /\ ~ !(v_s v);
  o_x : !(v_x v) -> ~ !(v_r v) /\ ~ !(v_s v) /\ !has /\ !cn;
  o_rq : !rq -> !cn;
  o_c : !(v_c v) -> !(v_x v) \/ !rst;
  o_a : !(v_an v) \/ !(v_ao v) -> !(v_u v) \/ !(v_r v) \/ !(v_d v) \/ !inc \/ !rst \/ !(v_x v);
  o_free : !lv -> !has -> ~ !rq -> !inc \/ !(v_u v) \/ !(v_r v);
  o_f : !(v_f v) -> !(v_an v) \/ !(v_ao v) -> !rst \/ !(v_x v);
  o_s : !(v_s v) -> ~ !(v_an v) /\ ~ !(v_ao v)
}.

Definition fresh (s : cst) (c : nat) : bool := match n_life (c_nd s c) with LNone => true | _ => false end.
Definition inc (s : cst) (c : nat) : bool := match n_tok (c_nd s c) with Some e => memb c (e_cbs (c_ev s e)) | None => false end.
Definition rests (s : cst) : list nat := flat_map l_rest (c_loops s).
Definition rq (s : cst) (c : nat) : bool := match n_tok (c_nd s c) with Some e => e_req (c_ev s e) | None => false end.
Definition cn (s : cst) (tr : list cevent) (c : nat) : bool := match n_tok (c_nd s c) with Some e => canc e tr | None => false end.
Definition vOK (s : cst) (tr : list cevent) (c : nat) : Prop :=
  OK (fresh s c) (nlive s c) (n_obs (c_nd s c)) (some (n_tok (c_nd s c))) (inc s c) (memb c (rests s)) (rq s c) (cn s tr c) (nvw c tr).
Definition lk (e : nat) (f : cfn) : nat := match f with FRun _ e' HCtor => if e' =? e then 1 else 0 | _ => 0 end.

Record KI (s : cst) (tr : list cevent) : Prop := {
  k_ok : forall c, vOK s tr c;
  k_tok : forall c, v_t (nvw c tr) = n_tok (c_nd s c);
  k_uniq : forall c, uniq c tr;
  k_req : forall e, e_req (c_ev s e) = reqd e tr;
  k_cn : forall e, e_req (c_ev s e) = true -> canc e tr = true;
  k_in : forall e c, In c (e_cbs (c_ev s e)) -> n_tok (c_nd s c) = Some e;
  k_nd : forall e, NoDup (e_cbs (c_ev s e));
  k_ndr : NoDup (rests s);
  k_runs : NoDup (runs tr);
  k_fn : forall c e h, In (FRun c e h) (c_fns s) -> n_tok (c_nd s c) = Some e /\ In c (runs tr) /\ (h = HCtor -> In (KRun c HCtor) tr);
  k_lock : forall e, sum (map (lk e) (c_fns s)) = if e_lock (c_ev s e) then 1 else 0;
  k_alive : forall c e, nlive s c = true -> n_tok (c_nd s c) = Some e -> e_alive (c_ev s e) = true;
  k_cur : forall l k, In l (c_loops s) -> l_cur l = Some k -> k < length (c_fns s)
}.

Lemma ki_init : KI c_init [].
Proof.
  constructor; simpl; try (intros; discriminate); try (intros; contradiction); auto; try (intros; constructor; fail).
  - intros c. constructor; simpl; try tauto. all: intros; try tauto.
  - intros c e e' H _. unfold uses in H. simpl in H. firstorder.
Qed.

Lemma k_rule_at tr ev es : k_rule (tr ++ ev :: es) -> k_rule1 tr ev.
Proof. intros H. exact (H tr ev es eq_refl). Qed.
Lemma k_rule_prefix tr es : k_rule (tr ++ es) -> k_rule tr.
Proof. intros H t1 ev t2 ->. apply (H t1 ev (t2 ++ es)). now rewrite <- app_assoc. Qed.

Lemma memb_snoc c l c0 : memb c (l ++ [c0]) = memb c l || (c =? c0).
Proof. unfold memb. rewrite existsb_app. simpl. now rewrite orb_false_r. Qed.
Lemma memb_app c l1 l2 : memb c (l1 ++ l2) = memb c l1 || memb c l2.
Proof. apply existsb_app. Qed.
Lemma memb_remove1_other c c0 l : c <> c0 -> memb c (remove1 c0 l) = memb c l.
Proof.
  intros Hn. induction l as [|x l IH]; auto. simpl. destruct (Nat.eqb_spec x c0) as [->|].
  - unfold memb. simpl. destruct (Nat.eqb_spec c c0); [congruence|]. reflexivity.
  - unfold memb in *. simpl. now rewrite IH.
Qed.
Lemma memb_remove1_same c l : NoDup l -> memb c (remove1 c l) = false.
Proof. intros H. apply memb_not_In. intros Hi. apply In_remove1_NoDup in Hi; auto. now destruct Hi. Qed.

Lemma nlive_life s c : nlive s c = true <-> n_life (c_nd s c) = LLive.
Proof. unfold nlive. destruct (n_life (c_nd s c)); intuition discriminate. Qed.

Lemma vOK_same s s' tr tr' c : c_nd s' c = c_nd s c -> memb c (rests s') = memb c (rests s) -> nvw c tr' = nvw c tr ->
  (forall e, n_tok (c_nd s c) = Some e -> memb c (e_cbs (c_ev s' e)) = memb c (e_cbs (c_ev s e)) /\ e_req (c_ev s' e) = e_req (c_ev s e) /\ canc e tr' = canc e tr) ->
  vOK s tr c -> vOK s' tr' c.
Proof.
  intros H1 H2 H3 H4. unfold vOK, fresh, nlive, inc, rq, cn. rewrite H1, H2, H3. destruct (n_tok (c_nd s c)) as [e|]; auto. destruct (H4 e eq_refl) as (-> & -> & ->). auto.
Qed.

Section Facts.
Variables (s : cst) (tr : list cevent).
Hypothesis HI : KI s tr.

Lemma k_uses c e : uses c e tr <-> n_tok (c_nd s c) = Some e.
Proof. rewrite <- (k_tok _ _ HI c). apply v_t_iff, HI. Qed.
Lemma k_cbs_live e : forallb (nlive s) (e_cbs (c_ev s e)) = true.
Proof.
  apply forallb_forall. intros c Hc. pose proof (k_in _ _ HI _ _ Hc) as Ht. pose proof (o_in _ _ _ _ _ _ _ _ _ (k_ok _ _ HI c)) as H. unfold inc in H. rewrite Ht in H.
  apply It, H, It. now apply memb_In.
Qed.
Lemma k_cbs_req e : e_req (c_ev s e) = true -> e_cbs (c_ev s e) = [].
Proof.
  intros Hr. destruct (e_cbs (c_ev s e)) as [|c l] eqn:E; auto. assert (Hc : In c (e_cbs (c_ev s e))) by (rewrite E; now left). pose proof (k_in _ _ HI _ _ Hc) as Ht.
  pose proof (o_in _ _ _ _ _ _ _ _ _ (k_ok _ _ HI c)) as H. unfold inc, rq in H. rewrite Ht in H. apply memb_In in Hc. rewrite Hc, Hr in H. simpl in H. tauto.
Qed.
Lemma k_rest_live c : In c (rests s) -> nlive s c = true.
Proof. intros Hc. apply memb_In in Hc. apply It. eapply (o_rst _ _ _ _ _ _ _ _ _ (k_ok _ _ HI c)). now apply It. Qed.
Lemma k_dead c : In (KDel c) tr <-> fresh s c = false /\ nlive s c = false.
Proof. rewrite v_d_iff, <- It, (o_del _ _ _ _ _ _ _ _ _ (k_ok _ _ HI c)). split; intros [H1 H2]; split; try (now apply Ifl); rewrite ?H1, ?H2; auto. Qed.
End Facts.

Definition cok (tr : list cevent) (r : outcome cst cevent) : Prop :=
  match r with
  | Next s' es => k_rule (tr ++ es) -> KI s' (tr ++ es)
  | Disabled => True
  | Fail _ es => ~ k_rule (tr ++ es)
  end.

(** an event that says nothing about nodes and requests *)
Definition silent (ev : cevent) : bool := match ev with KQuery _ _ | KRet _ | KFQuery _ _ | KDelEv _ => true | _ => false end.
Lemma silent_facts tr ev : silent ev = true ->
  (forall c, nvw c (tr ++ [ev]) = nvw c tr) /\ (forall c, uniq c tr -> uniq c (tr ++ [ev])) /\ (forall e, reqd e (tr ++ [ev]) = reqd e tr) /\
  (forall e, canc e (tr ++ [ev]) = canc e tr) /\ runs (tr ++ [ev]) = runs tr.
Proof.
  intros Hs. split; [|split; [|split; [|split]]].
  - intros c. rewrite nvw_app. destruct ev; try discriminate; reflexivity.
  - intros c Hu e e' H1 H2. apply uses_snoc in H1. apply uses_snoc in H2. assert (Hn : forall x, ~ (ev = KNew c (Some x) \/ (exists b, ev = KSet c (Some x) b) \/ ev = KForce c (Some x))).
    { intros x [->|[[b ->]| ->]]; discriminate. }
    destruct H1 as [H1|H1]; [|now apply Hn in H1]. destruct H2 as [H2|H2]; [|now apply Hn in H2]. now apply Hu.
  - intros e. rewrite reqd_app. destruct ev; try discriminate; reflexivity.
  - intros e. unfold canc. rewrite existsb_app. destruct ev; try discriminate; simpl; now rewrite !orb_false_r.
  - rewrite runs_app. destruct ev; try discriminate; apply app_nil_r.
Qed.

(** steps without effect on nodes, lists and requests *)
Lemma ki_silent s tr s' es : KI s tr -> (es = [] \/ exists ev, es = [ev] /\ silent ev = true) ->
  c_nd s' = c_nd s -> (forall e, e_req (c_ev s' e) = e_req (c_ev s e) /\ e_cbs (c_ev s' e) = e_cbs (c_ev s e)) -> rests s' = rests s ->
  (forall c e h, In (FRun c e h) (c_fns s') -> In (FRun c e h) (c_fns s)) -> (forall e, sum (map (lk e) (c_fns s')) = if e_lock (c_ev s' e) then 1 else 0) ->
  (forall c e, nlive s c = true -> n_tok (c_nd s c) = Some e -> e_alive (c_ev s' e) = true) ->
  (forall l k, In l (c_loops s') -> l_cur l = Some k -> k < length (c_fns s')) -> KI s' (tr ++ es).
Proof.
  intros HI Hes Hnd Hev Hr Hf Hl Ha Hcur.
  assert (F : (forall c, nvw c (tr ++ es) = nvw c tr) /\ (forall c, uniq c (tr ++ es)) /\ (forall e, reqd e (tr ++ es) = reqd e tr) /\
    (forall e, canc e (tr ++ es) = canc e tr) /\ runs (tr ++ es) = runs tr).
  { destruct Hes as [->|(ev & -> & Hs)]; [rewrite app_nil_r; repeat split; auto; apply HI|]. destruct (silent_facts tr ev Hs) as (A & B & C & D & E). repeat split; auto. intros c. apply B, HI. }
  destruct F as (F1 & F2 & F3 & F4 & F5).
  assert (Hlive : forall c, nlive s' c = nlive s c) by (intros c; unfold nlive; now rewrite Hnd).
  constructor; try (intros e; rewrite ?F3, ?F4, ?(proj1 (Hev e)), ?(proj2 (Hev e)); apply HI).
  - intros c. apply (vOK_same s s' tr _ c); try (now rewrite ?Hnd, ?Hr); auto; [|apply HI]. intros e _. destruct (Hev e) as [-> ->]. auto.
  - intros c. rewrite F1, Hnd. apply HI.
  - exact F2.
  - intros e c. rewrite (proj2 (Hev e)), Hnd. apply HI.
  - rewrite Hr. apply HI.
  - rewrite F5. apply HI.
  - intros c e h H. apply Hf in H. destruct (k_fn _ _ HI _ _ _ H) as (A & B & C). rewrite Hnd, F5. split; auto. split; auto. intros E. apply in_app_iff. auto.
  - exact Hl.
  - intros c e. rewrite Hlive, Hnd. apply Ha.
  - exact Hcur.
Qed.
Lemma cok_silent s tr s' es : KI s tr -> (es = [] \/ exists ev, es = [ev] /\ silent ev = true) ->
  c_nd s' = c_nd s -> (forall e, e_req (c_ev s' e) = e_req (c_ev s e) /\ e_cbs (c_ev s' e) = e_cbs (c_ev s e)) -> rests s' = rests s ->
  (forall c e h, In (FRun c e h) (c_fns s') -> In (FRun c e h) (c_fns s)) -> (forall e, sum (map (lk e) (c_fns s')) = if e_lock (c_ev s' e) then 1 else 0) ->
  (forall c e, nlive s c = true -> n_tok (c_nd s c) = Some e -> e_alive (c_ev s' e) = true) ->
  (forall l k, In l (c_loops s') -> l_cur l = Some k -> k < length (c_fns s')) -> cok tr (Next s' es).
Proof. intros. simpl. intros _. now apply (ki_silent s). Qed.

(** steps that concern one node [c0]: its entry in the node table, its membership in _cbs, and events about it *)
Definition about (c0 : nat) (ev : cevent) : bool :=
  match ev with KNew c _ | KUnbind c | KSet c _ _ | KForce c _ | KReset c _ | KDel c | KRun c _ => c =? c0 | _ => false end.
Lemma about_facts tr c0 ev : about c0 ev = true ->
  (forall c, c <> c0 -> nvw c (tr ++ [ev]) = nvw c tr) /\ (forall c, c <> c0 -> uniq c tr -> uniq c (tr ++ [ev])) /\ (forall e, reqd e (tr ++ [ev]) = reqd e tr) /\
  (forall e, canc e (tr ++ [ev]) = canc e tr).
Proof.
  intros Hs. split; [|split; [|split]].
  - intros c Hn. rewrite nvw_app. cbn [fold_left]. destruct ev; try discriminate; simpl in *; apply Nat.eqb_eq in Hs; subst; destruct (Nat.eqb_spec c0 c); congruence.
  - intros c Hn Hu e e' H1 H2. apply uses_snoc in H1. apply uses_snoc in H2. assert (Hx : forall x, ~ (ev = KNew c (Some x) \/ (exists b, ev = KSet c (Some x) b) \/ ev = KForce c (Some x))).
    { intros x [->|[[b ->]| ->]]; simpl in Hs; apply Nat.eqb_eq in Hs; congruence. }
    destruct H1 as [H1|H1]; [|now apply Hx in H1]. destruct H2 as [H2|H2]; [|now apply Hx in H2]. now apply Hu.
  - intros e. rewrite reqd_app. destruct ev; try discriminate; reflexivity.
  - intros e. unfold canc. rewrite existsb_app. destruct ev; try discriminate; simpl; now rewrite !orb_false_r.
Qed.
Lemma about_facts_l tr c0 es : forallb (about c0) es = true ->
  (forall c, c <> c0 -> nvw c (tr ++ es) = nvw c tr) /\ (forall c, c <> c0 -> uniq c tr -> uniq c (tr ++ es)) /\ (forall e, reqd e (tr ++ es) = reqd e tr) /\
  (forall e, canc e (tr ++ es) = canc e tr).
Proof.
  revert tr. induction es as [|ev es IH]; intros tr H; [rewrite app_nil_r; auto|]. simpl in H. apply andb_true_iff in H. destruct H as [H1 H2].
  destruct (about_facts tr c0 ev H1) as (A & B & C & D). replace (tr ++ ev :: es) with ((tr ++ [ev]) ++ es) by (now rewrite <- app_assoc). destruct (IH (tr ++ [ev]) H2) as (A' & B' & C' & D').
  split; [intros c Hn; now rewrite A', A|]. split; [intros c Hn Hu; auto|]. split; [intros e; now rewrite C', C|intros e; now rewrite D', D].
Qed.

Lemma ki_node s tr s' es c0 : KI s tr -> forallb (about c0) es = true ->
  (forall c, c <> c0 -> c_nd s' c = c_nd s c) ->
  (forall e, e_req (c_ev s' e) = e_req (c_ev s e) /\ e_alive (c_ev s' e) = e_alive (c_ev s e)) ->
  (forall e c, c <> c0 -> In c (e_cbs (c_ev s' e)) <-> In c (e_cbs (c_ev s e))) ->
  (forall e, In c0 (e_cbs (c_ev s' e)) -> n_tok (c_nd s' c0) = Some e) ->
  (forall e, NoDup (e_cbs (c_ev s' e))) ->
  rests s' = rests s ->
  vOK s' (tr ++ es) c0 -> v_t (nvw c0 (tr ++ es)) = n_tok (c_nd s' c0) -> uniq c0 (tr ++ es) ->
  (n_tok (c_nd s c0) = None \/ n_tok (c_nd s' c0) = n_tok (c_nd s c0)) ->
  (nlive s' c0 = true -> forall e, n_tok (c_nd s' c0) = Some e -> e_alive (c_ev s e) = true) ->
  NoDup (runs (tr ++ es)) ->
  (forall c e h, In (FRun c e h) (c_fns s') -> In (FRun c e h) (c_fns s) \/ c = c0 /\ n_tok (c_nd s' c0) = Some e /\ In c (runs (tr ++ es)) /\ (h = HCtor -> In (KRun c HCtor) (tr ++ es))) ->
  (forall e, sum (map (lk e) (c_fns s')) = if e_lock (c_ev s' e) then 1 else 0) ->
  (forall l k, In l (c_loops s') -> l_cur l = Some k -> k < length (c_fns s')) -> KI s' (tr ++ es).
Proof.
  intros HI Hab Hnd Hev Hcbs Hin0 Hndp Hr Hok Ht Hu Htok Hal Hrun Hf Hl Hcur.
  destruct (about_facts_l tr c0 es Hab) as (F1 & F2 & F3 & F4).
  constructor; auto.
  - intros c. destruct (Nat.eq_dec c c0) as [->|Hn]; auto. apply (vOK_same s s' tr _ c); auto; try (now rewrite Hr); [|apply HI].
    intros e _. split; [|split; [apply Hev|apply F4]]. destruct (memb c (e_cbs (c_ev s e))) eqn:E.
    + apply memb_In, Hcbs, memb_In; auto.
    + apply memb_not_In. rewrite Hcbs by auto. now apply memb_not_In.
  - intros c. destruct (Nat.eq_dec c c0) as [->|Hn]; auto. rewrite F1, Hnd by auto. apply HI.
  - intros c. destruct (Nat.eq_dec c c0) as [->|Hn]; auto. apply F2; auto. apply HI.
  - intros e. rewrite F3, (proj1 (Hev e)). apply HI.
  - intros e. rewrite F4, (proj1 (Hev e)). apply HI.
  - intros e c Hc. destruct (Nat.eq_dec c c0) as [->|Hn]; [now apply Hin0|]. rewrite Hnd by auto. apply (k_in _ _ HI). now apply Hcbs.
  - rewrite Hr. apply HI.
  - intros c e h H. destruct (Hf _ _ _ H) as [H1|(-> & H1 & H2 & H3)]; [|auto]. destruct (k_fn _ _ HI _ _ _ H1) as (A & B & C). split; [|split; [rewrite runs_app, in_app_iff; auto|intros E; rewrite in_app_iff; auto]].
    destruct (Nat.eq_dec c c0) as [->|Hn]; [|now rewrite Hnd]. destruct Htok as [E|E]; congruence.
  - intros c e. rewrite (proj2 (Hev e)). destruct (Nat.eq_dec c c0) as [->|Hn]; [intros; now apply Hal|]. unfold nlive. rewrite Hnd by auto. apply (k_alive _ _ HI c).
Qed.

Lemma upd_same' {A} (f : nat -> A) n x : upd f n x n = x. Proof. unfold upd. now rewrite Nat.eqb_refl. Qed.
Lemma upd_other' {A} (f : nat -> A) n x m : m <> n -> upd f n x m = f m. Proof. unfold upd. intros H. destruct (Nat.eqb_spec m n); congruence. Qed.

(** replacing event [e] by one with the same fields *)
Ltac updev e0 := let z := fresh "z" in intros z; unfold upd; destruct (Nat.eqb_spec z e0) as [->|]; simpl; auto.

(** a fresh node *)
Lemma fresh_facts s tr c : KI s tr -> n_life (c_nd s c) = LNone ->
  n_tok (c_nd s c) = None /\ ~ In c (rests s) /\ (forall e, ~ uses c e tr) /\ (forall e, ~ In c (e_cbs (c_ev s e))) /\ nvw c tr = nv0.
Proof.
  intros HI Hl. pose proof (k_ok _ _ HI c) as H. pose proof (k_tok _ _ HI c) as Ht. pose proof (o_none _ _ _ _ _ _ _ _ _ H) as Hn. pose proof (o_del _ _ _ _ _ _ _ _ _ H) as Hd. unfold fresh in Hn, Hd. rewrite Hl in Hn, Hd. simpl in Hn, Hd.
  specialize (Hn I). assert (Htok : n_tok (c_nd s c) = None). { destruct (n_tok (c_nd s c)); auto. simpl in Hn. tauto. }
  split; auto. split; [rewrite <- memb_In, <- It; tauto|]. split; [intros e Hu; apply (k_uses _ _ HI) in Hu; congruence|]. split.
  - intros e Hi. apply (k_in _ _ HI) in Hi. congruence.
  - rewrite Htok in Ht. destruct (nvw c tr) as [t an ao u r f d x xc c' s']. simpl in *. subst t. destruct Hn as (_ & _ & _ & _ & H1 & H2 & H3 & H4 & H5 & H6 & H7 & H8 & H9).
    apply Ifl in H1, H2, H3, H4, H5, H6, H7, H8, H9. assert (d = false) by (apply Ifl; tauto). now subst.
Qed.

Lemma memb_nil c : memb c [] = false. Proof. reflexivity. Qed.
Lemma not_memb c l : ~ In c l -> memb c l = false. Proof. apply memb_not_In. Qed.

Lemma uniq_fresh c tr ev : (forall e, ~ uses c e tr) -> uniq c (tr ++ [ev]).
Proof.
  intros Hn e e' H1 H2. apply uses_snoc in H1, H2. destruct H1 as [H1|H1]; [now apply Hn in H1|]. destruct H2 as [H2|H2]; [now apply Hn in H2|].
  destruct H1 as [->|[[b ->]| ->]]; destruct H2 as [E|[[b' E]|E]]; congruence.
Qed.
Lemma uniq_run c tr c' h : uniq c tr -> uniq c (tr ++ [KRun c' h]).
Proof. intros Hu e e' H1 H2. apply uses_snoc in H1, H2. destruct H1 as [H1|[H1|[[b H1]|H1]]]; try discriminate. destruct H2 as [H2|[H2|[[b H2]|H2]]]; try discriminate. now apply Hu. Qed.
Lemma uniq_keep c tr ev : (forall e, ~ (ev = KNew c (Some e) \/ (exists b, ev = KSet c (Some e) b) \/ ev = KForce c (Some e))) -> uniq c tr -> uniq c (tr ++ [ev]).
Proof. intros Hn Hu e e' H1 H2. apply uses_snoc in H1, H2. destruct H1 as [H1|H1]; [|now apply Hn in H1]. destruct H2 as [H2|H2]; [|now apply Hn in H2]. now apply Hu. Qed.

(** a new node: [ob] tells the kind, [ev] is the event, [tok] the token; pushed to _cbs, or the functor is called, or neither *)
Lemma ki_new_push s tr c e ob ev x : KI s tr -> n_life (c_nd s c) = LNone -> ev_ok s e = true -> e_req (c_ev s e) = false ->
  (ev = KNew c (Some e) /\ ob = false \/ ev = KSet c (Some e) true /\ ob = true \/ ev = KForce c (Some e) /\ ob = true) ->
  x = c_ev s e ->
  KI (c_with_ev (c_with_nd s c (CN LLive ob (Some e))) e (CE (e_req x) (e_cbs x ++ [c]) (e_lock x) (e_alive x))) (tr ++ [ev]).
Proof.
  intros HI Hl Hok Hrq Hev ->. apply andb_true_iff in Hok. destruct Hok as [Hal Hlk]. destruct (fresh_facts _ _ _ HI Hl) as (Ft & Fr & Fu & Fc & Fv).
  apply (ki_node s tr _ _ c HI).
  - destruct Hev as [[-> _]|[[-> _]|[-> _]]]; simpl; now rewrite Nat.eqb_refl.
  - intros c' Hn. simpl. now rewrite upd_other'.
  - simpl. updev e.
  - intros e' c' Hn. simpl. revert e'. updev e; [|tauto]. rewrite in_app_iff. simpl. intuition congruence.
  - intros e' H. simpl in *. rewrite upd_same'. simpl. revert H. unfold upd. destruct (Nat.eqb_spec e' e) as [->|]; auto. intros H. now apply Fc in H.
  - simpl. updev e; [|apply HI]. apply NoDup_snoc; [apply HI|apply Fc].
  - reflexivity.
  - unfold vOK, fresh, nlive, inc, rq, cn, rests. cbn [c_nd c_ev c_loops c_with_ev c_with_nd]. rewrite !upd_same'. cbn [n_life n_obs n_tok e_cbs e_req some]. rewrite !upd_same'. cbn [e_cbs e_req]. rewrite Hrq.
    fold (rests s). rewrite (not_memb _ _ Fr). rewrite nvw_app, Fv.
    rewrite memb_snoc, Nat.eqb_refl, orb_true_r. destruct Hev as [[-> ->]|[[-> ->]|[-> ->]]]; cbn; rewrite Nat.eqb_refl; constructor; cbn; tauto.
  - rewrite nvw_app, Fv. simpl. rewrite upd_same'. simpl. destruct Hev as [[-> _]|[[-> _]|[-> _]]]; simpl; now rewrite Nat.eqb_refl.
  - now apply uniq_fresh.
  - now left.
  - simpl. intros _ e'. rewrite upd_same'. simpl. intros [= <-]. auto.
  - rewrite runs_app. replace (runs [ev]) with (@nil nat) by (destruct Hev as [[-> _]|[[-> _]|[-> _]]]; reflexivity). rewrite app_nil_r. apply HI.
  - simpl. auto.
  - intros e'. simpl. rewrite (k_lock _ _ HI). revert e'. updev e.
  - apply HI.
Qed.

Lemma ki_new_idle s tr c ob tok ev : KI s tr -> n_life (c_nd s c) = LNone ->
  (forall e, tok = Some e -> ev_ok s e = true /\ e_req (c_ev s e) = true) ->
  (ev = KNew c tok /\ ob = false /\ tok = None \/ ev = KSet c tok (negb (some tok)) /\ ob = true \/ ev = KForce c tok /\ ob = true /\ tok = None) ->
  KI (c_with_nd s c (CN LLive ob tok)) (tr ++ [ev]).
Proof.
  intros HI Hl Hok Hev. destruct (fresh_facts _ _ _ HI Hl) as (Ft & Fr & Fu & Fc & Fv).
  assert (Hcn : forall e, canc e (tr ++ [ev]) = canc e tr). { intros e. unfold canc. rewrite existsb_app. destruct Hev as [[-> _]|[[-> _]|[-> _]]]; simpl; now rewrite !orb_false_r. }
  apply (ki_node s tr _ _ c HI).
  - destruct Hev as [[-> _]|[[-> _]|[-> _]]]; simpl; now rewrite Nat.eqb_refl.
  - intros c' Hn. simpl. now rewrite upd_other'.
  - auto.
  - tauto.
  - intros e H. now apply Fc in H.
  - apply HI.
  - reflexivity.
  - unfold vOK, fresh, nlive, inc, rq, cn, rests. cbn [c_nd c_ev c_loops c_with_ev c_with_nd]. rewrite !upd_same'. cbn [n_life n_obs n_tok e_cbs e_req some].
    fold (rests s). rewrite (not_memb _ _ Fr). rewrite nvw_app, Fv. destruct tok as [e|].
    + destruct (Hok e eq_refl) as [H1 H2]. rewrite (not_memb _ _ (Fc e)), H2, Hcn, (k_cn _ _ HI _ H2). destruct Hev as [[-> [-> E]]|[[-> ->]|[-> [-> E]]]]; try discriminate; cbn; rewrite Nat.eqb_refl; constructor; cbn; tauto.
    + destruct Hev as [[-> [-> E]]|[[-> ->]|[-> [-> E]]]]; cbn; rewrite Nat.eqb_refl; constructor; cbn; tauto.
  - rewrite nvw_app, Fv. simpl. rewrite upd_same'. simpl. destruct Hev as [[-> _]|[[-> _]|[-> _]]]; simpl; now rewrite Nat.eqb_refl.
  - now apply uniq_fresh.
  - now left.
  - simpl. intros _ e'. rewrite upd_same'. simpl. intros ->. destruct (Hok e' eq_refl) as [H _]. apply andb_true_iff in H. tauto.
  - rewrite runs_app. replace (runs [ev]) with (@nil nat) by (destruct Hev as [[-> _]|[[-> _]|[-> _]]]; reflexivity). rewrite app_nil_r. apply HI.
  - simpl. auto.
  - apply HI.
  - apply HI.
Qed.

Lemma ki_new_run s tr c e h ev s' : KI s tr -> n_life (c_nd s c) = LNone -> ev_ok s e = true -> e_req (c_ev s e) = true ->
  (ev = KNew c (Some e) /\ h = HCtor \/ ev = KForce c (Some e) /\ h = HForce) ->
  c_nd s' = upd (c_nd s) c (CN LLive (match h with HCtor => false | _ => true end) (Some e)) ->
  c_fns s' = c_fns s ++ [FRun c e h] -> c_loops s' = c_loops s ->
  (forall e', e_req (c_ev s' e') = e_req (c_ev s e') /\ e_alive (c_ev s' e') = e_alive (c_ev s e') /\ e_cbs (c_ev s' e') = e_cbs (c_ev s e')) ->
  (forall e', e_lock (c_ev s' e') = match h with HCtor => if e' =? e then true else e_lock (c_ev s e') | _ => e_lock (c_ev s e') end) ->
  KI s' (tr ++ [ev; KRun c h]).
Proof.
  intros HI Hl Hok Hrq Hev Hnd Hfn Hlo He Hlk. apply andb_true_iff in Hok. destruct Hok as [Hal Hl0]. destruct (fresh_facts _ _ _ HI Hl) as (Ft & Fr & Fu & Fc & Fv).
  assert (Hab : forallb (about c) [ev; KRun c h] = true). { destruct Hev as [[-> _]|[-> _]]; simpl; now rewrite !Nat.eqb_refl. }
  destruct (about_facts_l tr c _ Hab) as (_ & _ & _ & Hcn).
  assert (Hr : runs (tr ++ [ev; KRun c h]) = runs tr ++ [c]). { rewrite runs_app. destruct Hev as [[-> _]|[-> _]]; reflexivity. }
  assert (Hrc : ~ In c (runs tr)). { rewrite v_x_iff, Fv. discriminate. }
  apply (ki_node s tr _ _ c HI Hab).
  - intros c' Hn. now rewrite Hnd, upd_other'.
  - intros e'. destruct (He e') as (-> & -> & _). auto.
  - intros e' c' _. destruct (He e') as (_ & _ & ->). tauto.
  - intros e'. destruct (He e') as (_ & _ & ->). intros H. now apply Fc in H.
  - intros e'. destruct (He e') as (_ & _ & ->). apply HI.
  - unfold rests. now rewrite Hlo.
  - unfold vOK, fresh, nlive, inc, rq, cn, rests. rewrite Hnd, Hlo, !upd_same'. cbn [n_life n_obs n_tok e_cbs e_req some].
    fold (rests s). rewrite (not_memb _ _ Fr). rewrite nvw_app, Fv. destruct (He e) as (-> & _ & ->).
    rewrite (not_memb _ _ (Fc e)), Hrq, Hcn, (k_cn _ _ HI _ Hrq). destruct Hev as [[-> ->]|[-> ->]]; cbn; rewrite !Nat.eqb_refl; constructor; cbn; tauto.
  - rewrite nvw_app, Fv, Hnd, upd_same'. destruct Hev as [[-> ->]|[-> ->]]; cbn; now rewrite !Nat.eqb_refl.
  - replace (tr ++ [ev; KRun c h]) with ((tr ++ [ev]) ++ [KRun c h]) by (now rewrite <- app_assoc). apply uniq_run. now apply uniq_fresh.
  - now left.
  - rewrite Hnd, upd_same'. simpl. intros _ e' [= <-]. auto.
  - rewrite Hr. apply NoDup_snoc; auto. apply HI.
  - rewrite Hfn. intros c' e' h' H. apply in_app_iff in H. destruct H as [H|[[= <- <- <-]|[]]]; auto. right. rewrite Hnd, upd_same', Hr. split; auto. split; auto. split; [apply in_app_iff; right; now left|].
    intros ->. apply in_app_iff. right. right. now left.
  - intros e'. rewrite Hfn, map_app, sum_app, (k_lock _ _ HI), Hlk. simpl. destruct h; try (rewrite !Nat.add_0_r; reflexivity). rewrite (Nat.eqb_sym e' e). destruct (Nat.eqb_spec e e') as [->|]; [|now rewrite !Nat.add_0_r].
    apply negb_true_iff in Hl0. now rewrite Hl0.
  - rewrite Hlo, Hfn, app_length. intros l k H1 H2. pose proof (k_cur _ _ HI _ _ H1 H2). lia.
Qed.
