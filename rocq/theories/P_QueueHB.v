(** The memory of async::queue: data races and the result of empty(). *)
From Coq Require Import List Arith Bool Lia.
From Verif Require Import Lts ListFacts M_Wait S_Wait P_Wait M_Queue S_Queue P_Queue M_HB P_HB M_QueueHB S_QueueHB.
Import ListNotations.

Lemma crit_kw m v l1 x l2 l3 m' v' y : ~ In (Touch y true) l1 -> ~ In (Touch y true) l3 -> m_exec m v (l1 ++ Lock x :: l2 ++ Unlock x :: l3) = Some (m', v') ->
  kw (mm_log m) (mm_rel m x) y -> kw (mm_log m') (mm_rel m' x) y.
Proof.
  intros H1 H3 He Hk. rewrite exec_app in He. destruct (m_exec m v l1) as [[m1 v1]|] eqn:E1; [|discriminate]. pose proof (eff_exec _ _ _ _ _ E1) as F1.
  change (Lock x :: l2 ++ Unlock x :: l3) with (Lock x :: l2 ++ [Unlock x] ++ l3) in He. rewrite app_assoc, app_comm_cons, exec_app in He.
  destruct (m_exec m1 v1 (Lock x :: l2 ++ [Unlock x])) as [[m2 v2]|] eqn:E2; [|discriminate]. pose proof (eff_exec _ _ _ _ _ E2) as F2. pose proof (eff_exec _ _ _ _ _ He) as F3.
  apply (kw_incl _ (mm_rel m2 x)); [|apply (ef_rel _ _ _ _ _ F3)]. apply (eff_kw_other F3); [|exact H3].
  apply (kw_incl _ (mv_cur v2)); [|rewrite app_comm_cons in E2; exact (exec_unlock _ _ _ _ _ _ _ E2)].
  apply (own_kw F2 (mm_rel m1 x)); [exact (exec_lock _ _ _ _ _ _ _ E2)|]. apply (kw_incl _ (mm_rel m1 x)); [|apply incl_appr, incl_refl].
  apply (eff_kw_other F1); [|exact H1]. apply (kw_incl _ _ _ _ Hk). apply (ef_rel _ _ _ _ _ F1).
Qed.
Lemma exec_last m v l x acq rel : m_exec m v l <> None -> m_exec m v (l ++ [Rmw x acq rel]) <> None.
Proof. intros H. rewrite exec_app. destruct (m_exec m v l) as [[m1 v1]|]; [discriminate|congruence]. Qed.

(** Case analysis of the innermost match in a hypothesis *)
Ltac inner H :=
  match type of H with context [match ?b with _ => _ end] => lazymatch b with context [match _ with _ => _ end] => fail | _ => destruct b eqn:? end end.

Section QueueHB.
Context {T : Type}.
Notation QP := (queue_prim T).
Variable eager : bool.
Variable c : client.
Notation hv := (hview (qm_thr T c)).

(** What the step does: a critical section, the read of empty(), or nothing *)
Lemma body_cases s l :
  (exists b, qm_body T s l = locked b /\ forallb is_touch b = true /\ (forall y w, In (Touch y w) b -> y = l_sinks \/ (y = l_buffer /\ is_call T l = true)) /\ l <> QEmpty) \/
  (l = QEmpty /\ qm_body T s l = [Touch l_buffer false]) \/ (qm_body T s l = [] /\ is_call T l = false).
Proof.
  destruct l as [l|]; [|right; left; auto]. destruct l as [o t a|o x|e|k|k|pl|o]; cbn [qm_body is_call]; try (right; right; auto; fail).
  - left. eexists. split; [reflexivity|]. split; [destruct (no_items T s); reflexivity|]. split; [|discriminate].
    intros y w H. destruct (no_items T s); simpl in H; repeat (destruct H as [[= <- <-]|H]; [auto|]); destruct H.
  - destruct (get_pc x (c_op s o)); try (right; right; auto; fail). left. eexists. split; [reflexivity|].
    split; [destruct (q_val (c_prim s) o); reflexivity|]. split; [|discriminate]. intros y w H. destruct (q_val (c_prim s) o); simpl in H; [destruct H|]. destruct H as [[= <- <-]|[]]. auto.
  - destruct pl as [x|]; left; eexists; (split; [reflexivity|]).
    + split; [destruct (no_sinks T s); reflexivity|]. split; [|discriminate]. intros y w H. destruct (no_sinks T s); simpl in H; repeat (destruct H as [[= <- <-]|H]; [auto|]); destruct H.
    + split; [destruct (no_items T s); reflexivity|]. split; [|discriminate]. intros y w H. destruct (no_items T s); simpl in H; repeat (destruct H as [[= <- <-]|H]; [auto|]); destruct H.
Qed.
(** ... preceded and followed by the operations on the client's mutex *)
Definition own (l : qm_label T) : bool := match c with OwnMutex => is_call T l | _ => false end.
Lemma acts_own s l : qm_acts T c s l = if own l then Lock x_client :: qm_body T s l ++ [Unlock x_client] else qm_body T s l.
Proof. unfold qm_acts, own. destruct c; reflexivity. Qed.

Definition guard (h : mst (S := cst QP)) : hbs :=
  match c with AnyThread => mm_rel (ms_mem h) x_mutex | OwnMutex => mm_rel (ms_mem h) x_client | OneThread => mv_cur (ms_view h 0) end.
Definition QI (h : mst (S := cst QP)) : Prop :=
  let g := mm_log (ms_mem h) in let r := mm_rel (ms_mem h) x_mutex in kn g r l_sinks /\ kw g r l_buffer /\ kn g (guard h) l_buffer.

(** The critical section in the middle of the accesses *)
Lemma acts_locked s l b : qm_body T s l = locked b -> exists l1 l3, qm_acts T c s l = l1 ++ Lock x_mutex :: b ++ Unlock x_mutex :: l3 /\
  (forall y w, ~ In (Touch y w) l1) /\ (forall y w, ~ In (Touch y w) l3).
Proof.
  intros Hb. rewrite acts_own, Hb. unfold locked. destruct (own l).
  - exists [Lock x_client], [Unlock x_client]. split; [|split; intros y w [[=]|[]]]. simpl. rewrite <- app_assoc. reflexivity.
  - exists [], []. split; [reflexivity|]. split; intros y w [].
Qed.

Lemma q_exec h l v : QI h -> (c = AnyThread -> l <> QEmpty) -> m_exec (ms_mem h) (hv h l v) (qm_acts T c (ms_base h) l) <> None.
Proof.
  intros (Hs & Hw & Hg) Hc. rewrite acts_own.
  assert (Hgen : forall u, (own l = true -> incl (mm_rel (ms_mem h) x_client) (mv_cur u)) -> incl (mv_cur (hv h l v)) (mv_cur u) -> m_exec (ms_mem h) u (qm_body T (ms_base h) l) <> None).
  { intros u Hu Hi.
    assert (Hk : is_call T l = true -> (c = AnyThread -> incl (mm_rel (ms_mem h) x_mutex) (mv_cur u)) -> kn (mm_log (ms_mem h)) (mv_cur u) l_buffer).
    { intros Hl Ha. apply (kn_incl _ _ _ _ Hg). unfold guard. unfold own in Hu. destruct c eqn:Ec; [auto|rewrite Hl in Hu; auto|].
      eapply incl_tran; [|exact Hi]. apply in_hview. unfold qm_thr. rewrite Hl. left. reflexivity. }
    destruct (body_cases (ms_base h) l) as [(b & -> & Ht & Hb & Hne)|[[-> ->]|[-> _]]]; [| |discriminate].
    - assert (Hkn : forall y w, In (Touch y w) (b ++ [Unlock x_mutex]) -> kn (mm_log (ms_mem h)) (mv_cur u ++ mm_rel (ms_mem h) x_mutex) y).
      { intros y w Hy. apply in_app_or in Hy. destruct Hy as [Hy|[[=]|[]]]. destruct (Hb _ _ Hy) as [->|[-> Hl]].
        - apply (kn_incl _ _ _ _ Hs), incl_appr, incl_refl.
        - apply (kn_incl _ _ _ _ Hg). unfold guard. unfold own in Hu. destruct c eqn:Ec; [apply incl_appr, incl_refl|rewrite Hl in Hu; apply incl_appl; auto|].
          apply incl_appl. eapply incl_tran; [|exact Hi]. apply in_hview. unfold qm_thr. rewrite Hl. left. reflexivity. }
      unfold locked. apply lock_ok; intros y Hy; [eauto|]. apply kn_kw. eauto.
    - apply exec_ok; intros y [[= <-]|[]]. apply kn_kw. apply Hk; [reflexivity|]. intros Ec. now destruct (Hc Ec). }
  destruct (own l) eqn:Eo; [|apply Hgen; [discriminate|apply incl_refl]].
  change (m_exec (MM (mm_log (ms_mem h)) (mm_rel (ms_mem h))) (MV (mv_cur (hv h l v) ++ mm_rel (ms_mem h) x_client) (mv_pend (hv h l v) ++ mm_rel (ms_mem h) x_client)) (qm_body T (ms_base h) l ++ [Unlock x_client]) <> None).
  apply exec_last. replace (MM _ _) with (ms_mem h) by (destruct (ms_mem h); reflexivity). apply Hgen; simpl; [intros _; apply incl_appr|apply incl_appl]; apply incl_refl.
Qed.

Lemma q_keep h l v s' m' v' : QI h -> (c = AnyThread -> l <> QEmpty) -> m_exec (ms_mem h) (hv h l v) (qm_acts T c (ms_base h) l) = Some (m', v') ->
  QI (MS s' m' (m_set (ms_view h) (qm_thr T c (ms_base h) l) v')).
Proof.
  intros (Hs & Hw & Hg) Hc He. pose proof (eff_exec _ _ _ _ _ He) as F. unfold QI. cbn [ms_mem ms_base ms_view].
  destruct (body_cases (ms_base h) l) as [(b & Eb & Ht & Hb & Hne)|[[-> Eb]|[Eb El]]].
  - destruct (acts_locked _ _ _ Eb) as (l1 & l3 & Ea & H1 & H3). rewrite Ea in He.
    split; [apply (crit _ _ _ _ _ _ _ _ _ (H1 _) (H3 _) He Hs)|]. split; [apply (crit_kw _ _ _ _ _ _ _ _ _ (H1 _ _) (H3 _ _) He Hw)|].
    unfold guard in *. cbn [ms_mem ms_view]. destruct (is_call T l) eqn:El.
    + destruct c eqn:Ec.
      * apply (crit _ _ _ _ _ _ _ _ _ (H1 _) (H3 _) He Hg).
      * rewrite <- Ea in He. cbn [qm_acts] in He. rewrite El in He. pose proof (exec_lock _ _ _ _ _ _ _ He) as Hl.
        rewrite app_comm_cons in He. pose proof (exec_unlock _ _ _ _ _ _ _ He) as Hu. apply (kn_incl _ (mv_cur v')); [|exact Hu].
        apply (own_kn F (mm_rel (ms_mem h) x_client) _ Hl). apply (kn_incl _ _ _ _ Hg), incl_appr, incl_refl.
      * rewrite set_in by (unfold qm_thr; rewrite El; left; reflexivity). apply (eff_kn F). apply (kn_incl _ _ _ _ Hg). apply in_hview. unfold qm_thr. rewrite El. left. reflexivity.
    + assert (Hn : forall w, ~ In (Touch l_buffer w) (qm_acts T c (ms_base h) l)).
      { intros w Hi. rewrite Ea in Hi. apply in_app_or in Hi. destruct Hi as [Hi|[[=]|Hi]]; [now apply H1 in Hi|]. apply in_app_or in Hi. destruct Hi as [Hi|[[=]|Hi]]; [|now apply H3 in Hi].
        apply Hb in Hi. destruct Hi as [[=]|[_ Hi]]. congruence. }
      destruct c eqn:Ec; [| |rewrite set_out by (unfold qm_thr; rewrite El; intros [])]; apply (eff_kn_other F); try exact Hn; apply (kn_incl _ _ _ _ Hg); try apply (ef_rel _ _ _ _ _ F); apply incl_refl.
  - assert (Hns : forall w, ~ In (Touch l_sinks w) (qm_acts T c (ms_base h) QEmpty)) by (intros w; unfold qm_acts; destruct c; simpl; intuition discriminate).
    assert (Hnb : ~ In (Touch l_buffer true) (qm_acts T c (ms_base h) QEmpty)) by (unfold qm_acts; destruct c; simpl; intuition discriminate).
    split; [apply (eff_kn_other F); [|exact Hns]; apply (kn_incl _ _ _ _ Hs), (ef_rel _ _ _ _ _ F)|]. split; [apply (eff_kw_other F); [|exact Hnb]; apply (kw_incl _ _ _ _ Hw), (ef_rel _ _ _ _ _ F)|].
    unfold guard in *. cbn [ms_mem ms_view]. destruct c eqn:Ec; [now destruct (Hc eq_refl)| |].
    + pose proof (exec_lock _ _ _ _ _ _ _ He) as Hl. cbn [qm_acts is_call qm_body] in He. rewrite app_comm_cons in He. pose proof (exec_unlock _ _ _ _ _ _ _ He) as Hu.
      apply (kn_incl _ (mv_cur v')); [|exact Hu]. apply (own_kn F (mm_rel (ms_mem h) x_client) _ Hl). apply (kn_incl _ _ _ _ Hg), incl_appr, incl_refl.
    + rewrite set_in by (left; reflexivity). apply (eff_kn F). apply (kn_incl _ _ _ _ Hg). apply in_hview. left. reflexivity.
  - assert (Ea : qm_acts T c (ms_base h) l = []) by (rewrite acts_own, Eb; unfold own; rewrite El; destruct c; reflexivity). rewrite Ea in He. cbn [m_exec] in He. injection He as <- <-.
    split; [exact Hs|]. split; [exact Hw|]. unfold guard in *. cbn [ms_mem ms_view]. destruct c; auto. rewrite set_out; [exact Hg|]. unfold qm_thr. rewrite El. intros [].
Qed.

Notation qrunm ls := (run (qm_step T eager c) (qm_init T) ls).
Lemma empty_event s l s' es : qm_base T eager s l = Next s' es -> (l = QEmpty <-> exists b, In (EEmpty b) es).
Proof.
  destruct l as [l|]; simpl.
  - destruct (step QP eager s l) as [s1 es1| |]; try discriminate. intros [= <- <-]. split; [discriminate|]. intros [b Hb]. apply in_map_iff in Hb. destruct Hb as (? & [=] & _).
  - intros [= <- <-]. split; [intros _|reflexivity]. eexists. left. reflexivity.
Qed.
Definition ruled (tr : list (qm_event T)) : Prop := c = AnyThread -> no_empty tr.
Lemma ruled_pre tr es : ruled (tr ++ es) -> ruled tr.
Proof. intros H Hc b Hb. apply (H Hc b), in_or_app. left. exact Hb. Qed.
Lemma ruled_label s l s' es tr : qm_base T eager s l = Next s' es -> ruled (tr ++ es) -> c = AnyThread -> l <> QEmpty.
Proof. intros Hs H Hc El. destruct (proj1 (empty_event _ _ _ _ Hs) El) as [b Hb]. apply (H Hc b), in_or_app. right. exact Hb. Qed.
Lemma q_inv ls h tr : qrunm ls = Running h tr -> ruled (map fst tr) -> QI h.
Proof.
  intros Hr HC. apply (h_inv (qm_base T eager) (qm_thr T c) (qm_thr T c) (qm_acts T c) ruled (fun h _ => QI h)) with (ls := ls) (s0 := c_init QP) (tr := tr); try assumption; [exact ruled_pre| |].
  - unfold QI. simpl. repeat split; try apply kn_nil. apply kn_kw, kn_nil.
  - clear. intros ls h tr l v s' es m' v' _ HI Hs He HC. apply (q_keep _ _ v); auto. exact (ruled_label _ _ _ _ _ Hs HC).
Qed.
Lemma q_no_race ls tr : ruled (map fst tr) -> qrunm ls <> Failed DataRace tr.
Proof.
  intros HC Hr. apply h_failed in Hr. destruct Hr as [[ls0 H]|(_ & ls1 & h & tr1 & l & v & s' & es & H1 & H2 & H3 & Ht)].
  - destruct (run_from_failed _ _ _ _ _ _ H) as (ls1 & l & s & tr1 & es & H1 & H2 & _).
    destruct l as [l|]; simpl in H2; [|discriminate]. destruct (step QP eager s l) as [| |f es1] eqn:Hs; try discriminate. injection H2 as Hf _. rewrite Hf in Hs.
    clear -Hs. destruct s as [ps op ev wk cn]. destruct l as [o t a|o x|e|k|k|pl|o]; cbn in Hs.
    + destruct (o_l (op o)); try discriminate. unfold q_start in Hs. destruct (q_buf ps); [discriminate|]. destruct (q_sinks ps); discriminate.
    + unfold path_step in Hs. cbn in Hs. unfold q_try in Hs. repeat (inner Hs; try discriminate).
    + discriminate.
    + repeat (inner Hs; try discriminate).
    + repeat (inner Hs; try discriminate).
    + destruct pl; simpl in Hs; repeat (inner Hs; try discriminate).
    + repeat (inner Hs; try discriminate).
  - rewrite Ht in HC. revert H2. apply q_exec; [apply (q_inv _ _ _ H1), (ruled_pre _ es HC)|]. exact (ruled_label _ _ _ _ _ H3 HC).
Qed.

(** ** The values: runs of the queue with calls of empty() in between *)
Lemma others_app (a b : list (qm_event T)) : others (a ++ b) = others a ++ others b.
Proof. induction a as [|[e|x] a IH]; simpl; [reflexivity|now rewrite IH|exact IH]. Qed.
Lemma others_map (es : list (event QP)) : others (map QE es) = es.
Proof. induction es as [|e es IH]; simpl; [reflexivity|now rewrite IH]. Qed.
Lemma q_base ls : forall s0 tr0 s tr, run_from (qm_base T eager) s0 tr0 ls = Running s tr ->
  exists ls', run_from (step QP eager) s0 (others tr0) ls' = Running s (others tr).
Proof.
  induction ls as [|l ls IH]; intros s0 tr0 s tr H; cbn [run_from] in H.
  - injection H as <- <-. exists []. reflexivity.
  - destruct (qm_base T eager s0 l) as [s1 es| |] eqn:Hs; try discriminate. apply IH in H. destruct H as [ls' H]. destruct l as [l|]; simpl in Hs.
    + destruct (step QP eager s0 l) as [s2 es2| |] eqn:Hl; try discriminate. injection Hs as <- <-. exists (l :: ls'). cbn [run_from]. rewrite Hl.
      rewrite others_app, others_map in H. exact H.
    + injection Hs as <- <-. exists ls'. rewrite others_app in H. simpl in H. rewrite app_nil_r in H. exact H.
Qed.
Lemma q_run ls h tr : qrunm ls = Running h tr -> exists ls', run (step QP eager) (c_init QP) ls' = Running (ms_base h) (others (map fst tr)).
Proof. intros Hr. apply h_run in Hr. exact (q_base _ _ _ _ _ Hr). Qed.

(** what was buffered at the last call of empty() *)
Lemma step_buf s l s' es : step QP eager s l = Next s' es -> untouched (map QE es) -> q_buf (c_prim s') = q_buf (c_prim s).
Proof.
  intros Hs Hu. assert (Hu' : forall e, In e es -> match e with EStart _ _ _ | EPrim _ => False | _ => True end) by (intros e He; apply Hu, in_map, He). clear Hu.
  destruct s as [ps op ev wk cn]. destruct l as [o t a|o x|e|k|k|pl|o]; cbn in Hs.
  - exfalso. destruct (o_l (op o)); try discriminate. destruct (q_start T ps o a); try discriminate; injection Hs as <- <-; exact (Hu' _ (or_introl eq_refl)).
  - unfold path_step in Hs. cbn in Hs. unfold q_try, q_resume in Hs. repeat (inner Hs; try discriminate); injection Hs as <- <-; reflexivity.
  - injection Hs as <- <-. reflexivity.
  - repeat (inner Hs; try discriminate); injection Hs as <- <-; reflexivity.
  - repeat (inner Hs; try discriminate); injection Hs as <- <-; reflexivity.
  - exfalso. destruct pl; simpl in Hs; repeat (inner Hs; try discriminate); injection Hs as <- <-; exact (Hu' _ (or_introl eq_refl)).
  - repeat (inner Hs; try discriminate); injection Hs as <- <-; reflexivity.
Qed.
Lemma step_taken s l s' es e1 r e2 : step QP eager s l = Next s' es -> es = e1 ++ EPrim (P := QP) (EMaybeGet r) :: e2 -> e1 = [] /\ (r = None <-> q_buf (c_prim s) = []).
Proof.
  intros Hs Ee. assert (Hin : In (EPrim (P := QP) (EMaybeGet r)) es) by (rewrite Ee; apply in_or_app; right; left; reflexivity).
  destruct s as [ps op ev wk cn]. destruct l as [o t a|o x|e|k|k|pl|o]; cbn in Hs.
  - exfalso. destruct (o_l (op o)); try discriminate. unfold q_start in Hs. repeat (inner Hs; try discriminate); injection Hs as <- <-; destruct Hin as [Hin|[]]; discriminate Hin.
  - exfalso. unfold path_step in Hs. cbn in Hs. unfold q_try, q_resume in Hs. repeat (inner Hs; try discriminate); injection Hs as <- <-; simpl in Hin; intuition discriminate.
  - exfalso. injection Hs as <- <-. destruct Hin as [Hin|[]]. discriminate Hin.
  - exfalso. repeat (inner Hs; try discriminate); injection Hs as <- <-; destruct Hin.
  - exfalso. repeat (inner Hs; try discriminate); injection Hs as <- <-; destruct Hin.
  - assert (E1 : forall x : event QP, es = [x] -> e1 = []) by (intros x Ex; rewrite Ex in Ee; destruct e1 as [|? [|]]; [reflexivity| |]; discriminate Ee).
    destruct pl; simpl in Hs; repeat (inner Hs; try discriminate); injection Hs as <- <-; split; try (eapply E1; reflexivity);
    destruct Hin as [Hin|[]]; try discriminate Hin; injection Hin as <-; simpl; rewrite ?Heql; split; congruence.
  - exfalso. repeat (inner Hs; try discriminate); injection Hs as <- <-; destruct Hin as [Hin|[]]; discriminate Hin.
Qed.
Definition since (s : cst QP) (tr : list (qm_event T)) : Prop :=
  (forall t1 b t2, tr = t1 ++ EEmpty b :: t2 -> untouched t2 -> b = no_items T s) /\
  (forall t1 b t2 r t3, tr = t1 ++ EEmpty b :: t2 ++ QE (EPrim (P := QP) (EMaybeGet r)) :: t3 -> untouched t2 -> (b = true <-> r = None)).
Lemma untouched_app (a b : list (qm_event T)) : untouched (a ++ b) -> untouched a /\ untouched b.
Proof. intros H. split; intros e He; apply H, in_or_app; auto. Qed.
Lemma app_mid {A} (tr es t1 t2 : list A) x : tr ++ es = t1 ++ x :: t2 ->
  (exists u, tr = t1 ++ x :: u /\ t2 = u ++ es) \/ (exists e1, t1 = tr ++ e1 /\ es = e1 ++ x :: t2).
Proof.
  revert t1. induction tr as [|y tr IH]; intros t1 H; simpl in H.
  - right. exists t1. auto.
  - destruct t1 as [|z t1]; simpl in H; injection H as -> H.
    + left. exists tr. auto.
    + destruct (IH _ H) as [(u & -> & ->)|(e1 & -> & ->)]; [left; exists u|right; exists e1]; auto.
Qed.
Lemma since_step s tr l s' es : since s tr -> qm_base T eager s l = Next s' es -> since s' (tr ++ es).
Proof.
  intros [H1 H2] Hs. destruct l as [l|]; simpl in Hs.
  - destruct (step QP eager s l) as [s1 es1| |] eqn:Hl; try discriminate. injection Hs as <- <-.
    assert (Hne : forall e1 b e2, map QE es1 <> e1 ++ EEmpty b :: e2) by (intros e1 b e2 E; assert (Hin : In (EEmpty b) (map QE es1)) by (rewrite E; apply in_or_app; right; left; reflexivity); apply in_map_iff in Hin; destruct Hin as (? & [=] & _)).
    split.
    + intros t1 b t2 Et Hu. apply app_mid in Et. destruct Et as [(u & Et & ->)|(e1 & _ & Ee)]; [|now apply Hne in Ee].
      apply untouched_app in Hu. destruct Hu as [Hu1 Hu2]. rewrite (H1 _ _ _ Et Hu1). unfold no_items. now rewrite (step_buf _ _ _ _ Hl Hu2).
    + intros t1 b t2 r t3 Et Hu. apply app_mid in Et. destruct Et as [(u & Et & E2)|(e1 & _ & Ee)]; [|now apply Hne in Ee].
      symmetry in E2. apply app_mid in E2. destruct E2 as [(w & -> & ->)|(e1 & -> & Ee)]; [exact (H2 _ _ _ _ _ Et Hu)|].
      destruct es1 as [|x es1]; [destruct e1; discriminate Ee|]. assert (Hx : exists f1 f2, x :: es1 = f1 ++ EPrim (P := QP) (EMaybeGet r) :: f2 /\ e1 = map QE f1).
      { clear -Ee. revert Ee. generalize (x :: es1). intros l. revert e1. induction l as [|y l IH]; intros e1 H; [destruct e1; discriminate H|]. destruct e1 as [|z e1]; simpl in H; injection H as H0 H.
        - subst y. exists [], l. auto.
        - destruct (IH _ H) as (f1 & f2 & -> & ->). exists (y :: f1), f2. subst z. auto. }
      destruct Hx as (f1 & f2 & Ex & ->). destruct (step_taken _ _ _ _ _ _ _ Hl Ex) as [-> Hr]. apply untouched_app in Hu. rewrite (H1 _ _ _ Et (proj1 Hu)). rewrite Hr. unfold no_items. destruct (q_buf (c_prim s)); split; congruence.
  - injection Hs as <- <-. split.
    + intros t1 b t2 Et Hu. apply app_mid in Et. destruct Et as [(u & Et & ->)|(e1 & _ & Ee)].
      * apply untouched_app in Hu. exact (H1 _ _ _ Et (proj1 Hu)).
      * destruct e1 as [|? []]; simpl in Ee; try discriminate. injection Ee as <- <-. reflexivity.
    + intros t1 b t2 r t3 Et Hu. apply app_mid in Et. destruct Et as [(u & Et & E2)|(e1 & _ & Ee)].
      * symmetry in E2. apply app_mid in E2. destruct E2 as [(w & -> & ->)|(e1 & -> & Ee)]; [exact (H2 _ _ _ _ _ Et Hu)|]. destruct e1 as [|? []]; discriminate Ee.
      * destruct e1 as [|? []]; simpl in Ee; try discriminate. injection Ee as _ Ee. now destruct t2.
Qed.
Lemma since_run ls h tr : qrunm ls = Running h tr -> since (ms_base h) (map fst tr).
Proof.
  intros Hr. apply h_run in Hr. revert Hr. apply (run_inv (qm_base T eager) since).
  - split; intros [] ? ? *; discriminate.
  - apply since_step.
Qed.
Lemma q_next ls h tr t1 b t2 r t3 : qrunm ls = Running h tr -> map fst tr = t1 ++ EEmpty b :: t2 ++ QE (EPrim (P := QP) (EMaybeGet r)) :: t3 -> untouched t2 -> (b = true <-> r = None).
Proof. intros Hr. exact (proj2 (since_run _ _ _ Hr) t1 b t2 r t3). Qed.
Lemma q_count ls h tr t1 b t2 : qrunm ls = Running h tr -> map fst tr = t1 ++ EEmpty b :: t2 -> untouched t2 -> all_returned (ms_base h) ->
  (b = true <-> puts (others (map fst tr)) = flat_map (handed (reported (others (map fst tr)))) (consumers (others (map fst tr)))).
Proof.
  intros Hr Et Hu Hret. rewrite (proj1 (since_run _ _ _ Hr) _ _ _ Et Hu). destruct (q_run _ _ _ Hr) as [ls' Hq].
  rewrite (q_fifo_quiescent T eager _ _ _ Hq Hret) at 1. unfold no_items. destruct (q_buf (c_prim (ms_base h))) as [|x l].
  - rewrite app_nil_r. split; reflexivity.
  - split; [discriminate|]. intros H. exfalso. apply (f_equal (@length T)) in H. rewrite app_length in H. simpl in H. lia.
Qed.
End QueueHB.
