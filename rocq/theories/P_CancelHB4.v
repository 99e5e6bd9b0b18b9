(** The happens-before invariant of cancellation_event: each step keeps it. *)
From Coq Require Import List Arith Bool Lia.
From Verif Require Import Lts ListFacts M_HB P_HB M_Cancel S_Cancel P_Cancel P_CancelInv P_CancelStep P_CancelMain M_CancelHB S_CancelHB P_CancelHB P_CancelHB2 P_CancelHB3.
Import ListNotations.

Lemma split_app {A} (l1 l2 : list A) : forall t1 x t2, l1 ++ l2 = t1 ++ x :: t2 -> (exists t, l1 = t1 ++ x :: t /\ t2 = t ++ l2) \/ (exists e1 e2, l2 = e1 ++ x :: e2 /\ t1 = l1 ++ e1 /\ t2 = e2).
Proof.
  induction l1 as [|a l1 IH]; intros t1 x t2 E; simpl in E; [right; exists t1, t2; auto|]. destruct t1 as [|b t1]; simpl in E; injection E as <- E.
  - left. exists l1. auto.
  - destruct (IH _ _ _ E) as [(t & -> & ->)|(e1 & e2 & -> & -> & ->)]; [left; exists t; auto|right; exists e1, e2; auto].
Qed.

Lemma tag_split (u : hbs) es : forall e1 (ev : cevent) w e2, map (fun x => (x, u)) es = e1 ++ (ev, w) :: e2 -> w = u /\ exists a b, es = a ++ ev :: b /\ e1 = map (fun x => (x, u)) a.
Proof.
  induction es as [|x es IH]; intros [|y e1] ev w e2 E1; simpl in E1; try discriminate; injection E1 as E1 E2.
  - subst. split; [reflexivity|]. exists [], es. auto.
  - destruct (IH e1 ev w e2 E2) as (-> & a & b & -> & ->). split; [reflexivity|]. exists (x :: a), b. subst y. auto.
Qed.

Section Step.
Context {h : chst} {tr : ctrace} {l : clabel} {v : hbs} {m' : mmem} {v' : mview} {s' : cst} {es : list cevent}.
Hypothesis W : Inv h tr.
Hypothesis Hs : c_step (st h) l = Next s' es.
Hypothesis He : m_exec (ms_mem h) (hv h l v) (ch_acts (st h) l) = Some (m', v').
Hypothesis K' : KI s' (map fst tr ++ es).
Notation K := (w_k _ _ W).
Definition nxt : chst := MS s' m' (m_set (ms_view h) (ch_dst (st h) l) v').
Definition ntr : ctrace := tr ++ map (fun e => (e, mv_cur v')) es.
Notation h' := nxt. Notation tr' := ntr.
Let Ef : eff (ms_mem h) (hv h l v) (ch_acts (st h) l) m' v' := eff_exec _ _ _ _ _ He.

Lemma ntr_in ev w : In (ev, w) tr' -> In (ev, w) tr \/ (In ev es /\ w = mv_cur v').
Proof. unfold ntr. intros H. apply in_app_or in H. destruct H as [H|H]; [auto|]. apply in_map_iff in H. destruct H as (e' & [= <- <-] & H). auto. Qed.
Lemma v_mono t : incl (v_ h t) (v_ h' t).
Proof.
  simpl. destruct (in_dec Nat.eq_dec t (ch_dst (st h) l)) as [Hd|Hd]; [|rewrite set_out by exact Hd; apply incl_refl]. rewrite set_in by exact Hd.
  eapply incl_tran; [apply (in_hview ch_src h l v), dst_src, Hd|]. apply (ef_cur _ _ _ _ _ Ef).
Qed.
Lemma v_dst t : In t (ch_dst (st h) l) -> v_ h' t = mv_cur v'. Proof. intros H. simpl. now rewrite set_in. Qed.
Lemma r_mono x : incl (rl h x) (rl h' x). Proof. apply (ef_rel _ _ _ _ _ Ef). Qed.
Lemma src_v t : In t (ch_src (st h) l) -> incl (v_ h t) (mv_cur v').
Proof. intros H. eapply incl_tran; [apply (in_hview ch_src h l v), H|]. apply (ef_cur _ _ _ _ _ Ef). Qed.
Lemma own_mono c : incl (own h c) (own h' c). Proof. apply incl_app; [apply incl_appl|apply incl_appr]; apply v_mono. Qed.
(** a location: what was known before is known, new accesses are known *)
Lemma kn_step u u' y : kn (lg h) u y -> incl u u' -> ((exists b, In (Touch y b) (ch_acts (st h) l)) -> incl (mv_cur v') u') -> kn (lg h') u' y.
Proof. intros H Hu Hn i a p Hi Hl. simpl in Hi. destruct (eff_cases Ef _ _ _ Hi) as [[_ Ho]|(_ & Hin & Ht)]; [apply Hu; eauto|]. subst y. apply Hn; eauto. Qed.
Lemma kw_step u u' y : kw (lg h) u y -> incl u u' -> (In (Touch y true) (ch_acts (st h) l) -> incl (mv_cur v') u') -> kw (lg h') u' y.
Proof. intros H Hu Hn i a p Hi Hl Hw. simpl in Hi. destruct (eff_cases Ef _ _ _ Hi) as [[_ Ho]|(_ & Hin & Ht)]; [apply Hu; eauto|]. subst y. rewrite Hw in Ht. apply Hn; eauto. Qed.
Lemma see_keep e u u' : sees_cancel e tr u -> incl u u' -> (l = LCancel e -> incl (mv_cur v') u') -> sees_cancel e tr' u'.
Proof. intros H Hi Hn w Hw. apply ntr_in in Hw. destruct Hw as [Hw|[Hw ->]]; [eapply incl_tran; eauto|]. apply Hn. exact (es_cancel Hs e Hw). Qed.
Lemma set_keep c u u' : sees_set c tr u -> incl u u' -> (mkn l c -> incl (mv_cur v') u') -> sees_set c tr' u'.
Proof. intros H Hi Hn ev w Hw Hg. apply ntr_in in Hw. destruct Hw as [Hw|[Hw ->]]; [eapply incl_tran; eauto|]. apply Hn. exact (es_gives Hs c ev Hw Hg). Qed.
(** a node that is not used yet *)
Lemma set_new c u : mkn l c -> sees_set c tr u.
Proof.
  intros Hm ev w Hw Hg. exfalso. destruct (mkn_fresh Hs c Hm) as [Hf _]. assert (Hl : n_life (c_nd (st h) c) = LNone) by (unfold fresh in Hf; destruct (n_life _); congruence).
  destruct (fresh_facts _ _ _ K Hl) as (_ & _ & Hu & _). apply (in_map fst) in Hw. simpl in Hw. destruct ev as [c0 [e|]|c0|c0 [e|] b|c0 [e|]|c0 b|c0|e|e|e|e b|c0 x|c0|c0 b]; simpl in Hg; try discriminate; apply Nat.eqb_eq in Hg; subst c0; apply (Hu e); unfold uses; eauto.
Qed.
(** steps with a critical section *)
Section Sec.
Variable e : nat.
Hypothesis Hsec : sec (st h) l = Some e.
Lemma sec_exec : m_exec (ms_mem h) (hv h l v) ((pre (st h) l ++ [Touch (l_ev e) false]) ++ Lock (x_e e) :: (Touch (l_st e) true :: hooks (body (st h) l)) ++ Unlock (x_e e) :: know e :: post (st h) l) = Some (m', v').
Proof. rewrite <- (acts_sec _ _ _ Hsec). exact He. Qed.
Lemma sec_exec_e : exists a, m_exec (ms_mem h) (hv h l v) (a ++ Rmw (x_e e) false true :: know e :: post (st h) l) = Some (m', v').
Proof. eexists. pose proof sec_exec as H. rewrite app_comm_cons, app_assoc in H. exact H. Qed.
Lemma sec_exec_a : exists a, m_exec (ms_mem h) (hv h l v) (a ++ Rmw (x_acc e) false true :: post (st h) l) = Some (m', v').
Proof. destruct sec_exec_e as [a H]. exists (a ++ [Unlock (x_e e)]). rewrite <- app_assoc. exact H. Qed.
Lemma sec_in : incl (rl h (x_e e)) (mv_cur v').
Proof.
  apply (mid_lock _ _ _ _ _ _ _) with (2 := sec_exec). rewrite forallb_app. simpl. rewrite andb_true_r. apply forallb_forall. intros a Ha.
  clear - Ha. destruct l; simpl in Ha; unfold make in *; try (destruct (n_obs _)); simpl in Ha; repeat destruct Ha as [Ha|Ha]; try contradiction; subst; reflexivity.
Qed.
Lemma sec_kn y : (forall b, ~ In (Touch y b) (post (st h) l)) -> kn (lg h) (rl h (x_e e)) y -> kn (lg h') (rl h' (x_e e)) y.
Proof. intros Hp Hk. destruct sec_exec_e as [a H]. apply (rel_kn y H); [intros b [X|X]; [discriminate|exact (Hp b X)]|]. apply (kn_incl _ _ _ _ Hk). apply incl_appl, incl_refl. Qed.
Lemma sec_acc y : (forall b, ~ In (Touch y b) (post (st h) l)) -> kn (lg h) (rl h (x_acc e)) y -> kn (lg h') (rl h' (x_acc e)) y.
Proof. intros Hp Hk. destruct sec_exec_a as [a H]. apply (rel_kn y H); [exact Hp|]. apply (kn_incl _ _ _ _ Hk). apply incl_appl, incl_refl. Qed.
Lemma sec_all : post (st h) l = [] -> incl (mv_cur v') (rl h' (x_e e)).
Proof. intros Hp. destruct sec_exec_e as [a H]. apply (rel_all H). rewrite Hp. reflexivity. Qed.
End Sec.
Lemma post_ev e b : ~ In (Touch (l_ev e) b) (post (st h) l). Proof. intros H. apply post_in in H. destruct H as (c & _ & [[E _]|[E _]]); lne. Qed.
Lemma post_st e b : ~ In (Touch (l_st e) b) (post (st h) l). Proof. intros H. apply post_in in H. destruct H as (c & _ & [[E _]|[E _]]); lne. Qed.
Lemma post_hk c b : In (Touch (l_hk c) b) (post (st h) l) -> l = LDel c.
Proof. intros H. apply post_in in H. destruct H as (c' & _ & [[E _]|[E X]]); [lne|]. injl. exact X. Qed.

Lemma ctor_exec c e : l = LNew c (Some e) -> e_req (c_ev (st h) e) = true ->
  m_exec (ms_mem h) (hv h l v) ([Touch (l_nd c) true; Touch (l_hk c) true; Touch (l_ev e) false] ++ Lock (x_e e) :: [Touch (l_st e) true; Touch (l_nd c) false; know e]) = Some (m', v').
Proof. intros E Er. pose proof He as H. rewrite E in H at 2. cbn [ch_acts] in H. rewrite Er in H. exact H. Qed.
Lemma ret_exec k c e : l = LRet k -> nth_error (c_fns (st h)) k = Some (FRun c e HCtor) -> m_exec (ms_mem h) (hv h l v) ([Touch (l_ev e) false] ++ Rmw (x_e e) false true :: [know e]) = Some (m', v').
Proof. intros E Hk. pose proof He as H. rewrite E in H at 2. cbn [ch_acts] in H. rewrite Hk in H. exact H. Qed.

Lemma step_ev e : EV h' tr' e.
Proof.
  destruct (w_ev _ _ W e) as (E1 & E2 & E3).
  assert (Hnw : e_alive (c_ev s' e) = true -> kw (lg h) [] (l_ev e) -> kw (lg h') [] (l_ev e)).
  { intros Ha Hk. apply (kw_step [] []); auto using incl_refl. intros Ht. apply t_ev in Ht. destruct Ht as [_ Ht]. rewrite (delev_dead Hs e (Ht eq_refl)) in Ha. discriminate. }
  assert (Hc : sec (st h) l = Some e \/ (exists c, l = LNew c (Some e) /\ e_req (c_ev (st h) e) = true) \/ l = LDelEv e \/ (exists k c, l = LRet k /\ nth_error (c_fns (st h)) k = Some (FRun c e HCtor)) \/ ~ evs (st h) l e).
  { unfold evs, sts. destruct (sec (st h) l) as [x|] eqn:Hx.
    - destruct (Nat.eq_dec x e) as [->|Hne]; [auto|]. right. right. right. right. intros [[H|[(c & -> & H)|H]]|(k & c & -> & H)]; try congruence; [cbn [sec] in Hx; rewrite H in Hx; discriminate|rewrite H in Hx; cbn in Hx; discriminate|cbn in Hx; discriminate].
    - destruct l as [c [x|]|c|c [x|] f|c|c|x|x|x|x|i|k|k]; try (right; right; right; right; intros [[H|[(c1 & H & _)|H]]|(k1 & c1 & H & _)]; discriminate).
      + destruct (Nat.eq_dec x e) as [->|Hne]; [|right; right; right; right; intros [[H|[(c1 & H & _)|H]]|(k1 & c1 & H & _)]; congruence]. right. left. exists c. cbn [sec] in Hx. destruct (e_req _); [auto|discriminate].
      + destruct (Nat.eq_dec x e) as [->|Hne]; [auto|]. right. right. right. right. intros [[H|[(c1 & H & _)|H]]|(k1 & c1 & H & _)]; congruence.
      + destruct (nth_error (c_fns (st h)) k) as [[c x [| |]|]|] eqn:Hk; try (right; right; right; right; intros [[H|[(c1 & H & _)|H]]|(k1 & c1 & H & H2)]; try discriminate; injection H as <-; congruence).
        destruct (Nat.eq_dec x e) as [->|Hne]; [right; right; right; left; eauto|]. right; right; right; right; intros [[H|[(c1 & H & _)|H]]|(k1 & c1 & H & H2)]; try discriminate; injection H as <-; congruence. }
  destruct Hc as [Hsec|[(c & El & Er)|[El|[(k & c & El & Hk)|Hne]]]].
  - destruct (sts_ok Hs e (or_introl Hsec)) as [A B]. destruct (E1 A) as (Q1 & Q2 & Q3). split; [|split].
    + intros Ha. split; [apply (sec_acc e Hsec _ (post_ev e) Q1)|]. split; [apply (sec_acc e Hsec _ (post_st e) Q2)|auto].
    + intros _ _. apply (sec_kn e Hsec _ (post_st e)). auto.
    + intros _. apply (see_keep _ _ _ (E3 B) (r_mono _)). intros El. apply (sec_all e Hsec). rewrite El. reflexivity.
  - destruct (sts_ok Hs e (or_intror (or_introl (ex_intro _ c (conj El Er))))) as [A B]. destruct (E1 A) as (Q1 & Q2 & Q3). pose proof (ctor_exec _ _ El Er) as Hx.
    change (m_exec (ms_mem h) (hv h l v) ([Touch (l_nd c) true; Touch (l_hk c) true; Touch (l_ev e) false; Lock (x_e e); Touch (l_st e) true; Touch (l_nd c) false] ++ Rmw (x_acc e) false true :: []) = Some (m', v')) in Hx.
    assert (L : e_lock (c_ev s' e) = true) by exact (ctor_lock Hs c e El Er). split; [|split; simpl; rewrite L; discriminate].
    intros Ha. split; [|split; [|auto]]; (apply (rel_kn _ Hx); [intros b []|]); [apply (kn_incl _ _ _ _ Q1)|apply (kn_incl _ _ _ _ Q2)]; apply incl_appl, incl_refl.
  - assert (L : e_alive (c_ev s' e) = false) by exact (delev_dead Hs e El). assert (Hst : sts (st h) l e) by (right; right; auto). destruct (sts_ok Hs e Hst) as [_ B]. split; [simpl; rewrite L; discriminate|]. split; [simpl; rewrite L; discriminate|].
    intros _. apply (see_keep _ _ _ (E3 B) (r_mono _)). congruence.
  - destruct (w_fn _ _ W c e) as (A & F1 & F2); [eapply nth_error_In; eauto|]. destruct (E1 A) as (Q1 & Q2 & Q3). pose proof (ret_exec _ _ _ El Hk) as Hx.
    assert (Hsrc : incl (v_ h (t_r c)) (mv_cur (hv h l v))) by (apply in_hview; rewrite El; simpl; rewrite Hk; left; reflexivity). split; [|split].
    + intros Ha. change ([Touch (l_ev e) false] ++ Rmw (x_e e) false true :: [know e]) with ([Touch (l_ev e) false; Rmw (x_e e) false true] ++ Rmw (x_acc e) false true :: []) in Hx.
      split; [|split; [|auto]]; (apply (rel_kn _ Hx); [intros b []|]); [apply (kn_incl _ _ _ _ Q1)|apply (kn_incl _ _ _ _ Q2)]; apply incl_appl, incl_refl.
    + intros _ _. apply (rel_kn _ Hx); [intros b [X|[]]; discriminate|]. apply (kn_incl _ _ _ _ F1). apply incl_appr, Hsrc.
    + intros _. apply (see_keep _ _ _ F2); [|congruence]. eapply incl_tran; [exact Hsrc|]. exact (rel_cur Hx).
  - assert (Ek : c_ev s' e = c_ev (st h) e) by exact (ev_keep Hs e Hne). unfold EV. simpl. rewrite Ek. split; [|split].
    + intros Ha. destruct (E1 Ha) as (Q1 & Q2 & Q3). split; [|split].
      * apply (kn_step _ _ _ Q1 (r_mono _)). intros [b Ht]. exfalso. apply Hne, (t_ev Ht).
      * apply (kn_step _ _ _ Q2 (r_mono _)). intros [b Ht]. exfalso. apply Hne. left. exact (t_st Ht).
      * apply Hnw; auto. now rewrite Ek.
    + intros Ha Hl. apply (kn_step _ _ _ (E2 Ha Hl) (r_mono _)). intros [b Ht]. exfalso. apply Hne. left. exact (t_st Ht).
    + intros Hl. apply (see_keep _ _ _ (E3 Hl) (r_mono _)). intros E. exfalso. apply Hne. left. left. rewrite E. reflexivity.
Qed.
Lemma step_fn c e : In (FRun c e HCtor) (c_fns s') -> FV h' tr' c e.
Proof.
  intros Hi. destruct (fns_back Hs c e Hi) as [Ho|[El Er]].
  - destruct (w_fn _ _ W _ _ Ho) as (A & F1 & F2). pose proof (ctor_locked K _ _ Ho) as L. assert (Hn : ~ sts (st h) l e) by (intros X; destruct (sts_ok Hs e X); congruence). split; [|split].
    + simpl. clear - Hs A Hn. destruct l as [c0 t|c0|c0 t f|c0|c0|x|x|x|x|i|k|k] eqn:El; try (rewrite (ev_keep Hs e); [exact A|]; intros [X|(k1 & c1 & X & _)]; [contradiction|discriminate]).
      destruct (nth_error (c_fns (st h)) k) as [[c1 x [| |]|]|] eqn:Hk; try (rewrite (ev_keep Hs e); [exact A|]; intros [X|(k1 & c2 & X & Y)]; [contradiction|injection X as <-; congruence]).
      destruct (Nat.eq_dec x e) as [->|Hne]; [rewrite (ret_ev Hs k c1 e eq_refl Hk); exact A|]. rewrite (ev_keep Hs e); [exact A|]. intros [X|(k1 & c2 & X & Y)]; [contradiction|injection X as <-; congruence].
    + apply (kn_step _ _ _ F1 (v_mono _)). intros [b Ht]. exfalso. apply Hn. exact (t_st Ht).
    + apply (see_keep _ _ _ F2 (v_mono _)). intros E. exfalso. apply Hn. left. rewrite E. reflexivity.
  - destruct (sts_ok Hs e (or_intror (or_introl (ex_intro _ c (conj El Er))))) as [A B]. destruct (w_ev _ _ W e) as (E1 & E2 & E3). pose proof (ctor_exec _ _ El Er) as Hx.
    assert (Hin : incl (rl h (x_e e)) (mv_cur v')) by (apply (mid_lock _ _ _ _ _ _ _) with (2 := Hx); reflexivity).
    assert (Hd : v_ h' (t_r c) = mv_cur v') by (apply v_dst; rewrite El; simpl; rewrite Er; simpl; auto).
    split; [|split].
    + simpl. apply (k_alive _ _ K' c e); [apply (mkn_fresh Hs); rewrite El; reflexivity|]. apply (k_fn _ _ K' _ _ _ Hi).
    + rewrite Hd. apply (kn_step _ _ _ (E2 A B) Hin). intros _. apply incl_refl.
    + rewrite Hd. apply (see_keep _ _ _ (E3 B) Hin). intros _. apply incl_refl.
Qed.

Lemma inc_in s c : inc s c = true <-> exists e, n_tok (c_nd s c) = Some e /\ In c (e_cbs (c_ev s e)).
Proof. unfold inc. destruct (n_tok (c_nd s c)) as [e|]; [rewrite memb_In; split; [eauto|intros (e' & [= <-] & H); auto]|split; [discriminate|intros (e & H & _); discriminate]]. Qed.
Lemma live_fresh s c : nlive s c = true -> fresh s c = false. Proof. unfold nlive, fresh. destruct (n_life _); congruence. Qed.
Lemma mk_or c : {mkn l c} + {l = LDel c} + {~ mk l c}.
Proof. destruct l; simpl; auto; destruct (Nat.eq_dec c0 c) as [->|]; auto. Qed.
Lemma step_nd c : ND h' c.
Proof.
  destruct (w_nd _ _ W c) as (N1 & N2 & N3). split; [|split].
  - simpl. intros Hf. destruct (fresh_back Hs c Hf) as (Hf0 & Hn & Hm). destruct (N1 Hf0) as [Q1 Q2]. split.
    + apply (kn_step _ _ _ Q1 (incl_refl _)). intros [b Ht]. exfalso. apply Hn, (t_nd Ht).
    + apply (kn_step _ _ _ Q2 (incl_refl _)). intros [b Ht]. exfalso. destruct (t_hk Ht) as [X|[(e & _ & X)|(c0 & rest & (i & _ & X) & Y)]]; [auto|destruct (cbs_live K _ _ X) as (_ & Z & _); congruence|].
      assert (Hr : In c (rests (st h))) by (apply rests_in; eauto). destruct (rest_live K _ Hr). congruence.
  - intros Hl. destruct (mk_or c) as [[Hm|Hm]|Hm].
    + destruct (N1 (proj1 (mkn_fresh Hs c Hm))) as [Q1 _]. assert (Hd : v_ h' (t_n c) = mv_cur v') by (apply v_dst; revert Hm; clear; destruct l; simpl; try contradiction; intros ->; auto). unfold own. rewrite Hd. split.
      * apply (kw_step [] _ _ (kn_kw _ _ _ Q1)); [intros i []|intros _; apply incl_refl].
      * apply (kn_step [] _ _ Q1); [intros i []|intros _; apply incl_appl, incl_refl].
    + destruct (del_live Hs c Hm) as (_ & X & _). simpl in Hl. congruence.
    + assert (Hl0 : nlive (st h) c = true) by (simpl in Hl; unfold nlive in *; rewrite <- (nd_keep Hs c Hm); exact Hl). destruct (N2 Hl0) as [Q1 Q2]. split.
      * apply (kw_step _ _ _ Q1 (v_mono _)). intros Ht. exfalso. apply Hm, (proj2 (t_nd Ht)). reflexivity.
      * apply (kn_step _ _ _ Q2 (own_mono _)). intros [b Ht]. apply t_nd in Ht. destruct Ht as [Ht _]. unfold own.
        destruct (ex_intro (fun l0 => l = l0) l eq_refl) as [l0 El]. rewrite El in Ht, Hm. destruct l0 as [c0 t|c0|c0 t f|c0|c0|x|x|x|x|i|k|k]; simpl in Ht, Hm; try contradiction; try (exfalso; apply Hm; exact Ht).
        -- subst c0. apply incl_appl. rewrite v_dst by (rewrite El; simpl; auto). apply incl_refl.
        -- subst c0. apply incl_appl. rewrite v_dst by (rewrite El; simpl; auto). apply incl_refl.
        -- destruct Ht as [rest Hi]. apply incl_appr. rewrite v_dst by (rewrite El; simpl; rewrite Hi; simpl; auto). apply incl_refl.
  - intros Hl Hi Hr. simpl in Hl, Hi, Hr. destruct (mk_or c) as [[Hm|Hm]|Hm].
    + destruct (N1 (proj1 (mkn_fresh Hs c Hm))) as [_ Q1]. assert (Hd : v_ h' (t_n c) = mv_cur v') by (apply v_dst; revert Hm; clear; destruct l; simpl; try contradiction; intros ->; auto). unfold own. rewrite Hd.
      apply (kn_step [] _ _ Q1); [intros i []|intros _; apply incl_appl, incl_refl].
    + destruct (del_live Hs c Hm) as (_ & X & _). congruence.
    + assert (Hl0 : nlive (st h) c = true) by (unfold nlive in *; rewrite <- (nd_keep Hs c Hm); exact Hl). destruct (inc (st h) c) eqn:Ei.
      * apply inc_in in Ei. destruct Ei as (e & Et & Hc). assert (Hc' : ~ In c (e_cbs (c_ev s' e))) by (intros X; rewrite (proj2 (inc_in s' c)) in Hi; [discriminate|exists e; rewrite (nd_keep Hs c Hm); auto]).
        destruct (cbs_fwd K Hs e c Hc Hc') as [[El Hsec]|[El|[_ X]]]; [|exfalso; apply Hm; rewrite El; reflexivity|contradiction].
        assert (Hd : v_ h' (t_n c) = mv_cur v') by (apply v_dst; destruct El as [-> | ->]; simpl; auto). unfold own. rewrite Hd. apply (kn_step _ _ _ (proj1 (w_cb _ _ W _ _ Hc))); [apply incl_appl, (sec_in e Hsec)|intros _; apply incl_appl, incl_refl].
      * destruct (in_dec Nat.eq_dec c (rests (st h))) as [Hr0|Hr0].
        -- destruct (rest_fwd Hs c Hr0 Hr) as (rest & i & El & Hi0). assert (Hd : v_ h' (t_r c) = mv_cur v') by (apply v_dst; rewrite El; simpl; rewrite Hi0; simpl; auto). unfold own. rewrite Hd.
           destruct (w_rs _ _ W _ _ c Hi0 (or_introl eq_refl)) as [[Q _] _]. apply (kn_step _ _ _ Q); [apply incl_appr, src_v; rewrite El; simpl; auto|intros _; apply incl_appr, incl_refl].
        -- apply (kn_step _ _ _ (N3 Hl0 eq_refl Hr0) (own_mono _)). intros [b Ht]. exfalso. destruct (t_hk Ht) as [X|[(e & _ & X)|(c0 & rest & (i & _ & X) & Y)]]; [auto|destruct (cbs_live K _ _ X) as (_ & _ & Z & _); congruence|]. apply Hr0, rests_in. eauto.
Qed.
Lemma step_cb e c : In c (e_cbs (c_ev s' e)) -> LV h' tr' c (rl h' (x_e e)).
Proof.
  intros Hc. destruct (cbs_back K K' Hs e c Hc) as [[Ho Hm]|(Hm & Hsec & Hp)].
  - destruct (w_cb _ _ W _ _ Ho) as (Q1 & Q2 & Q3). assert (Hmn : ~ mkn l c) by (intros X; apply Hm, mkn_mk, X). split; [|split].
    + destruct (sec (st h) l) as [x|] eqn:Hsec.
      * destruct (Nat.eq_dec x e) as [->|Hne].
        -- apply (sec_kn e Hsec); [|exact Q1]. intros b X. apply post_hk in X. apply Hm. rewrite X. reflexivity.
        -- apply (kn_step _ _ _ Q1 (r_mono _)). intros [b Ht]. exfalso. destruct (t_hk Ht) as [X|[(y & E & X)|(c0 & rest & (i & _ & X) & Y)]]; [auto| |].
           ++ destruct (cbs_live K _ _ X) as (_ & _ & _ & T1 & _). destruct (cbs_live K _ _ Ho) as (_ & _ & _ & T2 & _). congruence.
           ++ destruct (cbs_live K _ _ Ho) as (_ & _ & _ & _ & _ & T2). apply T2, rests_in. eauto.
      * apply (kn_step _ _ _ Q1 (r_mono _)). intros [b Ht]. exfalso. destruct (t_hk Ht) as [X|[(y & E & X)|(c0 & rest & (i & _ & X) & Y)]]; [auto|congruence|].
        destruct (cbs_live K _ _ Ho) as (_ & _ & _ & _ & _ & T2). apply T2, rests_in. eauto.
    + apply (kw_step _ _ _ Q2 (r_mono _)). intros Ht. exfalso. apply Hm, (proj2 (t_nd Ht)). reflexivity.
    + apply (set_keep _ _ _ Q3 (r_mono _)). intros X. contradiction.
  - destruct (w_nd _ _ W c) as (N1 & _ & _). destruct (N1 (proj1 (mkn_fresh Hs c Hm))) as [Q1 Q2]. pose proof (sec_all e Hsec Hp) as Ha. split; [|split].
    + apply (kn_step [] _ _ Q2); [intros i []|intros _; exact Ha].
    + apply (kw_step [] _ _ (kn_kw _ _ _ Q1)); [intros i []|intros _; exact Ha].
    + apply (set_keep _ [] _ (set_new c [] Hm)); [intros i []|intros _; exact Ha].
Qed.
Lemma cause_keep c u u' : sees_cause c HCancel tr u -> incl u u' -> sees_cause c HCancel tr' u'.
Proof. intros (e & t1 & w & t2 & E & A & B & C) Hi. exists e, t1, w, (t2 ++ map (fun x => (x, mv_cur v')) es). split; [unfold ntr; rewrite E, <- app_assoc; reflexivity|]. split; [exact A|]. split; [exact B|]. eapply incl_tran; eauto. Qed.
Lemma step_rs i L c : nth_error (c_loops s') i = Some L -> In c (l_rest L) -> LV h' tr' c (v_ h' (t_l i)) /\ sees_cause c HCancel tr' (v_ h' (t_l i)).
Proof.
  intros Hi Hc. destruct (loop_back Hs i L c Hi Hc) as [(L0 & Hi0 & Hc0)|(e & El & Hcb & Ei)].
  - destruct (w_rs _ _ W _ _ _ Hi0 Hc0) as [(Q1 & Q2 & Q3) Q4]. assert (Hr : In c (rests (st h))) by (apply rests_in; eauto). assert (Hr' : In c (rests s')) by (apply rests_in; eauto).
    assert (Hm : ~ mk l c).
    { intros X. destruct (mk_or c) as [[Hm|Hm]|Hm]; [| |auto].
      - destruct (mkn_fresh Hs c Hm) as [Y _]. destruct (rest_live K _ Hr). congruence.
      - destruct (del_live Hs c Hm) as (_ & Y & _). apply (k_rest_live _ _ K') in Hr'. congruence. }
    split; [|exact (cause_keep _ _ _ Q4 (v_mono _))]. split; [|split].
    + apply (kn_step _ _ _ Q1 (v_mono _)). intros [b Ht]. destruct (t_hk Ht) as [X|[(y & E & X)|(c0 & rest & (j & El & X) & Y)]]; [contradiction| |].
      * exfalso. destruct (cbs_live K _ _ X) as (_ & _ & _ & _ & _ & T2). contradiction.
      * assert (j = i) as -> by (eapply (rest_uniq K); eauto). rewrite v_dst by (rewrite El; simpl; auto). apply incl_refl.
    + apply (kw_step _ _ _ Q2 (v_mono _)). intros Ht. exfalso. apply Hm, (proj2 (t_nd Ht)). reflexivity.
    + apply (set_keep _ _ _ Q3 (v_mono _)). intros X. exfalso. apply Hm, mkn_mk, X.
  - assert (Hsec : sec (st h) l = Some e) by (rewrite El; reflexivity). assert (Hd : v_ h' (t_l i) = mv_cur v') by (apply v_dst; rewrite El, Ei; simpl; auto). pose proof (sec_in e Hsec) as Hin.
    destruct (w_cb _ _ W _ _ Hcb) as (Q1 & Q2 & Q3). rewrite Hd. split; [split; [|split]|].
    + apply (kn_step _ _ _ Q1 Hin). intros _. apply incl_refl.
    + apply (kw_step _ _ _ Q2 Hin). intros _. apply incl_refl.
    + apply (set_keep _ _ _ Q3 Hin). intros _. apply incl_refl.
    + assert (Ees : es = [KCancel e]) by (clear - Hs El; subst l; cinv Hs; reflexivity). exists e, tr, (mv_cur v'), []. split; [unfold ntr; rewrite Ees; reflexivity|].
      destruct (cbs_live K _ _ Hcb) as (A & _ & B & T & _). pose proof (o_in _ _ _ _ _ _ _ _ _ (k_ok _ _ K c)) as O. apply It in B. destruct (O B) as (_ & _ & O1 & O2 & O3 & _).
      assert (Dd : v_d (nvw c (map fst tr)) = false). { destruct (v_d (nvw c (map fst tr))) eqn:E; auto. apply v_d_iff in E. apply (k_dead _ _ K) in E. destruct E. congruence. }
      apply Ifl in O2, O3. split; [|split; [|apply incl_refl]].
      * apply v_a_iff; [apply K|]. split; [|rewrite (k_tok _ _ K); exact T]. apply orb_true_iff. destruct O1 as [O1|O1]; apply It in O1; auto.
      * rewrite v_rem_iff, O2, O3, Dd. discriminate.
Qed.

Lemma tr_fst : map fst tr' = map fst tr ++ es.
Proof. unfold ntr. rewrite map_app, map_map. simpl. now rewrite map_id. Qed.
Lemma canc_tr e : e_req (c_ev (st h) e) = true -> exists u, In (KCancel e, u) tr.
Proof. intros H. apply (k_cn _ _ K), canc_iff in H. apply in_map_iff in H. destruct H as ([x u] & E & H). simpl in E. subst x. eauto. Qed.
Lemma sec_see e : sec (st h) l = Some e -> sees_cancel e tr (mv_cur v').
Proof. intros H u Hu. destruct (sts_ok Hs e (or_introl H)) as [_ B]. eapply incl_tran; [exact (proj2 (proj2 (w_ev _ _ W e)) B u Hu)|apply (sec_in e H)]. Qed.
Lemma ctor_see c e : l = LNew c (Some e) -> e_req (c_ev (st h) e) = true -> sees_cancel e tr (mv_cur v').
Proof.
  intros El Er u Hu. destruct (sts_ok Hs e (or_intror (or_introl (ex_intro _ c (conj El Er))))) as [A B]. eapply incl_tran; [exact (proj2 (proj2 (w_ev _ _ W e)) B u Hu)|].
  apply (mid_lock _ _ _ _ _ _ _) with (2 := ctor_exec _ _ El Er). reflexivity.
Qed.
Lemma see_snoc e ev w u : (forall e', ev <> KCancel e') -> sees_cancel e tr u -> sees_cancel e (tr ++ [(ev, w)]) u.
Proof. intros Hn H x Hx. apply in_app_or in Hx. destruct Hx as [Hx|[[= E _]|[]]]; [auto|]. now apply Hn in E. Qed.
Lemma set_snoc c ev : mkn l c -> sees_set c (tr ++ [(ev, mv_cur v')]) (mv_cur v') .
Proof. intros Hm x w Hx Hg. apply in_app_or in Hx. destruct Hx as [Hx|[[= _ <-]|[]]]; [exact (set_new c _ Hm _ _ Hx Hg)|apply incl_refl]. Qed.
Lemma step_vis : forall t1 ev w t2, tr' = t1 ++ (ev, w) :: t2 -> sees_ok t1 ev w.
Proof.
  intros t1 ev w t2 E. unfold ntr in E. destruct (split_app _ _ _ _ _ E) as [(t & E1 & _)|(e1 & e2 & E1 & -> & ->)]; [exact (w_vis _ _ W _ _ _ _ E1)|].
  assert (Hu : forall c e, uses c e (map fst tr) -> n_tok (c_nd (st h) c) = Some e) by (intros c e; apply (k_uses _ _ K)).
  assert (Hw : w = mv_cur v' /\ exists a b, es = a ++ ev :: b /\ e1 = map (fun x => (x, mv_cur v')) a).
  { exact (tag_split _ _ _ _ _ _ E1). }
  destruct Hw as (-> & a & b & Ees & ->). clear E E1.
  destruct (sec (st h) l) as [x|] eqn:Hsec.
  - pose proof (sec_see x Hsec) as S1. destruct (ex_intro (fun l0 => l = l0) l eq_refl) as [l0 El]. pose proof Hs as Hs0. rewrite El in Hsec, Hs0. destruct l0 as [c t|c|c t f|c|c|y|y|y|y|i|k|k]; try discriminate; cbn [sec] in Hsec.
    + destruct t as [e|]; [|discriminate]. destruct (e_req (c_ev (st h) e)) eqn:Er; [discriminate|]. injection Hsec as ->. assert (X : es = [KNew c (Some x)]) by (clear - Hs0 Er; cinv Hs0; congruence).
      rewrite X in Ees. destruct a as [|? [|]]; try discriminate. injection Ees as <- <-. rewrite app_nil_r. exact S1.
    + assert (X : es = [KUnbind c]) by (clear - Hs0; cinv Hs0; reflexivity). rewrite X in Ees. destruct a as [|? [|]]; try discriminate. injection Ees as <- <-. exact I.
    + subst t. assert (X : (exists b, es = [KSet c (Some x) b]) \/ es = [KForce c (Some x)] \/ (es = [KForce c (Some x); KRun c HForce] /\ e_req (c_ev (st h) x) = true)).
      { clear - Hs0. cinv Hs0; eauto. right. right. split; [reflexivity|]. now apply negb_false_iff. }
      destruct X as [[b0 X]|[X|[X Er]]]; rewrite X in Ees.
      * destruct a as [|? [|]]; try discriminate. injection Ees as <- <-. rewrite app_nil_r. exact S1.
      * destruct a as [|? [|]]; try discriminate. injection Ees as <- <-. rewrite app_nil_r. exact S1.
      * destruct a as [|? [|? [|]]]; try discriminate; [injection Ees as <- <-; simpl; rewrite app_nil_r; exact S1|injection Ees as <- <- <-]. simpl. split; [apply set_snoc; rewrite El; reflexivity|].
        exists x. split; [rewrite map_app; simpl; apply uses_snoc; auto|]. split; [destruct (canc_tr x Er) as [u Hx]; exists u; apply in_or_app; auto|]. apply see_snoc; [discriminate|exact S1].
    + assert (X : exists b0, es = [KReset c b0]) by (clear - Hs0; cinv Hs0; eauto). destruct X as [b0 X]. rewrite X in Ees. destruct a as [|? [|]]; try discriminate. injection Ees as <- <-. simpl. rewrite app_nil_r. intros e He0. apply Hu in He0. replace e with x by congruence. exact S1.
    + assert (X : es = [KDel c]) by (clear - Hs0; cinv Hs0; reflexivity). rewrite X in Ees. destruct a as [|? [|]]; try discriminate. injection Ees as <- <-. exact I.
    + assert (X : es = [KCancel y]) by (clear - Hs0; cinv Hs0; reflexivity). rewrite X in Ees. destruct a as [|? [|]]; try discriminate. injection Ees as <- <-. exact I.
    + assert (X : es = [KResetEv y]) by (clear - Hs0; cinv Hs0; reflexivity). rewrite X in Ees. destruct a as [|? [|]]; try discriminate. injection Ees as <- <-. exact I.
    + injection Hsec as ->. assert (X : exists b0, es = [KQuery x b0]) by (clear - Hs0; cinv Hs0; eauto). destruct X as [b0 X]. rewrite X in Ees. destruct a as [|? [|]]; try discriminate. injection Ees as <- <-. simpl. rewrite app_nil_r. exact S1.
    + destruct (nth_error (c_fns (st h)) k) as [[c e h0|]|] eqn:Hk; try discriminate. injection Hsec as ->. assert (X : exists b0, es = [KFQuery c b0]) by (clear - Hs0 Hk; cbn [c_step] in Hs0; rewrite Hk in Hs0; cinv Hs0; eauto). destruct X as [b0 X].
      rewrite X in Ees. destruct a as [|? [|]]; try discriminate. injection Ees as <- <-. simpl. rewrite app_nil_r. intros e He0. apply Hu in He0. destruct (k_fn _ _ K c x h0) as [T _]; [eapply nth_error_In; eauto|]. replace e with x by congruence. exact S1.
  - destruct (ex_intro (fun l0 => l = l0) l eq_refl) as [l0 El]. pose proof Hs as Hs0. rewrite El in Hsec, Hs0. destruct l0 as [c t|c|c t f|c|c|y|y|y|y|i|k|k]; cbn [sec] in Hsec; try discriminate.
    + destruct t as [e|].
      * destruct (e_req (c_ev (st h) e)) eqn:Er; [|discriminate]. rewrite (ctor_es Hs c e El Er) in Ees. pose proof (ctor_see c e El Er) as S1.
        destruct a as [|? [|? [|]]]; try discriminate; [injection Ees as <- <-; simpl; rewrite app_nil_r; exact S1|injection Ees as <- <- <-]. simpl. split; [apply set_snoc; rewrite El; reflexivity|].
        exists e. split; [rewrite map_app; simpl; apply uses_snoc; auto|]. split; [destruct (canc_tr e Er) as [u Hx]; exists u; apply in_or_app; auto|]. apply see_snoc; [discriminate|exact S1].
      * assert (X : es = [KNew c None]) by (clear - Hs0; cinv Hs0; reflexivity). rewrite X in Ees. destruct a as [|? [|]]; try discriminate. injection Ees as <- <-. exact I.
    + assert (X : es = [KUnbind c]) by (clear - Hs0; cinv Hs0; reflexivity). rewrite X in Ees. destruct a as [|? [|]]; try discriminate. injection Ees as <- <-. exact I.
    + subst t. assert (X : (exists b, es = [KSet c None b]) \/ es = [KForce c None]) by (clear - Hs0; cinv Hs0; eauto). destruct X as [[b0 X]|X]; rewrite X in Ees; destruct a as [|? [|]]; try discriminate; injection Ees as <- <-; exact I.
    + assert (X : exists b0, es = [KReset c b0]) by (clear - Hs0; cinv Hs0; eauto). destruct X as [b0 X]. rewrite X in Ees. destruct a as [|? [|]]; try discriminate. injection Ees as <- <-. simpl. rewrite app_nil_r. intros e He0. apply Hu in He0. congruence.
    + assert (X : es = [KDel c]) by (clear - Hs0; cinv Hs0; reflexivity). rewrite X in Ees. destruct a as [|? [|]]; try discriminate. injection Ees as <- <-. exact I.
    + assert (X : es = [KDelEv y]) by (clear - Hs0; cinv Hs0; reflexivity). rewrite X in Ees. destruct a as [|? [|]]; try discriminate. injection Ees as <- <-. exact I.
    + assert (X : es = [] \/ exists c rest, es = [KRun c HCancel] /\ nth_error (c_loops (st h)) i = Some (CL (c :: rest) None)) by (clear - Hs0; cinv Hs0; eauto). destruct X as [X|(c & rest & X & Hi)]; rewrite X in Ees; [destruct a; discriminate|].
      destruct a as [|? [|]]; try discriminate. injection Ees as <- <-. simpl map. rewrite app_nil_r. destruct (w_rs _ _ W _ _ c Hi (or_introl eq_refl)) as [(_ & _ & Q3) Q4]. assert (Hsv : incl (v_ h (t_l i)) (mv_cur v')) by (apply src_v; rewrite El; simpl; auto). split.
      * intros x u Hx Hg. eapply incl_tran; [exact (Q3 _ _ Hx Hg)|exact Hsv].
      * destruct Q4 as (e & t1 & u & t2' & E & A & B & C). exists e, t1, u, t2'. repeat split; auto. eapply incl_tran; eauto.
    + assert (X : exists c, es = [KRet c]) by (clear - Hs0; cinv Hs0; eauto). destruct X as [c X]. rewrite X in Ees. destruct a as [|? [|]]; try discriminate. injection Ees as <- <-. exact I.
    + exfalso. clear - Hs0 Hsec. cbn [c_step] in Hs0. destruct (nth_error (c_fns (st h)) k) as [[c e h0|]|]; discriminate.
Qed.
Lemma inv_step : Inv h' tr'.
Proof.
  constructor.
  - rewrite tr_fst. exact K'.
  - exact step_ev.
  - exact step_fn.
  - exact step_nd.
  - exact step_cb.
  - exact step_rs.
  - exact step_vis.
Qed.
End Step.

Lemma ch_inv ls h tr : run ch_step ch_init ls = Running h tr -> k_rule (map fst tr) -> Inv h tr.
Proof.
  apply (h_inv c_step ch_src ch_dst ch_acts k_rule Inv c_init).
  - exact k_rule_prefix.
  - constructor; simpl.
    + exact ki_init.
    + intros e. unfold EV. simpl. split; [intros _|split; [intros _ _|intros _ u []]]; [|apply kn_nil]. split; [apply kn_nil|]. split; [apply kn_nil|apply kn_kw, kn_nil].
    + intros c e [].
    + intros c. unfold ND. simpl. split; [intros _; split; apply kn_nil|]. split; intros; try discriminate.
    + intros e c [].
    + intros [|i] L c; discriminate.
    + intros [|] ? ? ? ?; discriminate.
  - intros ls0 h0 tr0 l v s' es m' v' Hr W Hs He Hk. apply (inv_step W Hs He). pose proof (c_step_ok _ _ l (w_k _ _ W)) as H. rewrite Hs in H. now apply H.
Qed.
Lemma ch_safe ls f tr : run ch_step ch_init ls = Failed f tr -> ~ k_rule (map fst tr).
Proof.
  intros Hr Hk. destruct (h_failed c_step ch_src ch_dst ch_acts ls c_init f tr Hr) as [(ls0 & Hb)|(-> & ls1 & h & tr1 & l & v & s' & es & H1 & H2 & H3 & H4)].
  - exact (k_safe _ _ _ Hb Hk).
  - rewrite H4 in Hk. assert (W : Inv h tr1) by (apply (ch_inv ls1); [exact H1|apply (k_rule_prefix _ _ Hk)]). apply (exec_good W H3) in H2; [exact H2|].
    pose proof (c_step_ok _ _ l (w_k _ _ W)) as H. rewrite H3 in H. now apply H.
Qed.
Lemma ch_vis ls h t1 ev v t2 : run ch_step ch_init ls = Running h (t1 ++ (ev, v) :: t2) -> k_rule (map fst (t1 ++ (ev, v) :: t2)) -> sees_ok t1 ev v.
Proof. intros Hr Hk. exact (w_vis _ _ (ch_inv _ _ _ Hr Hk) _ _ _ _ eq_refl). Qed.
