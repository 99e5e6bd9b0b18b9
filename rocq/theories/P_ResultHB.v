(** Race freedom and visibility for result<T>. *)
From Coq Require Import List Arith Bool Lia.
From Verif Require Import Lts ListFacts M_Result S_Result P_Result M_HB P_HB M_ResultHB S_ResultHB.
Import ListNotations.

Lemma result_base ls s tr : run r_step r_init ls = Running s tr -> r_rule tr -> J s tr.
Proof. intros Hr. apply (run_inv_client r_step r_rule J r_init r_rule_pre J_init) with ls; [|exact Hr]. intros s0 tr0 l s' es HJ Hs HC. exact (J_step _ _ _ _ _ HJ Hs HC). Qed.

Section Orders.
Variables eager f_acq s_rel : bool.
Notation hstep := (rh_step eager f_acq true s_rel true).
Notation strong := (f_acq && s_rel).
Notation v_ h t := (mv_cur (ms_view h t)).

Record started_inv (h : mst (S := rst)) : Prop := SI {
  si_all : forall i, i < length (mm_log (ms_mem h)) -> In i (v_ h t_co) \/ In i (v_ h t_start);
  si_kw : forall x, In x [l_cont; l_cfp; l_op] -> kw (mm_log (ms_mem h)) (v_ h t_start) x /\ kw (mm_log (ms_mem h)) (v_ h t_co) x;
  si_in : r_pc (ms_base h) = PIn -> ms_view h t_start = ms_view h t_co;
  si_kn : notified (ms_base h) = false -> kn (mm_log (ms_mem h)) (v_ h t_co) l_obj /\ kn (mm_log (ms_mem h)) (v_ h t_co) l_frame;
  si_end : r_pc (ms_base h) = PBack -> r_co (ms_base h) = CEnd -> incl (v_ h t_co) (mm_rel (ms_mem h) 0);
  si_note : r_pc (ms_base h) = PNote -> incl (v_ h t_co) (mv_pend (ms_view h t_start));
  si_ret : strong = true -> r_pc (ms_base h) = PRet -> r_co (ms_base h) <> CEnd -> incl (v_ h t_start) (mm_rel (ms_mem h) 0);
  si_fin : strong = true -> r_note (ms_base h) = true -> incl (v_ h t_start) (v_ h t_co);
  si_done : strong = true -> notified (ms_base h) = true -> ka (mm_log (ms_mem h)) (v_ h t_fin) }.
Definition RI (h : mst (S := rst)) : Prop :=
  r_alive (ms_base h) = true -> match r_pc (ms_base h) with PInit => mm_log (ms_mem h) = [] | _ => started_inv h end.

Notation hv := (hview (rh_src eager)).


Ltac noloc := let Hc := fresh in simpl; intros Hc; repeat (destruct Hc as [Hc|Hc]; [try discriminate Hc|]); try destruct Hc.

Lemma fence_first m v l : m_exec m v (Fence :: l) = m_exec m (MV (mv_cur v ++ mv_pend v) (mv_pend v)) l.
Proof. reflexivity. Qed.
Lemma locs_ka (m : mmem) v : ka (mm_log m) (mv_cur v) -> m_exec m v (map (fun x => Touch x true) r_locs) <> None.
Proof. intros H. apply exec_ok; intros x _; [|apply kn_kw]; now apply ka_kn. Qed.

Lemma destroy_ka h v : started_inv h -> r_pc (ms_base h) <> PInit -> notified (ms_base h) = true -> eager = false \/ strong = true ->
  ka (mm_log (ms_mem h)) (mv_cur (hv h RLDestroy v)).
Proof.
  intros [A B C D F G I K M] Hp Hn Hd.
  assert (Hsrc : rh_src eager (ms_base h) RLDestroy = if eager then [t_fin] else [t_fin; t_start; t_co]) by (simpl; destruct (r_pc (ms_base h)); congruence).
  destruct Hd as [Hd|Hd].
  - intros i Hi. destruct (A i Hi) as [H|H]; [apply (in_hview (rh_src eager) h RLDestroy v t_co)|apply (in_hview (rh_src eager) h RLDestroy v t_start)]; auto;
      rewrite Hsrc, Hd; simpl; auto.
  - apply (ka_incl _ (v_ h t_fin)); [auto|]. apply in_hview. rewrite Hsrc. destruct eager; simpl; auto.
Qed.

(** What a step touches is ordered. *)
Lemma RI_ok h l v : shape (ms_base h) -> RI h -> (l = RLDestroy -> (notified (ms_base h) = true /\ (eager = false \/ strong = true)) \/ started (ms_base h) = false) ->
  forall s' es, r_step (ms_base h) l = Next s' es -> m_exec (ms_mem h) (hv h l v) (rh_acts f_acq true s_rel true (ms_base h) l) <> None.
Proof.
  intros Hsh Hi Hd s' es Hs.
  assert (Ha : r_alive (ms_base h) = true) by (destruct (ms_base h) as [c p nt ct cf x []]; [reflexivity|]; exfalso;
    destruct l; simpl in Hs; unfold use in Hs; simpl in Hs; destruct p, c; try discriminate; destruct nt; discriminate).
  specialize (Hi Ha). destruct (r_pc (ms_base h)) eqn:Hp.
  1: { assert (Hf : forall l', forallb is_touch l' = true -> m_exec (ms_mem h) (hv h l v) l' <> None \/ True) by auto. clear Hf.
       destruct (ms_base h) as [c p nt ct cf x al] eqn:Hb. simpl in Hp. subst p. simpl in Hsh. destruct c; try contradiction.
       destruct Hsh as (-> & -> & -> & ->). destruct l; simpl in Hs; try discriminate.
       - unfold rh_acts. rewrite exec_app. destruct (m_exec _ _ _) as [[m1 v1]|] eqn:H1.
         + apply eff_exec in H1. assert (Hk : ka (mm_log m1) (mv_cur v1)) by (apply (eff_ka H1); rewrite Hi; apply ka_nil).
           apply exec_ok; intros y _; [|apply kn_kw]; now apply ka_kn.
         + exfalso. revert H1. apply locs_ka. rewrite Hi. apply ka_nil.
       - apply locs_ka. rewrite Hi. apply ka_nil. }
  all: pose proof Hi as [A B C D F G I K M]; try rewrite Hp in C, F, G, I.
  all: assert (Hn : notified (ms_base h) = false \/ l = RLDestroy) by
    (unfold notified; destruct (ms_base h) as [c p nt ct cf x al]; simpl in Hp |- *; subst p;
     destruct l; auto; simpl in Hs; unfold use in Hs; simpl in Hs, Hsh; destruct c; try discriminate; auto; destruct nt; try discriminate; auto).
  all: destruct l; try (destruct Hn as [Hn|Hn]; [|discriminate Hn]; destruct (D Hn) as [D1 D2]).
  all: try (exfalso; destruct (ms_base h) as [c p nt ct cf x al]; simpl in Hp, Hs; subst p; unfold use in Hs; simpl in Hs, Hsh; destruct c; try discriminate; contradiction).
  all: try solve [
    unfold rh_acts; apply exec_ok; intros y Hy; simpl in Hy;
    repeat (destruct Hy as [Hy|Hy]; [try discriminate Hy; injection Hy as <-|]); try destruct Hy;
    first [apply (kn_incl _ (v_ h t_co)); [assumption|apply in_hview; simpl; auto]
          |solve [apply (kw_incl _ (v_ h t_co)); [apply B; simpl; auto|apply in_hview; simpl; auto]]
          |solve [apply (kw_incl _ (v_ h t_start)); [apply B; simpl; auto|apply in_hview; simpl; auto]] ]].
  all: try (
    destruct (Hd eq_refl) as [[Hn1 Hd1]|Hd1]; [|unfold started in Hd1; rewrite Hp in Hd1; discriminate];
    apply locs_ka, destroy_ka; [exact Hi|rewrite Hp; discriminate|assumption|assumption]).
  unfold rh_acts, app. rewrite fence_first. apply exec_ok; simpl mv_cur; intros y Hy; simpl in Hy;
    repeat (destruct Hy as [Hy|Hy]; [try discriminate Hy; injection Hy as <-|]); try destruct Hy.
  - apply (kn_incl _ (v_ h t_co)); [assumption|]. apply incl_appr. intros z Hz. apply (in_hview_pend (rh_src eager) h RLNotifyInline v t_start); [simpl; auto|].
    now apply (G eq_refl).
  - apply (kw_incl _ (v_ h t_start)); [apply B; simpl; auto|]. apply incl_appl. exact (in_hview (rh_src eager) h RLNotifyInline v t_start (or_introl eq_refl)).
Qed.

Ltac ntouch := let y := fresh in let Hy := fresh in let Hc := fresh in intros y Hy Hc; unfold l_cont, l_cfp, l_op, l_obj, l_frame in *; simpl in Hy, Hc;
  repeat (destruct Hy as [Hy|Hy]; [subst y; repeat (destruct Hc as [Hc|Hc]; [discriminate Hc|]); destruct Hc|]); destruct Hy.
(** The invariant is preserved. *)
Lemma co_step h l v m' v' : started_inv h -> In t_co (rh_src eager (ms_base h) l) -> (forall x, In x [l_cont; l_cfp; l_op] -> ~ In (Touch x true) (rh_acts f_acq true s_rel true (ms_base h) l)) ->
  m_exec (ms_mem h) (hv h l v) (rh_acts f_acq true s_rel true (ms_base h) l) = Some (m', v') ->
  (forall i, i < length (mm_log m') -> In i (mv_cur v') \/ In i (v_ h t_start)) /\
  (forall x, In x [l_cont; l_cfp; l_op] -> kw (mm_log m') (v_ h t_start) x /\ kw (mm_log m') (mv_cur v') x) /\
  (notified (ms_base h) = false -> kn (mm_log m') (mv_cur v') l_obj /\ kn (mm_log m') (mv_cur v') l_frame) /\
  (ms_view h t_start = ms_view h t_co -> ka (mm_log m') (mv_cur v')).
Proof.
  intros [A B C D F G I K M] Hsrc Hno He. pose proof (in_hview (rh_src eager) h l v t_co Hsrc) as Hi. apply eff_exec in He.
  split; [|split; [|split]].
  - apply (eff_all2 He). intros i Hl. destruct (A i Hl) as [H|H]; auto.
  - intros x Hx. split; [apply (eff_kw_other He); [now apply B|auto]|]. apply (eff_kw He). apply (kw_incl _ (v_ h t_co)); [now apply B|exact Hi].
  - intros Hn. destruct (D Hn). split; apply (eff_kn He); apply (kn_incl _ (v_ h t_co)); assumption.
  - intros Hv. apply (eff_ka He). intros i Hl. apply Hi. rewrite Hv in A. destruct (A i Hl); assumption.
Qed.

Lemma keep_out h m' v' s' : started_inv h ->
  (forall i, i < length (mm_log m') -> In i (mv_cur v') \/ In i (v_ h t_start)) ->
  (forall x, In x [l_cont; l_cfp; l_op] -> kw (mm_log m') (v_ h t_start) x /\ kw (mm_log m') (mv_cur v') x) ->
  kn (mm_log m') (mv_cur v') l_obj /\ kn (mm_log m') (mv_cur v') l_frame -> incl (mm_rel (ms_mem h) 0) (mm_rel m' 0) ->
  r_pc s' = r_pc (ms_base h) -> r_pc s' = PBack \/ r_pc s' = PRet -> r_co s' <> CEnd -> r_co (ms_base h) <> CEnd -> r_note s' = false ->
  started_inv (MS s' m' (m_set (ms_view h) [t_co] v')).
Proof.
  intros [A B C D F G I K M] A' B' D' R' Hp Hp2 Hc Hc0 Hn.
  constructor; simpl; auto; try (intros; destruct Hp2; congruence).
  - intros Hst Hq _. rewrite Hp in Hq. eapply incl_tran; [apply I; auto|exact R'].
  - unfold notified. destruct (r_pc s'), (r_co s'); intros; congruence.
Qed.
Lemma keep_in (h : mst (S := rst)) m' v' s' : ka (mm_log m') (mv_cur v') ->
  r_pc s' = PIn \/ r_pc s' = PBack -> (r_co s' = CEnd -> incl (mv_cur v') (mm_rel m' 0)) -> r_note s' = false ->
  started_inv (MS s' m' (m_set (ms_view h) [t_start; t_co] v')).
Proof.
  intros Hk Hp Hc Hn. constructor; simpl; auto; try (intros; destruct Hp; congruence).
  - intros x _. split; apply kn_kw; now apply ka_kn.
  - intros _. split; now apply ka_kn.
  - unfold notified. intros _. destruct Hp as [-> | ->]; discriminate.
Qed.

Lemma RI_step h l v s' es m' v' : shape (ms_base h) -> shape s' -> RI h -> r_step (ms_base h) l = Next s' es ->
  m_exec (ms_mem h) (hv h l v) (rh_acts f_acq true s_rel true (ms_base h) l) = Some (m', v') ->
  RI (MS s' m' (m_set (ms_view h) (rh_dst (ms_base h) l) v')).
Proof.
  intros Hsh Hsh' Hi Hs He Ha'. simpl in Ha'.
  assert (Hld : l <> RLDestroy) by (intros ->; destruct (ms_base h) as [c p nt ct cf x al]; simpl in Hs; destruct al; [|discriminate]; injection Hs as <- <-; discriminate).
  assert (Ha : r_alive (ms_base h) = true) by (destruct (ms_base h) as [c p nt ct cf x []]; [reflexivity|]; exfalso;
    destruct l; simpl in Hs; unfold use in Hs; simpl in Hs; destruct p, c; try discriminate; destruct nt; discriminate).
  specialize (Hi Ha). pose proof (eff_exec _ _ _ _ _ He) as Ef.
  destruct (ms_base h) as [c p nt ct cf x al] eqn:Hb. simpl in Ha. subst al. simpl r_pc in Hi.
  destruct l; try congruence; simpl in Hs; unfold use in Hs; simpl in Hs.
  - (* start() *)
    destruct p; try discriminate. destruct c; try discriminate. injection Hs as <- <-. simpl in Hi.
    assert (Hk : ka (mm_log m') (mv_cur v')) by (apply (eff_ka Ef); rewrite Hi; apply ka_nil).
    simpl in Hsh. destruct Hsh as (-> & -> & -> & ->).
    constructor; simpl; try discriminate; auto.
    + intros y _. split; apply kn_kw; now apply ka_kn.
    + intros _. split; now apply ka_kn.
  - (* the coroutine suspends *)
    destruct c as [|st| | |]; try discriminate. injection Hs as <- <-.
    assert (Hi1 : started_inv h) by (destruct p; try exact Hi; simpl in Hsh; contradiction). clear Hi.
    destruct (co_step h RLSuspend v m' v' Hi1) as (A' & B' & D' & K'); [simpl; auto| rewrite Hb; ntouch| rewrite Hb; exact He|].
    rewrite Hb in D'. unfold notified in D'. simpl in D'. simpl in Hsh. simpl r_pc. destruct st; simpl rh_dst.
    + apply keep_in; simpl; auto; try discriminate; [|destruct p; tauto]. apply K', (si_in _ Hi1). rewrite Hb. destruct p; try contradiction; reflexivity.
    + destruct p; try contradiction; apply keep_out; auto; try rewrite Hb; try discriminate; simpl; auto; try tauto; try (apply D'; reflexivity); exact (ef_rel _ _ _ _ _ Ef 0).
  - (* it is resumed *)
    destruct c as [| | | |]; try discriminate. injection Hs as <- <-.
    assert (Hi1 : started_inv h) by (destruct p; try exact Hi; simpl in Hsh; contradiction). clear Hi.
    destruct (co_step h RLResume v m' v' Hi1) as (A' & B' & D' & K'); [simpl; auto| rewrite Hb; ntouch| rewrite Hb; exact He|].
    rewrite Hb in D'. unfold notified in D'. simpl in D'. simpl in Hsh. simpl r_pc. simpl rh_dst.
    destruct p; try contradiction; apply keep_out; auto; try rewrite Hb; try discriminate; simpl; auto; try tauto; try (apply D'; reflexivity); exact (ef_rel _ _ _ _ _ Ef 0).
  - (* it returns *)
    destruct c as [|st| | |]; try discriminate. destruct ct; [|discriminate]. injection Hs as <- <-.
    assert (Hi1 : started_inv h) by (destruct p; try exact Hi; simpl in Hsh; contradiction). clear Hi.
    destruct (co_step h (RLReturn v0) v m' v' Hi1) as (A' & B' & D' & K'); [simpl; auto| rewrite Hb; ntouch| rewrite Hb; exact He|].
    rewrite Hb in D'. unfold notified in D'. simpl in D'. simpl in Hsh. simpl r_pc. destruct st; simpl rh_dst.
    + destruct p; try contradiction. apply keep_in; simpl; auto; try discriminate; [|tauto]. apply K', (si_in _ Hi1). rewrite Hb. reflexivity.
    + destruct p; try contradiction; apply keep_out; auto; try rewrite Hb; try discriminate; simpl; auto; try tauto; try (apply D'; reflexivity); exact (ef_rel _ _ _ _ _ Ef 0).
  - (* final_suspend *)
    destruct c as [| | |st|]; try discriminate. injection Hs as <- <-.
    assert (Hi1 : started_inv h) by (destruct p; try exact Hi; simpl in Hsh; contradiction). clear Hi.
    destruct (co_step h RLFinal v m' v' Hi1) as (A' & B' & D' & K'); [simpl; auto| rewrite Hb; ntouch| rewrite Hb; exact He|].
    rewrite Hb in D'. unfold notified in D'. simpl in D'. simpl in Hsh. simpl r_pc.
    apply (exec_rmw _ _ [Touch l_frame true; Touch l_cfp false] 0 f_acq true) in He; [|reflexivity]. destruct He as (R1 & R2 & R3 & _).
    destruct st; simpl rh_dst.
    + destruct p; try contradiction. apply keep_in; simpl; auto; try discriminate; [apply K', (si_in _ Hi1); rewrite Hb; reflexivity|]. destruct Hsh as (-> & _ & -> & _). reflexivity.
    + destruct Hi1 as [A B C D F G I K M]. rewrite Hb in *. simpl in C, D, F, G, I, K, M, Hsh. destruct p; try contradiction; destruct Hsh as (-> & -> & -> & _); simpl.
      * constructor; simpl; auto; try discriminate. 
      * constructor; simpl; auto; try discriminate. congruence.
        intros Hst _. eapply incl_tran; [apply I; auto; discriminate|]. apply R2. now apply andb_true_iff in Hst.
  - (* start(): the exchange *)
    destruct p; try discriminate. injection Hs as <- <-. simpl in Hi.
    apply (exec_rmw _ _ [Touch l_cfp false] 0 false s_rel) in He; [|reflexivity]. destruct He as (R1 & R2 & R3 & _).
    assert (Hv : incl (v_ h t_start) (mv_cur v')) by (eapply incl_tran; [|exact (ef_cur _ _ _ _ _ Ef)]; apply in_hview; simpl; auto).
    destruct Hi as [A B C D F G I K M]. rewrite Hb in *. simpl in C, D, F, G, I, K, M, Hsh.
    assert (A' : forall i, i < length (mm_log m') -> In i (v_ h t_co) \/ In i (mv_cur v')).
    { intros i Hl. apply or_comm. revert i Hl. apply (eff_all2 Ef). intros i Hl. destruct (A i Hl) as [H|H]; auto. left. revert H. apply in_hview. simpl. auto. }
    assert (B' : forall x, In x [l_cont; l_cfp; l_op] -> kw (mm_log m') (mv_cur v') x /\ kw (mm_log m') (v_ h t_co) x).
    { intros y Hy. split; [|apply (eff_kw_other Ef); [apply B; exact Hy|simpl; intuition discriminate]].
      apply (eff_kw Ef). apply (kw_incl _ (v_ h t_start)); [apply B; exact Hy|]. apply in_hview. simpl. auto. }
    assert (D' : kn (mm_log m') (v_ h t_co) l_obj /\ kn (mm_log m') (v_ h t_co) l_frame).
    { destruct D as [D1 D2]; [reflexivity|]. split; apply (eff_kn_other Ef); auto; intros []; simpl; intuition discriminate. }
    destruct c as [|[]| |[]|]; try contradiction; destruct Hsh as (-> & -> & -> & _); simpl;
      constructor; simpl; auto; try discriminate; try congruence.
    all: try (intros Hst _ _; apply R1; now apply andb_true_iff in Hst).
    intros _. eapply incl_tran; [apply F; reflexivity|exact R3].
  - (* set_value() by the thread that finished the coroutine *)
    destruct nt; [|discriminate]. destruct x as [x|]; [|discriminate]. injection Hs as <- <-.
    destruct p; simpl in Hsh; try (destruct c as [|[]| |[]|]; intuition discriminate).
    destruct c as [|[]| |[]|]; try (intuition discriminate).
    destruct Hi as [A B C D F G I K M]. rewrite Hb in *. simpl in C, D, F, G, I, K, M.
    constructor; simpl; auto; try discriminate; try congruence.
    + apply (eff_all2 Ef). intros i Hl. destruct (A i Hl) as [H|H]; auto. left. revert H. apply in_hview. simpl. auto.
    + intros y Hy. split; [apply (eff_kw_other Ef); [apply B; exact Hy|]|apply (eff_kw Ef), (kw_incl _ (v_ h t_co)); [apply B; exact Hy|apply in_hview; simpl; auto]].
      revert y Hy. ntouch.
    + intros Hst _. apply (eff_ka Ef). apply (ka_incl _ (v_ h t_co)); [|apply in_hview; simpl; auto]. intros i Hl. destruct (A i Hl) as [H|H]; [exact H|].
      now apply (K Hst eq_refl).
  - (* set_value() by start() *)
    destruct p; try discriminate. destruct x as [x|]; [|discriminate]. injection Hs as <- <-. simpl in Hsh. destruct c; try contradiction. destruct Hsh as (-> & -> & _).
    destruct Hi as [A B C D F G I K M]. rewrite Hb in *. simpl in C, D, F, G, I, K, M.
    unfold rh_acts, app in He. rewrite fence_first in He. apply eff_exec in He.
    assert (Hk : ka (mm_log m') (mv_cur v')).
    { apply (eff_ka He). simpl mv_cur. intros i Hl. destruct (A i Hl) as [H|H].
      - apply in_or_app. right. apply (in_hview_pend (rh_src eager) h RLNotifyInline v t_start); [simpl; auto|]. now apply (G eq_refl).
      - apply in_or_app. left. exact (in_hview (rh_src eager) h RLNotifyInline v t_start (or_introl eq_refl) i H). }
    constructor; simpl; auto; try discriminate; try congruence.
    intros y Hy. split; [apply kn_kw; now apply ka_kn|]. apply (eff_kw_other He); [apply B; exact Hy|]. revert y Hy. ntouch.
Qed.

Lemma RI_init : RI rh_init.
Proof. intros _. reflexivity. Qed.

Lemma RI_run ls h tr : run hstep rh_init ls = Running h tr -> r_rule (map fst tr) -> shape (ms_base h) /\ RI h.
Proof.
  intros Hr HC. split.
  - apply h_run in Hr. destruct (result_base _ _ _ Hr HC) as (H & _). exact H.
  - revert ls h tr Hr HC. apply (h_inv r_step (rh_src eager) rh_dst (rh_acts f_acq true s_rel true) r_rule (fun h _ => RI h) r_init r_rule_pre RI_init).
    intros ls h tr l v s' es m' v' Hr HI Hs He HC. apply h_run in Hr.
    pose proof (result_base _ _ _ Hr (r_rule_pre _ _ HC)) as HJ. pose proof (J_step _ _ _ _ _ HJ Hs HC) as HJ'.
    apply (RI_step _ _ v _ es); auto; [apply HJ|apply HJ'].
Qed.

Theorem result_norace : eager = false \/ strong = true -> forall ls tr, run hstep rh_init ls = Failed DataRace tr -> ~ r_rule (map fst tr).
Proof.
  intros Hstr ls tr Hr HC. destruct (h_failed _ _ _ _ _ _ _ _ Hr) as [(ls0 & Hb)|(_ & ls1 & h & tr1 & l & v & s' & es & H1 & He & Hs & Ht)].
  - exact (result_safe _ _ _ Hb HC).
  - rewrite Ht in HC. destruct (RI_run _ _ _ H1 (r_rule_pre _ _ HC)) as [Hsh HI]. revert He. apply (RI_ok h l v Hsh HI) with s' es; [|exact Hs]. intros ->.
    apply h_run in H1. pose proof (result_base _ _ _ H1 (r_rule_pre _ _ HC)) as HJ.
    destruct (J_step _ _ _ _ _ HJ Hs HC) as (_ & _ & _ & _ & Hal & _). destruct (ms_base h) as [c p nt ct cf x al]. simpl in Hs. destruct al; [|discriminate].
    injection Hs as <- <-. destruct (Hal eq_refl) as [_ [H|H]]; [left|right]; auto.
Qed.

(** ** Visibility *)
Definition VI (h : mst (S := rst)) (tr : list (revent * hbs)) : Prop :=
  (forall e u, In (e, u) tr -> co_event e = true -> incl u (v_ h t_co)) /\ (r_pc (ms_base h) = PInit -> forall e u, In (e, u) tr -> co_event e = false) /\ sees_coroutine tr.

Lemma sees_nodone tr es v : sees_coroutine tr -> (forall x, ~ In (REDone x) es) -> sees_coroutine (tr ++ map (fun e => (e, v)) es).
Proof.
  intros H Hn t1 x w t2 Ht. revert t1 t2 Ht. induction es as [|e es IH] using rev_ind; intros t1 t2 Ht.
  - simpl in Ht. rewrite app_nil_r in Ht. now apply (H t1 x w t2).
  - rewrite map_app, app_assoc in Ht. simpl in Ht. apply snoc_cons_inv in Ht. destruct Ht as [(_ & [= He _] & _)|(t2' & Ht)].
    + exfalso. apply (Hn x). apply in_or_app. right. left. exact He.
    + apply (IH) with t2'; [|exact Ht]. intros y Hy. apply (Hn y). apply in_or_app. auto.
Qed.
Lemma sees_done tr x v : sees_coroutine tr -> (forall e u, In (e, u) tr -> co_event e = true -> incl u v) -> sees_coroutine (tr ++ [(REDone x, v)]).
Proof.
  intros H Hv t1 y w t2 Ht. apply snoc_cons_inv in Ht. destruct Ht as [(-> & [= -> ->] & ->)|(t2' & ->)]; [exact Hv|]. now apply (H t1 y w t2').
Qed.

Lemma VI_co (h : mst (S := rst)) tr s' m' v' es d : VI h tr -> incl (v_ h t_co) (mv_cur v') -> (forall x, ~ In (REDone x) es) -> In t_co d -> r_pc s' <> PInit ->
  VI (MS s' m' (m_set (ms_view h) d v')) (tr ++ map (fun e => (e, mv_cur v')) es).
Proof.
  intros (V1 & V2 & V3) Hi Hn Hd Hp. split; [|split]; simpl.
  - rewrite set_in by exact Hd. intros e u Hin Hc. apply in_app_or in Hin. destruct Hin as [Hin|Hin]; [eapply incl_tran; eauto|].
    apply in_map_iff in Hin. destruct Hin as (y & [= _ <-] & _). apply incl_refl.
  - intros H. contradiction.
  - now apply sees_nodone.
Qed.

Lemma VI_run ls h tr : run hstep rh_init ls = Running h tr -> r_rule (map fst tr) -> VI h tr.
Proof.
  apply (h_inv r_step (rh_src eager) rh_dst (rh_acts f_acq true s_rel true) r_rule VI r_init r_rule_pre).
  { split; [|split]; simpl; try tauto. intros [] ? ? ? [=]. }
  clear ls h tr. intros ls h tr l v s' es m' v' Hr (V1 & V2 & V3) Hs He HC.
  assert (HI : shape (ms_base h) /\ RI h) by (apply (RI_run ls h tr Hr); eapply r_rule_pre; exact HC). destruct HI as [Hsh HI].
  pose proof (eff_exec _ _ _ _ _ He) as Ef.
  assert (Hco : In t_co (rh_src eager (ms_base h) l) -> incl (v_ h t_co) (mv_cur v')).
  { intros Ht. eapply incl_tran; [exact (in_hview (rh_src eager) h l v t_co Ht)|]. exact (ef_cur _ _ _ _ _ Ef). }
  destruct (ms_base h) as [c p nt ct cf x al] eqn:Hb.
  destruct l; simpl in Hs; unfold use in Hs; simpl in Hs.
  - destruct p; try discriminate. destruct c; try discriminate. destruct al; [|discriminate]. injection Hs as <- <-. simpl. split; [|split; [discriminate|]].
    + intros e u Hin Hce. apply in_app_or in Hin. destruct Hin as [Hin|[[= <- <-]|[]]]; [|apply incl_refl]. rewrite V2 with (1 := eq_refl) (2 := Hin) in Hce. discriminate.
    + apply (sees_nodone tr [REStart]); auto. intros y [|[]]. discriminate.
  - destruct c; try discriminate. destruct al; [|discriminate]. injection Hs as <- <-. apply VI_co; [split; auto; rewrite Hb; auto|apply Hco; simpl; auto| intros y [|[]]; discriminate| | ].
    + simpl. destruct st; simpl; auto.
    + destruct p, st; simpl in Hsh |- *; try contradiction; discriminate.
  - destruct c; try discriminate. destruct al; [|discriminate]. injection Hs as <- <-. apply VI_co; [split; auto; rewrite Hb; auto|apply Hco; simpl; auto| intros y [|[]]; discriminate| | ].
    + simpl. auto.
    + destruct p; simpl in Hsh |- *; try contradiction; discriminate.
  - destruct c; try discriminate. destruct al; [|discriminate]. destruct ct; [|discriminate]. injection Hs as <- <-. apply VI_co; [split; auto; rewrite Hb; auto|apply Hco; simpl; auto| intros y [|[]]; discriminate| | ].
    + simpl. destruct st; simpl; auto.
    + destruct p, st; simpl in Hsh |- *; try contradiction; discriminate.
  - destruct c; try discriminate. destruct al; [|discriminate]. injection Hs as <- <-. apply VI_co; [split; auto; rewrite Hb; auto|apply Hco; simpl; auto| intros y []| | ].
    + simpl. destruct st; simpl; auto.
    + destruct p, st; simpl in Hsh |- *; try contradiction; discriminate.
  - destruct p; try discriminate. destruct al; [|discriminate]. injection Hs as <- <-. simpl. rewrite app_nil_r. split; [exact V1|]. split; [|exact V3]. destruct cf; discriminate.
  - destruct nt; [|discriminate]. destruct al; [|discriminate]. destruct x as [x|]; [|discriminate]. injection Hs as <- <-. specialize (Hco (or_introl eq_refl)). simpl. split; [|split].
    + intros e u Hin Hc. apply in_app_or in Hin. destruct Hin as [Hin|[[= <- <-]|[]]]; [|discriminate]. eapply incl_tran; eauto.
    + simpl. intros ->. exfalso. simpl in Hsh. destruct c; intuition discriminate.
    + apply sees_done; [exact V3|]. intros e u Hin Hc. eapply incl_tran; eauto.
  - destruct p; try discriminate. destruct al; [|discriminate]. destruct x as [x|]; [|discriminate]. injection Hs as <- <-. simpl. split; [|split; [discriminate|]].
    + intros e u Hin Hc. apply in_app_or in Hin. destruct Hin as [Hin|[[= <- <-]|[]]]; [|discriminate]. eauto.
    + apply sees_done; [exact V3|]. intros e u Hin Hc i Hi. apply (V1 e u Hin Hc) in Hi.
      unfold RI in HI. rewrite Hb in HI. specialize (HI eq_refl). simpl in HI. destruct HI as [A B C D F G I K M]. rewrite Hb in G. simpl in G. apply (G eq_refl) in Hi.
      unfold rh_acts, app in He. rewrite fence_first in He. apply eff_exec in He. apply (ef_cur _ _ _ _ _ He). simpl. apply in_or_app. right.
      apply (in_hview_pend (rh_src eager) h RLNotifyInline v t_start); [simpl; auto|exact Hi].
  - destruct al; [|discriminate]. injection Hs as <- <-. simpl. split; [|split].
    + intros e u Hin Hc. apply in_app_or in Hin. destruct Hin as [Hin|[[= <- <-]|[]]]; [|discriminate]. eauto.
    + simpl. intros -> e u Hin. apply in_app_or in Hin. destruct Hin as [Hin|[[= <- <-]|[]]]; [|reflexivity]. simpl in V2. eauto.
    + apply (sees_nodone tr [REDestroy]); auto. intros y [|[]]. discriminate.
Qed.
Theorem result_visible ls h tr : run hstep rh_init ls = Running h tr -> r_rule (map fst tr) -> sees_coroutine tr.
Proof. intros Hr HC. apply (VI_run ls h tr Hr HC). Qed.
End Orders.
