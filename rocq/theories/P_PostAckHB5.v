(** The happens-before invariant of M_PostAckHB is preserved by posts, polls and handles; conclusions. *)
From Coq Require Import List Arith Bool Lia.
From Verif Require Import Lts ListFacts M_HB P_HB M_PostAckHB S_PostAckHB P_PostAckHB P_PostAckHB2 P_PostAckHB3 P_PostAckHB4.
Import ListNotations.

Ltac nds := cbn [k_nd k_ag k_po with_nd with_ag with_po] in *.

Section Orders.
Variable d_rel : bool.
Notation acts := (kh_acts true true true d_rel).
Notation hv h l v := (hview kh_src h l v).
Notation ok_step l := (forall h tr v s' es m' v', Inv h tr -> k_step (st h) l = Next s' es -> m_exec (ms_mem h) (hv h l v) (acts (st h) l) = Some (m', v') ->
  Inv (nxt (h := h) (l := l) (m' := m') (v' := v') (s' := s')) (ntr (tr := tr) (v' := v') (es := es))).

Lemma ag_same h tr l v s' es m' v' u a : Inv h tr -> k_step (st h) l = Next s' es -> m_exec (ms_mem h) (hv h l v) (acts (st h) l) = Some (m', v') -> ~ In a (sa (st h) l) ->
  kn (lg h) u (l_ag a) -> kn (mm_log m') u (l_ag a).
Proof.
  intros W Hs He Na K i b q Hi El. destruct (eff_cases (eff_exec _ _ _ _ _ He) _ _ _ Hi) as [[_ Hl]|(_ & _ & Hx)]; [eauto|]. exfalso. rewrite El in Hx.
  destruct (touch_cases _ _ _ _ (w_base _ _ W) Hs _ _ Hx) as [[E _]|[(a' & E & Ha)|[(p & _ & E & _)|(p & _ & E & _)]]]; [lne| |lne|exact (plocs_ag _ _ E)].
  assert (a' = a) by (unfold l_ag in E; lia). subst. auto.
Qed.
Lemma step_post : ok_step LPost.
Proof.
  intros h tr v s' es m' v' W Hs He. pose proof (w_base _ _ W) as B. pose proof (crv _ _ _ _ Hs He eq_refl) as [C1 C2]. set (p := length (k_nd (st h))).
  assert (New : forall i, ~ intr (lg h) tr p i) by (intros i; apply (w_new _ _ W); unfold p; auto).
  assert (Ks : seen (ntr (tr := tr) (v' := v') (es := es)) p (mv_cur v')).
  { intros w Hw i Hi. apply ntr_in in Hw. destruct Hw as [Hw|[_ ->]]; [|exact Hi]. destruct (New i). right. exists (EPost p), w. simpl. rewrite Nat.eqb_refl. auto. }
  assert (Kp : forall x, In x (plocs p) -> kn (lg (nxt (h := h) (l := LPost) (m' := m') (v' := v') (s' := s'))) (mv_cur v') x) by (intros x Hx; apply (own_k d_rel He); now apply (fresh_kn W)).
  assert (Kc : C0 (lg (nxt (h := h) (l := LPost) (m' := m') (v' := v') (s' := s'))) (mv_cur v') p) by (split; [|split]; apply kn_kw, Kp; simpl; auto).
  apply (Inv_step _ _ _ _ W Hs He); cbn [sp so sa]; try (intros ? ? []; fail).
  - intros p0 n [<-|[]] Hn. change (length (k_nd (st h))) with p in Hn |- *. pose proof Hs as Hs'. cbn [k_step] in Hs'. destruct (k_act (st h) =? 0) eqn:Ea.
    + destruct (existsb _ _); [discriminate|]. injection Hs' as <- <-. nds. unfold p in Hn. rewrite nth_error_app2, Nat.sub_diag in Hn by auto. injection Hn as <-. split; [discriminate|]. intros _. rewrite view_in by (left; reflexivity).
      apply (all_new d_rel He). intros i Hi. destruct (New _ Hi).
    + unfold walk in Hs'. destruct (existsb _ _); [discriminate|]. injection Hs' as <- <-. nds. unfold p in Hn. rewrite nth_error_app2, Nat.sub_diag in Hn by auto. injection Hn as <-. split; [|discriminate]. intros _.
      split; [eapply kn_incl; [apply Kp; simpl; auto|exact C2]|]. split; [destruct Kc as (K1 & K2 & K3); split; [|split]; (eapply kw_incl; [eassumption|exact C2])|]. split; [intros w Hw; eapply incl_tran; [apply Ks; exact Hw|exact C2]|].
      intros i Hi. left. apply C2. exact (all_new d_rel He p (fun j Hj => False_ind _ (New j Hj)) i Hi).
  - intros o r Ho Hr. destruct (k_act (st h) =? 0) eqn:Ea; [destruct Ho|]. apply waiting_iff in Ho. destruct Ho as (r0 & Hr0 & E0). pose proof (w_po _ _ W _ _ Hr0) as V. unfold OV in V. rewrite E0 in V. destruct V as [V1 V2].
    pose proof (b_po _ B _ _ Hr0) as PB. unfold PI in PB. rewrite E0 in PB. destruct PB as [Et _].
    pose proof Hs as Hs'. cbn [k_step] in Hs'. rewrite Ea in Hs'. unfold walk in Hs'. destruct (existsb _ _); [discriminate|]. injection Hs' as <- <-. nds. rewrite nth_error_map, Hr0 in Hr. injection Hr as <-. unfold take. rewrite E0. unfold OV. cbn [o_at o_ag o_try].
    rewrite Et. assert (Hd : In (t_o o) (kh_dst (st h) LPost)) by (cbn [kh_dst]; rewrite Ea; right; apply in_map; apply waiting_iff; eauto). rewrite (view_in _ Hd). split; [exact Kc|]. split; [exact Ks|]. split.
    + assert (Hnd : ~ In (t_l o) (kh_dst (st h) LPost)). { cbn [kh_dst]. rewrite Ea. intros [K|K]; [tne|]. apply in_map_iff in K. destruct K as (x & K & _). tne. }
      rewrite (view_out _ Hnd). simpl. eapply ag_same; eauto; simpl; tauto.
    + exact (know d_rel He _ _ C1 V2).
  - kinv Hs; intros e [<-|[]]; exact I.
Qed.

Lemma step_fast p : ok_step (LFast p).
Proof.
  intros h tr v s' es m' v' W Hs He. pose proof Hs as Hs'. cbn [k_step] in Hs'. destruct (nth_error (k_nd (st h)) p) as [n|] eqn:Hn; [|discriminate]. destruct (n_fast n) eqn:Ef; [|discriminate].
  assert (Hf : isf (st h) p) by (exists n; rewrite Ef; auto). unfold complete, node in Hs'. rewrite Hn in Hs'. destruct (n_dead n); [discriminate|]. destruct (n_done n); [discriminate|]. injection Hs' as <- <-.
  destruct (w_nd _ _ W _ _ Hn) as [_ V]. rewrite Ef in V. assert (Own : forall i, intr (lg h) tr p i -> In i (mv_cur v')) by (intros i Hi; apply (own d_rel He (t_p p)); [left; reflexivity|auto]).
  apply (Inv_step _ _ _ _ W Hs He); cbn [sp so sa]; try (intros ? ? []; fail).
  - intros p0 n0 [<-|[]] Hn0. nds. rewrite (nth_error_set_nth_same _ _ _ _ Hn) in Hn0. injection Hn0 as <-. eapply (NV_done d_rel He); eauto; [intros Q; exact (isq_isf (w_base _ _ W) _ Q Hf)|left; reflexivity].
  - intros e [<-|[]]. exact (done_all p Own).
Qed.
Lemma step_destroy p : ok_step (LDestroy p).
Proof.
  intros h tr v s' es m' v' W Hs He. pose proof Hs as Hs'. cbn [k_step] in Hs'. destruct (nth_error (k_nd (st h)) p) as [n|] eqn:Hn; [|discriminate]. destruct (n_done n) eqn:Ef; [|discriminate]. destruct (n_dead n); [discriminate|]. injection Hs' as <- <-.
  assert (Hf : isf (st h) p) by (exists n; rewrite Ef, orb_true_r; auto).
  destruct (w_nd _ _ W _ _ Hn) as [_ V]. rewrite Ef, orb_true_r in V. assert (Own : forall i, intr (lg h) tr p i -> In i (mv_cur v')) by (intros i Hi; apply (own d_rel He (t_p p)); [left; reflexivity|auto]).
  apply (Inv_step _ _ _ _ W Hs He); cbn [sp so sa]; try (intros ? ? []; fail).
  - intros p0 n0 [<-|[]] Hn0. nds. rewrite (nth_error_set_nth_same _ _ _ _ Hn) in Hn0. injection Hn0 as <-. eapply (NV_done d_rel He); eauto; [intros Q; exact (isq_isf (w_base _ _ W) _ Q Hf)|left; reflexivity].
  - intros e [<-|[]]. exact I.
Qed.
Lemma step_poll a : ok_step (LPoll a).
Proof.
  intros h tr v s' es m' v' W Hs He. pose proof (ag_kn W _ v _ _ a Hs (or_intror (or_intror eq_refl))) as Kag. pose proof (w_base _ _ W) as B. pose proof (crv _ _ _ _ Hs He eq_refl) as [C1 C2]. apply (own_k d_rel (s' := s') He) in Kag.
  pose proof Hs as Hs'. cbn [k_step] in Hs'. destruct (nth_error (k_ag (st h)) a) as [g|] eqn:Ha; [|discriminate].
  assert (Esq : seq_of (st h) a = g_seq g) by (unfold seq_of; now rewrite Ha). destruct (g_on g && negb (g_poll g)); [|discriminate]. destruct (Nat.ltb_spec (g_seq g) (length (k_nd (st h)))) as [Hl|Hl].
  - unfold walk in Hs'. destruct (existsb _ _); [discriminate|]. destruct (nth_error (k_nd (st h)) (g_seq g)) as [n|] eqn:Hn; [|discriminate]. destruct (n_q n) eqn:Hq; [|discriminate]. injection Hs' as <- <-.
    assert (Iq : isq (st h) (g_seq g)) by (exists n; auto). destruct (w_nd _ _ W _ _ Hn) as [V _]. destruct (V Hq) as (_ & K2 & K3 & _).
    apply (Inv_step _ _ _ _ W Hs He); cbn [sp so sa].
    + rewrite Esq. intros p n0 [<-|[]] Hn0. nds. rewrite Hn in Hn0. injection Hn0 as <-. eapply (NV_q d_rel W Hs He); eauto.
      * intros o i Ho [<-|[]] _. unfold hold, at_of in Ho. rewrite (proj2 (nth_error_None _ _)) in Ho by auto. destruct Ho; discriminate.
      * intros i Hi. left. simpl. auto.
    + intros o r [<-|[]] Hr. nds. rewrite nth_error_app2, Nat.sub_diag in Hr by auto. injection Hr as <-. unfold OV. cbn [o_at]. rewrite view_in by (right; right; left; reflexivity).
      split; [exact (C0_keep _ _ _ _ W Hs He _ _ _ Hl (Nf W _ Iq) C1 K2)|exact (seen_keep _ _ _ _ W Hs He _ _ _ Hl C1 K3)].
    + intros a0 g0 [<-|[]] Ha0. split; [intros _; rewrite view_in by (left; reflexivity); exact Kag|]. nds. rewrite (nth_error_set_nth_same _ _ _ _ Ha) in Ha0. injection Ha0 as <-. exact I.
    + intros e [<-|[]]. exact (post_seen W _ _ Hl K3 C1).
  - injection Hs' as <- <-. apply (Inv_step _ _ _ _ W Hs He); cbn [sp so sa]; [| | |intros ? []].
    + rewrite Esq. intros p n0 [<-|[]] Hn0. nds. assert (g_seq g < length (k_nd (st h))) by (apply nth_error_Some; congruence). lia.
    + intros o r [<-|[]] Hr. nds. rewrite nth_error_app2, Nat.sub_diag in Hr by auto. injection Hr as <-. unfold OV. cbn [o_at o_ag]. rewrite view_in by (right; left; reflexivity). split; [exact Kag|]. eapply kn_incl; [exact Kag|exact C2].
    + intros a0 g0 [<-|[]] Ha0. nds. rewrite (nth_error_set_nth_same _ _ _ _ Ha) in Ha0. injection Ha0 as <-. split; [discriminate|exact I].
Qed.
Lemma step_try o : ok_step (LTry o).
Proof.
  intros h tr v s' es m' v' W Hs He. pose proof (try_kw W v _ _ o Hs) as Kag. apply (own_k d_rel (s' := s') He) in Kag. pose proof (w_base _ _ W) as B.
  pose proof Hs as Hs'. cbn [k_step] in Hs'. destruct (nth_error (k_po (st h)) o) as [r|] eqn:Ho; [|discriminate]. destruct (o_try r) eqn:Et; [discriminate|].
  assert (Eag : ag_of (st h) o = o_ag r) by (unfold ag_of; now rewrite Ho). rewrite Eag in Kag.
  assert (AVa : forall s1, k_ag s1 = k_ag (st h) -> busy r = true -> forall a g, In a (sa (st h) (LTry o)) -> nth_error (k_ag s1) a = Some g -> AV (nxt (h := h) (l := LTry o) (m' := m') (v' := v') (s' := s1)) (ntr (tr := tr) (v' := v') (es := es)) a g).
  { intros s1 E Hb a g [<-|[]] Hg. rewrite E in Hg. destruct (busy_ag _ _ _ B Ho Hb) as (g' & Hg' & _ & Hp & Hd). rewrite Eag in *. assert (g = g') by congruence. subst g'. split; [congruence|]. rewrite Hd. exact I. }
  destruct (o_at r) as [|p| | | | | |] eqn:Ea; try discriminate; injection Hs' as <- <-.
  - apply (Inv_step _ _ _ _ W Hs He); [intros ? ? []| | |intros ? []].
    + intros o0 r0 [<-|[]] Hr. nds. rewrite (nth_error_set_nth_same _ _ _ _ Ho) in Hr. injection Hr as <-. unfold OV. cbn [o_at o_ag]. rewrite view_in by (left; reflexivity). exact Kag.
    + intros a g Hin Hg. eapply AVa; eauto. unfold busy. now rewrite Ea.
  - pose proof (w_po _ _ W _ _ Ho) as V. unfold OV in V. rewrite Ea in V. destruct V as (V1 & V2 & _). pose proof (taken_isq B _ _ _ Ho Ea) as Iq. pose proof (lt_isq _ Iq) as Hp. apply (Inv_step _ _ _ _ W Hs He); [intros ? ? []| | |intros ? []].
    + intros o0 r0 [<-|[]] Hr. nds. rewrite (nth_error_set_nth_same _ _ _ _ Ho) in Hr. injection Hr as <-. unfold OV. cbn [o_at o_ag o_try]. rewrite (view_in (t_c o)) by (left; reflexivity). rewrite (view_out (t_o o)) by (intros [K|[]]; tne).
      split; [exact (C0_keep _ _ _ _ W Hs He _ _ _ Hp (Nf W _ Iq) (incl_refl _) V1)|]. split; [exact (seen_keep _ _ _ _ W Hs He _ _ _ Hp (incl_refl _) V2)|exact Kag].
    + intros a g Hin Hg. eapply AVa; eauto. unfold busy. now rewrite Ea.
Qed.
Lemma step_notify o : ok_step (LNotify o).
Proof.
  intros h tr v s' es m' v' W Hs He. pose proof (notify_kn W v _ _ o Hs) as Kag. apply (own_k d_rel (s' := s') He) in Kag. pose proof (w_base _ _ W) as B.
  pose proof Hs as Hs'. cbn [k_step] in Hs'. destruct (nth_error (k_po (st h)) o) as [r|] eqn:Ho; [|discriminate].
  assert (Eag : ag_of (st h) o = o_ag r) by (unfold ag_of; now rewrite Ho). assert (Eat : at_of (st h) o = o_at r) by (unfold at_of; now rewrite Ho).
  pose proof (own d_rel He (t_o o) (or_introl eq_refl)) as Ow.
  destruct (o_at r) as [|p| | | | | |] eqn:Ea; try discriminate; (destruct (nth_error (k_ag (st h)) (o_ag r)) as [g|] eqn:Hg; [|discriminate]); injection Hs' as <- <-.
  - pose proof (w_po _ _ W _ _ Ho) as V. unfold OV in V. rewrite Ea in V. destruct V as (V1 & V2 & _). pose proof (taken_isq B _ _ _ Ho Ea) as Iq. pose proof (lt_isq _ Iq) as Hp. apply (Inv_step _ _ _ _ W Hs He); cbn [sp so sa]; rewrite ?Eat.
    + intros p0 n [<-|[]] Hn. nds. assert (Hq : n_q n = true) by (destruct Iq as (n' & Hn' & Hq); congruence). eapply (NV_q d_rel W Hs He); eauto.
      * intros o' i Hh [<-|[]] _. unfold hold in Hh. rewrite Eat in Hh. destruct Hh; discriminate.
      * intros i Hi. right. right. exists o. rewrite view_in by (left; reflexivity). split; [|exact Hi]. left. unfold at_of. simpl. rewrite (nth_error_set_nth_same _ _ _ _ Ho). reflexivity.
    + intros o0 r0 [<-|[]] Hr. nds. rewrite (nth_error_set_nth_same _ _ _ _ Ho) in Hr. injection Hr as <-. unfold OV. cbn [o_at o_ag o_try]. rewrite view_in by (left; reflexivity).
      split; [exact (C0_keep _ _ _ _ W Hs He _ _ _ Hp (Nf W _ Iq) Ow V1)|exact (seen_keep _ _ _ _ W Hs He _ _ _ Hp Ow V2)].
    + intros a0 g0 [<-|[]] Ha0. split; [intros _; rewrite view_in by (right; left; reflexivity); exact Kag|]. nds. rewrite Eag, (nth_error_set_nth_same _ _ _ _ Hg) in Ha0. injection Ha0 as <-. exact I.
    + intros e [<-|[]]. exact (post_seen W _ _ Hp V2 Ow).
  - apply (Inv_step _ _ _ _ W Hs He); cbn [sp so sa]; rewrite ?Eat; [intros ? ? []| | |intros ? []].
    + intros o0 r0 [<-|[]] Hr. nds. rewrite (nth_error_set_nth_same _ _ _ _ Ho) in Hr. injection Hr as <-. exact I.
    + intros a0 g0 [<-|[]] Ha0. split; [intros _; rewrite view_in by (right; left; reflexivity); exact Kag|]. nds. rewrite Eag, (nth_error_set_nth_same _ _ _ _ Hg) in Ha0. injection Ha0 as <-. exact I.
Qed.
Lemma step_ack o : ok_step (LAck o).
Proof.
  intros h tr v s' es m' v' W Hs He. pose proof (w_base _ _ W) as B. pose proof Hs as Hs'. cbn [k_step] in Hs'. destruct (nth_error (k_po (st h)) o) as [r|] eqn:Ho; [|discriminate].
  assert (Eat : at_of (st h) o = o_at r) by (unfold at_of; now rewrite Ho). pose proof (own d_rel He (t_o o) (or_introl eq_refl)) as Ow.
  destruct (o_at r) as [| | | |p| | |] eqn:Ea; try discriminate. unfold node in Hs'. destruct (nth_error (k_nd (st h)) p) as [n|] eqn:Hn; [|discriminate]. destruct (n_dead n) eqn:Edd; [discriminate|].
  pose proof (has_isq B _ _ _ Ho Ea) as Iq. assert (Hq : n_q n = true) by (destruct Iq as (n' & Hn' & Hq); congruence).
  pose proof He as He'. cbn [kh_acts] in He'. rewrite Eat in He'. destruct (exec_rmw _ _ [Touch (l_acks p) false] _ _ _ _ _ eq_refl He') as (R1 & R2 & _). specialize (R1 eq_refl). specialize (R2 eq_refl). pose proof (exec_rmw_rel _ _ [Touch (l_acks p) false] _ _ _ _ _ eq_refl He') as R3.
  destruct (n_acks n) as [|m] eqn:En; [discriminate|]. injection Hs' as <- <-.
  apply (Inv_step _ _ _ _ W Hs He); cbn [sp so sa]; rewrite ?Eat; [| |intros ? ? []|].
  - intros p0 n0 [<-|[]] Hn0. nds. rewrite (nth_error_set_nth_same _ _ _ _ Hn) in Hn0. injection Hn0 as <-. eapply (NV_q d_rel W Hs He); eauto.
    + intros o' i _ [<-|[]] Hi. right. left. simpl. auto.
    + intros i Hi. right. left. simpl. auto.
  - intros o0 r0 [<-|[]] Hr. nds. rewrite (nth_error_set_nth_same _ _ _ _ Ho) in Hr. injection Hr as <-. unfold OV. cbn [o_at]. destruct m; [|exact I]. rewrite view_in by (left; reflexivity). intros i Hi. apply R3 in Hi. apply in_app_or in Hi. destruct Hi; auto.
  - intros e [<-|[]]. exact I.
Qed.
Lemma step_ackstep o : ok_step (LAckStep o).
Proof.
  intros h tr v s' es m' v' W Hs He. pose proof (w_base _ _ W) as B. pose proof Hs as Hs'. cbn [k_step] in Hs'. destruct (nth_error (k_po (st h)) o) as [r|] eqn:Ho; [|discriminate].
  assert (Eat : at_of (st h) o = o_at r) by (unfold at_of; now rewrite Ho). pose proof (own d_rel He (t_o o) (or_introl eq_refl)) as Ow. pose proof (w_po _ _ W _ _ Ho) as V. unfold OV in V.
  destruct (o_at r) as [| | | | |p|p|] eqn:Ea; try discriminate.
  - assert (Ec : cr (st h) (LAckStep o) = true) by (cbn [cr]; now rewrite Eat). pose proof (crv _ _ _ _ Hs He Ec) as [C1 C2]. unfold walk in Hs'. destruct (existsb _ _); [discriminate|]. unfold node in Hs'.
    destruct (nth_error (k_nd (st h)) p) as [n|] eqn:Hn; [|discriminate]. destruct (n_dead n) eqn:Edd; [discriminate|]. destruct (n_q n) eqn:Hq; [|discriminate]. injection Hs' as <- <-. assert (Iq : isq (st h) p) by (exists n; auto).
    apply (Inv_step _ _ _ _ W Hs He); cbn [sp so sa]; rewrite ?Eat; [| |intros ? ? []|intros ? []].
    + intros p0 n0 [<-|[]] Hn0. nds. rewrite (nth_error_set_nth_same _ _ _ _ Hn) in Hn0. injection Hn0 as <-. apply NV_unq; [reflexivity|]. simpl. exact (isf_no W _ _ Iq Hn).
    + intros o0 r0 [<-|[]] Hr. nds. rewrite (nth_error_set_nth_same _ _ _ _ Ho) in Hr. injection Hr as <-. unfold OV. cbn [o_at]. rewrite view_in by (left; reflexivity). apply (all_new d_rel He). intros i Hi.
      destruct (w_nd _ _ W _ _ Hn) as [V' _]. destruct (V' Hq) as (_ & _ & _ & K4). destruct (K4 i Hi) as [H|[H|(o' & Hh & H)]]; [auto|auto|]. destruct (Nat.eq_dec o' o) as [->|Hne]; [auto|]. exfalso.
      destruct (erase_isq B _ _ _ Ho Ea) as [_ Z]. specialize (Z _ Hn). unfold hold, at_of in Hh. destruct (nth_error (k_po (st h)) o') as [r'|] eqn:Ho'; [|destruct Hh; discriminate]. destruct Hh as [Hh|Hh].
      * pose proof (has_pos B _ _ _ _ Ho' Hh Hn). lia.
      * pose proof (sm_two (er p) _ _ _ _ _ Ho Ho' (not_eq_sym Hne)) as K. unfold er at 1 2 in K. rewrite Ea, Hh, Nat.eqb_refl in K. simpl in K. pose proof (i_zero _ _ _ _ _ _ (b_nd _ B _ _ Hn) Z). lia.
  - assert (Own : forall i, intr (lg h) tr p i -> In i (mv_cur v')) by (intros i Hi; apply Ow; auto). assert (Hc : isc (st h) o p) by exact Eat.
    unfold complete, node in Hs'. destruct (nth_error (k_nd (st h)) p) as [n|] eqn:Hn; [|discriminate]. destruct (n_dead n); [discriminate|]. destruct (n_done n); [discriminate|]. injection Hs' as <- <-.
    apply (Inv_step _ _ _ _ W Hs He); cbn [sp so sa]; rewrite ?Eat; [| |intros ? ? []|].
    + intros p0 n0 [<-|[]] Hn0. nds. rewrite (nth_error_set_nth_same _ _ _ _ Hn) in Hn0. injection Hn0 as <-. eapply (NV_done d_rel He); eauto; [intros Q; exact (isq_isc B _ _ Q Hc)|]. cbn [kh_dst]. rewrite Eat. right. left. reflexivity.
    + intros o0 r0 [<-|[]] Hr. nds. rewrite (nth_error_set_nth_same _ _ _ _ Ho) in Hr. injection Hr as <-. exact I.
    + intros e [<-|[]]. exact (done_all p Own).
Qed.
Lemma step_read o : ok_step (LRead o).
Proof.
  intros h tr v s' es m' v' W Hs He. pose proof (w_base _ _ W) as B. pose proof Hs as Hs'. cbn [k_step] in Hs'. destruct (nth_error (k_po (st h)) o) as [r|] eqn:Ho; [|discriminate].
  assert (Eat : at_of (st h) o = o_at r) by (unfold at_of; now rewrite Ho). pose proof (own d_rel He (t_o o) (or_introl eq_refl)) as Ow. pose proof (w_po _ _ W _ _ Ho) as V. unfold OV in V.
  destruct (o_at r) as [| | | |p| | |] eqn:Ea; try discriminate. unfold node in Hs'. destruct (nth_error (k_nd (st h)) p) as [n|] eqn:Hn; [|discriminate]. destruct (n_dead n) eqn:Edd; [discriminate|]. injection Hs' as <- <-.
  pose proof (has_isq B _ _ _ Ho Ea) as Iq. assert (Hq : n_q n = true) by (destruct Iq as (n' & Hn' & Hq); congruence). pose proof (lt_isq _ Iq) as Hp. destruct V as [V1 V2].
  assert (New : forall i, In i (mv_cur v') -> cov (nxt (h := h) (l := LRead o) (m' := m') (v' := v') (s' := st h)) p i).
  { intros i Hi. right. right. exists o. rewrite view_in by (left; reflexivity). split; [|exact Hi]. left. exact Eat. }
  apply (Inv_step _ _ _ _ W Hs He); cbn [sp so sa]; rewrite ?Eat; [| |intros ? ? []|].
  - intros p0 n0 [<-|[]] Hn0. rewrite Hn in Hn0. injection Hn0 as <-. eapply (NV_q d_rel W Hs He); eauto. intros o' i _ [<-|[]] Hi. auto.
  - intros o0 r0 [<-|[]] Hr. rewrite Ho in Hr. injection Hr as <-. unfold OV. rewrite Ea. rewrite view_in by (left; reflexivity).
    split; [exact (C0_keep _ _ _ _ W Hs He _ _ _ Hp (Nf W _ Iq) Ow V1)|exact (seen_keep _ _ _ _ W Hs He _ _ _ Hp Ow V2)].
  - intros e [<-|[]]. exact (post_seen W _ _ Hp V2 Ow).
Qed.
Lemma step_inv l : ok_step l.
Proof.
  destruct l; [apply step_attach| | | | | | | | | | |]; eauto using step_detach, step_det, step_post, step_fast, step_poll, step_try, step_notify, step_ack, step_ackstep, step_read, step_destroy.
Qed.

Notation hstep := (kh_step true true true d_rel).
Lemma Inv_init : Inv kh_init [].
Proof.
  constructor; simpl.
  - exact BI_init.
  - apply kn_nil.
  - intros [|] ? [=].
  - intros [|] ? [=].
  - intros [|] ? [=].
  - intros p i _ [(a & q & H & _)|(e & w & [] & _)]. destruct i; discriminate.
  - intros a _. apply kn_nil.
  - intros p H. lia.
  - intros [|] ? ? ? E; discriminate.
  - intros [|] ? ? ? E; discriminate.
Qed.
Lemma post_ack_Inv ls h tr : run hstep kh_init ls = Running h tr -> Inv h tr.
Proof.
  intros Hr. apply (h_inv k_step kh_src kh_dst acts (fun _ => True) Inv k_start) with (ls := ls); auto; [apply Inv_init|].
  clear. intros ls h tr l v s' es m' v' _ W Hs He _. exact (step_inv l h tr v s' es m' v' W Hs He).
Qed.
Lemma post_ack_norace ls f tr : run hstep kh_init ls <> Failed f tr.
Proof.
  intros Hr. apply (h_failed k_step kh_src kh_dst acts) in Hr. destruct Hr as [[ls0 Hr]|(_ & ls1 & h & tr1 & l & v & s' & es & Hr & He & Hs & _)].
  - revert Hr. apply (run_safe k_step (fun s _ => BI s)); [exact BI_init| |]; intros s t l; pose proof (BI_good s l) as G.
    + intros s' es B Hs. specialize (G B). unfold good in G. rewrite Hs in G. exact G.
    + intros f' es B Hs. specialize (G B). unfold good in G. rewrite Hs in G. exact G.
  - exact (exec_good _ (post_ack_Inv _ _ _ Hr) _ _ _ _ Hs He).
Qed.
End Orders.
