(** The steps of M_PostAckHB do not race and keep the happens-before invariant. *)
From Coq Require Import List Arith Bool Lia.
From Verif Require Import Lts ListFacts M_HB P_HB M_PostAckHB S_PostAckHB P_PostAckHB P_PostAckHB2 P_PostAckHB3.
Import ListNotations.

Section Orders.
Variable d_rel : bool.
Notation acts := (kh_acts true true true d_rel).
Notation hv := (hview kh_src).

Section Ok.
Context {h : mst (S := kst)} {tr : trace}.
Hypothesis W : Inv h tr.
Notation B := (w_base _ _ W).

Lemma fresh_kn u x : In x (plocs (length (k_nd (st h)))) -> kn (lg h) u x.
Proof. intros Hx i a q Hn <-. exfalso. apply (w_new _ _ W (length (k_nd (st h))) i (le_n _)). left. eauto. Qed.
Lemma newa_kn u a : length (k_ag (st h)) <= a -> kn (lg h) u (l_ag a).
Proof. intros H. eapply kn_incl; [exact (w_newa _ _ W _ H)|intros i []]. Qed.
Lemma hooks_kn u p : isq (st h) p -> kn (lg h) (u ++ rl h x_mtx) (l_hook p).
Proof. intros (n & Hn & Hq). destruct (w_nd _ _ W _ _ Hn) as [V _]. eapply kn_incl; [apply (V Hq)|]. apply incl_appr, incl_refl. Qed.
Lemma mech_kn u : kn (lg h) (u ++ rl h x_mtx) l_mech.
Proof. eapply kn_incl; [apply (w_mech _ _ W)|]. apply incl_appr, incl_refl. Qed.
Lemma acks_kw u p : isq (st h) p -> kw (lg h) (u ++ rl h x_mtx) (l_acks p).
Proof. intros (n & Hn & Hq). destruct (w_nd _ _ W _ _ Hn) as [V _]. eapply kw_incl; [apply (V Hq)|]. apply incl_appr, incl_refl. Qed.

Lemma ag_kn l v s' es a : k_step (st h) l = Next s' es -> l = LDetach a \/ l = LDet a \/ l = LPoll a -> kn (lg h) (mv_cur (hv h l v)) (l_ag a).
Proof.
  intros Hs El. destruct (nth_error (k_ag (st h)) a) as [g|] eqn:Ha; [|destruct El as [-> |[-> | ->]]; simpl in Hs; rewrite Ha in Hs; discriminate].
  destruct (w_ag _ _ W _ _ Ha) as [V _]. eapply kn_incl; [apply V|apply (in_hview kh_src)]; [|destruct El as [-> |[-> | ->]]; left; reflexivity].
  destruct (g_poll g) eqn:Hp; [|reflexivity]. destruct El as [-> |[-> | ->]]; simpl in Hs; rewrite Ha in Hs; [rewrite Hp, andb_false_r in Hs; discriminate| |rewrite Hp, andb_false_r in Hs; discriminate].
  pose proof (a_poll _ _ _ (b_ag _ B _ _ Ha) Hp) as Hon. rewrite (on_det _ _ _ (b_ag _ B _ _ Ha) Hon) in Hs. discriminate.
Qed.
Lemma try_kw v s' es o : k_step (st h) (LTry o) = Next s' es -> kn (lg h) (mv_cur (hv h (LTry o) v)) (l_ag (ag_of (st h) o)).
Proof.
  intros Hs. simpl in Hs. unfold ag_of. destruct (nth_error (k_po (st h)) o) as [r|] eqn:Ho; [|discriminate]. destruct (o_try r) eqn:Et; [discriminate|]. pose proof (w_po _ _ W _ _ Ho) as V. unfold OV in V. cbv zeta in V. rewrite Et in V.
  destruct (o_at r) eqn:Er; try discriminate; (eapply kn_incl; [|apply (in_hview kh_src h (LTry o) v (t_l o)); left; reflexivity]); tauto.
Qed.
Lemma notify_kn v s' es o : k_step (st h) (LNotify o) = Next s' es -> kn (lg h) (mv_cur (hv h (LNotify o) v)) (l_ag (ag_of (st h) o)).
Proof.
  intros Hs. simpl in Hs. unfold ag_of. destruct (nth_error (k_po (st h)) o) as [r|] eqn:Ho; [|discriminate]. pose proof (w_po _ _ W _ _ Ho) as V. unfold OV in V. cbv zeta in V. pose proof (b_po _ B _ _ Ho) as P. unfold PI in P.
  destruct (o_at r) eqn:Er; try discriminate.
  - destruct V as (_ & _ & V). destruct (o_try r) eqn:Et.
    + eapply kn_incl; [exact V|]. apply (in_hview kh_src h (LNotify o) v (t_c o)). cbn [kh_src]. rewrite Ho, Et. right. left. reflexivity.
    + eapply kn_incl; [apply V|]. apply (in_hview kh_src h (LNotify o) v (t_o o)). left. reflexivity.
  - destruct P as [Et _]. eapply kn_incl; [exact V|]. apply (in_hview kh_src h (LNotify o) v (t_c o)). cbn [kh_src]. rewrite Ho, Et. right. left. reflexivity.
Qed.

Lemma crit_ok v0 l1 c : forallb is_touch l1 = true -> (forall y w, In (Touch y w) l1 -> kn (lg h) (mv_cur v0) y) ->
  (forall y w, In (Touch y w) c -> (exists p, isq (st h) p /\ y = l_hook p) \/ (exists p, isq (st h) p /\ y = l_acks p /\ w = false) \/ In y (plocs (length (k_nd (st h))))) ->
  m_exec (ms_mem h) v0 (l1 ++ M_PostAckHB.crit c) <> None.
Proof.
  intros Ht H1 H2. unfold M_PostAckHB.crit. apply mid_ok; auto.
  - intros y Hy. eauto.
  - intros y Hy. apply kn_kw. eauto.
  - intros y [[= <-]|Hy]; [apply mech_kn|]. apply in_app_or in Hy. destruct Hy as [Hy|[[=]|[]]]. destruct (H2 _ _ Hy) as [(p & Hq & ->)|[(p & _ & _ & [=])|Hf]]; [now apply hooks_kn|now apply fresh_kn].
  - intros y [[=]|Hy]. apply in_app_or in Hy. destruct Hy as [Hy|[[=]|[]]]. destruct (H2 _ _ Hy) as [(p & Hq & ->)|[(p & Hq & -> & _)|Hf]]; [apply kn_kw; now apply hooks_kn|now apply acks_kw|apply kn_kw; now apply fresh_kn].
Qed.
Lemma retire_c q : isq (st h) q -> forall y w, In (Touch y w) (retire_acts true d_rel (st h) q) -> (exists p, isq (st h) p /\ y = l_hook p) \/ (exists p, isq (st h) p /\ y = l_acks p /\ w = false) \/ In y (plocs (length (k_nd (st h)))).
Proof. intros Hq y w H. apply retire_touch in H. destruct H as [H|[-> ->]]; [auto|]. right. left. eauto. Qed.
Lemma exec_good l v s' es : k_step (st h) l = Next s' es -> m_exec (ms_mem h) (hv h l v) (acts (st h) l) <> None.
Proof.
  intros Hs. destruct l as [|a|a| |q|a|o|o|o|o|o|q]; cbn [kh_acts]; cbv zeta.
  - apply (crit_ok _ [Touch _ _]); auto; [intros y w [[= <- <-]|[]]; now apply newa_kn|intros y w []].
  - apply (crit_ok _ [Touch _ _]); auto; [intros y w [[= <- <-]|[]]; eapply ag_kn; eauto|]. destruct (Nat.ltb_spec (seq_of (st h) a) (length (k_nd (st h)))) as [Hl|_]; [|intros y w []]. apply retire_c. destruct (detach_owes _ _ _ _ B (or_introl Hs) Hl) as (n & Hn & Hq & _). exists n. auto.
  - destruct (det_of (st h) a) as [[r [p|]]|] eqn:Ed; [| |discriminate].
    + assert (Hd : isd (st h) a p) by (exists r; exact Ed). pose proof (det_some _ _ _ Hd) as (g & r' & Ha & Eg). destruct (w_ag _ _ W _ _ Ha) as [_ V]. rewrite Eg in V.
      apply exec_ok; [intros x [[=]|[]]|]. intros x [[= <-]|[]]. intros i b q Hn Hl _. apply (in_hview kh_src h (LDet a) v (t_a a)); [left; reflexivity|]. apply V. left. exists b, q. split; [auto|]. rewrite Hl. simpl. auto.
    + apply (crit_ok _ [Touch _ _]); auto; [intros y w [[= <- <-]|[]]; eapply ag_kn; eauto|]. apply retire_c. destruct (det_owes _ _ _ B Ed) as (n & Hn & Hq & _). exists n. auto.
  - apply (crit_ok _ [Touch _ _; Touch _ _; Touch _ _; Touch _ _]); auto.
    + intros y w H. apply fresh_kn. simpl in *. destruct H as [[= <- _]|[[= <- _]|[[= <- _]|[[= <- _]|[]]]]]; auto.
    + intros y w [[= <- <-]|H]; [right; right; simpl; auto|]. destruct (k_act (st h) =? 0); [destruct H|]. destruct H as [[= <- <-]|H]; [right; right; simpl; auto|]. apply in_hooks in H. destruct H as (_ & p & H). left. eauto.
  - simpl in Hs. destruct (nth_error (k_nd (st h)) q) as [n|] eqn:Hn; [|discriminate]. destruct (n_fast n) eqn:Ef; [|discriminate]. destruct (w_nd _ _ W _ _ Hn) as [_ V]. rewrite Ef in V.
    apply exec_ok; [intros x [[=]|[]]|]. intros x [[= <-]|[]]. intros i b p Hi Hl _. apply (in_hview kh_src h (LFast q) v (t_p q)); [left; reflexivity|]. apply V; [reflexivity|]. left. exists b, p. split; [auto|]. rewrite Hl. simpl. auto.
  - apply (crit_ok _ [Touch _ _]); auto; [intros y w [[= <- <-]|[]]; eapply ag_kn; eauto|]. destruct (seq_of (st h) a <? length (k_nd (st h))); [|intros y w []]. intros y w H. apply in_hooks in H. destruct H as (_ & p & H). left. eauto.
  - apply (crit_ok _ [Touch _ _]); auto; [intros y w [[= <- <-]|[]]; eapply try_kw; eauto|intros y w []].
  - pose proof (notify_kn v _ _ _ Hs) as K. apply exec_ok; intros x [[= <- E]|[]]; auto using kn_kw.
  - destruct (at_of (st h) o) as [|p| | |p|p|p|p] eqn:Ea; try discriminate. unfold at_of in Ea. destruct (nth_error (k_po (st h)) o) as [r|] eqn:Ho; [|discriminate]. pose proof (w_po _ _ W _ _ Ho) as V. unfold OV in V. rewrite Ea in V.
    apply exec_ok; [intros x [[=]|[[=]|[]]]|]. intros x [[= <-]|[[=]|[]]]. eapply kw_incl; [apply V|]. apply (in_hview kh_src h (LAck o) v (t_o o)). left. reflexivity.
  - destruct (at_of (st h) o) as [|p| | |p|p|p|p] eqn:Ea; try discriminate.
    + apply (crit_ok _ []); auto; [intros y w []|]. intros y w H. apply in_hooks in H. destruct H as (_ & q & H). left. eauto.
    + apply at_some in Ea. destruct Ea as (r & Ho & Ea). pose proof (w_po _ _ W _ _ Ho) as V. unfold OV in V. rewrite Ea in V.
      apply exec_ok; [intros x [[=]|[]]|]. intros x [[= <-]|[]]. intros i b q Hi Hl _. apply (in_hview kh_src h (LAckStep o) v (t_o o)); [left; reflexivity|]. apply V. left. exists b, q. split; [auto|]. rewrite Hl. simpl. auto.
  - destruct (at_of (st h) o) as [|p| | |p|p|p|p] eqn:Ea; try discriminate. unfold at_of in Ea. destruct (nth_error (k_po (st h)) o) as [r|] eqn:Ho; [|discriminate]. pose proof (w_po _ _ W _ _ Ho) as V. unfold OV in V. rewrite Ea in V.
    apply exec_ok; [intros x [[=]|[]]|]. intros x [[= <-]|[]]. eapply kw_incl; [apply V|]. apply (in_hview kh_src h (LRead o) v (t_o o)). left. reflexivity.
  - simpl in Hs. destruct (nth_error (k_nd (st h)) q) as [n|] eqn:Hn; [|discriminate]. destruct (n_done n) eqn:Ef; [|discriminate]. destruct (w_nd _ _ W _ _ Hn) as [_ V]. rewrite Ef, orb_true_r in V.
    assert (K : forall x, In x (plocs q) -> kn (lg h) (mv_cur (hv h (LDestroy q) v)) x).
    { intros x Hx i b p Hi Hl. apply (in_hview kh_src h (LDestroy q) v (t_p q)); [left; reflexivity|]. apply V; [reflexivity|]. left. exists b, p. split; [auto|]. now rewrite Hl. }
    apply exec_ok; intros x Hx; [|apply kn_kw]; apply K; simpl in *; repeat (destruct Hx as [Hx|Hx]; [first [discriminate Hx|injection Hx as <-; auto]|]); destruct Hx.
Qed.
End Ok.

Section Next.
Context {h : mst (S := kst)} {tr : trace} {l : klabel} {v : hbs} {m' : mmem} {v' : mview} {s' : kst} {es : list kevent}.
Hypothesis W : Inv h tr.
Hypothesis Hs : k_step (st h) l = Next s' es.
Hypothesis He : m_exec (ms_mem h) (hv h l v) (acts (st h) l) = Some (m', v').
Notation B := (w_base _ _ W).
Notation h' := (nxt (h := h) (l := l) (m' := m') (v' := v') (s' := s')). Notation tr' := (ntr (tr := tr) (v' := v') (es := es)).
Lemma Ef : eff (ms_mem h) (hv h l v) (acts (st h) l) m' v'. Proof. exact (eff_exec _ _ _ _ _ He). Qed.
Lemma own t : In t (kh_src (st h) l) -> incl (v_ h t) (mv_cur v').
Proof. intros H. eapply incl_tran; [apply (in_hview kh_src h l v t H)|]. exact (ef_cur _ _ _ _ _ Ef). Qed.
Lemma own_k x : kn (lg h) (mv_cur (hv h l v)) x -> kn (lg h') (mv_cur v') x. Proof. exact (eff_kn Ef x). Qed.
(** a view that the thread has, for a location of which it knows all accesses *)
Lemma know x u : incl u (mv_cur v') -> kn (lg h) u x -> kn (lg h') (mv_cur v') x.
Proof. intros Hi K i a q Hn Hl. simpl in Hn. destruct (eff_cases Ef _ _ _ Hn) as [[_ Ho]|(_ & Hi' & _)]; [apply Hi; eauto|auto]. Qed.
Lemma all_new p : (forall i, intr (lg h) tr p i -> In i (mv_cur v')) -> forall i, intr (lg h') tr' p i -> In i (mv_cur v').
Proof. intros H i Hi. apply (intr_step _ _ _ _ He) in Hi. destruct Hi as [Hi|[Hi _]]; auto. Qed.
Lemma isf_no p n : isq (st h) p -> nth_error (k_nd (st h)) p = Some n -> n_fast n || n_done n = false.
Proof. intros Hq Hn. destruct (n_fast n || n_done n) eqn:E; [|reflexivity]. destruct (isq_isf B p Hq). exists n. auto. Qed.
Lemma Nf p : isq (st h) p -> ~ isf (st h) p. Proof. intros Hq Hf. exact (isq_isf B p Hq Hf). Qed.
(** A node that stays linked *)
Lemma NV_q p n n' : nth_error (k_nd (st h)) p = Some n -> n_q n = true -> n_fast n' || n_done n' = n_fast n || n_done n ->
  (forall o i, hold (st h) o p -> In o (so (st h) l) -> In i (v_ h (t_o o)) -> cov h' p i) -> (forall i, In i (mv_cur v') -> cov h' p i) -> NV h' tr' p n'.
Proof.
  intros Hn Hq Hfd Hold Hnew. assert (Iq : isq (st h) p) by (exists n; auto). pose proof (lt_isq _ Iq) as Hp. destruct (w_nd _ _ W _ _ Hn) as [V _]. destruct (V Hq) as (K1 & K2 & K3 & K4). split.
  - intros _. split; [exact (hook_keep _ _ _ _ W Hs He p Iq K1)|]. split; [exact (C0_keep _ _ _ _ W Hs He _ _ p Hp (Nf _ Iq) (rel_mono _ _ _ _ He _) K2)|].
    split; [exact (seen_keep _ _ _ _ W Hs He _ _ p Hp (rel_mono _ _ _ _ He _) K3)|]. intros i Hi. apply (intr_step _ _ _ _ He) in Hi. destruct Hi as [Hi|[Hi _]]; [|auto].
    destruct (K4 i Hi) as [H|[H|(o & Ho & H)]]; [left; now apply (rel_mono _ _ _ _ He)|right; left; now apply (rel_mono _ _ _ _ He)|]. destruct (in_dec Nat.eq_dec o (so (st h) l)) as [Hso|Hso]; [eauto|].
    right. right. exists o. rewrite (view_o Hs o Hso). split; [|auto]. unfold hold, at_of in *. simpl. rewrite (po_keep Hs o Hso). exact Ho.
  - rewrite Hfd, (isf_no _ _ Iq Hn). discriminate.
Qed.
(** A node whose receiver is notified, or was *)
Lemma NV_done p n n' : nth_error (k_nd (st h)) p = Some n -> n_q n' = n_q n -> ~ isq (st h) p -> In (t_p p) (kh_dst (st h) l) -> (forall i, intr (lg h) tr p i -> In i (mv_cur v')) -> NV h' tr' p n'.
Proof.
  intros Hn Eq Nq Hd H. split; [intros E; rewrite Eq in E; destruct Nq; exists n; auto|]. intros _. rewrite (view_in (t_p p) Hd). now apply (all_new).
Qed.
Lemma NV_unq p n' : n_q n' = false -> n_fast n' || n_done n' = false -> NV h' tr' p n'.
Proof. intros E1 E2. split; [rewrite E1; discriminate|rewrite E2; discriminate]. Qed.
Lemma done_all p : (forall i, intr (lg h) tr p i -> In i (mv_cur v')) -> ev_ok tr (EPostDone p) (mv_cur v').
Proof. intros H e u Hu Ha i Hi. apply H. right. eauto. Qed.
Lemma post_seen p u : p < length (k_nd (st h)) -> seen tr p u -> incl u (mv_cur v') -> sees_post p tr (mv_cur v').
Proof. intros Hp H Hi. split; [exact (w_ex _ _ W p Hp)|]. intros w Hw. eapply incl_tran; [apply H; exact Hw|exact Hi]. Qed.
End Next.

Lemma rmw_mid m v0 l1 x r l2 m' v' : (forall a b, ~ In (Rmw x a b) l1) -> m_exec m v0 (l1 ++ Rmw x true r :: l2) = Some (m', v') -> incl (mm_rel m x) (mv_cur v').
Proof.
  intros N H. rewrite exec_app in H. destruct (m_exec m v0 l1) as [[m1 v1]|] eqn:E; [|discriminate]. rewrite <- (exec_rel_other l1 x N _ _ _ _ E). exact (exec_lock _ _ _ _ _ _ _ H).
Qed.
Ltac nds := cbn [k_nd k_ag k_po with_nd with_ag with_po] in *.

Lemma step_attach h tr v s' es m' v' : Inv h tr -> k_step (st h) LAttach = Next s' es -> m_exec (ms_mem h) (hv h LAttach v) (acts (st h) LAttach) = Some (m', v') ->
  Inv (nxt (h := h) (l := LAttach) (m' := m') (v' := v') (s' := s')) (ntr (tr := tr) (v' := v') (es := es)).
Proof.
  intros W Hs He. apply (Inv_step _ _ _ _ W Hs He); cbn [sp so sa]; try (intros ? ? []; fail).
  - intros a g [<-|[]] Ha. pose proof Hs as Hs'. kinv Hs'. nds. rewrite nth_error_app2, Nat.sub_diag in Ha by auto. injection Ha as <-. split; [|exact I]. intros _. rewrite view_in by (left; reflexivity). apply (own_k He). now apply (newa_kn W).
  - kinv Hs. intros e [].
Qed.

(** One iteration of the loop of detach() *)
Lemma step_retire h tr l v s' es m' v' a q r n : Inv h tr -> k_step (st h) l = Next s' es -> m_exec (ms_mem h) (hv h l v) (acts (st h) l) = Some (m', v') ->
  sp (st h) l = [q] -> so (st h) l = [] -> sa (st h) l = [a] -> cr (st h) l = true -> In (t_a a) (kh_dst (st h) l) ->
  acts (st h) l = Touch (l_ag a) true :: M_PostAckHB.crit (retire_acts true d_rel (st h) q) -> kn (lg h) (mv_cur (hv h l v)) (l_ag a) ->
  nth_error (k_nd (st h)) q = Some n -> n_q n = true -> 1 <= sm (ow q) (k_ag (st h)) ->
  (exists g', (forall g, nth_error (k_ag s') a = Some g -> g = g') /\
  ((n_acks n = 1 /\ g_det g' = Some (r, Some q) /\ nth_error (k_nd s') q = Some (Nd 0 false (n_fast n) (n_done n) (n_dead n))) \/
  (exists m, n_acks n = S (S m) /\ (g_det g' = None \/ g_det g' = Some (r, None)) /\ nth_error (k_nd s') q = Some (Nd (S m) true (n_fast n) (n_done n) (n_dead n))))) -> es = [ERetire a q] ->
  Inv (nxt (h := h) (l := l) (m' := m') (v' := v') (s' := s')) (ntr (tr := tr) (v' := v') (es := es)).
Proof.
  intros W Hs He Esp Eso Esa Ecr Hdst Eac Kag Hn Hq How (g' & Hg' & Hcase) Ees. pose proof (crv _ _ _ _ Hs He Ecr) as [C1 C2]. assert (Iq : isq (st h) q) by (exists n; auto).
  apply (Inv_step _ _ _ _ W Hs He); rewrite ?Esp, ?Eso, ?Esa; try (intros ? ? []; fail).
  - intros p n0 [<-|[]] Hn0. destruct Hcase as [(_ & _ & K)|(m & _ & _ & K)]; rewrite K in Hn0; injection Hn0 as <-.
    + apply NV_unq; [reflexivity|]. simpl. exact (isf_no W _ _ Iq Hn).
    + eapply (NV_q W Hs He); eauto; [intros o i _ K'; rewrite Eso in K'; destruct K'|]. intros i Hi. left. simpl. auto.
  - intros a0 g [<-|[]] Ha. rewrite (Hg' _ Ha). split.
    + intros _. rewrite view_in by auto. apply (own_k He). exact Kag.
    + destruct Hcase as [(E1 & -> & _)|(m & _ & [-> | ->] & _)]; auto. rewrite view_in by auto. apply (all_new He). intros i Hi.
      destruct (w_nd _ _ W _ _ Hn) as [V _]. destruct (V Hq) as (_ & _ & _ & K4). destruct (K4 i Hi) as [H|[H|(o & Ho & H)]]; [auto| |].
      * rewrite Eac in He. unfold M_PostAckHB.crit, retire_acts in He. set (L1 := Touch (l_ag a) true :: Lock x_mtx :: Touch l_mech true :: hooks (st h) ++ [Touch (l_acks q) false]).
        assert (E : Touch (l_ag a) true :: Lock x_mtx :: Touch l_mech true :: (hooks (st h) ++ [Touch (l_acks q) false; Rmw (x_acks q) true d_rel]) ++ [Unlock x_mtx] = L1 ++ Rmw (x_acks q) true d_rel :: [Unlock x_mtx]).
        { unfold L1. cbn [app]. rewrite <- !app_assoc. reflexivity. }
        rewrite E in He. eapply rmw_mid; [|exact He|exact H]. intros u w K. unfold L1, Lock in K. destruct K as [[=]|[[= K]|[[=]|K]]]; [unfold x_mtx, x_acks in K; lia|]. apply in_app_or in K. destruct K as [K|[[=]|[]]]. exact (no_rmw_hooks _ _ _ _ K).
      * exfalso. pose proof (b_nd _ (w_base _ _ W) _ _ Hn) as N. pose proof (i_acks _ _ _ _ _ _ N) as NA. destruct (i_pos _ _ _ _ _ _ N) as (NE & _); [lia|]. unfold hold, at_of in Ho. destruct (nth_error (k_po (st h)) o) as [r0|] eqn:Er; [|destruct Ho; discriminate].
        destruct Ho as [Ho|Ho]; [pose proof (in_hs _ _ _ Er Ho)|pose proof (in_er _ _ _ Er Ho)]; lia.
  - rewrite Ees. intros e [<-|[]]. exact I.
Qed.
Lemma ow_in s a g q : nth_error (k_ag s) a = Some g -> ow q g = 1 -> 1 <= sm (ow q) (k_ag s).
Proof. intros Ha E. rewrite <- E. now apply (sm_in (ow q) _ _ _ Ha). Qed.
Lemma step_detach h tr a v s' es m' v' : Inv h tr -> k_step (st h) (LDetach a) = Next s' es -> m_exec (ms_mem h) (hv h (LDetach a) v) (acts (st h) (LDetach a)) = Some (m', v') ->
  Inv (nxt (h := h) (l := LDetach a) (m' := m') (v' := v') (s' := s')) (ntr (tr := tr) (v' := v') (es := es)).
Proof.
  intros W Hs He. pose proof (ag_kn W _ v _ _ a Hs (or_introl eq_refl)) as Kag. pose proof (w_base _ _ W) as B. destruct (nth_error (k_ag (st h)) a) as [g|] eqn:Ha; [|simpl in Hs; rewrite Ha in Hs; discriminate].
  assert (Esq : seq_of (st h) a = g_seq g) by (unfold seq_of; now rewrite Ha). destruct (Nat.ltb_spec (g_seq g) (length (k_nd (st h)))) as [Hl|Hl].
  - destruct (detach_owes _ _ _ _ B (or_introl Hs)) as (n & Hn & Hq & Hpos); [now rewrite Esq|]. rewrite Esq in Hn. pose proof Hs as Hs'. cbn [k_step] in Hs'. rewrite Ha in Hs'. destruct (g_on g) eqn:Hon; [|discriminate]. destruct (g_poll g); [discriminate|]. cbn [andb negb] in Hs'.
    destruct (k_act (st h)) as [|c]; [discriminate|]. rewrite (proj2 (Nat.ltb_lt _ _) Hl) in Hs'. unfold retire in Hs'. rewrite (walk_nd _ (st h)) in Hs' by reflexivity. rewrite walk_ok in Hs' by exact B. nds. rewrite Hn, Hq in Hs'. cbn [negb] in Hs'.
    assert (How : ow (g_seq g) g = 1) by (unfold ow; rewrite (on_det _ _ _ (b_ag _ B _ _ Ha) Hon), Hon, Nat.leb_refl; reflexivity).
    assert (Hset : forall x gg, nth_error (set_nth (k_ag (st h)) a x) a = Some gg -> gg = x) by (intros x gg; rewrite (nth_error_set_nth_same _ _ _ _ Ha); congruence).
    assert (Hset2 : forall x, nth_error (set_nth (k_nd (st h)) (g_seq g) x) (g_seq g) = Some x) by (intros x; exact (nth_error_set_nth_same _ _ _ _ Hn)).
    eapply (step_retire h tr (LDetach a) v s' es m' v' a (g_seq g) (length (k_nd (st h))) n); eauto using ow_in; cbn [sp so sa kh_acts kh_dst]; try rewrite Esq; try reflexivity; [left; reflexivity|now rewrite (proj2 (Nat.ltb_lt _ _) Hl)| |].
    + destruct (n_acks n) as [|[|m]] eqn:En; [discriminate| |]; injection Hs' as <- <-; nds.
      * eexists. split; [intros gg; apply Hset|]. left. auto.
      * eexists. split; [intros gg; apply Hset|]. right. exists m. split; [reflexivity|]. split; [|apply Hset2]. unfold det_next. simpl. destruct (_ =? _); auto.
    + destruct (n_acks n) as [|[|m]]; [discriminate| |]; injection Hs' as <- <-; reflexivity.
  - pose proof Hs as Hs'. cbn [k_step] in Hs'. rewrite Ha in Hs'. destruct (g_on g && negb (g_poll g)) eqn:Hon; [|discriminate]. destruct (k_act (st h)) as [|c]; [discriminate|]. rewrite (proj2 (Nat.ltb_ge _ _) Hl) in Hs'. injection Hs' as <- <-.
    apply (Inv_step _ _ _ _ W Hs He); cbn [sp so sa]; try (intros ? ? []; fail); [| |intros ? []].
    + intros p n [<-|[]] Hn. nds. rewrite Esq in Hn. assert (g_seq g < length (k_nd (st h))) by (apply nth_error_Some; congruence). lia.
    + intros a0 g0 [<-|[]] Ha0. nds. rewrite (nth_error_set_nth_same _ _ _ _ Ha) in Ha0. injection Ha0 as <-. split; [|exact I]. intros _. rewrite view_in by (left; reflexivity). apply (own_k He). exact Kag.
Qed.
Lemma step_det h tr a v s' es m' v' : Inv h tr -> k_step (st h) (LDet a) = Next s' es -> m_exec (ms_mem h) (hv h (LDet a) v) (acts (st h) (LDet a)) = Some (m', v') ->
  Inv (nxt (h := h) (l := LDet a) (m' := m') (v' := v') (s' := s')) (ntr (tr := tr) (v' := v') (es := es)).
Proof.
  intros W Hs He. pose proof (ag_kn W _ v _ _ a Hs (or_intror (or_introl eq_refl))) as Kag. pose proof (w_base _ _ W) as B. destruct (nth_error (k_ag (st h)) a) as [g|] eqn:Ha; [|simpl in Hs; rewrite Ha in Hs; discriminate].
  assert (Esq : seq_of (st h) a = g_seq g) by (unfold seq_of; now rewrite Ha). assert (Edt : det_of (st h) a = g_det g) by (unfold det_of; now rewrite Ha). destruct (g_det g) as [[r [p|]]|] eqn:Ed; [| |simpl in Hs; rewrite Ha, Ed in Hs; discriminate].
  - assert (Hd : isd (st h) a p) by (exists r; exact Edt). destruct (w_ag _ _ W _ _ Ha) as [_ V]. rewrite Ed in V. assert (Own : forall i, intr (lg h) tr p i -> In i (mv_cur v')) by (intros i Hi; apply (own He (t_a a)); [left; reflexivity|auto]).
    pose proof Hs as Hs'. cbn [k_step] in Hs'. rewrite Ha, Ed in Hs'. unfold complete, node in Hs'. destruct (nth_error (k_nd (st h)) p) as [n|] eqn:Hn; [|discriminate]. destruct (n_dead n); [discriminate|]. destruct (n_done n); [discriminate|]. injection Hs' as <- <-.
    apply (Inv_step _ _ _ _ W Hs He); cbn [sp so sa]; rewrite ?Edt; try (intros ? ? []; fail).
    + intros p0 n0 [<-|[]] Hn0. nds. rewrite (nth_error_set_nth_same _ _ _ _ Hn) in Hn0. injection Hn0 as <-. eapply (NV_done He); eauto; [intros Q; exact (isq_isd B _ _ Q Hd)|]. cbn [kh_dst]. rewrite Edt. right. left. reflexivity.
    + intros a0 g0 [<-|[]] Ha0. nds. rewrite (nth_error_set_nth_same _ _ _ _ Ha) in Ha0. injection Ha0 as <-. split; [|unfold det_next; simpl; destruct (_ =? _); exact I]. intros _. rewrite view_in by (left; reflexivity). apply (own_k He). exact Kag.
    + intros e [<-|[]]. exact (done_all p Own).
  - destruct (det_owes _ _ _ B Edt) as (n & Hn & Hq & Hpos). rewrite Esq in Hn. pose proof Hs as Hs'. cbn [k_step] in Hs'. rewrite Ha, Ed in Hs'. unfold retire in Hs'. rewrite walk_ok in Hs' by exact B. rewrite Hn, Hq in Hs'. cbn [negb] in Hs'.
    assert (How : ow (g_seq g) g = 1). { pose proof (a_det _ _ _ (b_ag _ B _ _ Ha)) as K. rewrite Ed in K. unfold ow. rewrite Ed, Nat.leb_refl. destruct (Nat.ltb_spec (g_seq g) r); [reflexivity|lia]. }
    assert (Hset : forall x gg, nth_error (set_nth (k_ag (st h)) a x) a = Some gg -> gg = x) by (intros x gg; rewrite (nth_error_set_nth_same _ _ _ _ Ha); congruence).
    assert (Hset2 : forall x, nth_error (set_nth (k_nd (st h)) (g_seq g) x) (g_seq g) = Some x) by (intros x; exact (nth_error_set_nth_same _ _ _ _ Hn)).
    eapply (step_retire h tr (LDet a) v s' es m' v' a (g_seq g) r n); eauto using ow_in; cbn [sp so sa cr kh_acts kh_dst]; rewrite ?Edt, ?Esq; try reflexivity; [left; reflexivity| |].
    + destruct (n_acks n) as [|[|m]] eqn:En; [discriminate| |]; injection Hs' as <- <-; nds.
      * eexists. split; [intros gg; apply Hset|]. left. auto.
      * eexists. split; [intros gg; apply Hset|]. right. exists m. split; [reflexivity|]. split; [|apply Hset2]. unfold det_next. simpl. destruct (_ =? _); auto.
    + destruct (n_acks n) as [|[|m]]; [discriminate| |]; injection Hs' as <- <-; reflexivity.
Qed.
End Orders.
