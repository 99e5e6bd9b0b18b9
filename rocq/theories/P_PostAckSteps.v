(** The invariant of post_ack_mechanism is preserved by attach(), detach(), post() and ack(). *)
From Coq Require Import List Arith Bool Lia.
From Verif Require Import Lts ListFacts M_Wait S_Wait P_Wait M_PostAck S_PostAck P_PostAck P_PostAckInv.
Import ListNotations.

Lemma count_split (f : nat -> bool) a l : In a l -> length (filter f l) = (if f a then 1 else 0) + length (filter f (remove1 a l)).
Proof.
  induction l as [|b l IH]; simpl; [tauto|]. intros H. destruct (Nat.eqb_spec b a) as [->|Hne].
  - destruct (f a); reflexivity.
  - destruct H as [H|H]; [congruence|]. specialize (IH H). simpl. destruct (f b), (f a); simpl in *; lia.
Qed.
Lemma count_agree (f f' : nat -> bool) a l : NoDup l -> (forall b, b <> a -> f' b = f b) ->
  length (filter f' (remove1 a l)) = length (filter f (remove1 a l)).
Proof. intros Hn H. rewrite (filter_ext_in f' f); auto. intros b Hb. apply H. apply In_remove1_NoDup in Hb; tauto. Qed.

Lemma length_remove1 a l : In a l -> S (length (remove1 a l)) = length l.
Proof.
  induction l as [|b l IH]; simpl; [tauto|]. intros H. destruct (Nat.eqb_spec b a) as [->|Hne]; auto. destruct H as [H|H]; [congruence|]. simpl. now rewrite IH.
Qed.

Section Steps.
Variable T : Type.
Notation P := (post_ack T).

Definition KR (k : kst T) : Prop := forall a r, g_det (k_ag k a) = Some (r, None) -> g_seq (k_ag k a) < r.
Definition cdone (k : kst T) (p : nat) : nat := match k_nd k p with Some nd => if n_done nd then 1 else 0 | None => 0 end.
Definition prims (es : list (kevent T)) : list (event P) := map (fun e => EPrim (P := P) e) es.

(** ** Consequences of the invariant *)
Lemma ki_q_live (k : kst T) st s : KI T k st s -> q_live k = true.
Proof.
  intros (_ & _ & _ & _ & _ & _ & _ & H1 & H2 & H3 & H4). unfold q_live. apply forallb_forall. intros p Hp. unfold live.
  destruct (k_nd k p) as [nd|] eqn:E; [|destruct (H2 p Hp E)]. destruct (H4 p nd E) as [(_ & _ & -> & _)|[(_ & -> & _)|(_ & _ & H & _)]]; auto.
Qed.
Lemma ki_find (k : kst T) st s p nd : KI T k st s -> k_nd k p = Some nd -> n_acks nd > 0 -> find_seq k (n_seq nd) = Some p.
Proof.
  intros HK Hp Ha. pose proof HK as (_ & K2 & _ & _ & _ & _ & _ & H1 & H2 & H3 & H4). unfold find_seq.
  assert (Hin : In p (k_q k)) by (destruct (H4 p nd Hp) as [(_ & H & _)|[(H & _)|(H & _)]]; auto; lia).
  destruct (find (has_seq k (n_seq nd)) (k_q k)) as [p'|] eqn:E.
  - apply find_some in E. destruct E as [E1 E2]. unfold has_seq in E2. destruct (k_nd k p') as [nd'|] eqn:E3; [|discriminate].
    apply Nat.eqb_eq in E2. f_equal. eapply g2_inj; eauto.
  - exfalso. apply (find_none _ _ E) in Hin. unfold has_seq in Hin. rewrite Hp, Nat.eqb_refl in Hin. discriminate.
Qed.
Lemma ki_due (k : kst T) st s a p : KI T k st s -> In (a, p) (sp_due s) -> exists nd, k_nd k p = Some nd /\ n_acks nd > 0.
Proof.
  intros (_ & _ & _ & _ & _ & _ & (H1 & H2 & _) & _) Hin. destruct (k_nd k p) as [nd|] eqn:E; [|destruct (H2 _ _ Hin E)].
  exists nd. split; auto. rewrite (H1 p nd E). assert (cp p (sp_due s) > 0) by (apply cp_pos; eauto). lia.
Qed.
Lemma ki_held (k : kst T) st s o p : KI T k st s -> In (o, p) (sp_held s) -> exists nd, k_nd k p = Some nd /\ n_acks nd > 0.
Proof.
  intros (_ & _ & _ & _ & _ & _ & (H1 & _ & H2 & _) & _) Hin. destruct (k_nd k p) as [nd|] eqn:E; [|destruct (H2 _ _ Hin E)].
  exists nd. split; auto. rewrite (H1 p nd E). assert (cp p (sp_held s) > 0) by (apply cp_pos; eauto). lia.
Qed.
Lemma ki_alive (k : kst T) st s p nd : KI T k st s -> k_nd k p = Some nd -> n_acks nd > 0 -> In p (k_q k) /\ n_done nd = false /\ forall w, ~ works (k_hd k) (k_ag k) w p.
Proof.
  intros (_ & _ & _ & _ & _ & _ & _ & H1 & H2 & H3 & H4) Hp Ha. destruct (H4 p nd Hp) as [(_ & H)|[(H & _)|(H & _)]]; [auto|lia|lia].
Qed.
(** an agent's next post can be found *)
Lemma ki_next (k : kst T) st s a : KI T k st s -> In a (sp_att s) -> ~ In a (sp_busy s) -> g_seq (k_ag k a) < k_seq k ->
  exists p x, nth_error (sp_posts s) (g_seq (k_ag k a)) = Some (p, x) /\ find_seq k (g_seq (k_ag k a)) = Some p.
Proof.
  intros HK Ha Hb Hlt. pose proof HK as (_ & K2 & K3 & _ & K5 & _). destruct (g2_ex _ _ _ _ _ K2 Hlt) as (p & x & Hp). exists p, x. split; auto.
  assert (Hin : In (a, p) (sp_due s)).
  { apply dl_In. destruct (K5 a) as (_ & H & _). destruct (H Ha) as [(-> & _)|(o & q & _ & H' & _)].
    - apply (nth_error_In _ 0). rewrite nth_error_skipn, Nat.add_0_r, nth_error_map, Hp. reflexivity.
    - exfalso. exact (not_busy _ _ _ _ _ _ K3 Hb o H'). }
  destruct (ki_due _ _ _ _ _ HK Hin) as (nd & Hnd & Hak). pose proof (ki_find _ _ _ _ _ HK Hnd Hak) as Hf.
  assert (n_seq nd = g_seq (k_ag k a)) by (eapply g2_nth; eauto; rewrite nth_error_map, Hp; reflexivity). congruence.
Qed.
Lemma ki_retire_find (k : kst T) st s a r w : KI T k st s -> g_det (k_ag k a) = Some (r, w) -> g_seq (k_ag k a) < r ->
  exists p nd, find_seq k (g_seq (k_ag k a)) = Some p /\ k_nd k p = Some nd /\ n_seq nd = g_seq (k_ag k a) /\ n_acks nd > 0.
Proof.
  intros HK Hd Hlt. pose proof HK as (K1 & K2 & _ & _ & _ & _ & (H1 & _ & _ & H4) & _). destruct (H4 _ _ _ Hd) as [Hr _].
  destruct (g2_ex _ _ _ _ (g_seq (k_ag k a)) K2 ltac:(lia)) as (p & x & Hp). pose proof Hp as Hp'. apply K2 in Hp'. destruct Hp' as (nd & E1 & E2 & E3).
  assert (Hak : n_acks nd > 0).
  { rewrite (H1 p nd E1). assert (Hin : In a (sp_det s)) by (apply K1; congruence). rewrite (count_split _ a _ Hin). unfold ret at 1. rewrite Hd, E2, Nat.leb_refl.
    destruct (Nat.ltb_spec (g_seq (k_ag k a)) r); simpl; lia. }
  exists p, nd. rewrite <- E2 at 1. split; [eapply ki_find; eauto|]. auto.
Qed.

(** ** Changes of one agent that is not attached *)
Lemma g4_agent st agt pnd hd ag ag' kseq (posts : list (nat * T)) ops busy att : G3 st ops busy agt att -> G4 T st agt pnd hd ag kseq posts ->
  (forall a, (exists o, act st ops o a) -> g_seq (ag' a) = g_seq (ag a)) -> G4 T st agt pnd hd ag' kseq posts.
Proof.
  intros K3 K4 Hag o. destruct (K4 o) as (A & B & C & D & E & F). split; [|split; [|auto]].
  - intros HQ. destruct (A HQ) as (A1 & A2 & A3). rewrite Hag; auto. exists o. split; auto. apply (node_known _ _ _ _ _ _ K3). left. congruence.
  - intros HQ Hd. rewrite Hag; auto. exists o. split; auto. apply (node_known _ _ _ _ _ _ K3). left. congruence.
Qed.
Lemma g5_agent st ops ag ag' kseq (posts : list (nat * T)) att due : G5 T st ops ag kseq posts att due ->
  (forall a, In a att -> g_seq (ag' a) = g_seq (ag a)) -> (forall a, g_mech (ag' a) = true -> g_seq (ag' a) <= kseq) -> G5 T st ops ag' kseq posts att due.
Proof.
  intros K5 Ha Hm a. destruct (K5 a) as (H1 & H2 & H3). split; [auto|]. split; [|auto]. intros Hin. rewrite Ha by auto. auto.
Qed.

Lemma ki_ag_ext (k : kst T) ag' st s : KI T k st s -> (forall a, ag' a = k_ag k a) ->
  KI T (KS (k_seq k) (k_active k) (k_q k) (k_nd k) (k_pq k) (k_pend k) (k_pnd k) (k_agt k) (k_hd k) ag') st s.
Proof.
  intros (K1 & K2 & K3 & K4 & K5 & K6 & K7 & K8) He. unfold KI. cbn [k_seq k_active k_q k_nd k_pq k_pend k_pnd k_agt k_hd k_ag].
  split; [apply (g1_ext _ _ _ _ _ K1); intros; rewrite He; auto|]. split; [exact K2|]. split; [exact K3|].
  split; [eapply g4_agent; eauto; intros; now rewrite He|]. split; [apply (g5_agent _ _ _ _ _ _ _ _ K5); intros a; rewrite He; auto; apply K5|].
  split; [exact K6|]. split; [apply (g7_ext _ _ _ _ _ _ _ _ K7); intros; rewrite He; auto|]. apply (g8_ext _ _ _ _ _ _ _ K8); intros; rewrite ?He; auto.
Qed.

(** ** attach() *)
Lemma ki_attach (k : kst T) st s a : KI T k st s -> ~ In a (sp_att s) -> ~ In a (sp_det s) ->
  KI T (with_active (with_ag k a (Ag true (k_seq k) None)) (k_active k + 1)) st (sp_step s (EPrim (P := P) (EAttach a))).
Proof.
  intros (K1 & K2 & K3 & K4 & K5 & K6 & K7 & K8) Ha Hd.
  assert (Hdet : g_det (k_ag k a) = None). { destruct K1 as (_ & _ & _ & H & _). destruct (g_det (k_ag k a)) eqn:E; auto. exfalso. apply Hd, H. congruence. }
  unfold KI, with_active, with_ag. cbn [sp_step sp_att sp_det sp_ops sp_busy sp_posts sp_due sp_held k_seq k_active k_q k_nd k_pq k_pend k_pnd k_agt k_hd k_ag].
  split; [|split; [exact K2|split; [|split; [|split; [|split; [exact K6|split]]]]]].
  - destruct K1 as (H1 & H2 & H3 & H4 & H5 & H6). split; [now constructor|]. split; [auto|]. split; [|split; [|split]].
    + intros b. simpl. rewrite H3. unfold upd. destruct (Nat.eqb_spec b a) as [->|]; simpl; intuition congruence.
    + intros b. rewrite H4. unfold upd. destruct (Nat.eqb_spec b a) as [->|]; simpl; [|tauto]. rewrite Hdet. tauto.
    + intros b. unfold upd. destruct (Nat.eqb_spec b a) as [->|]; simpl; auto.
    + simpl. lia.
  - destruct K3 as (H1 & H2 & H3 & H4 & H5 & H6). split; [auto|]. split; [auto|]. split; [auto|]. split; [auto|]. split; [auto|]. intros. right. eauto.
  - eapply g4_agent; eauto. intros b [o Hb]. assert (In b (sp_att s)) by (eapply (proj2 (proj2 (proj2 (proj2 (proj2 K3))))); eauto). unfold upd. destruct (Nat.eqb_spec b a); [congruence|auto].
  - intros b. unfold upd. destruct (Nat.eqb_spec b a) as [->|Hne].
    + simpl. split; [lia|]. destruct (K5 a) as (_ & _ & H). split; [|tauto]. intros _. left. rewrite (H Ha). split.
      * symmetry. apply skipn_all2. rewrite map_length. destruct K2 as [-> _]. lia.
      * intros o Ho. exfalso. apply Ha. eapply (proj2 (proj2 (proj2 (proj2 (proj2 K3))))); eauto.
    + destruct (K5 b) as (H1 & H2 & H3). split; [auto|]. split; [intros [E|Hb]; [congruence|auto]|]. intros Hb. apply H3. simpl in Hb. tauto.
  - destruct K7 as (H1 & H2 & H3 & H4). assert (Hr : forall i b, ret (upd (k_ag k) a (Ag true (k_seq k) None)) i b = ret (k_ag k) i b).
    { intros i b. unfold ret, upd. destruct (Nat.eqb_spec b a) as [->|]; auto. simpl. now rewrite Hdet. }
    split; [|split; [auto|split; [auto|]]].
    + intros p nd Hp. rewrite (filter_ext _ _ (Hr (n_seq nd))). auto.
    + intros b r w. unfold upd. destruct (Nat.eqb_spec b a) as [->|]; simpl; [discriminate|eauto].
  - apply (g8_ext _ _ _ _ _ _ _ K8); auto. intros b. unfold upd. destruct (Nat.eqb_spec b a) as [->|]; auto.
Qed.

(** ** detach() *)
Lemma ki_detach_begin (k : kst T) st s a n : KI T k st s -> In a (sp_att s) -> ~ In a (sp_busy s) -> k_active k = S n ->
  KI T (with_ag (with_active k n) a (Ag true (g_seq (k_ag k a)) (Some (k_seq k, None)))) st (sp_step s (EPrim (P := P) (EDetach a))).
Proof.
  intros (K1 & K2 & K3 & K4 & K5 & K6 & K7 & K8) Ha Hb Hn. pose proof (not_busy _ _ _ _ _ _ K3 Hb) as Hnb.
  assert (Hmd : g_mech (k_ag k a) = true /\ g_det (k_ag k a) = None) by (apply K1; auto). destruct Hmd as [Hmech Hdet].
  assert (Hle : g_seq (k_ag k a) <= k_seq k) by (apply K5; auto).
  assert (Hnd : ~ In a (sp_det s)) by (destruct K1 as (_ & _ & _ & H & _); rewrite H; congruence).
  assert (HDatt : NoDup (sp_att s)) by apply K1.
  assert (Hdue : dl a (sp_due s) = skipn (g_seq (k_ag k a)) (map fst (sp_posts s))).
  { destruct (K5 a) as (_ & H & _). destruct (H Ha) as [(E & _)|(o & q & _ & E & _)]; [auto|]. destruct (Hnb o E). }
  unfold KI, with_active, with_ag. cbn [sp_step sp_att sp_det sp_ops sp_busy sp_posts sp_due sp_held k_seq k_active k_q k_nd k_pq k_pend k_pnd k_agt k_hd k_ag].
  split; [|split; [exact K2|split; [|split; [|split; [|split; [exact K6|split]]]]]].
  - destruct K1 as (H1 & H2 & H3 & H4 & H5 & H6). split; [now apply NoDup_remove1|]. split; [now constructor|]. split; [|split; [|split]].
    + intros b. rewrite In_remove1_NoDup, H3 by auto. unfold upd. destruct (Nat.eqb_spec b a) as [->|]; simpl; intuition congruence.
    + intros b. simpl. rewrite H4. unfold upd. destruct (Nat.eqb_spec b a) as [->|]; simpl; intuition congruence.
    + intros b. unfold upd. destruct (Nat.eqb_spec b a) as [->|]; simpl; auto.
    + pose proof (length_remove1 a (sp_att s) Ha). lia.
  - destruct K3 as (H1 & H2 & H3 & H4 & H5 & H6). split; [auto|]. split; [auto|]. split; [auto|]. split; [auto|]. split; [auto|].
    intros o b Hob. apply In_remove1_NoDup; auto. split; [eauto|]. intros ->. exact (Hnb o Hob).
  - eapply g4_agent; eauto. intros b [o Hob]. unfold upd. destruct (Nat.eqb_spec b a) as [->|]; auto.
  - intros b. rewrite filter_dl, In_remove1_NoDup by auto. unfold upd. destruct (Nat.eqb_spec b a) as [->|Hne]; simpl.
    + split; [auto|]. split; [tauto|auto].
    + destruct (K5 b) as (H1 & H2 & H3). split; [auto|]. split; [tauto|]. intros H. apply H3. tauto.
  - destruct K7 as (H1 & H2 & H3 & H4). split; [|split; [|split; [auto|]]].
    + intros p nd Hp. rewrite (H1 p nd Hp). pose proof (filter_cp a p (sp_due s)) as Hc. rewrite Hdue, (g2_cnt _ _ _ _ _ _ _ K2 Hp) in Hc.
      pose proof (g2_lt _ _ _ _ _ _ K2 Hp) as Hlt. cbn [filter]. unfold ret at 2. rewrite upd_same. cbn [g_det g_seq].
      destruct (Nat.ltb_spec (n_seq nd) (k_seq k)); [|lia]. rewrite andb_true_r.
      rewrite (filter_ext_in (ret (upd (k_ag k) a (Ag true (g_seq (k_ag k a)) (Some (k_seq k, None)))) (n_seq nd)) (ret (k_ag k) (n_seq nd)) (sp_det s)).
      2:{ intros b Hbd. unfold ret, upd. destruct (Nat.eqb_spec b a); [congruence|auto]. }
      destruct (Nat.leb (g_seq (k_ag k a)) (n_seq nd)); simpl; lia.
    + intros b p Hin. apply filter_In in Hin. destruct Hin. eauto.
    + intros b r w. unfold upd. destruct (Nat.eqb_spec b a) as [->|]; simpl; [intros [= <- <-]; auto|eauto].
  - apply (g8_ext _ _ _ _ _ _ _ K8); auto. intros b. unfold upd. destruct (Nat.eqb_spec b a) as [->|]; auto. simpl. right. rewrite Hdet. split; congruence.
Qed.

Lemma ki_det_end (k : kst T) st s a : KI T k st s -> g_det (k_ag k a) = Some (g_seq (k_ag k a), None) ->
  KI T (det_end k a) st (sp_step s (EPrim (P := P) (EDetached a))).
Proof.
  intros (K1 & K2 & K3 & K4 & K5 & K6 & K7 & K8) Hd.
  assert (Hina : In a (sp_det s)) by (apply K1; congruence). assert (HDdet : NoDup (sp_det s)) by apply K1.
  assert (Hna : ~ In a (sp_att s)) by (intros H; apply K1 in H; destruct H; congruence).
  assert (Hact : forall b, (exists o, act st (sp_ops s) o b) -> In b (sp_att s)) by (intros b [o Ho]; eapply (proj2 (proj2 (proj2 (proj2 (proj2 K3))))); eauto).
  unfold KI, det_end, with_ag. cbn [sp_step sp_att sp_det sp_ops sp_busy sp_posts sp_due sp_held k_seq k_active k_q k_nd k_pq k_pend k_pnd k_agt k_hd k_ag].
  split; [|split; [exact K2|split; [exact K3|split; [|split; [|split; [exact K6|split]]]]]].
  - destruct K1 as (H1 & H2 & H3 & H4 & H5 & H6). split; [auto|]. split; [now apply NoDup_remove1|]. split; [|split; [|split; [|auto]]].
    + intros b. rewrite H3. unfold upd. destruct (Nat.eqb_spec b a) as [->|]; simpl; intuition congruence.
    + intros b. rewrite In_remove1_NoDup, H4 by auto. unfold upd. destruct (Nat.eqb_spec b a) as [->|]; simpl; intuition congruence.
    + intros b. unfold upd. destruct (Nat.eqb_spec b a) as [->|]; simpl; auto.
  - eapply g4_agent; eauto. intros b Hb. apply Hact in Hb. unfold upd. destruct (Nat.eqb_spec b a) as [->|]; auto.
  - apply (g5_agent _ _ _ _ _ _ _ _ K5).
    + intros b Hb. unfold upd. destruct (Nat.eqb_spec b a) as [->|]; auto.
    + intros b. unfold upd. destruct (Nat.eqb_spec b a) as [->|]; simpl; [discriminate|]. apply K5.
  - destruct K7 as (H1 & H2 & H3 & H4). split; [|split; [auto|split; [auto|]]].
    + intros p nd Hp. rewrite (H1 p nd Hp), (count_split _ a _ Hina). unfold ret at 1. rewrite Hd.
      replace (Nat.leb (g_seq (k_ag k a)) (n_seq nd) && Nat.ltb (n_seq nd) (g_seq (k_ag k a))) with false.
      2:{ symmetry. destruct (Nat.leb_spec (g_seq (k_ag k a)) (n_seq nd)), (Nat.ltb_spec (n_seq nd) (g_seq (k_ag k a))); auto; lia. }
      rewrite (count_agree (ret (k_ag k) (n_seq nd)) (ret (upd (k_ag k) a (Ag false (g_seq (k_ag k a)) None)) (n_seq nd))); auto.
      intros b Hne. unfold ret. now rewrite upd_other.
    + intros b r w. unfold upd. destruct (Nat.eqb_spec b a) as [->|]; simpl; [discriminate|eauto].
  - apply (g8_ext _ _ _ _ _ _ _ K8); auto. intros b. unfold upd. destruct (Nat.eqb_spec b a) as [->|]; auto. simpl. right. rewrite Hd. split; congruence.
Qed.

(** ** One node changes *)
Lemma g8_change (nds nds' : nat -> option (node T)) q q' hd hd' ag ag' p : G8 T nds q hd ag -> NoDup q' ->
  (forall p', p' <> p -> nds' p' = nds p') -> (forall p', p' <> p -> (In p' q' <-> In p' q)) ->
  (forall w p', p' <> p -> (works hd' ag' w p' <-> works hd ag w p')) -> (forall w p', p' <> p -> (erases hd' w p' <-> erases hd w p')) ->
  (exists nd, nds' p = Some nd /\ phase T nds' q' hd' ag' p nd) -> G8 T nds' q' hd' ag'.
Proof.
  intros (H1 & H2 & H3 & H4) Hq Hnd Hin Hw He (nd & Hp & Hph). split; [auto|]. split; [|split].
  - intros p' Hp'. destruct (Nat.eq_dec p' p) as [->|Hne]; [congruence|]. rewrite Hnd by auto. apply H2. now apply Hin.
  - intros w p' Hp'. destruct (Nat.eq_dec p' p) as [->|Hne]; [congruence|]. rewrite Hnd by auto. apply (H3 w). now apply Hw.
  - intros p' nd' Hp'. destruct (Nat.eq_dec p' p) as [->|Hne]; [assert (nd' = nd) by congruence; now subst|].
    rewrite Hnd in Hp' by auto. destruct (H4 _ _ Hp') as [(A & B & C & D)|[(A & B & w & C & D & E)|(A & B & C & D)]].
    + left. split; [auto|]. split; [now apply Hin|]. split; [auto|]. intros w Hw'. apply (D w). now apply Hw.
    + right; left. split; [auto|]. split; [auto|]. exists w. split; [now apply Hw|]. split; [intros w' Hw'; apply D; now apply Hw|].
      rewrite Hin, He by auto. exact E.
    + right; right. split; [auto|]. split; [auto|]. split; [now rewrite Hin|]. intros w Hw'. apply (D w). now apply Hw.
Qed.

(** detach() gives up the post with number poll_seq_ *)
Lemma g7_retire (k : kst T) s a r p nd w d : G1 (k_ag k) (k_active k) (sp_att s) (sp_det s) -> G2 T (k_nd k) (k_seq k) (sp_posts s) ->
  G7 T (k_nd k) (k_ag k) (k_seq k) (sp_due s) (sp_held s) (sp_det s) ->
  g_det (k_ag k a) = Some (r, None) -> g_seq (k_ag k a) < r -> k_nd k p = Some nd -> n_seq nd = g_seq (k_ag k a) ->
  G7 T (upd (k_nd k) p (Some (Nd (n_seq nd) (n_acks nd - 1) (n_obj nd) d))) (upd (k_ag k) a (Ag (g_mech (k_ag k a)) (g_seq (k_ag k a) + 1) (Some (r, w))))
    (k_seq k) (sp_due s) (sp_held s) (sp_det s).
Proof.
  intros K1 K2 (H1 & H2 & H3 & H4) Hd Hlt Hp Hs.
  assert (Hina : In a (sp_det s)) by (apply K1; congruence). assert (HDdet : NoDup (sp_det s)) by apply K1.
  set (ag' := upd (k_ag k) a (Ag (g_mech (k_ag k a)) (g_seq (k_ag k a) + 1) (Some (r, w)))).
  assert (Hc : forall i, length (filter (ret ag' i) (sp_det s)) + (if Nat.eqb i (g_seq (k_ag k a)) then 1 else 0) = length (filter (ret (k_ag k) i) (sp_det s))).
  { intros i. rewrite !(count_split _ a _ Hina). rewrite (count_agree (ret (k_ag k) i) (ret ag' i)); auto.
    2:{ intros b Hne. unfold ret, ag'. now rewrite upd_other. }
    assert (E1 : ret ag' i a = Nat.leb (g_seq (k_ag k a) + 1) i && Nat.ltb i r) by (unfold ret, ag'; now rewrite upd_same).
    assert (E2 : ret (k_ag k) i a = Nat.leb (g_seq (k_ag k a)) i && Nat.ltb i r) by (unfold ret; now rewrite Hd). rewrite E1, E2.
    destruct (Nat.leb_spec (g_seq (k_ag k a) + 1) i), (Nat.leb_spec (g_seq (k_ag k a)) i), (Nat.ltb_spec i r), (Nat.eqb_spec i (g_seq (k_ag k a))); simpl; lia. }
  split; [|split; [|split]].
  - intros q nq. destruct (Nat.eq_dec q p) as [->|Hne].
    + rewrite upd_same. intros [= <-]. cbn [n_acks n_seq]. pose proof (H1 p nd Hp) as E. specialize (Hc (n_seq nd)). rewrite Hs, Nat.eqb_refl in *. lia.
    + rewrite upd_other by auto. intros Hq. rewrite (H1 q nq Hq), <- (Hc (n_seq nq)). destruct (Nat.eqb_spec (n_seq nq) (g_seq (k_ag k a))) as [E|]; [|lia].
      exfalso. apply Hne. eapply g2_inj; eauto. congruence.
  - intros b q Hq. destruct (Nat.eq_dec q p) as [->|Hne]; [rewrite upd_same; discriminate|]. rewrite upd_other by auto. eauto.
  - intros b q Hq. destruct (Nat.eq_dec q p) as [->|Hne]; [rewrite upd_same; discriminate|]. rewrite upd_other by auto. eauto.
  - intros b r' w'. unfold ag'. destruct (Nat.eq_dec b a) as [->|Hne]; [|rewrite upd_other by auto; eauto]. rewrite upd_same. cbn [g_det g_seq].
    intros [= <- <-]. destruct (H4 _ _ _ Hd). lia.
Qed.

Lemma ki_retire (k : kst T) st s a r p nd : KI T k st s -> g_det (k_ag k a) = Some (r, None) -> g_seq (k_ag k a) < r ->
  k_nd k p = Some nd -> n_seq nd = g_seq (k_ag k a) -> n_acks nd > 0 ->
  KI T (with_ag (with_q (with_nd k p (Nd (n_seq nd) (n_acks nd - 1) (n_obj nd) (n_done nd))) (if Nat.eqb (n_acks nd) 1 then remove1 p (k_q k) else k_q k))
     a (Ag (g_mech (k_ag k a)) (g_seq (k_ag k a) + 1) (Some (r, if Nat.eqb (n_acks nd) 1 then Some p else None)))) st s.
Proof.
  intros HK Hd Hlt Hp Hs Hak. pose proof HK as (K1 & K2 & K3 & K4 & K5 & K6 & K7 & K8).
  destruct (ki_alive _ _ _ _ _ HK Hp Hak) as (Hin & Hdone & Hnw).
  assert (Hna : ~ In a (sp_att s)) by (intros H; apply K1 in H; destruct H; congruence).
  assert (Hact : forall b, (exists o, act st (sp_ops s) o b) -> In b (sp_att s)) by (intros b [o Ho]; eapply (proj2 (proj2 (proj2 (proj2 (proj2 K3))))); eauto).
  assert (HDq : NoDup (k_q k)) by apply K8.
  unfold KI, with_nd, with_q, with_ag. cbn [k_seq k_active k_q k_nd k_pq k_pend k_pnd k_agt k_hd k_ag].
  split; [|split; [eapply g2_upd; eauto|split; [exact K3|split; [|split; [|split; [exact K6|split]]]]]].
  - destruct K1 as (H1 & H2 & H3 & H4 & H5 & H6). split; [auto|]. split; [auto|]. split; [|split; [|split; [|auto]]].
    + intros b. rewrite H3. unfold upd. destruct (Nat.eqb_spec b a) as [->|]; simpl; intuition congruence.
    + intros b. rewrite H4. unfold upd. destruct (Nat.eqb_spec b a) as [->|]; simpl; intuition congruence.
    + intros b. unfold upd. destruct (Nat.eqb_spec b a) as [->|]; simpl; auto. intros _. apply H5. congruence.
  - eapply g4_agent; eauto. intros b Hb. apply Hact in Hb. unfold upd. destruct (Nat.eqb_spec b a) as [->|]; auto. contradiction.
  - apply (g5_agent _ _ _ _ _ _ _ _ K5).
    + intros b Hb. unfold upd. destruct (Nat.eqb_spec b a) as [->|]; auto. contradiction.
    + intros b. unfold upd. destruct (Nat.eqb_spec b a) as [->|]; simpl; [|apply K5]. intros _. destruct K7 as (_ & _ & _ & H4). destruct (H4 _ _ _ Hd). lia.
  - eapply g7_retire; eauto.
  - apply (g8_change _ _ _ _ _ _ _ _ p K8).
    + destruct (Nat.eqb (n_acks nd) 1); auto. now apply NoDup_remove1.
    + intros p' Hne. now rewrite upd_other.
    + intros p' Hne. destruct (Nat.eqb (n_acks nd) 1); [|tauto]. rewrite In_remove1_NoDup by auto. tauto.
    + intros [o|b] p' Hne; simpl; [tauto|]. unfold upd. destruct (Nat.eqb_spec b a) as [->|]; simpl; [|tauto]. rewrite Hd.
      split; intros [r' E]; [|congruence]. exfalso. destruct (Nat.eqb (n_acks nd) 1); congruence.
    + tauto.
    + exists (Nd (n_seq nd) (n_acks nd - 1) (n_obj nd) (n_done nd)). rewrite upd_same. split; [auto|]. destruct (Nat.eqb_spec (n_acks nd) 1) as [E1|E1].
      * right; left. cbn [n_acks n_done]. split; [lia|]. split; [auto|]. exists (WA a). split; [|split].
        -- simpl. exists r. now rewrite upd_same.
        -- intros [o|b] Hw; [destruct (Hnw (WH o) Hw)|]. simpl in Hw. destruct (Nat.eq_dec b a) as [->|Hne]; auto. rewrite upd_other in Hw by auto. destruct (Hnw (WA b) Hw).
        -- rewrite In_remove1_NoDup by auto. split; [tauto|]. intros (o & E & _). discriminate.
      * left. cbn [n_acks n_done]. split; [lia|]. split; [auto|]. split; [auto|]. intros [o|b] Hw; [exact (Hnw (WH o) Hw)|]. simpl in Hw.
        destruct (Nat.eq_dec b a) as [->|Hne]; [rewrite upd_same in Hw; destruct Hw; discriminate|]. rewrite upd_other in Hw by auto. exact (Hnw (WA b) Hw).
Qed.

(** detach() completes a post *)
Lemma ki_det_complete (k : kst T) st s a r p nd : KI T k st s -> g_det (k_ag k a) = Some (r, Some p) -> k_nd k p = Some nd ->
  n_done nd = false /\
  KI T (with_ag (with_nd k p (Nd (n_seq nd) (n_acks nd) (n_obj nd) true)) a (Ag (g_mech (k_ag k a)) (g_seq (k_ag k a)) (Some (r, None)))) st s.
Proof.
  intros HK Hd Hp. pose proof HK as (K1 & K2 & K3 & K4 & K5 & K6 & K7 & K8).
  assert (Hw : works (k_hd k) (k_ag k) (WA a) p) by (simpl; eauto).
  assert (Hph : n_acks nd = 0 /\ n_done nd = false /\ ~ In p (k_q k) /\ forall w, works (k_hd k) (k_ag k) w p -> w = WA a).
  { destruct K8 as (_ & _ & _ & H4). destruct (H4 p nd Hp) as [(_ & _ & _ & H)|[(A & B & w & C & D & E)|(_ & _ & _ & H)]]; try (destruct (H _ Hw)).
    pose proof (D _ Hw) as E1. subst w. split; [auto|]. split; [auto|]. split; [|auto]. rewrite E. intros (o & E2 & _). discriminate. }
  destruct Hph as (Hak & Hdone & Hnin & Huniq). split; [auto|].
  assert (Hna : ~ In a (sp_att s)) by (intros H; apply K1 in H; destruct H; congruence).
  unfold KI, with_nd, with_q, with_ag. cbn [k_seq k_active k_q k_nd k_pq k_pend k_pnd k_agt k_hd k_ag].
  split; [|split; [eapply g2_upd; eauto|split; [exact K3|split; [|split; [|split; [exact K6|split]]]]]].
  - destruct K1 as (H1 & H2 & H3 & H4 & H5 & H6). split; [auto|]. split; [auto|]. split; [|split; [|split; [|auto]]].
    + intros b. rewrite H3. unfold upd. destruct (Nat.eqb_spec b a) as [->|]; simpl; intuition congruence.
    + intros b. rewrite H4. unfold upd. destruct (Nat.eqb_spec b a) as [->|]; simpl; intuition congruence.
    + intros b. unfold upd. destruct (Nat.eqb_spec b a) as [->|]; simpl; auto. intros _. apply H5. congruence.
  - eapply g4_agent; eauto. intros b _. unfold upd. destruct (Nat.eqb_spec b a) as [->|]; auto.
  - apply (g5_agent _ _ _ _ _ _ _ _ K5); intros b; unfold upd; destruct (Nat.eqb_spec b a) as [->|]; auto; simpl; apply K5.
  - destruct K7 as (H1 & H2 & H3 & H4). split; [|split; [|split]].
    + intros q nq Hq. rewrite (filter_ext _ (ret (k_ag k) (n_seq nq))).
      2:{ intros b. unfold ret, upd. destruct (Nat.eqb_spec b a) as [->|]; auto. simpl. now rewrite Hd. }
      destruct (Nat.eq_dec q p) as [->|Hne].
      * rewrite upd_same in Hq. injection Hq as <-. cbn [n_acks n_seq]. auto.
      * rewrite upd_other in Hq by auto. auto.
    + intros b q Hq. destruct (Nat.eq_dec q p) as [->|Hne]; [rewrite upd_same; discriminate|]. rewrite upd_other by auto. eauto.
    + intros b q Hq. destruct (Nat.eq_dec q p) as [->|Hne]; [rewrite upd_same; discriminate|]. rewrite upd_other by auto. eauto.
    + intros b r' w'. unfold upd. destruct (Nat.eqb_spec b a) as [->|]; simpl; [|eauto]. intros [= <- <-]. eauto.
  - apply (g8_change _ _ _ _ _ _ _ _ p K8); [apply K8| |tauto| |tauto|].
    + intros p' Hne. now rewrite upd_other.
    + intros [o|b] p' Hne; simpl; [tauto|]. unfold upd. destruct (Nat.eqb_spec b a) as [->|]; simpl; [|tauto]. rewrite Hd. split; intros [r' E]; congruence.
    + exists (Nd (n_seq nd) (n_acks nd) (n_obj nd) true). rewrite upd_same. split; [auto|]. right; right. cbn [n_acks n_done]. split; [auto|]. split; [auto|]. split; [auto|].
      intros w Hw'. assert (Hw2 : works (k_hd k) (k_ag k) w p).
      { destruct w as [o|b]; simpl in *; auto. destruct (Nat.eq_dec b a) as [->|Hne]; [rewrite upd_same in Hw'; destruct Hw'; discriminate|]. now rewrite upd_other in Hw' by auto. }
      apply Huniq in Hw2. subst w. simpl in Hw'. rewrite upd_same in Hw'. destruct Hw'. discriminate.
Qed.

(** ** ack() *)
Lemma ki_ack (k : kst T) st s o p nd : KI T k st s -> In (o, p) (sp_held s) -> k_nd k p = Some nd ->
  KI T (with_hd (with_nd k p (Nd (n_seq nd) (n_acks nd - 1) (n_obj nd) (n_done nd))) o (if Nat.eqb (n_acks nd) 1 then HErase p else HEnd p))
     st (sp_step s (EPrim (P := P) (EAck o))).
Proof.
  intros HK Hin Hp. pose proof HK as (K1 & K2 & K3 & K4 & K5 & K6 & K7 & K8).
  destruct (ki_held _ _ _ _ _ HK Hin) as (nd' & Hp' & Hak). assert (nd' = nd) by congruence. subst nd'. clear Hp'.
  destruct (ki_alive _ _ _ _ _ HK Hp Hak) as (Hq & Hdone & Hnw).
  assert (Hho : k_hd k o = HHas p /\ dn (st o) = true) by (apply K6; auto). destruct Hho as [Hho Hdn].
  unfold KI, with_nd, with_hd. cbn [sp_step sp_att sp_det sp_ops sp_busy sp_posts sp_due sp_held k_seq k_active k_q k_nd k_pq k_pend k_pnd k_agt k_hd k_ag].
  set (h := if Nat.eqb (n_acks nd) 1 then HErase p else HEnd p).
  assert (Hh : h <> HNone /\ forall q, h <> HHas q) by (unfold h; destruct (Nat.eqb (n_acks nd) 1); split; try intro; discriminate).
  split; [exact K1|split; [eapply g2_upd; eauto|split; [exact K3|split; [|split; [exact K5|split; [|split]]]]]].
  - intros o'. unfold upd. destruct (Nat.eqb_spec o' o) as [->|Hne]; [|apply K4]. destruct (K4 o) as (A & B & C & D & E & F).
    split; [intros X; destruct (A X) as (_ & _ & _ & Y); congruence|]. split; [intros X Y; congruence|]. split; [intros X; destruct (C X); congruence|].
    split; [auto|]. split; [intros v X Y; congruence|auto].
  - destruct K6 as [H1 H2]. split; [now apply filter_map_fst|]. intros o' q. rewrite filter_In, H2. unfold upd. simpl. destruct (Nat.eqb_spec o' o) as [->|Hne]; simpl.
    + split; [intros [_ H]; discriminate|]. intros [H _]. destruct (proj2 Hh _ H).
    + tauto.
  - destruct K7 as (H1 & H2 & H3 & H4). destruct K6 as [H6 _]. split; [|split; [|split; [|auto]]].
    + intros q nq Hnq. pose proof (filter_held o p q _ H6 Hin) as Hc. destruct (Nat.eq_dec q p) as [->|Hne].
      * rewrite upd_same in Hnq. injection Hnq as <-. cbn [n_acks n_seq]. pose proof (H1 p nd Hp). rewrite Nat.eqb_refl in Hc. lia.
      * rewrite upd_other in Hnq by auto. rewrite (H1 q nq Hnq). destruct (Nat.eqb_spec p q); [congruence|]. lia.
    + intros b q Hb. destruct (Nat.eq_dec q p) as [->|Hne]; [rewrite upd_same; discriminate|]. rewrite upd_other by auto. eauto.
    + intros b q Hb. apply filter_In in Hb. destruct (Nat.eq_dec q p) as [->|Hne]; [rewrite upd_same; discriminate|]. rewrite upd_other by auto. destruct Hb. eauto.
  - apply (g8_change _ _ _ _ _ _ _ _ p K8); [apply K8| |tauto| | |].
    + intros p' Hne. now rewrite upd_other.
    + intros [o'|b] p' Hne; simpl; [|tauto]. unfold upd. destruct (Nat.eqb_spec o' o) as [->|]; [|tauto]. rewrite Hho. unfold h. destruct (Nat.eqb (n_acks nd) 1); intuition congruence.
    + intros w p' Hne. apply erases_ext. intros o'. unfold upd. destruct (Nat.eqb_spec o' o) as [->|]; [|tauto]. rewrite Hho. unfold h. destruct (Nat.eqb (n_acks nd) 1); intuition congruence.
    + exists (Nd (n_seq nd) (n_acks nd - 1) (n_obj nd) (n_done nd)). rewrite upd_same. split; [auto|]. unfold h. destruct (Nat.eqb_spec (n_acks nd) 1) as [E1|E1].
      * right; left. cbn [n_acks n_done]. split; [lia|]. split; [auto|]. exists (WH o). split; [|split].
        -- simpl. rewrite upd_same. auto.
        -- intros [o'|b] Hw; [|destruct (Hnw (WA b) Hw)]. simpl in Hw. destruct (Nat.eq_dec o' o) as [->|Hne]; auto. rewrite upd_other in Hw by auto. destruct (Hnw (WH o') Hw).
        -- split; [|auto]. intros _. exists o. split; [auto|]. apply upd_same.
      * left. cbn [n_acks n_done]. split; [lia|]. split; [auto|]. split; [auto|]. intros [o'|b] Hw; [|exact (Hnw (WA b) Hw)]. simpl in Hw.
        destruct (Nat.eq_dec o' o) as [->|Hne]; [rewrite upd_same in Hw; destruct Hw; discriminate|]. rewrite upd_other in Hw by auto. exact (Hnw (WH o') Hw).
Qed.

(** a handle leaves the state HHas only by ack(), so later changes of its state matter to G8 only *)
Lemma g4_hd st agt pnd hd ag kseq (posts : list (nat * T)) o h : G4 T st agt pnd hd ag kseq posts ->
  hd o <> HNone -> (forall p, hd o <> HHas p) -> h <> HNone -> G4 T st agt pnd (upd hd o h) ag kseq posts.
Proof.
  intros K4 H1 H2 H3 o'. unfold upd. destruct (Nat.eqb_spec o' o) as [->|Hne]; [|apply K4]. destruct (K4 o) as (A & B & C & D & E & F).
  split; [intros X; destruct (A X) as (_ & _ & _ & Y); congruence|]. split; [intros X Y; destruct (B X Y) as (q & x & _ & _ & Z); congruence|].
  split; [intros X; destruct (C X); congruence|]. split; [auto|]. split; [|auto]. intros v X Y. destruct (E v X Y) as (q & _ & Z). destruct (H2 _ Z).
Qed.
Lemma g6_hd st hd held o h : G6 st hd held -> (forall p, hd o <> HHas p) -> (forall p, h <> HHas p) -> G6 st (upd hd o h) held.
Proof.
  intros [H1 H2] Ha Hb. split; auto. intros o' q. rewrite H2. unfold upd. destruct (Nat.eqb_spec o' o) as [->|]; [|tauto]. split; intros [E _]; [destruct (Ha _ E)|destruct (Hb _ E)].
Qed.

Lemma ki_worker (k : kst T) st s o p : KI T k st s -> k_hd k o = HErase p \/ k_hd k o = HComp p ->
  exists nd, k_nd k p = Some nd /\ n_acks nd = 0 /\ n_done nd = false /\ (In p (k_q k) <-> k_hd k o = HErase p) /\
    forall w, works (k_hd k) (k_ag k) w p -> w = WH o.
Proof.
  intros (_ & _ & _ & _ & _ & _ & _ & H1 & H2 & H3 & H4) Ho. assert (Hw : works (k_hd k) (k_ag k) (WH o) p) by (exact Ho).
  destruct (k_nd k p) as [nd|] eqn:E; [|destruct (H3 _ _ Hw E)]. exists nd. split; [auto|].
  destruct (H4 p nd E) as [(_ & _ & _ & H)|[(A & B & w & C & D & F)|(_ & _ & _ & H)]]; try (destruct (H _ Hw)).
  pose proof (D _ Hw) as E1. subst w. split; [auto|]. split; [auto|]. split; [|auto]. rewrite F. unfold erases. split; [intros (o' & [= <-] & E2); auto|eauto].
Qed.

Lemma ki_erase (k : kst T) st s o p : KI T k st s -> k_hd k o = HErase p -> KI T (with_hd (with_q k (remove1 p (k_q k))) o (HComp p)) st s.
Proof.
  intros HK Ho. pose proof HK as (K1 & K2 & K3 & K4 & K5 & K6 & K7 & K8). destruct (ki_worker _ _ _ _ _ HK (or_introl Ho)) as (nd & Hp & Hak & Hdone & _ & Huniq).
  assert (HDq : NoDup (k_q k)) by apply K8.
  unfold KI, with_q, with_hd. cbn [k_seq k_active k_q k_nd k_pq k_pend k_pnd k_agt k_hd k_ag].
  split; [exact K1|split; [exact K2|split; [exact K3|split; [|split; [exact K5|split; [|split; [exact K7|]]]]]]].
  - apply g4_hd; auto; try intro; congruence.
  - apply g6_hd; auto; intro; congruence.
  - apply (g8_change _ _ _ _ _ _ _ _ p K8); [now apply NoDup_remove1|auto| | | |].
    + intros p' Hne. rewrite In_remove1_NoDup by auto. tauto.
    + intros [o'|b] p' Hne; simpl; [|tauto]. unfold upd. destruct (Nat.eqb_spec o' o) as [->|]; [|tauto]. rewrite Ho. intuition congruence.
    + intros w p' Hne. apply erases_ext. intros o'. unfold upd. destruct (Nat.eqb_spec o' o) as [->|]; [|tauto]. rewrite Ho. intuition congruence.
    + exists nd. split; [auto|]. right; left. split; [auto|]. split; [auto|]. exists (WH o). split; [simpl; rewrite upd_same; auto|]. split.
      * intros w Hw. destruct w as [o'|b]; [|apply Huniq; exact Hw]. destruct (Nat.eq_dec o' o) as [->|Hne]; auto. apply Huniq. simpl in *. now rewrite upd_other in Hw by auto.
      * rewrite In_remove1_NoDup by auto. split; [tauto|]. intros (o' & [= <-] & E). rewrite upd_same in E. discriminate.
Qed.

Lemma ki_comp (k : kst T) st s o p nd : KI T k st s -> k_hd k o = HComp p -> k_nd k p = Some nd ->
  KI T (with_hd (with_nd k p (Nd (n_seq nd) (n_acks nd) (n_obj nd) true)) o (HEnd p)) st s.
Proof.
  intros HK Ho Hp. pose proof HK as (K1 & K2 & K3 & K4 & K5 & K6 & K7 & K8). destruct (ki_worker _ _ _ _ _ HK (or_intror Ho)) as (nd' & Hp' & Hak & Hdone & Hq & Huniq).
  assert (nd' = nd) by congruence. subst nd'. clear Hp'.
  unfold KI, with_nd, with_hd. cbn [k_seq k_active k_q k_nd k_pq k_pend k_pnd k_agt k_hd k_ag].
  split; [exact K1|split; [eapply g2_upd; eauto|split; [exact K3|split; [|split; [exact K5|split; [|split]]]]]].
  - apply g4_hd; auto; try intro; congruence.
  - apply g6_hd; auto; intro; congruence.
  - destruct K7 as (H1 & H2 & H3 & H4). split; [|split; [|split; [|auto]]].
    + intros q nq Hq'. destruct (Nat.eq_dec q p) as [->|Hne].
      * rewrite upd_same in Hq'. injection Hq' as <-. cbn [n_acks n_seq]. auto.
      * rewrite upd_other in Hq' by auto. auto.
    + intros b q Hb. destruct (Nat.eq_dec q p) as [->|Hne]; [rewrite upd_same; discriminate|]. rewrite upd_other by auto. eauto.
    + intros b q Hb. destruct (Nat.eq_dec q p) as [->|Hne]; [rewrite upd_same; discriminate|]. rewrite upd_other by auto. eauto.
  - apply (g8_change _ _ _ _ _ _ _ _ p K8); [apply K8| |tauto| | |].
    + intros p' Hne. now rewrite upd_other.
    + intros [o'|b] p' Hne; simpl; [|tauto]. unfold upd. destruct (Nat.eqb_spec o' o) as [->|]; [|tauto]. rewrite Ho. intuition congruence.
    + intros w p' Hne. apply erases_ext. intros o'. unfold upd. destruct (Nat.eqb_spec o' o) as [->|]; [|tauto]. rewrite Ho. intuition congruence.
    + exists (Nd (n_seq nd) (n_acks nd) (n_obj nd) true). rewrite upd_same. split; [auto|]. right; right. cbn [n_acks n_done]. split; [auto|]. split; [auto|].
      split; [rewrite Hq; congruence|]. intros w Hw. destruct w as [o'|b]; [|specialize (Huniq (WA b) Hw); discriminate]. destruct (Nat.eq_dec o' o) as [->|Hne].
      * simpl in Hw. rewrite upd_same in Hw. destruct Hw; discriminate.
      * simpl in Hw. rewrite upd_other in Hw by auto. specialize (Huniq (WH o') Hw). congruence.
Qed.

(** ** post() *)
Lemma g2_snoc (nds : nat -> option (node T)) kseq posts p x n d : G2 T nds kseq posts -> nds p = None ->
  G2 T (upd nds p (Some (Nd kseq n x d))) (kseq + 1) (posts ++ [(p, x)]).
Proof.
  intros (H & H') Hp. split; [rewrite app_length; simpl; lia|]. intros i q y. destruct (Nat.eq_dec i kseq) as [->|Hne].
  - rewrite <- H, nth_snoc. split.
    + intros [= <- <-]. exists (Nd (length posts) n x d). rewrite upd_same. auto.
    + intros (nd & E1 & E2 & E3). destruct (Nat.eq_dec q p) as [->|Hq].
      * rewrite upd_same in E1. injection E1 as <-. simpl in E3. congruence.
      * rewrite upd_other in E1 by auto. exfalso. assert (E : nth_error posts (n_seq nd) = Some (q, n_obj nd)) by (apply H'; eauto). rewrite E2 in E.
        assert (length posts < length posts) by (apply nth_error_Some; congruence). lia.
  - destruct (le_lt_dec kseq i) as [Hle|Hlt].
    + replace (nth_error (posts ++ [(p, x)]) i) with (@None (nat * T)) by (symmetry; apply nth_error_None; rewrite app_length; simpl; lia).
      split; [discriminate|]. intros (nd & E1 & E2 & E3). exfalso. destruct (Nat.eq_dec q p) as [->|Hq].
      * rewrite upd_same in E1. injection E1 as <-. simpl in E2. congruence.
      * rewrite upd_other in E1 by auto. assert (E : nth_error posts (n_seq nd) = Some (q, n_obj nd)) by (apply H'; eauto). rewrite E2 in E.
        assert (i < length posts) by (apply nth_error_Some; congruence). lia.
    + rewrite nth_error_app1 by lia. rewrite H'. destruct (Nat.eq_dec q p) as [->|Hq].
      * rewrite upd_same, Hp. split; [intros (nd & E & _); discriminate|]. intros (nd & [= <-] & E & _). simpl in E. congruence.
      * rewrite upd_other by auto. tauto.
Qed.
Lemma ret_old (k : kst T) (s : @sp T) : G7 T (k_nd k) (k_ag k) (k_seq k) (sp_due s) (sp_held s) (sp_det s) -> forall a, ret (k_ag k) (k_seq k) a = false.
Proof.
  intros (_ & _ & _ & H4) a. unfold ret. destruct (g_det (k_ag k a)) as [[r w]|] eqn:E; auto. destruct (H4 _ _ _ E).
  destruct (Nat.ltb_spec (k_seq k) r); [lia|]. apply andb_false_r.
Qed.
Lemma filter_none {A} (f : A -> bool) l : (forall x, f x = false) -> filter f l = [].
Proof. intros H. induction l as [|x l IH]; simpl; auto. now rewrite H. Qed.
Lemma cp_none (k : kst T) (s : @sp T) p : G7 T (k_nd k) (k_ag k) (k_seq k) (sp_due s) (sp_held s) (sp_det s) -> k_nd k p = None -> cp p (sp_due s) = 0 /\ cp p (sp_held s) = 0.
Proof.
  intros (_ & H2 & H3 & _) Hp. split.
  - destruct (cp p (sp_due s)) eqn:E; auto. assert (Hc : cp p (sp_due s) > 0) by lia. apply cp_pos in Hc. destruct Hc as [a Ha]. destruct (H2 _ _ Ha Hp).
  - destruct (cp p (sp_held s)) eqn:E; auto. assert (Hc : cp p (sp_held s) > 0) by lia. apply cp_pos in Hc. destruct Hc as [a Ha]. destruct (H3 _ _ Ha Hp).
Qed.

(** without agents *)
Lemma ki_post0 (k : kst T) st s p x : KI T k st s -> k_nd k p = None -> k_active k = 0 ->
  KI T (KS (k_seq k + 1) 0 (k_q k) (upd (k_nd k) p (Some (Nd (k_seq k) 0 x true))) (k_pq k) (k_pend k) (k_pnd k) (k_agt k) (k_hd k) (k_ag k))
     st (sp_step (sp_step s (EPrim (P := P) (EPost p x))) (EPrim (P := P) (EPostDone p))).
Proof.
  intros (K1 & K2 & K3 & K4 & K5 & K6 & K7 & K8) Hp Hact. assert (Hatt : sp_att s = []) by (destruct K1 as (_ & _ & _ & _ & _ & H); rewrite Hact in H; destruct (sp_att s); [auto|discriminate]).
  assert (Hna : forall o a, ~ act st (sp_ops s) o a) by (intros o a H; apply (proj2 (proj2 (proj2 (proj2 (proj2 K3))))) in H; rewrite Hatt in H; exact H).
  unfold KI. cbn [sp_step sp_att sp_det sp_ops sp_busy sp_posts sp_due sp_held k_seq k_active k_q k_nd k_pq k_pend k_pnd k_agt k_hd k_ag].
  rewrite Hatt in *. cbn [map]. rewrite app_nil_r.
  split; [now rewrite <- Hact|split; [now apply g2_snoc|split; [exact K3|split; [|split; [|split; [exact K6|split]]]]]].
  - intros o. destruct (K4 o) as (A & B & C & D & E & F). split; [|split; [|auto]].
    + intros X. exfalso. destruct (A X) as (Y & _). apply (Hna o (k_agt k o)). split; auto. apply (node_known _ _ _ _ _ _ K3). left. congruence.
    + intros X Y. exfalso. apply (Hna o (k_agt k o)). split; auto. apply (node_known _ _ _ _ _ _ K3). left. congruence.
  - intros a. destruct (K5 a) as (H1 & H2 & H3). split; [intros X; specialize (H1 X); lia|]. split; [intros []|auto].
  - pose proof (ret_old _ _ K7) as Hro. destruct (cp_none _ _ _ K7 Hp) as [Hc1 Hc2]. destruct K7 as (H1 & H2 & H3 & H4). split; [|split; [|split]].
    + intros q nq Hq. destruct (Nat.eq_dec q p) as [->|Hne].
      * rewrite upd_same in Hq. injection Hq as <-. cbn [n_acks n_seq]. rewrite Hc1, Hc2, filter_none by auto. reflexivity.
      * rewrite upd_other in Hq by auto. auto.
    + intros b q Hq. destruct (Nat.eq_dec q p) as [->|Hne]; [rewrite upd_same; discriminate|]. rewrite upd_other by auto. eauto.
    + intros b q Hq. destruct (Nat.eq_dec q p) as [->|Hne]; [rewrite upd_same; discriminate|]. rewrite upd_other by auto. eauto.
    + intros b r w Hd. destruct (H4 _ _ _ Hd). lia.
  - pose proof K8 as (H1 & H2 & H3 & H4). apply (g8_change _ _ _ _ _ _ _ _ p K8); [apply K8| |tauto|tauto|tauto|].
    + intros p' Hne. now rewrite upd_other.
    + exists (Nd (k_seq k) 0 x true). rewrite upd_same. split; [auto|]. right; right. split; [auto|]. split; [auto|].
      split; [intros Hin; exact (H2 _ Hin Hp)|]. intros w Hw. exact (H3 _ _ Hw Hp).
Qed.

(** with agents *)
Lemma ki_post (k : kst T) st st' s p x pend' : KI T k st s -> k_nd k p = None -> k_active k > 0 ->
  (forall o, In o (k_pq k) <-> nd_ (st o) = NQueued) ->
  (forall o, st' o = if memb o (k_pq k) then OS (fa (st o)) NTaken (dn (st o)) else st o) ->
  KI T (KS (k_seq k + 1) (k_active k) (k_q k ++ [p]) (upd (k_nd k) p (Some (Nd (k_seq k) (k_active k) x false))) [] pend'
           (fun o => if memb o (k_pq k) then Some p else k_pnd k o) (k_agt k) (k_hd k) (k_ag k))
     st' (sp_step s (EPrim (P := P) (EPost p x))).
Proof.
  intros HK Hp Hact Hpq Hst. pose proof HK as (K1 & K2 & K3 & K4 & K5 & K6 & K7 & K8).
  assert (Hdn : forall o, dn (st' o) = dn (st o)) by (intros o; rewrite Hst; destruct (memb o (k_pq k)); auto).
  assert (Hfa : forall o, fa (st' o) = fa (st o)) by (intros o; rewrite Hst; destruct (memb o (k_pq k)); auto).
  assert (Hac : forall o a, act st' (sp_ops s) o a <-> act st (sp_ops s) o a) by (intros; unfold act; now rewrite Hdn).
  assert (Hmem : forall o, memb o (k_pq k) = true <-> nd_ (st o) = NQueued) by (intros o; now rewrite memb_In).
  assert (HDatt : NoDup (sp_att s)) by apply K1.
  unfold KI. cbn [sp_step sp_att sp_det sp_ops sp_busy sp_posts sp_due sp_held k_seq k_active k_q k_nd k_pq k_pend k_pnd k_agt k_hd k_ag].
  split; [exact K1|split; [now apply g2_snoc|split; [|split; [|split; [|split; [|split]]]]]].
  - destruct K3 as (H1 & H2 & H3 & H4 & H5 & H6). split; [auto|]. split; [|split; [auto|split; [|split]]].
    + intros o E. rewrite Hst. pose proof (H2 _ E) as E'. destruct (memb o (k_pq k)) eqn:Em; auto. apply Hmem in Em. rewrite E' in Em. discriminate.
    + intros a. rewrite H4. split; intros [o H]; exists o; now apply Hac.
    + intros o1 o2 a. rewrite !Hac. eauto.
    + intros o a. rewrite Hac. eauto.
  - intros o. rewrite Hst. destruct (K4 o) as (A & B & C & D & E & F). destruct (memb o (k_pq k)) eqn:Em.
    + apply Hmem in Em. destruct (A Em) as (A1 & A2 & A3 & A4). simpl. split; [discriminate|]. split; [|split; [discriminate|split; [auto|split; [auto|]]]].
      * intros _ _. exists p, x. split; [auto|]. split; [|auto]. rewrite A2. destruct K2 as [<- _]. apply nth_snoc.
      * intros X. specialize (F X). congruence.
    + split; [|split; [|split; [exact C|split; [exact D|split; [exact E|exact F]]]]].
      * intros X. apply Hmem in X. congruence.
      * intros X Y. destruct (B X Y) as (q & y & B1 & B2 & B3). exists q, y. split; [auto|]. split; [|auto]. rewrite nth_error_app1; auto. apply nth_error_Some. congruence.
  - intros a. destruct (K5 a) as (H1 & H2 & H3). split; [intros X; specialize (H1 X); lia|].
    rewrite dl_app, post_dl by auto. split.
    + intros Ha. assert (Hle : g_seq (k_ag k a) <= length (map fst (sp_posts s))).
      { rewrite map_length. destruct K2 as [-> _]. apply H1. apply K1 in Ha. tauto. }
      rewrite (proj2 (memb_In a (sp_att s)) Ha), map_app. simpl. rewrite skipn_snoc by auto. destruct (H2 Ha) as [(E1 & E2)|(o & q & E1 & E2 & E3)].
      * left. rewrite E1. split; auto. intros o Ho. rewrite Hfa. apply E2. now apply Hac.
      * right. exists o, q. rewrite E1, Hfa. split; [auto|]. split; [now apply Hac|auto].
    + intros Ha. rewrite (H3 Ha). destruct (memb a (sp_att s)) eqn:Em; auto. apply memb_In in Em. contradiction.
  - destruct K6 as [H1 H2]. split; auto. intros o q. rewrite H2, Hdn. tauto.
  - pose proof (ret_old _ _ K7) as Hro. destruct (cp_none _ _ _ K7 Hp) as [Hc1 Hc2]. destruct K7 as (H1 & H2 & H3 & H4). split; [|split; [|split]].
    + intros q nq Hq. rewrite cp_app, post_cp. destruct (Nat.eq_dec q p) as [->|Hne].
      * rewrite upd_same in Hq. injection Hq as <-. cbn [n_acks n_seq]. rewrite Hc1, Hc2, filter_none, Nat.eqb_refl by auto. destruct K1 as (_ & _ & _ & _ & _ & ->). simpl. lia.
      * rewrite upd_other in Hq by auto. rewrite (H1 q nq Hq). destruct (Nat.eqb_spec p q); [congruence|]. lia.
    + intros b q Hq. destruct (Nat.eq_dec q p) as [->|Hne]; [rewrite upd_same; discriminate|]. rewrite upd_other by auto. apply in_app_iff in Hq. destruct Hq as [Hq|Hq]; [eauto|].
      apply in_map_iff in Hq. destruct Hq as (c & E & _). congruence.
    + intros b q Hq. destruct (Nat.eq_dec q p) as [->|Hne]; [rewrite upd_same; discriminate|]. rewrite upd_other by auto. eauto.
    + intros b r w Hd. destruct (H4 _ _ _ Hd). lia.
  - pose proof K8 as (H1 & H2 & H3 & H4). apply (g8_change _ _ _ _ _ _ _ _ p K8).
    + apply NoDup_snoc; auto. intros Hin. exact (H2 _ Hin Hp).
    + intros p' Hne. now rewrite upd_other.
    + intros p' Hne. rewrite In_snoc. intuition congruence.
    + tauto.
    + tauto.
    + exists (Nd (k_seq k) (k_active k) x false). rewrite upd_same. split; [auto|]. left. cbn [n_acks n_done]. split; [auto|]. split; [apply In_snoc; auto|]. split; [auto|].
      intros w Hw. exact (H3 _ _ Hw Hp).
Qed.

End Steps.
