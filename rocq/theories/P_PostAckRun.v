(** post_ack_mechanism: runs of well-behaved clients *)
From Coq Require Import List Arith Bool Lia.
From Verif Require Import Lts ListFacts M_Wait S_Wait P_Wait M_PostAck S_PostAck P_PostAck P_PostAckInv P_PostAckSteps.
Import ListNotations.

Section Run.
Variable T : Type.
Notation P := (post_ack T).
Notation KI := (KI T).
Notation KR := (KR T).
Notation cdone := (cdone T).
Notation prims := (prims T).

Lemma ki_st_ext (k : kst T) st st' s : KI k st s -> (forall o, st' o = st o) -> KI k st' s.
Proof.
  intros (K1 & K2 & K3 & K4 & K5 & K6 & K7 & K8) He.
  assert (Hac : forall ops o a, act st' ops o a <-> act st ops o a) by (intros; unfold act; now rewrite He).
  split; [exact K1|]. split; [exact K2|]. split; [|split; [|split; [|split; [|split; [exact K7|exact K8]]]]].
  - destruct K3 as (H1 & H2 & H3 & H4 & H5 & H6). split; [auto|]. split; [intros o E; rewrite He; auto|]. split; [auto|]. split; [|split].
    + intros a. rewrite H4. split; intros [o H]; exists o; now apply Hac.
    + intros o1 o2 a. rewrite !Hac. eauto.
    + intros o a. rewrite Hac. eauto.
  - intros o. rewrite He. apply K4.
  - intros a. destruct (K5 a) as (H1 & H2 & H3). split; [auto|]. split; [|auto]. intros Ha. destruct (H2 Ha) as [(E1 & E2)|(o & p & E1 & E2 & E3)].
    + left. split; auto. intros o Ho. rewrite He. apply E2. now apply Hac.
    + right. exists o, p. rewrite He. split; [auto|]. split; [now apply Hac|auto].
  - destruct K6 as [H1 H2]. split; auto. intros o p. rewrite H2, He. tauto.
Qed.

(** ** What a step of the mechanism does *)
Definition compl (p : nat) (es : list (kevent T)) : nat := completions p (prims es).

Definition good (k : kst T) (st : nat -> os) (s : @sp T) (out : prim_out (kst T) (kevent T)) : Prop :=
  match out with
  | PNo => True
  | PFail _ _ => False
  | POk k' taken es => forall st', (forall o, st' o = if memb o taken then OS (fa (st o)) NTaken (dn (st o)) else st o) ->
      KI k' st' (fold_left sp_step (prims es) s) /\ KR k' /\ forall p, cdone k' p = cdone k p + compl p es
  end.

Definition rule (s : @sp T) (l : klabel T) : Prop :=
  match l with
  | KAttach a => call_ok s (EPrim (EAttach a : PE P))
  | KDetach a => call_ok s (EPrim (EDetach a : PE P))
  | KAck o => call_ok s (EPrim (EAck o : PE P))
  | KRead o => call_ok s (EPrim (ERead o None : PE P))
  | _ => True
  end.

Lemma cdone_nd (k k' : kst T) p : k_nd k' = k_nd k -> cdone k' p = cdone k p.
Proof. unfold P_PostAckSteps.cdone. now intros ->. Qed.
Lemma cdone_with (k k' : kst T) p q nd nd' : k_nd k' = upd (k_nd k) q (Some nd') -> k_nd k q = Some nd -> n_done nd' = n_done nd -> cdone k' p = cdone k p.
Proof.
  unfold P_PostAckSteps.cdone. intros -> Hq Hd. unfold upd. destruct (Nat.eqb_spec p q) as [->|]; auto. now rewrite Hq, Hd.
Qed.
Lemma cdone_set (k k' : kst T) p q nd nd' : k_nd k' = upd (k_nd k) q (Some nd') -> k_nd k q = Some nd -> n_done nd = false -> n_done nd' = true ->
  cdone k' p = cdone k p + if Nat.eqb q p then 1 else 0.
Proof.
  unfold P_PostAckSteps.cdone. intros -> Hq Hd Hd'. unfold upd. rewrite (Nat.eqb_sym q p). destruct (Nat.eqb_spec p q) as [->|]; auto. now rewrite Hq, Hd, Hd'.
Qed.

Definition KRx (k : kst T) (a : nat) : Prop := forall b r, b <> a -> g_det (k_ag k b) = Some (r, None) -> g_seq (k_ag k b) < r.

Lemma det_next_good k st s a r es : KI (with_ag k a (Ag (g_mech (k_ag k a)) (g_seq (k_ag k a)) (Some (r, None)))) st s -> KRx k a ->
  exists k' es', det_next k a r es = POk k' [] (es ++ es') /\ KI k' st (fold_left sp_step (prims es') s) /\ KR k' /\
    k_nd k' = k_nd k /\ forall p, compl p es' = 0.
Proof.
  intros HK HR. unfold det_next. destruct (Nat.eqb_spec r (g_seq (k_ag k a))) as [->|Hne].
  - exists (det_end k a), [EDetached a]. split; [auto|]. split; [|split; [|split; [auto|auto]]].
    + assert (H : KI (det_end (with_ag k a (Ag (g_mech (k_ag k a)) (g_seq (k_ag k a)) (Some (g_seq (k_ag k a), None)))) a) st (sp_step s (EPrim (EDetached a : PE P)))).
      { apply ki_det_end; auto. simpl. now rewrite upd_same. }
      apply (ki_ag_ext _ _ (k_ag (det_end k a))) in H; [exact H|]. intros b. simpl. unfold upd. destruct (Nat.eqb_spec b a) as [->|]; auto. rewrite Nat.eqb_refl. reflexivity.
    + intros b r. unfold det_end, with_ag. cbn [k_ag]. unfold upd. destruct (Nat.eqb_spec b a) as [->|Hb]; [discriminate|]. now apply HR.
  - eexists _, []. split; [rewrite app_nil_r; reflexivity|]. split; [exact HK|]. split; [|split; auto].
    intros b r'. unfold with_ag. cbn [k_ag]. unfold upd. destruct (Nat.eqb_spec b a) as [->|Hb]; [|now apply HR]. cbn [g_det g_seq]. intros [= <-].
    destruct HK as (_ & _ & _ & _ & _ & _ & (_ & _ & _ & H4) & _). specialize (H4 a r None). simpl in H4. rewrite upd_same in H4. destruct (H4 eq_refl) as [_ H]. simpl in H. lia.
Qed.

Lemma retire_good k st s a r es : KI k st s -> g_det (k_ag k a) = Some (r, None) -> g_seq (k_ag k a) < r -> KRx k a ->
  exists k' es', retire_one k a r es = POk k' [] (es ++ es') /\ KI k' st (fold_left sp_step (prims es') s) /\ KR k' /\
    (forall p, cdone k' p = cdone k p) /\ forall p, compl p es' = 0.
Proof.
  intros HK Hd Hlt HR. unfold retire_one. rewrite (ki_q_live _ _ _ _ HK). simpl. destruct (ki_retire_find _ _ _ _ _ _ _ HK Hd Hlt) as (p & nd & Hf & Hp & Hs & Hak).
  rewrite Hf, Hp. pose proof (ki_retire _ _ _ _ _ _ _ _ HK Hd Hlt Hp Hs Hak) as HK'.
  destruct (n_acks nd) as [|[|n]] eqn:Hn; [lia| |].
  - eexists _, []. split; [rewrite app_nil_r; reflexivity|]. split; [exact HK'|]. split; [|split; auto].
    + intros b r'. unfold with_ag. cbn [k_ag with_q with_nd]. unfold upd. destruct (Nat.eqb_spec b a) as [->|Hb]; [discriminate|]. now apply HR.
    + intros q. eapply cdone_with; [reflexivity|exact Hp|auto].
  - cbn [Nat.eqb Nat.sub] in HK'. rewrite Hd.
    set (k1 := with_ag (with_nd k p (Nd (n_seq nd) (S n) (n_obj nd) (n_done nd))) a (Ag (g_mech (k_ag k a)) (g_seq (k_ag k a) + 1) (Some (r, None)))).
    destruct (det_next_good k1 st s a r es) as (k' & es' & E1 & E2 & E3 & E4 & E5).
    + assert (H1 : KI k1 st s) by exact HK'.
      apply (ki_ag_ext _ _ (upd (k_ag k1) a (Ag (g_mech (k_ag k1 a)) (g_seq (k_ag k1 a)) (Some (r, None))))) in H1; [exact H1|].
      intros b. unfold k1, with_ag. cbn [k_ag with_nd]. unfold upd. destruct (Nat.eqb_spec b a) as [->|]; auto. rewrite Nat.eqb_refl. reflexivity.
    + intros b r' Hb. unfold k1, with_ag. cbn [k_ag with_nd]. rewrite upd_other by auto. now apply HR.
    + exists k', es'. split; [exact E1|]. split; [auto|]. split; [auto|]. split; [|auto]. intros q. rewrite (cdone_nd _ _ q E4). eapply cdone_with; [reflexivity|exact Hp|auto].
Qed.

Lemma compl_app p es1 es2 : compl p (es1 ++ es2) = compl p es1 + compl p es2.
Proof. unfold compl, completions, P_PostAckSteps.prims. now rewrite map_app, filter_app, app_length. Qed.
Lemma prims_app es1 es2 : prims (es1 ++ es2) = prims es1 ++ prims es2.
Proof. unfold P_PostAckSteps.prims. now rewrite map_app. Qed.

Lemma good_none k st s k' es : KI k' st (fold_left sp_step (prims es) s) -> KR k' -> (forall p, cdone k' p = cdone k p + compl p es) -> good k st s (POk k' [] es).
Proof. intros H1 H2 H3 st' Hst. split; [|auto]. eapply ki_st_ext; eauto. Qed.

Lemma good_det k st s a r : KI k st s -> KR k -> g_det (k_ag k a) = Some (r, None) -> good k st s (retire_one k a r []).
Proof.
  intros HK HR Hd. destruct (retire_good k st s a r [] HK Hd (HR _ _ Hd)) as (k' & es' & -> & E2 & E3 & E4 & E5).
  - intros b r' _ Hb. now apply HR.
  - apply good_none; auto. intros p. rewrite E4. simpl. rewrite E5. lia.
Qed.

Lemma step_good k st s l : KI k st s -> KR k -> (forall o, In o (k_pq k) <-> nd_ (st o) = NQueued) -> k_inv T k -> rule s l -> good k st s (k_step k l).
Proof.
  intros HK HR Hpq (Hq1 & Hq2) Hrule. destruct l as [a|a|a|p x|o|o|o]; simpl in Hrule; simpl k_step.
  - destruct Hrule as [Ha Hd]. pose proof HK as (K1 & _). assert (Hm : g_mech (k_ag k a) = false).
    { destruct (g_mech (k_ag k a)) eqn:E; auto. exfalso. destruct (g_det (k_ag k a)) eqn:E2; [apply Hd, K1; congruence|apply Ha, K1; auto]. }
    rewrite Hm. apply good_none.
    + apply ki_attach; auto.
    + intros b r. unfold with_active, with_ag. cbn [k_ag]. unfold upd. destruct (Nat.eqb_spec b a) as [->|]; [discriminate|]. apply HR.
    + intros p. rewrite <- plus_n_O. now apply cdone_nd.
  - destruct Hrule as [Ha Hb]. pose proof HK as (K1 & _ & _ & _ & K5 & _). assert (Hmd : g_mech (k_ag k a) = true /\ g_det (k_ag k a) = None) by (apply K1; auto).
    destruct Hmd as [Hm Hd]. rewrite Hm, Hd. simpl negb. cbv iota.
    destruct (k_active k) as [|n] eqn:Hn. { destruct K1 as (_ & _ & _ & _ & _ & H). simpl in H. try rewrite Hn in H. destruct (sp_att s); [destruct Ha|discriminate]. }
    pose proof (ki_detach_begin _ _ _ _ _ _ HK Ha Hb Hn) as HK1. set (k1 := with_ag (with_active k n) a (Ag true (g_seq (k_ag k a)) (Some (k_seq k, None)))) in *.
    assert (Hag1 : k_ag k1 a = Ag true (g_seq (k_ag k a)) (Some (k_seq k, None))) by (unfold k1, with_ag; cbn [k_ag]; apply upd_same).
    assert (HR1 : KRx k1 a). { intros b r Hne. unfold k1, with_ag. cbn [k_ag with_active]. rewrite upd_other by auto. apply HR. }
    destruct (Nat.ltb_spec (g_seq (k_ag k a)) (k_seq k)) as [Hlt|Hge].
    + destruct (retire_good k1 st _ a (k_seq k) [EDetach a] HK1) as (k' & es' & -> & E2 & E3 & E4 & E5); try (rewrite Hag1; auto); auto.
      apply good_none; auto. intros q. rewrite E4, compl_app, E5. simpl. rewrite <- plus_n_O. now apply cdone_nd.
    + apply good_none.
      * refine (ki_det_end T k1 st _ a HK1 _). rewrite Hag1. simpl. destruct (K5 a) as (H & _). specialize (H Hm). do 3 f_equal. lia.
      * intros b r. unfold det_end, with_ag. cbn [k_ag]. unfold upd. destruct (Nat.eqb_spec b a) as [->|Hne]; [discriminate|]. now apply HR1.
      * intros q. rewrite <- plus_n_O. now apply cdone_nd.
  - destruct (g_det (k_ag k a)) as [[r [p|]]|] eqn:Hd; [| |exact I].
    + unfold post_complete. destruct (k_nd k p) as [nd|] eqn:Hp.
      2:{ pose proof HK as (_ & _ & _ & _ & _ & _ & _ & (_ & _ & H3 & _)). apply (H3 (WA a) p); auto. simpl. eauto. }
      destruct (ki_det_complete _ _ _ _ _ _ _ _ HK Hd Hp) as [Hdn HK1]. rewrite Hdn.
      destruct (det_next_good (with_nd k p (Nd (n_seq nd) (n_acks nd) (n_obj nd) true)) st s a r [EPostDone p] HK1) as (k' & es' & -> & E2 & E3 & E4 & E5).
      { intros b r' _ Hb. now apply HR. }
      apply good_none; auto. intros q. rewrite compl_app, E5, (cdone_nd _ _ q E4), (cdone_set k (with_nd k p (Nd (n_seq nd) (n_acks nd) (n_obj nd) true)) q p nd _ eq_refl Hp Hdn eq_refl).
      unfold compl, completions. simpl. destruct (Nat.eqb p q); reflexivity.
    + now apply good_det.
  - destruct (k_nd k p) as [nd|] eqn:Hp; [exact I|]. destruct (k_active k) as [|n] eqn:Hn.
    + destruct (k_pq k) as [|o q] eqn:Hq.
      * apply good_none.
        -- rewrite <- Hq. exact (ki_post0 T k st s p x HK Hp Hn).
        -- exact HR.
        -- intros q. unfold P_PostAckSteps.cdone. cbn [k_nd]. unfold compl, completions. simpl. unfold upd. rewrite (Nat.eqb_sym p q). destruct (Nat.eqb_spec q p) as [->|]; [|simpl; lia]. now rewrite Hp.
      * pose proof HK as (K1 & _ & K3 & K4 & _). assert (Hqd : nd_ (st o) = NQueued) by (apply Hpq; now left). destruct (K4 o) as (A & _). destruct (A Hqd) as (A1 & _).
        assert (Hin : In (k_agt k o) (sp_att s)). { apply (proj2 (proj2 (proj2 (proj2 (proj2 K3))))) with o. split; auto. apply (node_known _ _ _ _ _ _ K3). left. congruence. }
        destruct K1 as (_ & _ & _ & _ & _ & H). simpl in H. try rewrite Hn in H. destruct (sp_att s); [destruct Hin|discriminate].
    + rewrite (ki_q_live _ _ _ _ HK). simpl negb. cbv iota.
      replace (existsb (fun o => k_pend k o || match k_pnd k o with Some _ => true | None => false end) (k_pq k)) with false.
      2:{ symmetry. destruct (existsb _ (k_pq k)) eqn:E; auto. apply existsb_exists in E. destruct E as (o & Ho & E). destruct (Hq2 o Ho) as [E1 E2]. rewrite E1, E2 in E. discriminate. }
      intros st' Hst. split; [|split].
      * rewrite <- Hn. refine (ki_post T k st st' s p x _ HK Hp _ Hpq Hst). lia.
      * exact HR.
      * intros q. unfold P_PostAckSteps.cdone. cbn [k_nd]. unfold compl, completions. simpl. rewrite Nat.add_0_r. unfold upd. destruct (Nat.eqb_spec q p) as [->|]; auto. now rewrite Hp.
  - destruct Hrule as [p Hin]. pose proof HK as (_ & _ & _ & _ & _ & K6 & _). assert (Hho : k_hd k o = HHas p) by (apply K6 in Hin; tauto). rewrite Hho.
    destruct (ki_held _ _ _ _ _ _ HK Hin) as (nd & Hp & Hak). rewrite Hp. destruct (ki_alive _ _ _ _ _ _ HK Hp Hak) as (_ & -> & _).
    pose proof (ki_ack _ _ _ _ _ _ _ HK Hin Hp) as HK1. destruct (n_acks nd) as [|n] eqn:En; [lia|]. simpl Nat.sub in HK1. rewrite Nat.sub_0_r in HK1.
    apply good_none.
    + replace (match n with 0 => HErase p | S _ => HEnd p end) with (if Nat.eqb (S n) 1 then HErase p else HEnd p) by (destruct n; reflexivity).
      destruct (ki_alive _ _ _ _ _ _ HK Hp ltac:(lia)) as (_ & Hdn & _). rewrite Hdn in HK1. exact HK1.
    + exact HR.
    + intros q. simpl. rewrite <- plus_n_O. eapply cdone_with; [reflexivity|exact Hp|]. simpl. destruct (ki_alive _ _ _ _ _ _ HK Hp ltac:(lia)) as (_ & -> & _). reflexivity.
  - destruct (k_hd k o) as [|p|p|p|p] eqn:Ho; try exact I.
    + rewrite (ki_q_live _ _ _ _ HK). simpl negb. cbv iota. destruct (ki_worker _ _ _ _ _ _ HK (or_introl Ho)) as (nd & Hp & Hak & Hdn & Hq & _).
      rewrite (proj2 (memb_In p (k_q k)) (proj2 Hq Ho)). apply good_none; [now apply ki_erase|exact HR|]. intros q. rewrite <- plus_n_O. now apply cdone_nd.
    + destruct (ki_worker _ _ _ _ _ _ HK (or_intror Ho)) as (nd & Hp & Hak & Hdn & Hq & _). unfold post_complete. rewrite Hp, Hdn.
      apply good_none; [apply ki_comp; auto|exact HR|]. intros q.
      rewrite (cdone_set k (with_hd (with_nd k p (Nd (n_seq nd) (n_acks nd) (n_obj nd) true)) o (HEnd p)) q p nd _ eq_refl Hp Hdn eq_refl). unfold compl, completions. simpl. destruct (Nat.eqb p q); reflexivity.
  - destruct Hrule as [p Hin]. pose proof HK as (_ & _ & _ & _ & _ & K6 & _). assert (Hho : k_hd k o = HHas p) by (apply K6 in Hin; tauto). rewrite Hho.
    destruct (ki_held _ _ _ _ _ _ HK Hin) as (nd & Hp & Hak). rewrite Hp. destruct (ki_alive _ _ _ _ _ _ HK Hp Hak) as (_ & -> & _).
    apply good_none; auto.
Qed.

(** the client rule for the first event of a step *)
Definition out_events (out : prim_out (kst T) (kevent T)) : option (list (kevent T)) :=
  match out with POk _ _ es => Some es | PFail _ es => Some es | PNo => None end.

Lemma det_next_es k a r es : exists es', out_events (det_next k a r es) = Some (es ++ es').
Proof. unfold det_next. destruct (Nat.eqb r _); eexists; simpl; [reflexivity|]. now rewrite app_nil_r. Qed.
Lemma retire_es k a r es : exists es', out_events (retire_one k a r es) = Some (es ++ es').
Proof.
  assert (Hn : exists es', Some es = Some (es ++ es')) by (exists []; now rewrite app_nil_r).
  unfold retire_one. destruct (negb _); [exact Hn|]. destruct (find_seq _ _); [|exact Hn]. destruct (k_nd k n); [|exact Hn].
  destruct (n_acks _) as [|[|m]]; [exact Hn|exact Hn|]. apply det_next_es.
Qed.

Lemma rule_first k l es s : out_events (k_step k l) = Some es ->
  (forall e es', es = e :: es' -> call_ok (T := T) s (EPrim (e : PE P))) -> rule s l.
Proof.
  intros He Hc. destruct l as [a|a|a|p x|o|o|o]; try exact I.
  - assert (exists es', es = EAttach a :: es') as [es' ->]; [|exact (Hc _ _ eq_refl)].
    simpl in He. destruct (g_mech (k_ag k a)); injection He as <-; eauto.
  - assert (exists es', es = EDetach a :: es') as [es' ->]; [|exact (Hc _ _ eq_refl)].
    simpl in He. destruct (negb (g_mech (k_ag k a))); [injection He as <-; eauto|]. destruct (g_det (k_ag k a)); [discriminate|].
    destruct (k_active k); [injection He as <-; eauto|]. destruct (Nat.ltb (g_seq (k_ag k a)) (k_seq k)); [|injection He as <-; eauto].
    match type of He with out_events (retire_one ?k1 _ _ _) = _ => destruct (retire_es k1 a (k_seq k) [EDetach a]) as [es' E] end.
    rewrite E in He. injection He as <-. simpl. eauto.
  - assert (exists es', es = EAck o :: es') as [es' ->]; [|exact (Hc _ _ eq_refl)].
    simpl in He. destruct (k_hd k o) as [|p|p|p|p]; try (injection He as <-; eauto). destruct (k_nd k p) as [nd|]; [|injection He as <-; eauto].
    destruct (n_done nd); [injection He as <-; eauto|]. destruct (n_acks nd); injection He as <-; eauto.
  - assert (exists v es', es = ERead o v :: es') as (v & es' & ->); [|exact (Hc _ _ eq_refl)].
    simpl in He. destruct (k_hd k o) as [|p|p|p|p]; [injection He as <-; eauto| | | |];
      (destruct (k_nd k p) as [nd|]; [|injection He as <-; eauto]; destruct (n_done nd); injection He as <-; eauto).
Qed.

(** ** The specification along a trace *)
Notation trace := (list (event P)).
Lemma spec_app (t1 t2 : trace) : spec (t1 ++ t2) = fold_left sp_step t2 (spec t1).
Proof. unfold spec. apply fold_left_app. Qed.
Lemma wb_prefix (t1 t2 : trace) : well_behaved (t1 ++ t2) -> well_behaved t1.
Proof. intros H ta e tb ->. apply (H ta e (tb ++ t2)). now rewrite <- app_assoc. Qed.
Lemma wb_first (tr : trace) e es : well_behaved (tr ++ e :: es) -> call_ok (spec tr) e.
Proof. intros H. exact (H tr e es eq_refl). Qed.
Lemma completions_app p (t1 t2 : trace) : completions p (t1 ++ t2) = completions p t1 + completions p t2.
Proof. unfold completions. now rewrite filter_app, app_length. Qed.

Lemma sp_ops_step (s : @sp T) e : map fst (sp_ops (sp_step s e)) = map fst (sp_ops s) ++ starts [e].
Proof.
  destruct e as [o tok a|o v|e|o|[a|a|a|p x|p|o|o v]]; simpl; rewrite ?app_nil_r; auto; [now rewrite map_app|].
  destruct (agent_of o s); auto.
Qed.
Lemma starts_app (t1 t2 : trace) : starts (t1 ++ t2) = starts t1 ++ starts t2.
Proof. induction t1 as [|e t1 IH]; simpl; auto. rewrite IH. destruct e; auto. Qed.
Lemma ops_starts (tr : trace) : map fst (sp_ops (spec tr)) = starts tr.
Proof.
  induction tr as [|e tr IH] using rev_ind; auto. rewrite spec_app, starts_app. simpl fold_left. now rewrite sp_ops_step, IH.
Qed.
Lemma ag_of_none (tr : trace) o : ~ In o (starts tr) -> ag_of (sp_ops (spec tr)) o = None.
Proof.
  rewrite <- ops_starts. unfold ag_of. induction (sp_ops (spec tr)) as [|[b c] l IH]; simpl; auto. intros H. destruct (Nat.eqb_spec b o); [tauto|]. apply IH. tauto.
Qed.

Section Eager.
Variable eager : bool.
Notation cst := (cst P).
Notation step := (step P eager).
Notation JT := (JT P (post_ack_laws T) eager (post_ack_tlaws T)).

Definition view (s : cst) (o : nat) : os := OS (o_fast (c_op s o)) (o_node (c_op s o)) (o_done (c_op s o)).

Definition KInv (s : cst) (tr : trace) : Prop :=
  JT s tr /\ KI (c_prim s) (view s) (spec tr) /\ KR (c_prim s) /\ forall p, completions p tr = cdone (c_prim s) p.

Lemma KInv_init : KInv (c_init P) [].
Proof.
  split; [apply JT_init|]. split; [|split; [intros a r; discriminate|auto]].
  split; [|split; [|split; [|split; [|split; [|split; [|split]]]]]].
  - split; [constructor|]. split; [constructor|]. split; [|split; [|split]]; simpl; try (intros; intuition discriminate); auto.
  - split; auto. intros i p x. simpl. split; [destruct i; discriminate|]. intros (nd & H & _). discriminate.
  - split; [discriminate|]. split; [auto|]. split; [constructor|]. split; [|split]; simpl; [|intros o1 o2 a [H _]; discriminate|intros o a [H _]; discriminate].
    intros a. split; [tauto|]. intros [o [H _]]. discriminate.
  - intros o. simpl. repeat split; intros; congruence.
  - intros a. simpl. split; [discriminate|]. split; [tauto|auto].
  - split; [constructor|]. simpl. intros o p. split; [tauto|]. intros [H _]. discriminate.
  - split; [discriminate|]. split; [simpl; tauto|]. split; [simpl; tauto|]. discriminate.
  - split; [constructor|]. split; [simpl; tauto|]. split; [|discriminate]. intros [o|a] p; simpl; [intros [H|H]; discriminate|intros [r H]; discriminate].
Qed.

Lemma view_stat (s s' : cst) o : stat P (c_op s' o) = stat P (c_op s o) -> view s' o = view s o.
Proof. intros H. apply stat_eq in H. destruct H as (_ & E1 & E2 & E3). unfold view. congruence. Qed.
Lemma view_stat_if (s s' : cst) (r : nat -> bool) (X : nat -> opst P) o : stat P (c_op s' o) = (if r o then stat P (X o) else stat P (c_op s o)) ->
  view s' o = if r o then OS (o_fast (X o)) (o_node (X o)) (o_done (X o)) else view s o.
Proof.
  intros H. destruct (r o); apply stat_eq in H; destruct H as (_ & E1 & E2 & E3); unfold view; congruence.
Qed.

Lemma k_start_q (k k' : kst T) o a es : k_start k o a = SQueued k' es ->
  k' = KS (k_seq k) (k_active k) (k_q k) (k_nd k) (k_pq k ++ [o]) (upd (k_pend k) o false) (upd (k_pnd k) o None) (upd (k_agt k) o a) (k_hd k) (k_ag k) /\
  es = [] /\ k_seq k <= g_seq (k_ag k a).
Proof.
  unfold k_start. destruct (negb _); [discriminate|]. destruct (Nat.ltb_spec (g_seq (k_ag k a)) (k_seq k)).
  - destruct (negb _); [discriminate|]. destruct (find_seq _ _); discriminate.
  - intros [= <- <-]. auto.
Qed.
Lemma k_start_f (k k' : kst T) o a v es : k_start k o a = SFast k' v es ->
  exists p, find_seq k (g_seq (k_ag k a)) = Some p /\ g_seq (k_ag k a) < k_seq k /\ v = Some p /\ es = [] /\
  k' = KS (k_seq k) (k_active k) (k_q k) (k_nd k) (k_pq k) (upd (k_pend k) o true) (upd (k_pnd k) o (Some p)) (upd (k_agt k) o a) (upd (k_hd k) o (HHas p))
         (upd (k_ag k) a (Ag (g_mech (k_ag k a)) (g_seq (k_ag k a) + 1) (g_det (k_ag k a)))).
Proof.
  unfold k_start. destruct (negb _); [discriminate|]. destruct (Nat.ltb_spec (g_seq (k_ag k a)) (k_seq k)).
  - destruct (negb _); [discriminate|]. destruct (find_seq _ _) as [p|]; [|discriminate]. intros [= <- <- <-]. exists p. auto.
  - discriminate.
Qed.

(** what the specification state is when a poll reports post [p] *)
Definition reports (s : @sp T) (o : nat) (v : option nat) : Prop :=
  forall p, v = Some p -> exists a later, agent_of o s = Some a /\ due_of a s = p :: later.

Lemma KInv_step_strong s tr l s' es : KInv s tr -> step s l = Next s' es -> well_behaved (tr ++ es) ->
  KInv s' (tr ++ es) /\ forall o v es', es = EDone (P := P) o v :: es' -> reports (spec tr) o v.
Proof.
  intros (HJT & HK & HR & HC) Hs HW.
  pose proof (JT_step _ _ _ _ _ _ _ _ _ HJT Hs) as HJT'.
  pose proof (JT_reliable _ _ _ _ _ _ HJT) as Hrel. pose proof HJT as [[HG HTI] HTK]. pose proof HTI as (_ & HS & _).
  pose proof HG as (_ & _ & (HI & HQ) & _).
  pose proof (step_effect _ _ _ _ _ _ _ HG Hrel Hs) as He. unfold KInv. rewrite spec_app.
  assert (Hfirst : forall e es', es = e :: es' -> call_ok (spec tr) e) by (intros e es' ->; eapply wb_first; eauto).
  clear Hs HW.
  destruct He as [s' o tok a pes Hl Hn Hd Hp Hst|s' o tok a v pes Hl Hn Hd Hp Hst|s' o es Hp|s' es Hp Hst Hes|s' pl taken pes Hp Htk Hst].
  - split; [|intros; discriminate]. split; [exact HJT'|]. destruct (k_start_q _ _ _ _ _ Hp) as (E1 & -> & E2). simpl fold_left. destruct (Hfirst _ _ eq_refl) as [Ha Hb].
    assert (Hno : ag_of (sp_ops (spec tr)) o = None) by (apply ag_of_none; rewrite <- HS; tauto).
    assert (Hv : forall o', view s' o' = if Nat.eqb o' o then OS None NQueued false else view s o').
    { intros o'. specialize (Hst o'). destruct (Nat.eqb o' o); [apply stat_inv in Hst; destruct Hst as (_ & X1 & X2 & X3); unfold view; rewrite X1, X2, X3; reflexivity|now apply view_stat]. }
    rewrite E1. split; [exact (ki_start_q _ _ _ _ _ _ _ tok HK Hno Ha Hb Hv E2)|]. split; [exact HR|]. intros p. rewrite completions_app, HC. simpl. rewrite Nat.add_0_r. reflexivity.
  - split; [|intros; discriminate]. split; [exact HJT'|]. destruct (k_start_f _ _ _ _ _ _ Hp) as (p & E1 & E2 & -> & -> & E3). simpl fold_left. destruct (Hfirst _ _ eq_refl) as [Ha Hb].
    assert (Hno : ag_of (sp_ops (spec tr)) o = None) by (apply ag_of_none; rewrite <- HS; tauto).
    destruct (ki_next _ _ _ _ _ HK Ha Hb E2) as (p' & x & Hx & E4). assert (p' = p) by congruence. subst p'.
    assert (Hv : forall o', view s' o' = if Nat.eqb o' o then OS (Some (Some p)) NFresh false else view s o').
    { intros o'. specialize (Hst o'). destruct (Nat.eqb o' o); [apply stat_inv in Hst; destruct Hst as (_ & X1 & X2 & X3); unfold view; rewrite X1, X2, X3; reflexivity|now apply view_stat]. }
    rewrite E3. split; [exact (ki_start_f _ _ _ _ _ _ _ tok _ _ HK Hno Ha Hb Hv Hx)|]. split.
    + intros b r. cbn [k_ag]. unfold upd. destruct (Nat.eqb_spec b a) as [->|]; [|apply HR]. simpl. intros X. exfalso. pose proof HK as (K1 & _). apply K1 in Ha. destruct Ha. congruence.
    + intros q. rewrite completions_app, HC. simpl. rewrite Nat.add_0_r. reflexivity.
  - destruct Hp as [s' Hp Hst|s' e Hn Htok Hreq Hp Hst|s' v Hf Hn Hd Hp Hst|s' v Hn Hd Hp Hst].
    + split; [|intros; discriminate]. split; [exact HJT'|]. rewrite app_nil_r, Hp. simpl fold_left. split; [|auto]. eapply ki_st_ext; eauto. intros o'. apply view_stat, Hst.
    + split; [|intros; discriminate]. split; [exact HJT'|]. rewrite app_nil_r. simpl fold_left.
      assert (Hv : forall o', view s' o' = if Nat.eqb o' o then OS (fa (view s o)) NCancelled (dn (view s o)) else view s o').
      { intros o'. exact (view_stat_if s s' (fun o' => Nat.eqb o' o) (fun _ => set_node NCancelled (c_op s o)) o' (Hst o')). }
      simpl in Hp. unfold k_try in Hp. destruct (k_pend (c_prim s) o); [discriminate|]. destruct (k_pnd (c_prim s) o); [discriminate|].
      destruct (memb o (k_pq (c_prim s))); [|discriminate]. injection Hp as Hp. rewrite <- Hp. split; [exact (ki_try _ _ _ _ _ _ HK Hn Hv)|]. split; [exact HR|exact HC].
    + simpl p_fast in *. simpl fold_left. rewrite Hp.
      assert (Hv : forall o', view s' o' = if Nat.eqb o' o then OS (fa (view s o)) (nd_ (view s o)) true else view s o').
      { intros o'. exact (view_stat_if s s' (fun o' => Nat.eqb o' o) (fun _ => set_done (c_op s o)) o' (Hst o')). }
      destruct (ki_done_fast _ _ _ _ _ _ _ HK Hf Hd Hv) as (p & later & E1 & E2 & E3 & E4). split.
      * split; [exact HJT'|]. split; [exact E4|]. split; [exact HR|]. intros q. rewrite completions_app, HC. simpl. apply Nat.add_0_r.
      * intros o' v' es' [= <- <- _] q Hq. exists (k_agt (c_prim s) o), later. split; [exact E2|]. congruence.
    + simpl fold_left.
      assert (Hv : forall o', view s' o' = if Nat.eqb o' o then OS (fa (view s o)) (nd_ (view s o)) true else view s o').
      { intros o'. exact (view_stat_if s s' (fun o' => Nat.eqb o' o) (fun _ => set_done (c_op s o)) o' (Hst o')). }
      simpl in Hp. unfold k_resume in Hp. destruct (k_pnd (c_prim s) o) as [p|] eqn:Hpn; injection Hp as Hp <-.
      * destruct (ki_resume_some _ _ _ _ _ _ _ HK Hn Hd Hv Hpn) as (later & E2 & E3 & E4). rewrite <- Hp. split.
        -- split; [exact HJT'|]. split; [exact E4|]. split.
           ++ intros b r. unfold with_hd, with_ag. cbn [k_ag]. unfold upd. destruct (Nat.eqb_spec b (k_agt (c_prim s) o)) as [->|]; [|apply HR]. simpl. intros X. exfalso.
              pose proof HK as (K1 & _ & K3 & _). assert (Hin : In (k_agt (c_prim s) o) (sp_att (spec tr))).
              { apply (proj2 (proj2 (proj2 (proj2 (proj2 K3))))) with o. split; auto. }
              apply K1 in Hin. destruct Hin. congruence.
           ++ intros q. rewrite completions_app, HC. simpl. apply Nat.add_0_r.
        -- intros o' v' es' [= <- <- _] q [= <-]. exists (k_agt (c_prim s) o), later. auto.
      * rewrite <- Hp. split; [|intros o' v' es' [= <- <- _] q; discriminate].
        split; [exact HJT'|]. split; [exact (ki_resume_none _ _ _ _ _ _ HK Hn Hd Hv Hpn)|]. split; [exact HR|]. intros q. rewrite completions_app, HC. simpl. apply Nat.add_0_r.
  - assert (Hsp : fold_left sp_step es (spec tr) = spec tr) by (destruct Hes as [->|[[o ->]|[e ->]]]; reflexivity).
    assert (Hco : forall q, completions q es = 0) by (intros q; destruct Hes as [->|[[o ->]|[e ->]]]; reflexivity).
    split; [|destruct Hes as [->|[[o ->]|[e ->]]]; discriminate].
    split; [exact HJT'|]. rewrite Hsp, Hp. split; [eapply ki_st_ext; eauto; intros o'; apply view_stat, Hst|]. split; [exact HR|].
    intros q. rewrite completions_app, HC, Hco. apply Nat.add_0_r.
  - split.
    2:{ intros o v es' E. destruct pes; discriminate. }
    split; [exact HJT'|]. assert (Hrl : rule (spec tr) pl).
    { apply (rule_first (c_prim s) pl pes); [simpl in Hp; now rewrite Hp|]. intros e es' ->. exact (Hfirst _ _ eq_refl). }
    pose proof (step_good _ _ _ _ HK HR HQ HI Hrl) as Hg. simpl in Hp. rewrite Hp in Hg. simpl in Hg.
    destruct (Hg (view s')) as (E1 & E2 & E3).
    { intros o. exact (view_stat_if s s' (fun o => memb o taken) (fun o => set_node NTaken (c_op s o)) o (Hst o)). }
    split; [exact E1|]. split; [exact E2|]. intros q. rewrite completions_app, HC, E3. reflexivity.
Qed.

Lemma KInv_step s tr l s' es : KInv s tr -> step s l = Next s' es -> well_behaved (tr ++ es) -> KInv s' (tr ++ es).
Proof. intros H1 H2 H3. exact (proj1 (KInv_step_strong s tr l s' es H1 H2 H3)). Qed.

Lemma k_inv_run ls s tr : run step (c_init P) ls = Running s tr -> well_behaved tr -> KInv s tr.
Proof. exact (run_inv_client step well_behaved KInv (c_init P) wb_prefix KInv_init KInv_step ls s tr). Qed.

End Eager.
End Run.
