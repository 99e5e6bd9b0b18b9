(** The weak-memory models of oneshot_primitive and mutex have no executions beyond the interleavings: C96. *)
From Coq Require Import List Arith Bool Lia.
From Verif Require Import Lts ListFacts M_Mutex S_Mutex P_Mutex M_Weak M_OneshotPrim S_OneshotPrim P_OneshotPrim M_MutexW S_MutexW P_MutexW M_OneshotW S_OneshotW P_OneshotW S_Robust.
Import ListNotations.

(** ** Several steps *)
Section Go.
Context {S L E : Type}.
Variable step : S -> L -> outcome S E.
Definition go (t : S) (ls : list L) (t' : S) (es : list E) : Prop := forall tr, run_from step t tr ls = Running t' (tr ++ es).
Lemma go_nil t : go t [] t [].
Proof. intros tr. simpl. now rewrite app_nil_r. Qed.
Lemma go_cons t l t1 e1 ls t2 e2 : step t l = Next t1 e1 -> go t1 ls t2 e2 -> go t (l :: ls) t2 (e1 ++ e2).
Proof. intros H G tr. simpl. rewrite H, G, app_assoc. reflexivity. Qed.
Lemma go_one t l t1 e1 : step t l = Next t1 e1 -> go t [l] t1 e1.
Proof. intros H. rewrite <- (app_nil_r e1). apply (go_cons _ _ _ _ _ _ _ H). apply go_nil. Qed.
Lemma go_app t l1 t1 e1 l2 t2 e2 : go t l1 t1 e1 -> go t1 l2 t2 e2 -> go t (l1 ++ l2) t2 (e1 ++ e2).
Proof. intros H G tr. rewrite run_from_app, H, G, app_assoc. reflexivity. Qed.
Lemma go_run init ls t tr ls' t' es : run step init ls = Running t tr -> go t ls' t' es -> run step init (ls ++ ls') = Running t' (tr ++ es).
Proof. intros H G. unfold run in *. rewrite run_from_app, H. apply G. Qed.
End Go.

(** ** oneshot_primitive *)
Section Oneshot.
Variable c_acq : bool.
Notation qstep := (q_step true true c_acq true true true).

(** start() is delayed until its last access to state_ *)
Definition sq (p : qact * view) : dact :=
  match fst p with QLoad o | QLoop o _ => DLoad o | QRead p => DRead p | QCompl o p => DCompl o p | QEnd => DEnd end.
Record OR (s : qst) (t : dst) : Prop := {
  or_st : d_st t = q_last (q_h s);
  or_dead : d_dead t = false;
  or_op : forall o, d_op t o = q_op s o;
  or_act : d_act t = map sq (q_act s);
  or_next : forall o, q_op s o = OStarted -> ~ In o (flat_map qops (q_act s)) -> d_next t o = q_next s o }.

Lemma or_nth s t k a v : OR s t -> nth_error (q_act s) k = Some (a, v) -> nth_error (d_act t) k = Some (sq (a, v)).
Proof. intros R H. rewrite (or_act _ _ R), nth_error_map, H. reflexivity. Qed.
Lemma or_alive s t o : OR s t -> alive (d_op t) o = alive (q_op s) o.
Proof. intros R. unfold alive. now rewrite (or_op _ _ R). Qed.
Lemma not_in_set l k a v a' v' o : nth_error l k = Some (a, v) ->
  ~ In o (qops (a, v)) -> ~ In o (flat_map qops (set_nth l k (a', v'))) -> ~ In o (flat_map qops l).
Proof.
  intros Hk Hn H Hin. apply H. apply in_flat_map in Hin as (b & Hb & Ho). apply In_nth_error in Hb as [j Hj]. apply in_flat_map. exists b. split; [|exact Ho].
  destruct (Nat.eq_dec j k) as [->|Hne]; [rewrite Hk in Hj; injection Hj as <-; destruct (Hn Ho)|]. apply (nth_error_In _ j). rewrite nth_error_set_nth_other; auto.
Qed.
Lemma set_nth_set_nth {A} (l : list A) k x y : set_nth (set_nth l k x) k y = set_nth l k y.
Proof. revert k. induction l as [|a l IH]; intros [|k]; simpl; try reflexivity. now rewrite IH. Qed.
Lemma set_nth_snoc {A} (l : list A) x y : set_nth (l ++ [x]) (length l) y = l ++ [y].
Proof. induction l as [|a l IH]; simpl; [reflexivity|now rewrite IH]. Qed.
Lemma set_nth_nth {A} (l : list A) k x : nth_error l k = Some x -> set_nth l k x = l.
Proof. revert k. induction l as [|a l IH]; intros [|k] H; simpl in *; try discriminate; [now injection H as ->|now rewrite IH]. Qed.
Lemma fm_eq l k a v a' v' : nth_error l k = Some (a, v) -> qops (a', v') = qops (a, v) -> flat_map qops (set_nth l k (a', v')) = flat_map qops l.
Proof. revert k. induction l as [|b l IH]; intros [|k] H E; simpl in *; try discriminate; [injection H as ->; now rewrite E|now rewrite (IH k H E)]. Qed.

Lemma OR_step s tr l s' es t : QX s tr -> OR s t -> qstep s l = Next s' es -> exists ls' t', go d_step t ls' t' (map sc_ev es) /\ OR s' t'.
Proof.
  intros (lk & lr & J) R H. destruct l as [o v|v|k i spur]; cbn [q_step] in H.
  - destruct (q_op s o) eqn:Ho; try discriminate. destruct (v_ts v <? length (q_h s)); [|discriminate]. injection H as <- <-.
    exists [DStart o]. eexists. split.
    + apply go_one. cbn [d_step]. rewrite (or_op _ _ R), Ho. reflexivity.
    + split; simpl; try apply R.
      * intros x. unfold upd. destruct (x =? o); [reflexivity|apply R].
      * rewrite map_app, (or_act _ _ R). reflexivity.
      * intros x Hx Hn. rewrite flat_map_app in Hn. apply R; [|intros Hin; apply Hn; apply in_or_app; auto].
        unfold upd in Hx. destruct (Nat.eqb_spec x o) as [E|E]; [|exact Hx]. destruct Hn. apply in_or_app. right. left. auto.
  - destruct (v_ts v <? length (q_h s)); [|discriminate]. destruct (q_last (q_h s)) as [p|] eqn:El; [|discriminate]. injection H as <- <-.
    exists [DRaiseCall; DStep (length (d_act t)) false]. eexists. split.
    + change (map sc_ev [QERaise (q_acc s)]) with ([VRaise] ++ []). eapply go_cons; [reflexivity|]. apply go_one. cbn [d_step d_act]. rewrite nth_error_app2, Nat.sub_diag by auto. cbn [nth_error dact_step d_dead d_st].
      rewrite (or_dead _ _ R), (or_st _ _ R), El. reflexivity.
    + split; cbn [d_with_act d_with_st d_st d_dead d_op d_act d_next q_h q_next q_op q_act].
      * unfold rmw. now rewrite q_last_snoc.
      * reflexivity.
      * apply R.
      * rewrite set_nth_snoc, map_app, (or_act _ _ R). reflexivity.
      * intros x Hx Hn. apply R; [exact Hx|]. intros Hin. apply Hn. rewrite flat_map_app. apply in_or_app. auto.
  - destruct (nth_error (q_act s) k) as [[a v]|] eqn:Hk; [|discriminate]. pose proof (nth_error_In _ _ Hk) as Hin. pose proof (or_nth _ _ _ _ _ R Hk) as Ht.
    assert (Same : forall h' nx a' v', q_last h' = q_last (q_h s) -> (forall o, ~ In o (flat_map qops (q_act s)) -> nx o = q_next s o) -> sq (a', v') = sq (a, v) -> qops (a', v') = qops (a, v) ->
      OR (QS h' nx (q_op s) (set_nth (q_act s) k (a', v')) (q_acc s)) t).
    { intros h' nx a' v' E1 E2 E3 E4. split; simpl.
      - rewrite E1. apply R.
      - apply R.
      - apply R.
      - rewrite map_set_nth, E3, (or_act _ _ R). symmetry. apply set_nth_nth. rewrite nth_error_map, Hk. reflexivity.
      - rewrite (fm_eq _ _ _ _ _ _ Hk E4). intros o Hs Ho. rewrite (E2 o Ho). apply R; assumption. }
    destruct a as [o|o [p|]|[o|]|o p|]; cbn [q_act_step] in H.
    + destruct (rd (q_h s) v i) as [[x w]|]; [|discriminate]. injection H as <- <-. exists [], t. split; [apply go_nil|]. apply Same; auto.
    + destruct (alive (q_op s) o) eqn:Ea; [|discriminate]. simpl negb in H. cbv iota in H. destruct (rd (q_h s) (vadd v (TObj o)) i) as [[x w]|] eqn:Hr; [|discriminate].
      assert (Hoa : forall y, ~ In y (flat_map qops (q_act s)) -> upd (q_next s) o p y = q_next s y).
      { intros y Hy. unfold upd. destruct (Nat.eqb_spec y o) as [->|]; [|reflexivity]. destruct Hy. apply in_flat_map. exists (QLoop o (DPtr p), v). split; [exact Hin|left; reflexivity]. }
      destruct (dval_eqb x (DPtr p) && (i =? newest (q_h s)) && negb spur) eqn:E; injection H as <- <-.
      * apply andb_true_iff in E as [E _]. apply andb_true_iff in E as [E1 E2]. apply dval_eqb_eq in E1. apply Nat.eqb_eq in E2. subst x.
        apply rd_some in Hr as (_ & Hi & _). pose proof (q_last_nth _ _ _ _ E2 Hi) as El.
        exists [DStep k false; DStep k false]. eexists. split.
        -- change (map sc_ev []) with ([] ++ @nil devent). eapply go_cons.
           ++ cbn [d_step]. rewrite Ht. unfold sq. cbn [fst dact_step]. rewrite (or_dead _ _ R). reflexivity.
           ++ apply go_one. cbn [d_step d_with_act d_act]. rewrite (nth_error_set_nth_same _ _ _ _ Ht). rewrite (or_st _ _ R), El. cbn [dact_step d_op d_dead d_st d_with_act]. rewrite (or_alive _ _ o R), Ea.
              cbn [negb]. rewrite (or_dead _ _ R), (or_st _ _ R), El, (proj2 (dval_eqb_eq (DPtr p) (DPtr p)) eq_refl). reflexivity.
        -- split; simpl.
           ++ unfold rmw. now rewrite q_last_snoc.
           ++ first [reflexivity|apply R].
           ++ apply R.
           ++ rewrite set_nth_set_nth, (or_act _ _ R), map_set_nth. reflexivity.
           ++ intros y Hs Hy. unfold upd. destruct (Nat.eqb_spec y o) as [->|Hn]; [reflexivity|]. apply R; [exact Hs|]. refine (not_in_set _ _ _ _ _ _ y Hk _ Hy). intros [E|[]]; congruence.
      * exists [], t. split; [apply go_nil|]. apply Same; auto.
    + unfold q_notify in H. destruct (alive (q_op s) o) eqn:Ea; [|discriminate]. injection H as <- <-. destruct (qi_ff _ _ _ _ J o v Hin) as [El _].
      exists [DStep k false; DStep k false]. eexists. split.
      * change (map sc_ev [QEDone o (accs v)]) with ([] ++ [VDone o]). eapply go_cons.
        -- cbn [d_step]. rewrite Ht. unfold sq. cbn [fst dact_step]. rewrite (or_dead _ _ R). reflexivity.
        -- apply go_one. cbn [d_step d_with_act d_act]. rewrite (nth_error_set_nth_same _ _ _ _ Ht). rewrite (or_st _ _ R), El. cbn [dact_step]. unfold d_notify. cbn [d_op d_with_act]. rewrite (or_alive _ _ o R), Ea. reflexivity.
      * split; simpl.
        -- first [apply R|symmetry; exact El].
        -- first [reflexivity|apply R].
        -- intros x. unfold upd. destruct (x =? o); [reflexivity|apply R].
        -- rewrite set_nth_set_nth, (or_act _ _ R), map_set_nth. reflexivity.
        -- intros y Hs Hy. unfold upd in Hs. destruct (Nat.eqb_spec y o) as [E|Hn]; [discriminate|]. apply R; [exact Hs|]. refine (not_in_set _ _ _ _ _ _ y Hk _ Hy). intros [E|[]]; congruence.
    + destruct (alive (q_op s) o) eqn:Ea; [|discriminate]. simpl negb in H. cbv iota in H. destruct (knows v o); [|discriminate]. simpl negb in H. cbv iota in H. injection H as <- <-.
      pose proof (qi_lr _ _ _ _ J _ _ Hin) as Hc. destruct (chain_some _ _ _ Hc) as (l' & El & Hc'). assert (Ho : In o lr) by (rewrite El; left; reflexivity).
      assert (Hn : d_next t o = q_next s o).
      { pose proof (qi_linked _ _ _ _ J o (or_intror Ho)) as Hs. apply R; [exact Hs|]. intros Hf. apply cnt_pos in Hf. apply cnt_pos in Ho. pose proof (qi_place _ _ _ _ J o) as Hp. rewrite Hs in Hp. lia. }
      exists [DStep k false]. eexists. split.
      * apply go_one. cbn [d_step]. rewrite Ht. unfold sq. cbn [fst dact_step]. rewrite (or_alive _ _ o R), Ea, Hn. reflexivity.
      * split; simpl; try apply R.
        -- rewrite (or_act _ _ R), map_set_nth. reflexivity.
        -- rewrite (fm_eq _ _ _ _ (QCompl o (q_next s o)) v Hk eq_refl). apply R.
    + injection H as <- <-. exists [DStep k false]. eexists. split.
      * apply go_one. cbn [d_step]. rewrite Ht. reflexivity.
      * split; simpl; try apply R.
        -- rewrite (or_act _ _ R), map_set_nth. reflexivity.
        -- rewrite (fm_eq _ _ _ _ QEnd v Hk eq_refl). apply R.
    + unfold q_notify in H. destruct (alive (q_op s) o) eqn:Ea; [|discriminate]. injection H as <- <-. exists [DStep k false]. eexists. split.
      * apply go_one. cbn [d_step]. rewrite Ht. unfold sq. cbn [fst dact_step]. unfold d_notify. rewrite (or_alive _ _ o R), Ea. reflexivity.
      * split; simpl; try apply R.
        -- intros x. unfold upd. destruct (x =? o); [reflexivity|apply R].
        -- rewrite (or_act _ _ R), map_set_nth. reflexivity.
        -- rewrite (fm_eq _ _ _ _ (QRead p) v Hk eq_refl). intros y Hs Hy. unfold upd in Hs. destruct (Nat.eqb_spec y o) as [E|E]; [discriminate|]. apply R; assumption.
    + discriminate.
Qed.

Lemma OR_init : OR q_init d_init.
Proof. split; reflexivity. Qed.
Theorem or_run ls s tr : run qstep q_init ls = Running s tr -> exists ls' t, run d_step d_init ls' = Running t (map sc_ev tr) /\ OR s t.
Proof.
  intros H. pose proof (run_inv qstep (fun s tr => QX s tr /\ exists ls' t, run d_step d_init ls' = Running t (map sc_ev tr) /\ OR s t) q_init) as K. apply K in H; [exact (proj2 H)|..].
  - split; [exact qx_init|]. exists [], d_init. split; [reflexivity|exact OR_init].
  - intros s1 tr1 l s2 es [X (ls1 & t1 & R1 & O1)] Hs. split.
    + destruct X as (lk & lr & J). pose proof (q_ok c_acq s1 tr1 lk lr J l) as Q. rewrite Hs in Q. exact Q.
    + destruct (OR_step s1 tr1 l s2 es t1 X O1 Hs) as (ls2 & t2 & G & O2). exists (ls1 ++ ls2), t2. split; [|exact O2]. rewrite map_app. exact (go_run _ _ _ _ _ _ _ _ R1 G).
Qed.
Theorem or_quiet ls s tr : run qstep q_init ls = Running s tr -> exists ls' t, run d_step d_init ls' = Running t (map sc_ev tr) /\ (q_quiet s -> d_quiet t).
Proof.
  intros H. destruct (or_run ls s tr H) as (ls' & t & R & O). exists ls', t. split; [exact R|]. intros Q a Ha. rewrite (or_act _ _ O) in Ha. apply in_map_iff in Ha as ([b v] & <- & Hb). now rewrite (Q b v Hb).
Qed.
Theorem or_fail ls f tr : run qstep q_init ls = Failed f tr -> exists ls', run d_step d_init ls' = Failed f (map sc_ev tr).
Proof.
  intros H. unfold run in H. apply run_from_failed in H as (ls1 & lb & s1 & tr1 & es & Hr & Hs & ->). destruct (or_run ls1 s1 tr1 Hr) as (ls' & t & R & O).
  destruct (q_inv c_acq ls1 s1 tr1 Hr) as (lk & lr & J). pose proof (q_ok c_acq s1 tr1 lk lr J lb) as Q. rewrite Hs in Q. simpl in Q. destruct Q as [-> _].
  assert (E : es = [QERaise (q_acc s1)] /\ q_last (q_h s1) = DFired).
  { destruct lb as [o v|v|k i spur]; cbn [q_step] in Hs.
    - destruct (q_op s1 o); try discriminate. destruct (v_ts v <? length (q_h s1)); discriminate.
    - destruct (v_ts v <? length (q_h s1)); [|discriminate]. destruct (q_last (q_h s1)); [discriminate|]. injection Hs as <-. auto.
    - destruct (nth_error (q_act s1) k) as [[a v]|]; [|discriminate]. destruct a as [o|o [p|]|[o|]|o p|]; cbn [q_act_step] in Hs; unfold q_notify in Hs; cbv zeta in Hs;
        repeat match type of Hs with context [match ?x with _ => _ end] => destruct x end; discriminate. }
  destruct E as [-> El]. exists (ls' ++ [DRaiseCall; DStep (length (d_act t)) false]). unfold run in *. rewrite run_from_app, R. cbn [run_from d_step d_act].
  rewrite nth_error_app2, Nat.sub_diag by auto. cbn [nth_error dact_step d_dead d_st]. rewrite (or_dead _ _ O), (or_st _ _ O), El, map_app, app_nil_r. reflexivity.
Qed.
End Oneshot.

(** ** mutex *)
(** start() is delayed while it holds mutex_, and unlock() until its read-modify-write operation *)
Definition sa (p : mact * view) : mact := match fst p with ALoop o _ => AWait o | AUnlCas => AUnl | a => a end.
Record MB (s : xst) (t : mst) : Prop := {
  mb_lock : m_lock t = false;
  mb_w : m_w t = x_w s;
  mb_op : forall o, m_op t o = x_op s o }.
Definition plain (s : xst) (t : mst) : Prop := m_act t = map sa (x_act s) /\ m_st t = lastv (x_h s).
(** [k0] is a call of unlock() that has released the mutex, but not yet in the interleaving *)
Definition lag (s : xst) (t : mst) (k0 : nat) : Prop :=
  lastv (x_h s) = MNone /\ m_st t = MLocked /\ (exists v0, nth_error (x_act s) k0 = Some (AEnd, v0)) /\ m_act t = set_nth (map sa (x_act s)) k0 AUnl.
Definition MR (s : xst) (t : mst) : Prop :=
  MB s t /\ (plain s t /\ (lastv (x_h s) = MNone -> forall m, In m (x_h s) -> fst m = MNone) \/ exists k0, lag s t k0).

Lemma set_nth_comm {A} (l : list A) i j x y : i <> j -> set_nth (set_nth l i x) j y = set_nth (set_nth l j y) i x.
Proof. revert i j. induction l as [|a l IH]; intros [|i] [|j] H; simpl; try reflexivity; [congruence|]. rewrite IH; auto. Qed.
Lemma set_nth_app1 {A} (l m : list A) k x : k < length l -> set_nth (l ++ m) k x = set_nth l k x ++ m.
Proof. revert k. induction l as [|a l IH]; intros [|k] H; simpl in *; try lia; [reflexivity|]. rewrite IH; auto. lia. Qed.
Lemma mb_alive s t o : MB s t -> alive (m_op t) o = alive (x_op s) o.
Proof. intros R. unfold alive. now rewrite (mb_op _ _ R). Qed.
Lemma mb_walive s t : MB s t -> w_alive t = forallb (alive (x_op s)) (x_w s).
Proof.
  intros R. unfold w_alive. rewrite (mb_w _ _ R). induction (x_w s) as [|o l IH]; simpl; [reflexivity|]. now rewrite (mb_alive _ _ o R), IH.
Qed.
Lemma x_guard_alive s v l r s' es : x_guard s v l r = Next s' es -> forallb (alive (x_op s)) l = true.
Proof. unfold x_guard, x_ok. destruct (forallb (alive (x_op s)) l); [auto|discriminate]. Qed.

Lemma flush s t : MR s t -> lastv (x_h s) = MNone -> exists ls' t', go m_step t ls' t' [] /\ MB s t' /\ plain s t'.
Proof.
  intros [B [[P _]|(k0 & _ & E1 & (v0 & E2) & E3)]] El.
  - exists [], t. split; [apply go_nil|auto].
  - assert (Hk : nth_error (m_act t) k0 = Some AUnl) by (rewrite E3; apply (nth_error_set_nth_same _ _ _ (sa (AEnd, v0))); now rewrite nth_error_map, E2).
    exists [MStep k0 false; MStep k0 false]. eexists. split.
    + change (@nil levent) with (@nil levent ++ []). eapply go_cons.
      * cbn [m_step]. rewrite Hk. cbn [act_step]. rewrite E1. reflexivity.
      * apply go_one. cbn [m_step with_act m_act]. rewrite (nth_error_set_nth_same _ _ _ _ Hk). cbn [act_step m_st with_act]. rewrite E1. reflexivity.
    + split; [split; simpl; apply B|]. split; simpl; [|now rewrite El]. rewrite E3, !set_nth_set_nth. apply set_nth_nth. now rewrite nth_error_map, E2.
Qed.
Lemma stutter s t k a v a' v' lock' lv' own' acc' : MR s t -> nth_error (x_act s) k = Some (a, v) -> a <> AEnd -> sa (a', v') = sa (a, v) ->
  MR (XS lock' lv' (x_h s) (x_w s) (x_op s) (set_nth (x_act s) k (a', v')) own' acc') t.
Proof.
  intros [B D] Hk Ha Es. assert (E : map sa (set_nth (x_act s) k (a', v')) = map sa (x_act s)) by (rewrite map_set_nth, Es; apply set_nth_nth; now rewrite nth_error_map, Hk).
  split; [split; simpl; apply B|]. destruct D as [[[P1 P2] P3]|(k0 & E0 & E1 & (v0 & E2) & E3)]; [left|right].
  - split; [split; simpl; [now rewrite E|exact P2]|exact P3].
  - exists k0. split; [exact E0|]. split; [exact E1|]. split; simpl; [|now rewrite E]. exists v0. rewrite nth_error_set_nth_other; [exact E2|]. intros ->. rewrite Hk in E2. injection E2 as ->. congruence.
Qed.
Lemma stutter_own s t own' acc' : MR s t -> MR (XS (x_lock s) (x_lv s) (x_h s) (x_w s) (x_op s) (x_act s) own' acc') t.
Proof. intros [B D]. split; [split; apply B|exact D]. Qed.
Lemma held_plain s t : MR s t -> lastv (x_h s) <> MNone -> plain s t.
Proof. intros [_ [[P _]|(k0 & E & _)]] H; [exact P|congruence]. Qed.
Lemma taken s t x w : MR s t -> In (x, w) (x_h s) -> x <> MNone -> m_st t <> MNone.
Proof.
  intros [_ [[[_ P] Q]|(k0 & _ & -> & _)]] Hm Hx; [|discriminate]. rewrite P. intros E. specialize (Q E _ Hm). simpl in Q. congruence.
Qed.
Lemma act_nth s t k a v : MR s t -> nth_error (x_act s) k = Some (a, v) -> a <> AEnd -> nth_error (m_act t) k = Some (sa (a, v)).
Proof.
  intros [_ [[[-> _] _]|(k0 & _ & _ & (v0 & E2) & ->)]] Hk Ha; [now rewrite nth_error_map, Hk|].
  rewrite nth_error_set_nth_other; [now rewrite nth_error_map, Hk|]. intros ->. rewrite Hk in E2. congruence.
Qed.
Lemma plain_nth s t k a v : plain s t -> nth_error (x_act s) k = Some (a, v) -> nth_error (m_act t) k = Some (sa (a, v)).
Proof. intros [-> _] Hk. now rewrite nth_error_map, Hk. Qed.
Lemma plain_mr s t : MB s t -> plain s t -> lastv (x_h s) <> MNone -> MR s t.
Proof. intros B P H. split; [exact B|]. left. split; [exact P|congruence]. Qed.

Lemma MR_act s tr k i spur a v s' es t : XI s tr -> MR s t -> nth_error (x_act s) k = Some (a, v) -> x_act_step s k i spur a v = Next s' es ->
  exists ls' t', go m_step t ls' t' (api es) /\ MR s' t'.
Proof.
  intros J R Hk H. pose proof (nth_error_In _ _ Hk) as Hin. pose proof (proj1 R) as B.
  assert (Held : tok a = 1 -> plain s t /\ lastv (x_h s) <> MNone).
  { intros Ht. destruct (only_k _ _ _ _ _ J Hk Ht) as (_ & _ & Hl & _). split; [exact (held_plain _ _ R Hl)|exact Hl]. }
  unfold x_act_step in H. destruct a as [o|o|o x|o| | | |o|]; try discriminate.
  - destruct (cas_read false false (x_h s) v i MNone) as [|x|] eqn:Ec; try discriminate.
    + injection H as <- <-. apply cas_ok in Ec as [El _]. destruct (flush s t R El) as (l1 & t1 & G & B1 & P1). exists (l1 ++ [MStep k false]). eexists. split.
      * change (api []) with (@nil levent ++ []). eapply go_app; [exact G|]. apply go_one. cbn [m_step]. rewrite (plain_nth _ _ _ _ _ P1 Hk). unfold sa. cbn [fst act_step]. rewrite (proj2 P1), El. reflexivity.
      * apply plain_mr; [split; simpl; apply B1| |simpl; unfold rmw; rewrite lastv_snoc; discriminate]. split; simpl; [rewrite (proj1 P1), map_set_nth; reflexivity|unfold rmw; now rewrite lastv_snoc].
    + injection H as <- <-. apply cas_no in Ec as (_ & _ & (w & Hw) & Hx). pose proof (taken _ _ _ _ R (nth_error_In _ _ Hw) (Hx eq_refl)) as Ht.
      exists [MStep k false]. eexists. split.
      * apply go_one. cbn [m_step]. rewrite (act_nth _ _ _ _ _ R Hk) by discriminate. unfold sa. cbn [fst act_step]. instantiate (1 := with_act t k (AWait o)). destruct (m_st t); [congruence|reflexivity|reflexivity].
      * split; [split; simpl; apply B|]. destruct R as [_ [[[P1 P2] P3]|(k0 & E0 & E1 & (v0 & E2) & E3)]]; [left|right].
        -- split; [split; simpl; [rewrite P1, map_set_nth; reflexivity|exact P2]|exact P3].
        -- assert (Hne : k <> k0) by (intros ->; rewrite Hk in E2; discriminate). exists k0. split; [exact E0|]. split; [exact E1|]. split; simpl.
           ++ exists v0. rewrite nth_error_set_nth_other; auto.
           ++ rewrite E3, map_set_nth. apply set_nth_comm. auto.
  - destruct (x_lock s); [discriminate|]. destruct (rd (x_h s) (vjoin v (x_lv s)) i) as [[x w]|]; [|discriminate]. injection H as <- <-.
    exists [], t. split; [apply go_nil|]. apply (stutter s t k (AWait o) v); auto. discriminate.
  - (* the loop of start() *)
    assert (Stut : forall x', exists ls' t', go m_step t ls' t' (api []) /\ MR (x_set s k (ALoop o x') (vsee v i)) t').
    { intros x'. exists [], t. split; [apply go_nil|]. apply (stutter s t k (ALoop o x) v); auto. discriminate. }
    assert (Susp : forall h1 w1 v1 t0 st0, MB s t0 -> plain s t0 -> lastv (x_h s) = st0 -> st0 <> MNone -> lastv h1 = MCont -> forallb (alive (x_op s)) (o :: x_w s) = true ->
      w1 = x_w s ++ [o] -> exists ls' t', go m_step t0 ls' t' [ESusp o] /\ MR (XS false v1 h1 w1 (x_op s) (set_nth (x_act s) k (AEnd, v1)) (x_own s) (x_acc s)) t').
    { intros h1 w1 v1 t0 st0 B0 P0 El Hn Eh Ha ->. exists [MStep k false; MStep k false]. eexists. split.
      - change [ESusp o] with ([] ++ [ESusp o]). eapply go_cons.
        + cbn [m_step]. rewrite (plain_nth _ _ _ _ _ P0 Hk). unfold sa. cbn [fst act_step]. rewrite (mb_lock _ _ B0). reflexivity.
        + apply go_one. cbn [m_step with_act with_lock m_act]. rewrite (nth_error_set_nth_same _ _ _ _ (plain_nth _ _ _ _ _ P0 Hk)). rewrite (proj2 P0), El.
          instantiate (1 := MS false MCont (m_w t0 ++ [o]) (m_op t0) (set_nth (set_nth (m_act t0) k (ALoop o st0)) k AEnd)).
          simpl in Ha. apply andb_true_iff in Ha as [Ha1 Ha2].
          assert (Hs : forall u a, m_op u = m_op t0 -> m_w u = m_w t0 -> m_lock u = true -> m_act u = a -> m_st u = MCont ->
            suspend u k o = Next (MS false MCont (m_w t0 ++ [o]) (m_op t0) (set_nth a k AEnd)) [ESusp o]).
          { intros u a E1 E2 E3 E4 E5. unfold suspend, w_alive. rewrite E1, E2. rewrite (mb_alive _ _ o B0), Ha1. pose proof (mb_walive _ _ B0) as Hw. unfold w_alive in Hw. rewrite Hw, Ha2. simpl.
            unfold with_act, with_lock, with_w. simpl. now rewrite ?E1, ?E2, ?E4, ?E5. }
          destruct st0; [congruence| |]; cbn [act_step m_st m_lock with_act with_lock]; [rewrite (proj2 P0), El; cbn [negb andb mval_eqb]|]; apply Hs; simpl; auto. rewrite (proj2 P0). exact El.
      - apply plain_mr; [split; simpl; [reflexivity|now rewrite (mb_w _ _ B0)|apply B0]| |simpl; rewrite Eh; discriminate].
        split; simpl; [rewrite set_nth_set_nth, (proj1 P0), map_set_nth; reflexivity|now rewrite Eh]. }
    destruct x.
    + destruct (cas_read true spur (x_h s) v i MNone) as [|x|] eqn:Ec; try discriminate; injection H as <- <-; [|apply Stut].
      apply cas_ok in Ec as [El _]. destruct (flush s t R El) as (l1 & t1 & G & B1 & P1). exists (l1 ++ [MStep k false; MStep k false]). eexists. split.
      * change (api []) with (@nil levent ++ ([] ++ [])). eapply go_app; [exact G|]. eapply go_cons.
        -- cbn [m_step]. rewrite (plain_nth _ _ _ _ _ P1 Hk). unfold sa. cbn [fst act_step]. rewrite (mb_lock _ _ B1). reflexivity.
        -- apply go_one. cbn [m_step with_act with_lock m_act]. rewrite (nth_error_set_nth_same _ _ _ _ (plain_nth _ _ _ _ _ P1 Hk)). rewrite (proj2 P1), El. cbn [act_step m_st with_act with_lock]. rewrite (proj2 P1), El. reflexivity.
      * apply plain_mr; [split; simpl; try apply B1; reflexivity| |simpl; unfold rmw; rewrite lastv_snoc; discriminate].
        split; simpl; [rewrite set_nth_set_nth, (proj1 P1), map_set_nth; reflexivity|unfold rmw; now rewrite lastv_snoc].
    + destruct (cas_read true spur (x_h s) v i MLocked) as [|x|] eqn:Ec; try discriminate; [|injection H as <- <-; apply Stut].
      apply cas_ok in Ec as [El _]. unfold x_suspend in H. pose proof (x_guard_alive _ _ _ _ _ _ H) as Ha. apply x_guard_next in H. injection H as <- <-.
      refine (Susp _ _ _ t MLocked B (held_plain _ _ R _) El _ _ Ha eq_refl); [rewrite El; discriminate|discriminate|]. unfold rmw. apply lastv_snoc.
    + pose proof (proj2 (proj2 (x_loop _ _ J _ _ _ Hin)) eq_refl) as El. unfold x_suspend in H. pose proof (x_guard_alive _ _ _ _ _ _ H) as Ha. apply x_guard_next in H. injection H as <- <-.
      refine (Susp _ _ _ t MCont B (held_plain _ _ R _) El _ El Ha eq_refl); [rewrite El; discriminate|discriminate].
  - (* ASet *)
    destruct (Held eq_refl) as [P Hl]. unfold x_notify in H. pose proof (x_guard_alive _ _ _ _ _ _ H) as Ha. apply x_guard_next in H. injection H as <- <-. simpl in Ha. rewrite andb_true_r in Ha.
    exists [MStep k false]. eexists. split.
    + apply go_one. cbn [m_step]. rewrite (plain_nth _ _ _ _ _ P Hk). unfold sa. cbn [fst act_step]. unfold notify. rewrite (mb_alive _ _ o B), Ha. reflexivity.
    + apply plain_mr; [split; simpl; try apply B| |exact Hl].
      * intros y. unfold upd. destruct (y =? o); [reflexivity|apply B].
      * split; simpl; [rewrite (proj1 P), map_set_nth; reflexivity|apply P].
  - (* AUnl *)
    destruct (Held eq_refl) as [P Hl]. destruct (rd (x_h s) v i) as [[[| |] w]|] eqn:Er; try discriminate; injection H as <- <-.
    + exists [], t. split; [apply go_nil|]. apply (stutter s t k AUnl v); auto. discriminate.
    + apply rd_some in Er as (Hle & Hi & _). destruct (x_ha _ _ J _ _ Hin eq_refl) as (Hc & _). pose proof (Hc i _ _ Hle Hi eq_refl) as El.
      exists [MStep k false]. eexists. split.
      * apply go_one. cbn [m_step]. rewrite (plain_nth _ _ _ _ _ P Hk). unfold sa. cbn [fst act_step]. rewrite (proj2 P), El. reflexivity.
      * apply plain_mr; [split; simpl; apply B| |exact Hl]. split; simpl; [rewrite (proj1 P), map_set_nth; reflexivity|apply P].
  - (* AUnlCas *)
    destruct (Held eq_refl) as [P Hl]. destruct (cas_read false false (x_h s) v i MLocked) as [|[| |]|] eqn:Ec; try discriminate; injection H as <- <-.
    + apply cas_ok in Ec as [El _]. exists [], t. split; [apply go_nil|]. split; [split; simpl; apply B|]. right. exists k. split; [unfold x_set, x_hist; simpl; unfold rmw; apply lastv_snoc|].
      split; [rewrite (proj2 P); exact El|]. split; simpl.
      * eexists. apply (nth_error_set_nth_same _ _ _ _ Hk).
      * rewrite (proj1 P), map_set_nth, set_nth_set_nth. symmetry. apply set_nth_nth. rewrite nth_error_map, Hk. reflexivity.
    + apply cas_no in Ec as (Hle & _ & (w & Hi) & _). destruct (x_ha _ _ J _ _ Hin eq_refl) as (Hc & _). pose proof (Hc i _ _ Hle Hi eq_refl) as El.
      exists [MStep k false]. eexists. split.
      * apply go_one. cbn [m_step]. rewrite (plain_nth _ _ _ _ _ P Hk). unfold sa. cbn [fst act_step]. rewrite (proj2 P), El. reflexivity.
      * apply plain_mr; [split; simpl; apply B| |exact Hl]. split; simpl; [rewrite (proj1 P), map_set_nth; reflexivity|apply P].
  - (* AUnlLock *)
    destruct (Held eq_refl) as [P Hl]. destruct (x_lock s) eqn:Elk; [discriminate|]. destruct (x_w s) as [|o w] eqn:Ew; [discriminate|].
    pose proof (x_guard_alive _ _ _ _ _ _ H) as Ha. apply x_guard_next in H. pose proof (mb_walive _ _ B) as Hwa. rewrite Ew, Ha in Hwa.
    assert (El : lastv (x_h s) = MCont) by (apply (proj2 (x_waits _ _ J)); rewrite Ew; discriminate).
    exists [MStep k false]. exists (with_act (with_st (with_w t w) (match w with [] => MLocked | _ => m_st t end)) k (AUnlNext o)).
    assert (G : go m_step t [MStep k false] (with_act (with_st (with_w t w) (match w with [] => MLocked | _ => m_st t end)) k (AUnlNext o)) [EHand o]).
    { apply go_one. cbn [m_step]. rewrite (plain_nth _ _ _ _ _ P Hk). unfold sa. cbn [fst act_step]. rewrite (mb_lock _ _ B), (mb_w _ _ B), Ew, Hwa. reflexivity. }
    destruct w as [|o2 w].
    + destruct (v_ts (vjoin v (x_lv s)) =? newest (x_h s)); [|discriminate]. injection H as <- <-. split; [exact G|].
      apply plain_mr; [split; simpl; try apply B; reflexivity| |simpl; unfold store_rlx; rewrite lastv_snoc; discriminate]. split; simpl; [rewrite (proj1 P), map_set_nth; reflexivity|unfold store_rlx; now rewrite lastv_snoc].
    + injection H as <- <-. split; [exact G|].
      apply plain_mr; [split; simpl; try apply B; reflexivity| |exact Hl]. split; simpl; [rewrite (proj1 P), map_set_nth; reflexivity|apply P].
  - (* AUnlNext *)
    destruct (Held eq_refl) as [P Hl]. unfold x_notify in H. pose proof (x_guard_alive _ _ _ _ _ _ H) as Ha. apply x_guard_next in H. injection H as <- <-. simpl in Ha. rewrite andb_true_r in Ha.
    exists [MStep k false]. eexists. split.
    + apply go_one. cbn [m_step]. rewrite (plain_nth _ _ _ _ _ P Hk). unfold sa. cbn [fst act_step]. unfold notify. rewrite (mb_alive _ _ o B), Ha. reflexivity.
    + apply plain_mr; [split; simpl; try apply B| |exact Hl].
      * intros y. unfold upd. destruct (y =? o); [reflexivity|apply B].
      * split; simpl; [rewrite (proj1 P), map_set_nth; reflexivity|apply P].
Qed.

Lemma MR_step s tr l s' es t : XI s tr -> MR s t -> x_step s l = Next s' es -> exists ls' t', go m_step t ls' t' (api es) /\ MR s' t'.
Proof.
  intros J R H. pose proof (proj1 R) as B. destruct l as [o v|v i|j|j|k i spur]; cbn [x_step] in H.
  - destruct (x_op s o) eqn:Eo; try discriminate. destruct (v_ts v <? length (x_h s)); [|discriminate]. injection H as <- <-. exists [MStart o]. eexists. split.
    + apply go_one. cbn [m_step]. rewrite (mb_op _ _ B), Eo. reflexivity.
    + split; [split; simpl; try apply B; intros y; unfold upd; destruct (y =? o); [reflexivity|apply B]|]. destruct R as [_ [[[P1 P2] P3]|(k0 & E0 & E1 & (v0 & E2) & E3)]]; [left|right].
      * split; [split; simpl; [rewrite P1, map_app; reflexivity|exact P2]|exact P3].
      * assert (Hl : k0 < length (x_act s)) by (apply nth_error_Some; congruence). exists k0. split; [exact E0|]. split; [exact E1|]. split; simpl.
        -- exists v0. rewrite nth_error_app1; auto.
        -- rewrite map_app, set_nth_app1 by (rewrite map_length; auto). now rewrite E3.
  - destruct (cas_read false false (x_h s) v i MNone) as [|x|] eqn:Ec; try discriminate; injection H as <- <-.
    + apply cas_ok in Ec as [El _]. destruct (flush s t R El) as (l1 & t1 & G & B1 & P1). exists (l1 ++ [MTry]). eexists. split.
      * change (api [EL (ETry true true)]) with ([] ++ [ETry true true]). eapply go_app; [exact G|]. apply go_one. cbn [m_step]. rewrite (proj2 P1), El. reflexivity.
      * apply plain_mr; [split; simpl; apply B1| |simpl; unfold rmw; rewrite lastv_snoc; discriminate]. split; simpl; [apply P1|unfold rmw; now rewrite lastv_snoc].
    + apply cas_no in Ec as (_ & _ & (w & Hw) & Hx). pose proof (taken _ _ _ _ R (nth_error_In _ _ Hw) (Hx eq_refl)) as Ht. exists [MTry], t. split; [|exact R].
      apply go_one. cbn [m_step]. destruct (m_st t); [congruence|reflexivity|reflexivity].
  - destruct (nth_error (x_own s) j); [|discriminate]. injection H as <- <-. exists [], t. split; [apply go_nil|]. apply stutter_own. exact R.
  - destruct (nth_error (x_own s) j) as [v|] eqn:Ej; [|discriminate]. injection H as <- <-.
    assert (Hl : lastv (x_h s) <> MNone).
    { intros E. pose proof (x_token _ _ J) as T. rewrite E in T. assert (j < length (x_own s)) by (apply nth_error_Some; congruence). lia. }
    pose proof (held_plain _ _ R Hl) as P. exists [MUnlock]. eexists. split; [apply go_one; reflexivity|].
    apply plain_mr; [split; simpl; apply B| |exact Hl]. split; simpl; [rewrite (proj1 P), map_app; reflexivity|apply P].
  - destruct (nth_error (x_act s) k) as [[a v]|] eqn:Hk; [|discriminate]. exact (MR_act s tr k i spur a v s' es t J R Hk H).
Qed.

Lemma MR_init : MR x_init m_init.
Proof. split; [split; reflexivity|]. left. split; [split; reflexivity|]. intros _ m [<-|[]]. reflexivity. Qed.
Lemma api_app a b : api (a ++ b) = api a ++ api b.
Proof. apply flat_map_app. Qed.
Theorem mr_run ls s tr : run x_step x_init ls = Running s tr -> exists ls' t, run m_step m_init ls' = Running t (api tr) /\ MR s t.
Proof.
  intros H. pose proof (run_inv x_step (fun s tr => XI s tr /\ exists ls' t, run m_step m_init ls' = Running t (api tr) /\ MR s t) x_init) as K. apply K in H; [exact (proj2 H)|..].
  - split; [exact xi_init|]. exists [], m_init. split; [reflexivity|exact MR_init].
  - intros s1 tr1 l s2 es [X (ls1 & t1 & R1 & O1)] Hs. split; [exact (xi_step _ _ _ _ _ X Hs)|].
    destruct (MR_step s1 tr1 l s2 es t1 X O1 Hs) as (ls2 & t2 & G & O2). exists (ls1 ++ ls2), t2. split; [|exact O2]. rewrite api_app. exact (go_run _ _ _ _ _ _ _ _ R1 G).
Qed.
Theorem mr_quiet ls s tr : run x_step x_init ls = Running s tr -> exists ls' t, run m_step m_init ls' = Running t (api tr) /\ (x_quiet s -> m_quiet t).
Proof.
  intros H. destruct (mr_run ls s tr H) as (ls' & t & R & M). pose proof M as [B [[[P _] _]|(k0 & E0 & _)]].
  - exists ls', t. split; [exact R|]. intros Q a Ha. rewrite P in Ha. apply in_map_iff in Ha as ([b v] & <- & Hb). now rewrite (Q b v Hb).
  - destruct (flush s t M E0) as (l1 & t1 & G & _ & [P _]). exists (ls' ++ l1), t1. split; [rewrite <- (app_nil_r (api tr)); exact (go_run _ _ _ _ _ _ _ _ R G)|].
    intros Q a Ha. rewrite P in Ha. apply in_map_iff in Ha as ([b v] & <- & Hb). now rewrite (Q b v Hb).
Qed.

(** ** mutex: the converse *)
Record NR (t : mst) (s : xst) : Prop := {
  nr_lock : x_lock s = m_lock t;
  nr_st : lastv (x_h s) = m_st t;
  nr_w : x_w s = m_w t;
  nr_op : forall o, x_op s o = m_op t o;
  nr_act : map fst (x_act s) = m_act t }.
Lemma rd_new s tr v : XI s tr -> v_ts v < length (x_h s) -> rd (x_h s) v (newest (x_h s)) = Some (lastv (x_h s), rel_of (x_h s)).
Proof.
  intros J Hv. pose proof (newest_lt _ (x_ne _ _ J)) as Hn. unfold rd. assert (v_ts v <=? newest (x_h s) = true) as -> by (apply Nat.leb_le; unfold newest in *; lia).
  unfold lastv, rel_of. destruct (nth_error (x_h s) (newest (x_h s))) as [[x w]|] eqn:E; [reflexivity|]. apply nth_error_None in E. lia.
Qed.
Lemma cas_new s tr v weak spur e : XI s tr -> v_ts v < length (x_h s) ->
  cas_read weak spur (x_h s) v (newest (x_h s)) e = if mval_eqb (lastv (x_h s)) e && negb (weak && spur) then CasOk else if mval_eqb (lastv (x_h s)) e && negb weak then CasImpossible else CasNo (lastv (x_h s)).
Proof.
  intros J Hv. unfold cas_read. rewrite (rd_new s tr v J Hv). rewrite Nat.eqb_refl. destruct (mval_eqb (lastv (x_h s)) e); simpl; [|reflexivity]. destruct weak, spur; reflexivity.
Qed.
Lemma guard_nofail s v l r : (forall f es, x_guard s v l r <> Fail f es) -> x_guard s v l r = r.
Proof.
  unfold x_guard, x_ok. destruct (negb (forallb (alive (x_op s)) l)); [intros H; destruct (H UseAfterFree []); reflexivity|].
  destruct (negb (forallb (knows v) l)); [intros H; destruct (H DataRace []); reflexivity|reflexivity].
Qed.
Lemma nr_nth t s k a : NR t s -> nth_error (m_act t) k = Some a -> exists v, nth_error (x_act s) k = Some (a, v).
Proof. intros N H. rewrite <- (nr_act _ _ N), nth_error_map in H. destruct (nth_error (x_act s) k) as [[b v]|]; [|discriminate]. injection H as ->. eauto. Qed.
Lemma map_fst_set {A B} (l : list (A * B)) k a b : map fst (set_nth l k (a, b)) = set_nth (map fst l) k a.
Proof. now rewrite map_set_nth. Qed.

Lemma NR_step t l t' es s tr : XI s tr -> NR t s -> m_step t l = Next t' es -> (In (EUnlock true) es -> x_own s <> []) ->
  exists l' s' es', x_step s l' = Next s' es' /\ api es' = es /\ NR t' s'.
Proof.
  intros J N H Hown. pose proof (fun l' => x_nofail s tr l') as W. destruct N as [N1 N2 N3 N4 N5]. assert (N : NR t s) by (split; auto).
  destruct l as [o| | |k spur]; cbn [m_step] in H.
  - destruct (m_op t o) eqn:Eo; try discriminate. injection H as <- <-. exists (XStart o vbot). eexists. eexists. split; [|split].
    + cbn [x_step]. rewrite N4, Eo. assert (v_ts vbot <? length (x_h s) = true) as -> by (apply Nat.ltb_lt; pose proof (newest_lt _ (x_ne _ _ J)); simpl; lia). reflexivity.
    + reflexivity.
    + split; simpl; auto; [|rewrite map_app, N5; reflexivity]. intros y. unfold upd. destruct (y =? o); auto.
  - assert (Hv : v_ts vbot < length (x_h s)) by (pose proof (newest_lt _ (x_ne _ _ J)); simpl; lia). pose proof (cas_new s tr vbot false false MNone J Hv) as C. rewrite N2 in C.
    exists (XTry vbot (newest (x_h s))). cbn [x_step]. rewrite C. destruct (m_st t) eqn:Es; simpl mval_eqb; simpl negb; cbv iota; cbn [andb]; injection H as <- <-; eexists; eexists; (split; [reflexivity|]); (split; [reflexivity|]).
    + split; simpl; auto. unfold rmw. now rewrite lastv_snoc.
    + exact N.
    + exact N.
  - injection H as <- <-. specialize (Hown (or_introl eq_refl)). destruct (x_own s) as [|v own] eqn:Eo; [congruence|]. exists (XUnlock 0). cbn [x_step]. rewrite Eo. cbn [nth_error]. eexists. eexists. split; [reflexivity|]. split; [reflexivity|].
    split; simpl; auto. rewrite map_app, N5. reflexivity.
  - destruct (nth_error (m_act t) k) as [a|] eqn:Hk; [|discriminate]. destruct (nr_nth _ _ _ _ N Hk) as [v Hv]. pose proof (x_ats _ _ J _ _ (nth_error_In _ _ Hv)) as Hts.
    pose proof (x_lts _ _ J) as Hlv. assert (Hj : v_ts (vjoin v (x_lv s)) < length (x_h s)) by (simpl; lia).
    pose proof (W (XStep k (newest (x_h s)) spur)) as W1. exists (XStep k (newest (x_h s)) spur). cbn [x_step] in W1 |- *. rewrite Hv in W1 |- *. unfold x_act_step in W1 |- *.
    destruct a as [o|o|o x|o| | | |o|]; cbn [act_step] in H; cbv zeta in W1 |- *.
    + rewrite (cas_new s tr v false false MNone J Hts), N2. destruct (m_st t) eqn:Es; simpl mval_eqb; cbn [andb negb]; injection H as <- <-; eexists; eexists; (split; [reflexivity|]); (split; [reflexivity|]).
      * split; simpl; auto; [unfold rmw; now rewrite lastv_snoc|rewrite map_fst_set, N5; reflexivity].
      * split; simpl; auto; [congruence|rewrite map_fst_set, N5; reflexivity].
      * split; simpl; auto; [congruence|rewrite map_fst_set, N5; reflexivity].
    + rewrite N1. destruct (m_lock t); [discriminate|]. injection H as <- <-. rewrite (rd_new s tr _ J Hj), N2. eexists. eexists. split; [reflexivity|]. split; [reflexivity|].
      split; simpl; auto. rewrite map_fst_set, N5. reflexivity.
    + destruct x.
      * rewrite (cas_new s tr v true spur MNone J Hts), N2. destruct (m_st t) eqn:Es, spur; simpl mval_eqb in *; cbn [andb negb] in *; injection H as <- <-; eexists; eexists; (split; [reflexivity|]); (split; [reflexivity|]);
          (split; simpl; auto; [try congruence; unfold rmw; now rewrite lastv_snoc|rewrite map_fst_set, N5; congruence] || (split; simpl; auto; [congruence|rewrite map_fst_set, N5; congruence])).
      * rewrite (cas_new s tr v true spur MLocked J Hts), N2 in W1 |- *. unfold x_suspend in W1 |- *. destruct (m_st t) eqn:Es, spur; simpl mval_eqb in *; cbn [andb negb] in *;
          try (injection H as <- <-; eexists; eexists; (split; [reflexivity|]); (split; [reflexivity|]); (split; simpl; auto; [congruence|rewrite map_fst_set, N5; congruence])).
        unfold suspend in H. destruct (w_alive (with_st t MCont) && alive (m_op (with_st t MCont)) o); [|discriminate]. injection H as <- <-.
        rewrite (guard_nofail _ _ _ _ (fun f es => W1 f es J)). eexists. eexists. split; [reflexivity|]. split; [reflexivity|].
        split; simpl; auto; [unfold rmw; now rewrite lastv_snoc|now rewrite N3|rewrite map_fst_set, N5; reflexivity].
      * unfold x_suspend in W1 |- *. unfold suspend in H. destruct (w_alive t && alive (m_op t) o); [|discriminate]. injection H as <- <-.
        rewrite (guard_nofail _ _ _ _ (fun f es => W1 f es J)). eexists. eexists. split; [reflexivity|]. split; [reflexivity|].
        split; simpl; auto; [now rewrite N3|rewrite map_fst_set, N5; reflexivity].
    + unfold x_notify in W1 |- *. unfold notify in H. destruct (alive (m_op t) o); [|discriminate]. injection H as <- <-. rewrite (guard_nofail _ _ _ _ (fun f es => W1 f es J)). eexists. eexists. split; [reflexivity|]. split; [reflexivity|].
      split; simpl; auto; [|rewrite map_fst_set, N5; reflexivity]. intros y. unfold upd. destruct (y =? o); auto.
    + rewrite (rd_new s tr _ J Hts), N2. destruct (m_st t) eqn:Es; [discriminate| |]; injection H as <- <-; eexists; eexists; (split; [reflexivity|]); (split; [reflexivity|]);
        (split; simpl; auto; [congruence|rewrite map_fst_set, N5; reflexivity]).
    + rewrite (cas_new s tr v false false MLocked J Hts), N2. destruct (m_st t) eqn:Es; [discriminate| |]; simpl mval_eqb; cbn [andb negb]; injection H as <- <-; eexists; eexists; (split; [reflexivity|]); (split; [reflexivity|]).
      * split; simpl; auto; [unfold rmw; now rewrite lastv_snoc|rewrite map_fst_set, N5; reflexivity].
      * split; simpl; auto; [congruence|rewrite map_fst_set, N5; reflexivity].
    + rewrite N1, N3 in W1 |- *. destruct (m_lock t) eqn:El; [discriminate|]. destruct (m_w t) as [|o w] eqn:Ew; [discriminate|]. destruct (w_alive t); [|discriminate]. injection H as <- <-.
      rewrite (guard_nofail _ _ _ _ (fun f es => W1 f es J)) in W1 |- *. destruct w as [|o2 w].
      * destruct (v_ts (vjoin v (x_lv s)) =? newest (x_h s)) eqn:Et; [|destruct (W1 DataRace [] J); reflexivity]. eexists. eexists. split; [reflexivity|]. split; [reflexivity|].
        split; simpl; auto; [unfold store_rlx; now rewrite lastv_snoc|rewrite map_fst_set, N5; reflexivity].
      * eexists. eexists. split; [reflexivity|]. split; [reflexivity|]. split; simpl; auto. rewrite map_fst_set, N5. reflexivity.
    + unfold x_notify in W1 |- *. unfold notify in H. destruct (alive (m_op t) o); [|discriminate]. injection H as <- <-. rewrite (guard_nofail _ _ _ _ (fun f es => W1 f es J)). eexists. eexists. split; [reflexivity|]. split; [reflexivity|].
      split; simpl; auto; [|rewrite map_fst_set, N5; reflexivity]. intros y. unfold upd. destruct (y =? o); auto.
    + discriminate.
Qed.

(** ** mutex: both directions *)
Theorem nr_run ls t tr : run m_step m_init ls = Running t tr -> owners_unlock tr -> exists ls' s wtr, run x_step x_init ls' = Running s wtr /\ api wtr = tr /\ NR t s.
Proof.
  intros H Hc. refine (run_inv_client m_step owners_unlock (fun t tr => exists ls' s wtr, run x_step x_init ls' = Running s wtr /\ api wtr = tr /\ NR t s) m_init rule_prefix _ _ ls t tr H Hc).
  - exists [], x_init, []. split; [reflexivity|]. split; [reflexivity|]. split; reflexivity.
  - intros t1 tr1 l t2 es (ls1 & s1 & w1 & R1 & E1 & N1) Hs Ho. pose proof (mutexw_inv _ _ _ R1) as J.
    destruct (NR_step t1 l t2 es s1 w1 J N1 Hs) as (l' & s2 & es' & Hs' & E2 & N2).
    + intros Hin En. apply in_split in Hin as (e1 & e2 & ->). specialize (Ho (tr1 ++ e1) true e2 ltac:(now rewrite <- app_assoc)).
      assert (e1 = []) as ->.
      { destruct l as [o| | |k spur]; cbn [m_step] in Hs; repeat match type of Hs with context [match ?x with _ => _ end] => destruct x end; try discriminate; try (injection Hs as _ Hs; destruct e1 as [|? [|]]; try discriminate; reflexivity).
        unfold act_step, suspend, notify in Hs; repeat match type of Hs with context [match ?x with _ => _ end] => destruct x end; try discriminate; try (injection Hs as _ Hs; destruct e1 as [|? [|]]; try discriminate; reflexivity). }
      rewrite app_nil_r in Ho. pose proof (x_tr _ _ J) as T. rewrite E1, En in T. simpl in T. lia.
    + exists (ls1 ++ [l']), s2, (w1 ++ es'). split; [exact (go_run _ _ _ _ _ _ _ _ R1 (go_one _ _ _ _ _ Hs'))|]. split; [rewrite api_app, E1, E2; reflexivity|exact N2].
Qed.
Lemma owners_snoc tr e : owners_unlock tr -> (forall x, e = EUnlock x -> unls x tr < acqs x tr) -> owners_unlock (tr ++ [e]).
Proof.
  intros H He t1 x t2 E. destruct t2 as [|e2 t2] using rev_ind; [apply app_inj_tail in E as [-> ->]; auto|]. rewrite app_comm_cons, app_assoc in E. apply app_inj_tail in E as [E _]. exact (H _ _ _ E).
Qed.
Theorem weak_owners ls s tr : run x_step x_init ls = Running s tr -> owners_unlock (api tr).
Proof.
  intros H. refine (proj2 (run_inv x_step (fun s tr => XI s tr /\ owners_unlock (api tr)) x_init _ _ ls s tr H)).
  - split; [exact xi_init|]. intros [|] x t2 E; discriminate.
  - intros s1 tr1 l s2 es [J O] Hs. split; [exact (xi_step _ _ _ _ _ J Hs)|]. rewrite api_app.
    assert (D : api es = [] \/ exists e, api es = [e] /\ forall x, e = EUnlock x -> x = true /\ x_own s1 <> []).
    { destruct l as [o v|v i|j|j|k i spur]; cbn [x_step] in Hs.
      - destruct (x_op s1 o); try discriminate. destruct (v_ts v <? length (x_h s1)); [|discriminate]. injection Hs as <- <-. right. eexists. split; [reflexivity|discriminate].
      - destruct (cas_read false false (x_h s1) v i MNone); try discriminate; injection Hs as <- <-; right; eexists; (split; [reflexivity|discriminate]).
      - destruct (nth_error (x_own s1) j); [|discriminate]. injection Hs as <- <-. left. reflexivity.
      - destruct (nth_error (x_own s1) j) eqn:Ej; [|discriminate]. injection Hs as <- <-. right. eexists. split; [reflexivity|]. intros x E. injection E as <-. split; [reflexivity|]. intros En. rewrite En in Ej. destruct j; discriminate.
      - destruct (nth_error (x_act s1) k) as [[a v]|]; [|discriminate]. unfold x_act_step, x_suspend, x_notify in Hs. cbv zeta in Hs.
        repeat first [apply x_guard_next in Hs|match type of Hs with context [match ?x with _ => _ end] => destruct x end]; try discriminate; injection Hs as <- <-; first [left; reflexivity|right; eexists; split; [reflexivity|discriminate]]. }
    destruct D as [->|(e & -> & D)]; [now rewrite app_nil_r|]. apply owners_snoc; [exact O|]. intros x E. destruct (D x E) as [-> Hn]. pose proof (x_tr _ _ J). destruct (x_own s1); [congruence|simpl in *; lia].
Qed.
Theorem same_quiet ls t tr : run m_step m_init ls = Running t tr -> owners_unlock tr -> exists ls' s wtr, run x_step x_init ls' = Running s wtr /\ api wtr = tr /\ (m_quiet t -> x_quiet s).
Proof.
  intros H Hc. destruct (nr_run ls t tr H Hc) as (ls' & s & wtr & R & E & N). exists ls', s, wtr. split; [exact R|]. split; [exact E|]. intros Q a v Ha. apply Q. rewrite <- (nr_act _ _ N). apply (in_map fst) in Ha. exact Ha.
Qed.
Theorem same_traces tr : (exists ls s wtr, run x_step x_init ls = Running s wtr /\ api wtr = tr) <-> (exists ls t, run m_step m_init ls = Running t tr /\ owners_unlock tr).
Proof.
  split.
  - intros (ls & s & wtr & R & <-). destruct (mr_run ls s wtr R) as (ls' & t & R' & _). exists ls', t. split; [exact R'|exact (weak_owners ls s wtr R)].
  - intros (ls & t & R & Hc). destruct (nr_run ls t tr R Hc) as (ls' & s & wtr & R' & E & _). exists ls', s, wtr. auto.
Qed.
Theorem same_quiet_traces tr : (exists ls s wtr, run x_step x_init ls = Running s wtr /\ api wtr = tr /\ x_quiet s) <-> (exists ls t, run m_step m_init ls = Running t tr /\ owners_unlock tr /\ m_quiet t).
Proof.
  split.
  - intros (ls & s & wtr & R & <- & Q). destruct (mr_quiet ls s wtr R) as (ls' & t & R' & Q'). exists ls', t. split; [exact R'|]. split; [exact (weak_owners ls s wtr R)|auto].
  - intros (ls & t & R & Hc & Q). destruct (same_quiet ls t tr R Hc) as (ls' & s & wtr & R' & E & Q'). exists ls', s, wtr. auto.
Qed.
Theorem weak_fifo ls s tr : run x_step x_init ls = Running s tr -> exists waiting, susps (api tr) = served (api tr) ++ waiting.
Proof. intros R. destruct (mr_run ls s tr R) as (ls' & t & R' & _). exact (m_fifo ls' t (api tr) R' (weak_owners ls s tr R)). Qed.
Theorem weak_try ls s tr t1 t2 : run x_step x_init ls = Running s tr -> api tr = t1 ++ ETry true true :: t2 -> incl (susps t1) (acquired t1).
Proof. intros R E. destruct (mr_run ls s tr R) as (ls' & t & R' & _). pose proof (weak_owners ls s tr R) as O. rewrite E in R', O. exact (m_try ls' t t1 t2 R' O). Qed.
Theorem weak_barge ls s tr t1 o o' x t2 : run x_step x_init ls = Running s tr -> api tr = t1 ++ EAcq o' x :: t2 -> suspended_first o o' t1 -> In o (acquired t1).
Proof. intros R E. destruct (mr_run ls s tr R) as (ls' & t & R' & _). pose proof (weak_owners ls s tr R) as O. rewrite E in R', O. exact (m_barge ls' t t1 o o' x t2 R' O). Qed.
Theorem weak_idle ls s tr : run x_step x_init ls = Running s tr -> x_quiet s -> held true (api tr) = 0 -> incl (started_ops (api tr)) (acquired (api tr)).
Proof. intros R Q. destruct (mr_quiet ls s tr R) as (ls' & t & R' & Q'). exact (m_idle ls' t (api tr) R' (weak_owners ls s tr R) (Q' Q)). Qed.
Theorem weak_pending ls s tr o : run x_step x_init ls = Running s tr -> x_quiet s -> In o (started_ops (api tr)) -> ~ In o (acquired (api tr)) -> In o (susps (api tr)) /\ held true (api tr) = 1.
Proof. intros R Q. destruct (mr_quiet ls s tr R) as (ls' & t & R' & Q'). exact (m_pending ls' t (api tr) o R' (weak_owners ls s tr R) (Q' Q)). Qed.
