(** When a shared_mutex may be destroyed under the C++ memory model: C88. *)
From Coq Require Import List Arith Bool Lia.
From Verif Require Import Lts ListFacts M_Mutex S_Mutex P_Mutex M_SharedMutex P_SharedMutex M_Weak M_SharedMutexW S_SharedMutexW P_SharedMutexW M_SharedMutexWD P_MutexWD.
Import ListNotations.

(** ** Steps of calls, by what they do *)
Definition live (a : ract) : bool := negb (is_try a) && match a with REnd => false | _ => true end.
Definition rpre (a : ract) : bool :=
  match a with XTry _ | XWait _ | XLoop _ _ | STry (Some _) | STryL (Some _) _ | SWait _ | SLoop _ _ => true | _ => false end.
Definition xgiv (a : ract) : bool := match a with XUnl | XUnlCas _ | XUnlLock => true | _ => false end.
Definition rgiv (a : ract) : bool := match a with XUnl | XUnlCas _ | XUnlLock | SUnl | SUnl1 _ | SUnl2 _ => true | _ => false end.
Definition sub (v v' : view) : Prop := forall t, tin t v -> tin t v'.
Lemma sub_refl v : sub v v.
Proof. intros t; auto. Qed.
Lemma tin_rmw' t acq (h : hist rval) v : tin t v \/ (acq = true /\ tin t (rel_of h)) -> tin t (rmw_view acq h v).
Proof. unfold rmw_view, tin. cbn. destruct acq; cbn; rewrite ?in_app_iff; intuition congruence. Qed.
Lemma sub_rmw acq (h : hist rval) v : sub v (rmw_view acq h v).
Proof. intros t Ht. apply tin_rmw'. auto. Qed.
Lemma sub_see v i : sub v (vsee v i).
Proof. intros t Ht. exact Ht. Qed.
Lemma sub_join1 v w : sub v (vjoin v w).
Proof. intros t Ht. apply tin_join. auto. Qed.
Lemma sub_join2 v w : sub w (vjoin v w).
Proof. intros t Ht. apply tin_join. auto. Qed.
#[local] Hint Resolve sub_refl sub_rmw sub_see sub_join1 sub_join2 : core.

Section Shape.
Variables (s : yst) (k : nat) (a : ract) (v : view).
Notation act' a' v' := (set_nth (y_act s) k (a', v')).
Inductive shape : yst -> list sevent -> Prop :=
| sh_move a' v' lock es : live a' = live a -> rpre a' = rpre a -> rgiv a' = rgiv a -> xgiv a' = xgiv a -> sub v v' ->
    (lkk a' = 1 -> lkk a = 1 \/ sub (y_lv s) v') -> acquired (sapi es) = [] ->
    shape (YS lock (y_lv s) (y_h s) (y_w s) (y_op s) (act' a' v') (y_xo s) (y_so s) (y_acc s)) es
| sh_acqx o lock lv' : rpre a = true -> lastr (y_h s) = RV MNone 0 -> (lv' = y_lv s \/ lkk a = 1) ->
    shape (YS lock lv' (rmw true false (y_h s) v (RV MLocked 0)) (y_w s) (y_op s) (act' (RSet (o, true)) (rmw_view true (y_h s) v)) (y_xo s) (y_so s) (y_acc s)) []
| sh_acqs a' so' xs lock lv' es : rpre a = true \/ is_try a = true -> 1 <= xs -> own true (lastr (y_h s)) = 0 -> y_w s = [] -> (lv' = y_lv s \/ lkk a = 1) -> acquired (sapi es) = [] ->
    ((exists o, a' = RSet (o, false)) /\ so' = y_so s \/ a' = REnd /\ so' = y_so s ++ [rmw_view true (y_h s) v]) ->
    shape (YS lock lv' (rmw true false (y_h s) v (RV MLocked xs)) (y_w s) (y_op s) (act' a' (rmw_view true (y_h s) v)) (y_xo s) so' (y_acc s)) es
| sh_susp nd v1 h1 es : rpre a = true -> lkk a = 1 -> sub v v1 -> rel_of h1 = rel_of (y_h s) -> own true (lastr h1) = own true (lastr (y_h s)) ->
    v_c (lastr h1) = MCont -> v_c (lastr (y_h s)) <> MNone -> acquired (sapi es) = [] ->
    shape (YS false v1 h1 (y_w s ++ [nd]) (y_op s) (act' REnd v1) (y_xo s) (y_so s) (y_acc s)) es
| sh_rel y : rgiv a = true -> own true y = 0 -> (xgiv a = true -> y = RV MNone 0 /\ y_w s = []) ->
    shape (YS (y_lock s) (y_lv s) (rmw false true (y_h s) v y) (y_w s) (y_op s) (act' REnd (rmw_view false (y_h s) v)) (y_xo s) (y_so s) (y_acc s)) []
| sh_hand p w' h' v2 es : rgiv a = true -> y_lock s = false -> sub v v2 -> sub (y_lv s) v2 -> (own true (lastr (y_h s)) = 0 -> sub (rel_of (y_h s)) v2) ->
    v_c (lastr h') <> MNone -> acquired (sapi es) = [] ->
    shape (YS false v2 h' w' (y_op s) (act' (RHand p) v2) (y_xo s) (y_so s) (y_acc s)) es
| sh_note nd a' : In nd (aops a) -> 1 <= tk (snd nd) a -> rpre a = false -> rgiv a = false -> rpre a' = false -> rgiv a' = false -> lkk a' = 0 ->
    shape (YS (y_lock s) (y_lv s) (y_h s) (y_w s) (upd (y_op s) (fst nd) ODone) (act' a' v) (if snd nd then y_xo s ++ [v] else y_xo s)
              (if snd nd then y_so s else y_so s ++ [v]) (y_acc s)) [EA (EAcq (fst nd) (snd nd))].
End Shape.

Definition shaped (s : yst) (k : nat) (a : ract) (v : view) (o : outcome yst sevent) : Prop :=
  match o with Next s' es => shape s k a v s' es | _ => True end.
Lemma shaped_guard s k a v s1 u l r : shaped s k a v r -> shaped s k a v (y_guard s1 u l r).
Proof. intros H. unfold y_guard. destruct (negb _); [exact I|]. destruct (negb _); [exact I|exact H]. Qed.
Lemma shaped_store s k a v rel h u x r : (forall h' u', lastr h' = x -> (forall t, tin t u -> tin t u') -> shaped s k a v (r h' u')) -> shaped s k a v (y_store rel h u x r).
Proof. intros H. unfold y_store. destruct (_ =? _); [|exact I]. apply H; [apply lastr_snoc|auto]. Qed.
Lemma own0_le x : own true x <= 1.
Proof. unfold own. destruct (v_c x); [lia|..]; destruct (v_n x =? 0); lia. Qed.
Lemma no_wait s tr : YI s tr -> cc (y_h s) <> MCont -> y_w s = [].
Proof. intros HI H. destruct (y_w s) eqn:E; auto. elim H. apply (g_waits _ _ _ (y_glob _ _ HI)). rewrite E. discriminate. Qed.

Ltac mv := ysimp; apply sh_move; auto; try (intros; discriminate).
Lemma shape_act d s tr k i spur a v : fix_s d = true -> YI s tr -> nth_error (y_act s) k = Some (a, v) -> shaped s k a v (y_act_step d s k i spur a v).
Proof.
  intros Hd HI Hk. pose proof (y_glob _ _ HI) as Hg. pose proof (y_aok _ _ HI _ _ (nth_error_In _ _ Hk)) as Aa. pose proof (a_ts _ _ _ _ Aa) as Hv. pose proof (a_lc _ _ _ _ Aa) as Hlc.
  assert (Hnone : forall x, lastr (y_h s) = x -> v_c x = MNone -> lastr (y_h s) = RV MNone 0).
  { intros x E Ex. assert (En : nn (y_h s) = 0) by (apply (g_none _ _ _ Hg); congruence). rewrite (rval_split (lastr (y_h s))), En. congruence. }
  assert (Hsusp : forall nd v1 h1, rpre a = true -> lkk a = 1 -> sub v v1 -> rel_of h1 = rel_of (y_h s) -> own true (lastr h1) = own true (lastr (y_h s)) ->
    v_c (lastr h1) = MCont -> v_c (lastr (y_h s)) <> MNone -> shaped s k a v (y_suspend (y_hist s h1) k nd v1)).
  { intros nd v1 h1 A1 A2 A3 A4 A5 A6 A7. unfold y_suspend. apply shaped_guard. cbn [shaped]. ysimp. apply sh_susp; auto. }
  assert (Hsusp0 : forall nd, rpre a = true -> lkk a = 1 -> cc (y_h s) = MCont -> shaped s k a v (y_suspend s k nd v)).
  { intros nd A1 A2 A3. pose proof (Hsusp nd v (y_h s) A1 A2 (sub_refl v) eq_refl eq_refl A3 ltac:(congruence)) as G. rewrite y_hist_id in G. exact G. }
  assert (Htry : forall w x xs, a = STryL w x -> 1 <= xs -> own true (lastr (y_h s)) = 0 -> y_w s = [] ->
    shaped s k a v (y_try_ret (y_hist s (rmw true false (y_h s) v (RV MLocked xs))) k w true (rmw_view true (y_h s) v))).
  { intros w x xs -> A1 A2 A3. unfold y_try_ret. destruct w as [o|]; cbn [shaped]; ysimp; apply sh_acqs; auto. left. split; eauto. }
  assert (Htry0 : forall w x, a = STryL w x -> shaped s k a v (y_try_ret s k w false v)).
  { intros w x ->. unfold y_try_ret. destruct w as [o|]; cbn [shaped]; mv. }
  assert (Hsunl2 : forall x, a = SUnl1 x \/ a = SUnl2 x -> v_c x = MCont -> shaped s k a v (y_sunl2 d s k i spur x v)).
  { intros x Haa Hx. unfold y_sunl2. assert (Hga : rgiv a = true /\ xgiv a = false /\ rpre a = false /\ live a = true /\ tk false a = 1 /\ lkk a = 0) by (destruct Haa as [-> | ->]; cbn; auto 10).
    destruct Hga as (G1 & G2 & G3 & G4 & G5 & G6). destruct (Nat.ltb_spec 1 (v_n x)) as [Hlt|Hge].
    - destruct (casr_read true spur (y_h s) v i x) as [|y|] eqn:Ec; [| |exact I]; cbn [shaped]; ysimp.
      + apply sh_rel; auto; [|congruence]. unfold own. cbn. destruct (Nat.eqb_spec (v_n x - 1) 0); [lia|reflexivity].
      + apply sh_move; auto; cbn; congruence.
    - destruct (negb _); [exact I|]. destruct (y_lock s) eqn:El; [exact I|]. destruct (y_w s) as [|[o [|]] w] eqn:Ew; try exact I.
      apply shaped_guard. rewrite Hd. unfold y_hand. cbn [shaped]. ysimp. apply sh_hand; auto.
      + intros t Ht. apply sub_rmw, sub_join1, Ht.
      + intros t Ht. apply sub_rmw, sub_join2, Ht.
      + intros _ t Ht. apply tin_rmw'. auto.
      + unfold rmw. rewrite lastr_snoc. cbn. apply c_of_none. }
  destruct a as [o|o|o x|w|w x|o|o x|nd| |x| | |x|x|p| ]; cbn [y_act_step].
  - destruct (casr_read _ _ _ _ _ _) as [|y|] eqn:Ec; [| |exact I]; cbn [shaped]; [|mv].
    apply casr_ok in Ec. ysimp. apply sh_acqx; auto. apply Ec.
  - destruct (y_lock s) eqn:El; [exact I|]. destruct (rd _ _ _) as [[x w]|] eqn:Er; [|exact I]. cbn [shaped]. mv; [intros t Ht; apply sub_see, sub_join1, Ht|].
    intros _. right. intros t Ht. apply sub_see, sub_join2, Ht.
  - assert (Hno : forall y, shaped s k (XLoop o x) v (Next (y_set s k (XLoop o y) (vsee v i)) [])) by (intros y; cbn [shaped]; mv).
    destruct (v_c x) eqn:Ex.
    + destruct (casr_read _ _ _ _ _ _) as [|y|] eqn:Ec; [|now apply Hno|exact I]. cbn [shaped]. apply casr_ok in Ec. destruct Ec as (Ec & _). ysimp. apply sh_acqx; eauto.
    + destruct (casr_read _ _ _ _ _ _) as [|y|] eqn:Ec; [|now apply Hno|exact I]. apply casr_ok in Ec. destruct Ec as (Ec & _).
      apply Hsusp; auto; unfold rmw; rewrite ?lastr_snoc, ?rel_snoc; auto; [|congruence]. rewrite Ec. unfold own. rewrite Ex. reflexivity.
    + cbn [lcw] in Hlc. apply Hsusp0; auto. tauto.
  - destruct (rd _ _ _) as [[x u]|] eqn:Er; [|exact I]. cbn [shaped]. mv; destruct w; reflexivity.
  - assert (Hno : forall y, shaped s k (STryL w x) v (Next (y_set s k (STryL w y) (vsee v i)) [])) by (intros y; cbn [shaped]; mv; destruct w; reflexivity).
    destruct (v_c x) eqn:Ex.
    + destruct (casr_read _ _ _ _ _ _) as [|y|] eqn:Ec; [|now apply Hno|exact I]. apply casr_ok in Ec. destruct Ec as (Ec & _). apply (Htry w x); auto; [|apply (no_wait _ _ HI); congruence].
      rewrite Ec. unfold own. now rewrite Ex.
    + destruct (Nat.ltb_spec 0 (v_n x)) as [Hn|Hn]; [|apply (Htry0 w x); auto].
      destruct (casr_read _ _ _ _ _ _) as [|y|] eqn:Ec; [|now apply Hno|exact I]. apply casr_ok in Ec. destruct Ec as (Ec & _). apply (Htry w x); auto; [lia| |apply (no_wait _ _ HI); congruence].
      rewrite Ec. unfold own. rewrite Ex. destruct (Nat.eqb_spec (v_n x) 0); [lia|reflexivity].
    + apply (Htry0 w x); auto.
  - destruct (y_lock s) eqn:El; [exact I|]. destruct (rd _ _ _) as [[x w]|] eqn:Er; [|exact I]. cbn [shaped]. mv; [intros t Ht; apply sub_see, sub_join1, Ht|].
    intros _. right. intros t Ht. apply sub_see, sub_join2, Ht.
  - assert (Hno : forall y, shaped s k (SLoop o x) v (Next (y_set s k (SLoop o y) (vsee v i)) [])) by (intros y; cbn [shaped]; mv).
    destruct (v_c x) eqn:Ex.
    + destruct (casr_read _ _ _ _ _ _) as [|y|] eqn:Ec; [|now apply Hno|exact I]. cbn [shaped]. apply casr_ok in Ec. destruct Ec as (Ec & _). ysimp. apply sh_acqs; eauto; [|apply (no_wait _ _ HI); congruence].
      rewrite Ec. unfold own. now rewrite Ex.
    + destruct (casr_read _ _ _ _ _ _) as [|y|] eqn:Ec; [|now apply Hno|exact I]. apply casr_ok in Ec. destruct Ec as (Ec & _). destruct (Nat.ltb_spec 0 (v_n x)) as [Hn|Hn].
      * cbn [shaped]. ysimp. apply sh_acqs; eauto; [lia| |apply (no_wait _ _ HI); congruence]. rewrite Ec. unfold own. rewrite Ex. destruct (Nat.eqb_spec (v_n x) 0); [lia|reflexivity].
      * apply Hsusp; auto; unfold rmw; rewrite ?lastr_snoc, ?rel_snoc; auto; [|congruence]. rewrite Ec. unfold own. rewrite Ex. replace (v_n x) with 0 by lia. reflexivity.
    + cbn [lcw] in Hlc. apply Hsusp0; auto. tauto.
  - apply shaped_guard. cbn [shaped]. ysimp. apply sh_note; auto; [now left|]. cbn. destruct (snd nd); cbn; lia.
  - destruct (rd _ _ _) as [[x u]|] eqn:Er; [|exact I]. destruct (v_c x); [exact I|..]; (destruct (0 <? v_n x); [exact I|]); cbn [shaped]; mv.
  - cbn [lcw] in Hlc. subst x. destruct (casr_read _ _ _ _ _ _) as [|y|] eqn:Ec; [| |exact I].
    + apply casr_ok in Ec. destruct Ec as (Ec & _). cbn [shaped]. ysimp. apply sh_rel; auto. intros _. split; auto. apply (no_wait _ _ HI). rewrite Ec. discriminate.
    + destruct (0 <? v_n y); [exact I|]. destruct (v_c y); try exact I. cbn [shaped]. mv.
  - destruct (y_lock s) eqn:El; [exact I|]. cbn [lcw] in Hlc. destruct (xonly _ _ _ _ _ HI Hk ltac:(cbn; lia)) as (Hc & Hn & _).
    assert (Hown : own true (lastr (y_h s)) = 1) by (unfold own; rewrite Hlc, Hn; reflexivity).
    assert (Hst : forall rel x p w, v_c x <> MNone -> shaped s k XUnlLock v (y_store rel (y_h s) (vjoin v (y_lv s)) x (y_hand s k p w))).
    { intros rel x p w Hx. apply shaped_store. intros h' u' E1 E2. unfold y_hand. cbn [shaped]. ysimp. apply sh_hand; auto; try congruence.
      - intros t Ht. apply E2, sub_join1, Ht.
      - intros t Ht. apply E2, sub_join2, Ht.
      - induction p; auto. }
    destruct (y_w s) as [|[o [|]] w] eqn:Ew; [exact I|..].
    + apply shaped_guard. destruct w as [|q w]; [apply Hst; discriminate|]. unfold y_hand. cbn [shaped]. ysimp. apply sh_hand; auto; try congruence.
    + destruct (readers _) as [p w'] eqn:Er. apply shaped_guard, Hst. apply c_of_none.
  - destruct (rd _ _ _) as [[x u]|] eqn:Er; [|exact I]. destruct (v_c x); [exact I|..]; (destruct (0 <? v_n x); [|exact I]); cbn [shaped]; mv.
  - destruct (v_c x) eqn:Ex; [exact I| |apply Hsunl2; auto]. destruct (_ || _); [|exact I]. destruct (casr_read _ _ _ _ _ _) as [|y|] eqn:Ec; [| |exact I].
    + cbn [shaped]. ysimp. apply sh_rel; auto; [|discriminate]. destruct (Nat.ltb_spec 1 (v_n x)); [|reflexivity]. unfold own. cbn. destruct (Nat.eqb_spec (v_n x - 1) 0); [lia|reflexivity].
    + destruct (v_c y); [exact I|..]; (destruct (0 <? v_n y); [|exact I]); cbn [shaped]; mv.
  - cbn [lcw] in Hlc. apply Hsunl2; auto. apply Hlc.
  - destruct p as [|nd p]; [exact I|]. apply shaped_guard. cbn [shaped]. ysimp. apply sh_note; auto; try (destruct p; reflexivity); [now left|]. cbn. destruct (snd nd); cbn; lia.
  - exact I.
Qed.

(** ** Where the accesses are known *)
Definition rhome (s : yst) (t : memtok) : Prop :=
  (exists a v, In (a, v) (y_act s) /\ live a = true /\ tin t v) \/ (y_w s <> [] /\ tin t (y_lv s)) \/
  (exists v, (In v (y_xo s) \/ In v (y_so s)) /\ tin t v) \/ (own true (lastr (y_h s)) = 0 /\ tin t (rel_of (y_h s))).
Definition rlvin (s : yst) : Prop := forall b u, In (b, u) (y_act s) -> lkk b = 1 -> sub (y_lv s) u.

Section ShapeFacts.
Variables (s : yst) (tr : list sevent) (k : nat) (a : ract) (v : view) (s' : yst) (es : list sevent).
Hypothesis HI : YI s tr.
Hypothesis HL : rlvin s.
Hypothesis Hk : nth_error (y_act s) k = Some (a, v).
Hypothesis Hsh : shape s k a v s' es.
Let Hin : In (a, v) (y_act s) := nth_error_In _ _ Hk.

Lemma rhome_shape t : rhome s t -> rhome s' t.
Proof.
  assert (Hlive : forall b, rpre b = true \/ rgiv b = true -> live b = true) by (intros b [H|H]; destruct b as [o|o|o x|[o|]|[o|] x|o|o x|nd| |x| | |x|x|p| ]; try discriminate; reflexivity).
  assert (Hact : forall a' v' (P : Prop), (exists b u, In (b, u) (y_act s) /\ live b = true /\ tin t u) -> (live a = true -> tin t v -> P) ->
    ((exists b u, In (b, u) (set_nth (y_act s) k (a', v')) /\ live b = true /\ tin t u) -> P) -> P).
  { intros a' v' P (b & u & Hb & Hl & Ht) H1 H2. destruct (set_nth_keep _ k (a', v') _ _ Hk Hb) as [[= -> ->]|Hb']; auto. apply H2. exists b, u. auto. }
  assert (Hnew : forall a' v', live a' = true -> tin t v' -> exists b u, In (b, u) (set_nth (y_act s) k (a', v')) /\ live b = true /\ tin t u).
  { intros a' v' H1 H2. exists a', v'. split; auto. eapply set_nth_new; eauto. }
  intros H. destruct Hsh as [a' v' lock es0 E1 E2 E3 E4 E5 E6 E7|o lock lv' E1 E2 E3|a' so' xs lock lv' es0 E1 E2 E3 E4 E5 E6 E7|nd v1 h1 es0 E1 E2 E3 E4 E5 E6 E7 E8|y E1 E2 E3|p w' h' v2 es0 E1 E2 E3 E4 E5 E6 E7|nd a' E1 E2 E3 E4 E5 E6 E7];
    unfold rhome; cbn [y_act y_w y_lv y_xo y_so y_h].
  - destruct H as [H|[H|[H|H]]]; auto. apply (Hact a' v' _ H); auto. intros Hl Ht. left. apply Hnew; auto. congruence.
  - unfold rmw. rewrite lastr_snoc, rel_snoc. destruct H as [H|[[H _]|[H|[_ H]]]]; auto.
    + apply (Hact (RSet (o, true)) (rmw_view true (y_h s) v) _ H); auto. intros Hl Ht. left. apply Hnew; auto. apply sub_rmw, Ht.
    + elim H. exact (none_w _ _ HI E2).
    + left. apply Hnew; auto. apply tin_rmw'. auto.
  - unfold rmw. rewrite lastr_snoc, rel_snoc. destruct H as [H|[[H _]|[H|[_ H]]]]; [| | |].
    + apply (Hact a' (rmw_view true (y_h s) v) _ H); auto. intros Hl Ht. destruct E7 as [[[o ->] ->]|[-> ->]].
      * left. apply Hnew; auto. apply sub_rmw, Ht.
      * right; right; left. eexists. split; [right; apply in_or_app; right; now left|]. apply sub_rmw, Ht.
    + congruence.
    + right; right; left. destruct H as (u & Hu & Ht). exists u. split; auto. destruct E7 as [[_ ->]|[_ ->]]; rewrite ?in_app_iff; tauto.
    + right; right; right. split; auto. unfold own. cbn. destruct (Nat.eqb_spec xs 0); [lia|reflexivity].
  - rewrite E4, E5. assert (Hw : y_w s ++ [nd] <> []) by (destruct (y_w s); discriminate). destruct H as [H|[[_ H]|[H|H]]]; auto.
    + apply (Hact REnd v1 _ H); auto.
    + right; left. split; auto. apply E3. exact (HL _ _ Hin E2 _ H).
  - unfold rmw. rewrite lastr_snoc, rel_snoc. destruct H as [H|[H|[H|[_ H]]]]; auto.
    + apply (Hact REnd (rmw_view false (y_h s) v) _ H); auto. intros Hl Ht. right; right; right. split; auto. apply tin_join. right. exact Ht.
    + right; right; right. split; auto. apply tin_join. auto.
  - destruct H as [H|[[_ H]|[H|[H0 H]]]]; auto.
    + apply (Hact (RHand p) v2 _ H); auto.
    + left. apply Hnew; auto. apply E5; auto.
  - destruct H as [H|[H|[H|H]]]; auto.
    + apply (Hact a' v _ H); auto. intros _ Ht. right; right; left. exists v. split; auto. destruct (snd nd); rewrite in_app_iff; simpl; auto.
    + right; right; left. destruct H as (u & Hu & Ht). exists u. split; auto. destruct (snd nd); rewrite in_app_iff; tauto.
Qed.

Lemma rlvin_shape : rlvin s'.
Proof.
  assert (Hl1 : lkk a = 1 -> forall j b u, j <> k -> nth_error (y_act s) j = Some (b, u) -> lkk b = 0).
  { intros E. apply (lonly _ _ _ _ _ HI Hk). lia. }
  assert (Hl2 : y_lock s = false -> forall b u, In (b, u) (y_act s) -> lkk b = 0) by (intros E; exact (nolock _ _ HI E)).
  intros b u Hb Hlk. destruct Hsh as [a' v' lock es0 E1 E2 E3 E4 E5 E6 E7|o lock lv' E1 E2 E3|a' so' xs lock lv' es0 E1 E2 E3 E4 E5 E6 E7|nd v1 h1 es0 E1 E2 E3 E4 E5 E6 E7 E8|y E1 E2 E3|p w' h' v2 es0 E1 E2 E3 E4 E5 E6 E7|nd a' E1 E2 E3 E4 E5 E6 E7];
    cbn [y_act y_lv] in *; apply (set_nth_cases _ _ _ _ _ Hk) in Hb; destruct Hb as [[= -> ->]|(j & Hj & Hb)]; try discriminate; try (exact (HL _ _ (nth_error_In _ _ Hb) Hlk)).
  - destruct (E6 Hlk) as [E|E]; auto. intros t Ht. apply E5, (HL _ _ Hin E _ Ht).
  - destruct E3 as [->|E3]; [exact (HL _ _ (nth_error_In _ _ Hb) Hlk)|]. rewrite (Hl1 E3 _ _ _ Hj Hb) in Hlk. discriminate.
  - destruct E7 as [[[o ->] _]|[-> _]]; discriminate.
  - destruct E5 as [->|E5]; [exact (HL _ _ (nth_error_In _ _ Hb) Hlk)|]. rewrite (Hl1 E5 _ _ _ Hj Hb) in Hlk. discriminate.
  - rewrite (Hl1 E2 _ _ _ Hj Hb) in Hlk. discriminate.
  - rewrite (Hl2 E2 _ _ (nth_error_In _ _ Hb)) in Hlk. discriminate.
  - congruence.
Qed.

Lemma shape_set : exists a' v', y_act s' = set_nth (y_act s) k (a', v') /\ (rgiv a' = true -> rgiv a = true).
Proof.
  destruct Hsh as [a' v' lock es0 E1 E2 E3 E4 E5 E6 E7|o lock lv' E1 E2 E3|a' so' xs lock lv' es0 E1 E2 E3 E4 E5 E6 E7|nd v1 h1 es0 E1 E2 E3 E4 E5 E6 E7 E8|y E1 E2 E3|p w' h' v2 es0 E1 E2 E3 E4 E5 E6 E7|nd a' E1 E2 E3 E4 E5 E6 E7];
    eexists _, _; (split; [reflexivity|]); try discriminate; try congruence; auto.
  destruct E7 as [[[o ->] _]|[-> _]]; discriminate.
Qed.

(** a step of a call that gives up nothing *)
Lemma shape_ngive : rgiv a = false -> (cc (y_h s) <> MNone -> cc (y_h s') <> MNone) /\
  (lastr (y_h s) = RV MNone 0 -> cc (y_h s') <> MNone \/ y_h s' = y_h s /\
     exists a' v', y_act s' = set_nth (y_act s) k (a', v') /\ rpre a' = rpre a /\ live a' = live a /\ sub v v').
Proof.
  intros Hg. destruct Hsh as [a' v' lock es0 E1 E2 E3 E4 E5 E6 E7|o lock lv' E1 E2 E3|a' so' xs lock lv' es0 E1 E2 E3 E4 E5 E6 E7|nd v1 h1 es0 E1 E2 E3 E4 E5 E6 E7 E8|y E1 E2 E3|p w' h' v2 es0 E1 E2 E3 E4 E5 E6 E7|nd a' E1 E2 E3 E4 E5 E6 E7];
    cbn [y_h y_act]; unfold rmw; rewrite ?lastr_snoc; cbn [v_c]; try congruence.
  - split; auto. intros _. right. split; auto. exists a', v'. auto.
  - split; intros; [discriminate|left; discriminate].
  - split; intros; [discriminate|left; discriminate].
  - rewrite E6. split; intros; [discriminate|left; discriminate].
  - split; auto. intros E. destruct (none_owner _ _ HI E) as (_ & _ & H). rewrite (H _ _ (snd nd) Hin) in E2. lia.
Qed.

(** a step of unlock() *)
Lemma shape_xgive : xgiv a = true -> exists a' v', y_act s' = set_nth (y_act s) k (a', v') /\
  (xgiv a' = true \/ (rgiv a' = false /\ cc (y_h s') <> MNone) \/ (a' = REnd /\ lastr (y_h s') = RV MNone 0 /\ y_w s = [] /\ sub v v')).
Proof.
  intros Hx. destruct Hsh as [a' v' lock es0 E1 E2 E3 E4 E5 E6 E7|o lock lv' E1 E2 E3|a' so' xs lock lv' es0 E1 E2 E3 E4 E5 E6 E7|nd v1 h1 es0 E1 E2 E3 E4 E5 E6 E7 E8|y E1 E2 E3|p w' h' v2 es0 E1 E2 E3 E4 E5 E6 E7|nd a' E1 E2 E3 E4 E5 E6 E7];
    eexists _, _; (split; [reflexivity|]); cbn [y_h].
  - left. congruence.
  - destruct a; discriminate.
  - destruct a as [o|o|o x|[o|]|[o|] x|o|o x|nd| |x| | |x|x|p| ]; try discriminate; destruct E1; discriminate.
  - destruct a; discriminate.
  - right; right. destruct (E3 Hx) as [-> Hw]. unfold rmw. rewrite lastr_snoc. auto.
  - right; left. auto.
  - destruct a; discriminate.
Qed.
End ShapeFacts.

(** The other steps *)
Lemma step_shape d s tr k i spur s' es : fix_s d = true -> YI s tr -> y_step d s (YStep k i spur) = Next s' es ->
  exists a v, nth_error (y_act s) k = Some (a, v) /\ shape s k a v s' es.
Proof.
  intros Hd HI H. cbn [y_step] in H. destruct (nth_error (y_act s) k) as [[a v]|] eqn:Hk; [|discriminate]. exists a, v. split; auto.
  pose proof (shape_act d s tr k i spur a v Hd HI Hk) as G. now rewrite H in G.
Qed.
Lemma y_inv d s tr l s' es : YI s tr -> y_step d s l = Next s' es -> YI s' (tr ++ es).
Proof. intros HI H. pose proof (good_step d _ _ l HI) as G. now rewrite H in G. Qed.

Lemma rhome_step d s tr l s' es t : fix_s d = true -> YI s tr -> rlvin s -> y_step d s l = Next s' es -> rhome s t -> rhome s' t.
Proof.
  intros Hd HI HL H Hh. destruct l as [o x v|v i|v|j|j|x j|k i spur].
  - cbn [y_step] in H. destruct (y_op s o); try discriminate. destruct (_ <? _); [|discriminate]. injection H as <- <-. unfold rhome in *. cbn [y_act y_w y_lv y_xo y_so y_h].
    destruct Hh as [(b & u & Hb & Hr)|Hh]; auto. left. exists b, u. rewrite in_app_iff. auto.
  - cbn [y_step] in H. destruct (casr_read _ _ _ _ _ _) eqn:Ec; try discriminate; injection H as <- <-; auto. apply casr_ok in Ec. destruct Ec as (Ec & _).
    unfold rhome in *. ysimp. unfold rmw. rewrite lastr_snoc, rel_snoc. destruct Hh as [Hh|[Hh|[(u & Hu & Ht)|[_ Hh]]]]; auto.
    + right; right; left. exists u. rewrite in_app_iff. tauto.
    + right; right; left. eexists. rewrite in_app_iff. split; [left; right; now left|]. apply tin_rmw'. auto.
  - cbn [y_step] in H. destruct (_ <? _); [|discriminate]. injection H as <- <-. unfold rhome in *. cbn [y_act y_w y_lv y_xo y_so y_h].
    destruct Hh as [(b & u & Hb & Hr)|Hh]; auto. left. exists b, u. rewrite in_app_iff. auto.
  - cbn [y_step] in H. destruct (nth_error (y_xo s) j) as [v|] eqn:Ej; [|discriminate]. injection H as <- <-. unfold rhome in *. cbn [y_act y_w y_lv y_xo y_so y_h].
    destruct Hh as [Hh|[Hh|[(u & [Hu|Hu] & Ht)|Hh]]]; auto; right; right; left; [|eauto]. destruct (set_nth_keep _ j (vadd v (TData (y_acc s))) _ _ Ej Hu) as [->|Hu']; [|eauto].
    eexists. split; [left; eapply set_nth_new; eauto|]. now right.
  - cbn [y_step] in H. destruct (nth_error (y_so s) j) as [v|] eqn:Ej; [|discriminate]. injection H as <- <-. unfold rhome in *. cbn [y_act y_w y_lv y_xo y_so y_h].
    destruct Hh as [Hh|[Hh|[(u & [Hu|Hu] & Ht)|Hh]]]; auto; right; right; left; [eauto|]. destruct (set_nth_keep _ j (vadd v (TData (y_acc s))) _ _ Ej Hu) as [->|Hu']; [|eauto].
    eexists. split; [right; eapply set_nth_new; eauto|]. now right.
  - assert (Hrm : forall (l : list view) v u, nth_error l j = Some v -> In u l -> u = v \/ In u (firstn j l ++ skipn (S j) l)).
    { clear. intros l. revert j. induction l as [|y l IH]; intros [|j] v u Hj Hu; cbn in *; try discriminate; destruct Hu as [->|Hu]; auto.
      - left. congruence.
      - destruct (IH j v u Hj Hu); auto. }
    cbn [y_step] in H. destruct x.
    + destruct (nth_error (y_xo s) j) as [v|] eqn:Ej; [|discriminate]. injection H as <- <-. unfold rhome in *. cbn [y_act y_w y_lv y_xo y_so y_h].
      destruct Hh as [(b & u & Hb & Hr)|[Hh|[(u & [Hu|Hu] & Ht)|Hh]]]; auto.
      * left. exists b, u. rewrite in_app_iff. auto.
      * destruct (Hrm _ _ _ Ej Hu) as [->|Hu']; [left; exists XUnl, v; rewrite in_app_iff; simpl; auto|right; right; left; eauto].
      * right; right; left; eauto.
    + destruct (nth_error (y_so s) j) as [v|] eqn:Ej; [|discriminate]. injection H as <- <-. unfold rhome in *. cbn [y_act y_w y_lv y_xo y_so y_h].
      destruct Hh as [(b & u & Hb & Hr)|[Hh|[(u & [Hu|Hu] & Ht)|Hh]]]; auto.
      * left. exists b, u. rewrite in_app_iff. auto.
      * right; right; left; eauto.
      * destruct (Hrm _ _ _ Ej Hu) as [->|Hu']; [left; exists SUnl, v; rewrite in_app_iff; simpl; auto|right; right; left; eauto].
  - destruct (step_shape _ _ _ _ _ _ _ _ Hd HI H) as (a & v & Hk & Hs). exact (rhome_shape _ _ _ _ _ _ _ HI HL Hk Hs t Hh).
Qed.

Lemma rlvin_step d s tr l s' es : fix_s d = true -> YI s tr -> rlvin s -> y_step d s l = Next s' es -> rlvin s'.
Proof.
  intros Hd HI HL H. destruct l as [o x v|v i|v|j|j|x j|k i spur]; [..|destruct (step_shape _ _ _ _ _ _ _ _ Hd HI H) as (a & v & Hk & Hs); exact (rlvin_shape _ _ _ _ _ _ _ HI HL Hk Hs)];
    cbn [y_step] in H; try destruct x;
    repeat (match type of H with context [match ?b with _ => _ end] => lazymatch b with context [match _ with _ => _ end] => fail | _ => destruct b eqn:? end end; try discriminate);
    injection H as <- <-; auto; intros b u Hb Hlk; cbn [y_act y_lv y_own y_hist] in *; try (exact (HL _ _ Hb Hlk));
    apply In_snoc in Hb; (destruct Hb as [Hb|Hb]; [exact (HL _ _ Hb Hlk)|injection Hb as -> ->; discriminate]).
Qed.

(** ** Recording the accesses *)
Lemma ymark_cases s k n : (y_mark s k n = (s, n) /\ forall a v, nth_error (y_act s) k = Some (a, v) -> is_try a = true) \/
  exists a v, nth_error (y_act s) k = Some (a, v) /\ is_try a = false /\ y_mark s k n = (y_set s k a (vadd v (TCall n)), S n).
Proof.
  unfold y_mark. destruct (nth_error (y_act s) k) as [[a v]|] eqn:Hk; [|left; split; [reflexivity|discriminate]].
  destruct (is_try a) eqn:E; [left; split; [reflexivity|intros b u [= <- <-]; exact E]|right; exists a, v; auto].
Qed.
Lemma ymark_yi s tr k n : YI s tr -> YI (fst (y_mark s k n)) tr.
Proof.
  intros HI. destruct (ymark_cases s k n) as [[-> _]|(a & v & Hk & _ & ->)]; [exact HI|]. cbn [fst]. unfold y_set.
  apply (yi_move s tr k a v a (vadd v (TCall n)) (y_lock s)); auto.
  pose proof (y_aok _ _ HI _ _ (nth_error_In _ _ Hk)) as [A1 A2 A3 A4 A5]. constructor; auto.
Qed.
Lemma ymark_lvin s k n : rlvin s -> rlvin (fst (y_mark s k n)).
Proof.
  intros HL. destruct (ymark_cases s k n) as [[-> _]|(a & v & Hk & _ & ->)]; [exact HL|]. cbn [fst]. intros b u Hb Hlk. cbn [y_set y_act y_lv] in *.
  apply In_set_nth in Hb. destruct Hb as [[= -> ->]|Hb]; [|exact (HL _ _ Hb Hlk)]. intros t Ht. right. exact (HL _ _ (nth_error_In _ _ Hk) Hlk _ Ht).
Qed.
Lemma ymark_home s k n t : rhome s t -> rhome (fst (y_mark s k n)) t.
Proof.
  intros Hh. destruct (ymark_cases s k n) as [[-> _]|(a & v & Hk & _ & ->)]; [exact Hh|]. cbn [fst]. unfold rhome in *. cbn [y_set y_act y_w y_lv y_xo y_so y_h].
  destruct Hh as [(b & u & Hb & Hl & Ht)|Hh]; auto. left. destruct (set_nth_keep _ k (a, vadd v (TCall n)) _ _ Hk Hb) as [[= -> ->]|Hb']; [|exists b, u; auto].
  exists a, (vadd v (TCall n)). split; [eapply set_nth_new; eauto|]. split; auto. now right.
Qed.

Record UI (z : yst * nat) (tr : list sevent) : Prop := {
  u_yi : YI (fst z) tr;
  u_lv : rlvin (fst z);
  u_home : forall m, m < snd z -> rhome (fst z) (TCall m)
}.
Lemma ui_init : UI u_init [].
Proof. constructor; cbn [fst snd u_init]; [apply yi_init|intros b u []|lia]. Qed.

Section Repaired.
Variable d : ord.
Hypothesis Hd : fix_s d = true.

Lemma u_base s n l s' n' es : u_step d (s, n) l = Next (s', n') es ->
  (exists k i spur, l = YStep k i spur /\ n' = snd (y_mark s k n) /\ y_step d (fst (y_mark s k n)) l = Next s' es) \/
  (exists v i, l = YTryX v i /\ n' = S n /\ casr_read false false (y_h s) v i (RV MNone 0) = RCasOk /\ y_step d s (YTryX (vadd v (TCall n)) i) = Next s' es) \/
  (n' = n /\ y_step d s l = Next s' es /\ forall k i spur, l <> YStep k i spur).
Proof.
  assert (Hlift : forall m r, y_lift m r = Next (s', n') es -> n' = m /\ r = Next s' es) by (intros m [u e| |f e]; cbn; try discriminate; intros [= -> -> ->]; auto).
  intros H. cbn [u_step] in H. destruct l as [o x v|v i|v|j|j|x j|k i spur]; try (apply Hlift in H; destruct H as [-> H]; right; right; repeat split; auto; discriminate).
  - destruct (casr_read false false (y_h s) v i (RV MNone 0)) eqn:Ec; apply Hlift in H; destruct H as [-> H]; [right; left; exists v, i; auto|right; right; repeat split; auto; discriminate..].
  - left. exists k, i, spur. destruct (y_mark s k n) as [s1 n1]. apply Hlift in H. destruct H as [-> H]. auto.
Qed.
(** the call that makes the access knows it *)
Lemma ymark_new s tr k n i spur s' es m : YI s tr -> (forall m, m < n -> rhome s (TCall m)) -> y_step d (fst (y_mark s k n)) (YStep k i spur) = Next s' es ->
  m < snd (y_mark s k n) -> rhome (fst (y_mark s k n)) (TCall m).
Proof.
  intros HI Hh Hs Hm. destruct (Nat.ltb_spec m n) as [Hl|Hl]; [apply ymark_home; auto|].
  destruct (ymark_cases s k n) as [[E _]|(a & v & Hk & Ht & E)]; rewrite E in *; cbn [fst snd] in *; [lia|]. assert (m = n) by lia. subst m.
  cbn [y_step y_set y_act] in Hs. rewrite (nth_error_set_nth_same _ _ _ _ Hk) in Hs. left. exists a, (vadd v (TCall n)). cbn [y_set y_act].
  split; [eapply set_nth_new; eauto|]. split; [|now left]. unfold live. rewrite Ht. destruct a; try reflexivity. discriminate.
Qed.

Lemma ui_step z tr l z' es : UI z tr -> u_step d z l = Next z' es -> UI z' (tr ++ es).
Proof.
  intros HW H. destruct z as [s n], z' as [s' n']. pose proof (u_yi _ _ HW) as HI. pose proof (u_lv _ _ HW) as HL. pose proof (u_home _ _ HW) as Hh. cbn [fst snd] in HI, HL, Hh.
  destruct (u_base _ _ _ _ _ _ H) as [(k & i & spur & -> & -> & Hs)|[(v & i & -> & -> & Ec & Hs)|(-> & Hs & _)]].
  - pose proof (ymark_yi _ _ k n HI) as HM. pose proof (ymark_lvin _ k n HL) as HML. constructor; cbn [fst snd].
    + exact (y_inv _ _ _ _ _ _ HM Hs).
    + exact (rlvin_step _ _ _ _ _ _ Hd HM HML Hs).
    + intros m Hm. apply (rhome_step _ _ _ _ _ _ _ Hd HM HML Hs). eapply ymark_new; eauto.
  - constructor; cbn [fst snd].
    + exact (y_inv _ _ _ _ _ _ HI Hs).
    + exact (rlvin_step _ _ _ _ _ _ Hd HI HL Hs).
    + intros m Hm. destruct (Nat.eq_dec m n) as [->|Hne]; [|apply (rhome_step _ _ _ _ _ _ _ Hd HI HL Hs), Hh; lia].
      cbn [y_step] in Hs. change (casr_read false false (y_h s) (vadd v (TCall n)) i (RV MNone 0)) with (casr_read false false (y_h s) v i (RV MNone 0)) in Hs. rewrite Ec in Hs.
      injection Hs as <- <-. right; right; left. eexists. split; [left; apply in_or_app; right; left; reflexivity|]. apply tin_rmw'. left. now left.
  - constructor; cbn [fst snd].
    + exact (y_inv _ _ _ _ _ _ HI Hs).
    + exact (rlvin_step _ _ _ _ _ _ Hd HI HL Hs).
    + intros m Hm. exact (rhome_step _ _ _ _ _ _ _ Hd HI HL Hs (Hh m Hm)).
Qed.

(** ** The last call of unlock() *)
Definition rngive (s : yst) : Prop := forall a v, In (a, v) (y_act s) -> rgiv a = false.
Definition rknown (s : yst) (v : view) (m : nat) : Prop := tin (TCall m) v \/ exists a w, In (a, w) (y_act s) /\ rpre a = true /\ tin (TCall m) w.
Definition rphase (k : nat) (z : yst * nat) : Prop :=
  (exists a v, nth_error (y_act (fst z)) k = Some (a, v) /\ xgiv a = true /\ forall j b w, nth_error (y_act (fst z)) j = Some (b, w) -> rgiv b = true -> j = k) \/
  (exists v, nth_error (y_act (fst z)) k = Some (REnd, v) /\ rngive (fst z) /\ lastr (y_h (fst z)) = RV MNone 0 /\ forall m, m < snd z -> rknown (fst z) v m) \/
  (rngive (fst z) /\ cc (y_h (fst z)) <> MNone).

Lemma rphase_mark k s n tr j i spur s' es : YI s tr -> rphase k (s, n) -> y_step d (fst (y_mark s j n)) (YStep j i spur) = Next s' es -> rphase k (y_mark s j n).
Proof.
  intros HI HP H. destruct (ymark_cases s j n) as [[E _]|(a & v & Hj & Htry & E)]; rewrite E in *; [exact HP|]. cbn [fst] in H.
  cbn [y_step y_set y_act] in H. rewrite (nth_error_set_nth_same _ _ _ _ Hj) in H. set (v1 := vadd v (TCall n)) in *.
  destruct HP as [(b & w & Hk & Hg & Ho)|[(w & Hk & Hn & Hst & Hm)|(Hn & Hst)]]; cbn [fst snd] in *; unfold rphase; cbn [fst snd y_set y_act y_h].
  - left. destruct (Nat.eq_dec j k) as [->|Hne].
    + assert (E' : (b, w) = (a, v)) by congruence. injection E' as -> ->. exists a, v1. split; [eapply nth_error_set_nth_same; eauto|]. split; auto.
      intros i' c u Hi. destruct (Nat.eq_dec i' k); auto. rewrite nth_error_set_nth_other in Hi by auto. eauto.
    + exists b, w. rewrite nth_error_set_nth_other by auto. split; auto. split; auto. intros i' c u Hi Hc. destruct (Nat.eq_dec j i') as [<-|Hne'].
      * rewrite (nth_error_set_nth_same _ _ _ _ Hj) in Hi. injection Hi as <- <-. eauto.
      * rewrite nth_error_set_nth_other in Hi by auto. eauto.
  - destruct (none_owner _ _ HI Hst) as (_ & _ & Htk). pose proof (nth_error_In _ _ Hj) as Hji.
    destruct (Nat.eq_dec j k) as [->|Hne]; [assert (a = REnd) by congruence; subst a; discriminate|].
    right; left. exists w. rewrite nth_error_set_nth_other by auto. split; auto. split; [intros c u Hc; apply In_set_nth in Hc; destruct Hc as [[= -> ->]|Hc]; eauto|].
    split; auto. intros m Hlt. destruct (Nat.eq_dec m n) as [->|Hmn].
    + right. exists a, v1. cbn [y_act]. split; [eapply set_nth_new; eauto|]. split; [|now left].
      pose proof (Htk _ _ true Hji) as T1. pose proof (Htk _ _ false Hji) as T2. pose proof (a_lc _ _ _ _ (y_aok _ _ HI _ _ Hji)) as Hlc.
      destruct a as [o|o|o x|[o|]|[o|] x|o|o x|nd| |x| | |x|x|p| ]; try discriminate; auto.
      * exfalso. cbn in T1, T2. destruct (snd nd); discriminate.
      * exfalso. cbn [lcw] in Hlc. destruct p as [|nd p]; [congruence|]. cbn in T1, T2. destruct (snd nd); cbn in *; discriminate.
    + destruct (Hm m ltac:(lia)) as [Hm1|(c & u & Hi & Hc & Hu)]; [now left|right]. cbn [y_act].
      destruct (set_nth_keep _ j (a, v1) _ _ Hj Hi) as [[= -> ->]|Hi2]; [exists a, v1|exists c, u; auto]. split; [eapply set_nth_new; eauto|]. split; auto. now right.
  - right; right. split; auto. intros c u Hc. apply In_set_nth in Hc. destruct Hc as [[= -> ->]|Hc]; eauto using nth_error_In.
Qed.

Lemma live_cases h lv b u : aok h lv b u -> live b = true -> tk true b = 0 -> tk false b = 0 -> rpre b = true.
Proof.
  intros A Hl T1 T2. pose proof (a_lc _ _ _ _ A) as Hlc. destruct b as [o|o|o x|[o|]|[o|] x|o|o x|nd| |x| | |x|x|p| ]; try discriminate; auto.
  - exfalso. cbn in T1, T2. destruct (snd nd); discriminate.
  - exfalso. cbn [lcw] in Hlc. destruct p as [|nd p]; [congruence|]. cbn in T1, T2. destruct (snd nd); cbn in *; discriminate.
Qed.

Lemma rphase_act k s n tr j i spur s' es : YI s tr -> rlvin s -> (forall m, m < n -> rhome s (TCall m)) -> rphase k (s, n) -> y_step d s (YStep j i spur) = Next s' es -> rphase k (s', n).
Proof.
  intros HI HL Hh HP H. destruct (step_shape _ _ _ _ _ _ _ _ Hd HI H) as (a & v & Hj & Hs).
  destruct (shape_set _ _ _ _ _ _ Hs) as (a' & v' & Ea & Ha').
  assert (Hng : rngive s -> rngive s').
  { intros Hn c u Hc. rewrite Ea in Hc. apply In_set_nth in Hc. destruct Hc as [[= -> ->]|Hc]; [|eauto]. destruct (rgiv a') eqn:E; auto.
    rewrite (Hn _ _ (nth_error_In _ _ Hj)) in Ha'. symmetry. apply Ha'. reflexivity. }
  destruct HP as [(b & w & Hk & Hg & Ho)|[(w & Hk & Hn & Hst & Hm)|(Hn & Hst)]]; cbn [fst snd] in *; unfold rphase; cbn [fst snd].
  - destruct (Nat.eq_dec j k) as [->|Hne].
    + assert (E : (b, w) = (a, v)) by congruence. injection E as -> ->.
      destruct (xonly _ _ _ _ _ HI Hj ltac:(destruct a; try discriminate; cbn; lia)) as (Hc & Hnn & Hxo & Hso & _ & _ & Hoth).
      assert (Hother : forall i' c u, i' <> k -> nth_error (y_act s) i' = Some (c, u) -> rgiv c = false).
      { intros i' c u Hi Hc'. destruct (rgiv c) eqn:E; auto. elim Hi. eapply Ho; eauto. }
      destruct (shape_xgive _ _ _ _ _ _ Hj Hs Hg) as (a2 & v2 & Ea2 & [Hg'|[(Hg' & Hl)|(-> & Hl & Hw & Hv)]]); clear a' v' Ea Ha'.
      * left. exists a2, v2. rewrite Ea2. split; [eapply nth_error_set_nth_same; eauto|]. split; auto.
        intros i' c u Hi Hc'. destruct (Nat.eq_dec i' k); auto. rewrite nth_error_set_nth_other in Hi by auto. eauto.
      * right; right. split; auto. intros c u Hc'. rewrite Ea2 in Hc'. apply (set_nth_cases _ _ _ _ _ Hj) in Hc'. destruct Hc' as [[= -> ->]|(i' & Hi' & Hc')]; eauto.
      * right; left. exists v2. rewrite Ea2. split; [eapply nth_error_set_nth_same; eauto|].
        split; [intros c u Hc'; rewrite Ea2 in Hc'; apply (set_nth_cases _ _ _ _ _ Hj) in Hc'; destruct Hc' as [[= -> ->]|(i' & Hi' & Hc')]; eauto|]. split; auto.
        intros m Hlt. destruct (Hh m Hlt) as [(c & u & Hi & Hlv & Hu)|[(Hw' & _)|[(u & Hu & _)|(E & _)]]]; [|congruence|rewrite Hxo, Hso in Hu; destruct Hu as [[]|[]]|].
        -- apply In_nth_error in Hi. destruct Hi as [i' Hi]. destruct (Nat.eq_dec i' k) as [->|Hik].
           ++ assert (E : (c, u) = (a, v)) by congruence. injection E as -> ->. left. auto.
           ++ right. exists c, u. rewrite Ea2. split; [apply (nth_error_In _ i'); rewrite nth_error_set_nth_other by auto; exact Hi|]. split; auto.
              destruct (Hoth _ _ _ Hik Hi) as [T1 T2]. exact (live_cases _ _ _ _ (y_aok _ _ HI _ _ (nth_error_In _ _ Hi)) Hlv T1 T2).
        -- unfold own in E. rewrite Hnn in E. destruct (cc (y_h s)); [congruence|discriminate..].
    + left. exists b, w. rewrite Ea, nth_error_set_nth_other by auto. split; auto. split; auto.
      intros i' c u Hi Hc. destruct (Nat.eq_dec j i') as [<-|Hne'].
      * rewrite (nth_error_set_nth_same _ _ _ _ Hj) in Hi. injection Hi as <- <-. eauto.
      * rewrite nth_error_set_nth_other in Hi by auto. eauto.
  - destruct (Nat.eq_dec j k) as [->|Hne]; [assert (a = REnd) by congruence; subst a; cbn [y_step] in H; rewrite Hj in H; discriminate|].
    pose proof (Hn _ _ (nth_error_In _ _ Hj)) as Hga. destruct (shape_ngive _ _ _ _ _ _ _ HI Hj Hs Hga) as (_ & Hc). destruct (Hc Hst) as [Hl|(Eh & a2 & v2 & Ea2 & Hp & _ & Hv)]; [right; right; auto|].
    right; left. exists w. rewrite Ea2, nth_error_set_nth_other by auto. split; auto. split; auto. split; [congruence|].
    intros m Hlt. destruct (Hm m Hlt) as [Hm1|(c & u & Hi & Hcc & Hu)]; [now left|right]. rewrite Ea2.
    destruct (set_nth_keep _ j (a2, v2) _ _ Hj Hi) as [[= -> ->]|Hi2]; [exists a2, v2|exists c, u; auto]. split; [eapply set_nth_new; eauto|]. split; [congruence|auto].
  - pose proof (Hn _ _ (nth_error_In _ _ Hj)) as Hga. destruct (shape_ngive _ _ _ _ _ _ _ HI Hj Hs Hga) as (Hl & _). right; right. auto.
Qed.

(** the other steps do not change calls in flight *)
Lemma ract_other s l s' es : y_step d s l = Next s' es -> (forall k i spur, l <> YStep k i spur) -> (forall x j, l <> YUnlock x j) ->
  (y_act s' = y_act s \/ exists a v, y_act s' = y_act s ++ [(a, v)] /\ rgiv a = false) /\ (y_h s' = y_h s \/ cc (y_h s') <> MNone).
Proof.
  intros H H1 H2. destruct l as [o x v|v i|v|j|j|x j|k i spur]; cbn [y_step] in H; [| | | | |destruct (H2 x j eq_refl)|destruct (H1 k i spur eq_refl)].
  - destruct (y_op s o); try discriminate. destruct (_ <? _); [|discriminate]. injection H as <- <-. cbn [y_act y_h]. split; auto. right. eexists _, _. split; [reflexivity|]. destruct x; reflexivity.
  - destruct (casr_read _ _ _ _ _ _); try discriminate; injection H as <- <-; ysimp; split; auto. right. unfold rmw. rewrite lastr_snoc. discriminate.
  - destruct (_ <? _); [|discriminate]. injection H as <- <-. cbn [y_act y_h]. split; auto. right. eexists _, _. split; reflexivity.
  - destruct (nth_error (y_xo s) j); [|discriminate]. injection H as <- <-. cbn. auto.
  - destruct (nth_error (y_so s) j); [|discriminate]. injection H as <- <-. cbn. auto.
Qed.

Lemma rphase_other k s n n' l s' es : rphase k (s, n) -> y_step d s l = Next s' es -> (forall j i spur, l <> YStep j i spur) -> (forall x j, l <> YUnlock x j) ->
  (n' = n \/ cc (y_h s') <> MNone) -> rphase k (s', n').
Proof.
  intros HP H H1 H2 Hn'. destruct (ract_other _ _ _ _ H H1 H2) as [Ha Hh].
  assert (Hng : rngive s -> rngive s').
  { intros Hn a v Hi. destruct Ha as [Ha|(b & u & Ha & Hb)]; rewrite Ha in Hi; [eauto|]. apply In_snoc in Hi. destruct Hi as [Hi|[= -> ->]]; eauto. }
  assert (Hnth : forall j b w, nth_error (y_act s) j = Some (b, w) -> nth_error (y_act s') j = Some (b, w)).
  { intros j b w Hj. destruct Ha as [->|(c & u & -> & _)]; auto. now apply nth_snoc_old. }
  destruct HP as [(b & w & Hk & Hg & Ho)|[(w & Hk & Hn & Hst & Hm)|(Hn & Hst)]]; cbn [fst snd] in *; unfold rphase; cbn [fst snd].
  - left. exists b, w. split; auto. split; auto. intros j c u Hj Hc. destruct Ha as [Ha|(b' & u' & Ha & Hb')]; rewrite Ha in Hj; [eauto|].
    apply nth_snoc_cases in Hj. destruct Hj as [[_ Hj]|[_ [= -> ->]]]; [eauto|congruence].
  - destruct Hh as [Hh|Hl]; [|right; right; auto]. destruct Hn' as [->|Hl]; [|rewrite Hh, Hst in Hl; elim Hl; reflexivity]. right; left. exists w. split; auto. split; auto. split; [congruence|].
    intros m Hlt. destruct (Hm m Hlt) as [Hm1|(c & u & Hi & Hc & Hu)]; [now left|right]. exists c, u. split; auto.
    destruct Ha as [->|(b' & u' & -> & _)]; auto. apply in_or_app. auto.
  - right; right. split; auto. destruct Hh as [->|Hl]; auto.
Qed.

Lemma rphase_u k z tr l z' es : UI z tr -> rphase k z -> u_step d z l = Next z' es -> (forall x j, l <> YUnlock x j) -> rphase k z'.
Proof.
  intros HW HP H Hl. destruct z as [s n], z' as [s' n']. pose proof (u_yi _ _ HW) as HI. pose proof (u_lv _ _ HW) as HL. pose proof (u_home _ _ HW) as Hh. cbn [fst snd] in HI, HL, Hh.
  destruct (u_base _ _ _ _ _ _ H) as [(j & i & spur & -> & -> & Hs)|[(v & i & -> & -> & Ec & Hs)|(-> & Hs & Hx)]].
  - pose proof (rphase_mark _ _ _ _ _ _ _ _ _ HI HP Hs) as HP1. rewrite (surjective_pairing (y_mark s j n)) in HP1.
    exact (rphase_act _ _ _ _ _ _ _ _ _ (ymark_yi _ _ j n HI) (ymark_lvin _ j n HL) (fun m Hm => ymark_new _ _ _ _ _ _ _ _ m HI Hh Hs Hm) HP1 Hs).
  - eapply rphase_other; [exact HP|exact Hs|discriminate|discriminate|]. right.
    cbn [y_step] in Hs. change (casr_read false false (y_h s) (vadd v (TCall n)) i (RV MNone 0)) with (casr_read false false (y_h s) v i (RV MNone 0)) in Hs. rewrite Ec in Hs.
    injection Hs as <- <-. ysimp. unfold rmw. rewrite lastr_snoc. discriminate.
  - eapply rphase_other; eauto.
Qed.
Lemma rphase_run k ls : forall z tr z' tr', UI z tr -> rphase k z -> (forall x j, ~ In (YUnlock x j) ls) -> run_from (u_step d) z tr ls = Running z' tr' -> rphase k z'.
Proof.
  induction ls as [|l ls IH]; intros z tr z' tr' HW HP Hn Hr; cbn [run_from] in Hr; [injection Hr as <- <-; exact HP|].
  destruct (u_step d z l) as [z1 es| |] eqn:Hs; try discriminate. apply (IH z1 (tr ++ es) z' tr'); auto.
  - eapply ui_step; eauto.
  - eapply rphase_u; eauto. intros x j ->. apply (Hn x j). now left.
  - intros x j Hj. apply (Hn x j). now right.
Qed.

(** operations and the trace *)
Record ROI (s : yst) (tr : list sevent) : Prop := {
  roi_st : forall o, y_op s o <> OIdle -> In o (started_ops (sapi tr));
  roi_acq : forall o, In o (acquired (sapi tr)) -> y_op s o = ODone
}.
Lemma sapi_app a b : sapi (a ++ b) = sapi a ++ sapi b.
Proof. apply flat_map_app. Qed.
Lemma roi_same s s' tr es : ROI s tr -> y_op s' = y_op s -> acquired (sapi es) = [] -> ROI s' (tr ++ es).
Proof.
  intros [H1 H2] E Ea. constructor; rewrite E, sapi_app.
  - intros o Ho. rewrite started_app. apply in_or_app. auto.
  - intros o. rewrite acquired_app, Ea, app_nil_r. auto.
Qed.
Lemma roi_note s s' tr o x : ROI s tr -> y_op s o = OStarted -> y_op s' = upd (y_op s) o ODone -> ROI s' (tr ++ [EA (EAcq o x)]).
Proof.
  intros [H1 H2] Ho E. constructor; rewrite E, sapi_app; cbn [sapi flat_map app]; intros o'.
  - rewrite started_app. cbn [started_ops flat_map app]. rewrite app_nil_r. unfold upd. destruct (Nat.eqb_spec o' o) as [->|]; [intros _; apply H1; congruence|auto].
  - rewrite acquired_app, in_app_iff. cbn [acquired flat_map app]. unfold upd. destruct (Nat.eqb_spec o' o) as [->|Hne]; auto. intros [H|[H|[]]]; auto. congruence.
Qed.
Lemma roi_step s tr l s' es : YI s tr -> ROI s tr -> y_step d s l = Next s' es -> ROI s' (tr ++ es).
Proof.
  intros HI HO H. destruct l as [o x v|v i|v|j|j|x j|k i spur].
  - cbn [y_step] in H. destruct (y_op s o) eqn:Eo; try discriminate. destruct (_ <? _); [|discriminate]. injection H as <- <-. destruct HO as [H1 H2].
    constructor; cbn [y_op]; rewrite sapi_app; cbn [sapi flat_map app]; intros o'; unfold upd.
    + rewrite started_app, in_app_iff. cbn [started_ops flat_map app]. destruct (Nat.eqb_spec o' o) as [->|]; [intros _; right; now left|auto].
    + rewrite acquired_app. cbn [acquired flat_map app]. rewrite app_nil_r. intros Ha. apply H2 in Ha. destruct (Nat.eqb_spec o' o) as [->|]; congruence.
  - cbn [y_step] in H. destruct (casr_read _ _ _ _ _ _); try discriminate; injection H as <- <-; eapply roi_same; eauto.
  - cbn [y_step] in H. destruct (_ <? _); [|discriminate]. injection H as <- <-. eapply roi_same; eauto.
  - cbn [y_step] in H. destruct (nth_error (y_xo s) j); [|discriminate]. injection H as <- <-; eapply roi_same; eauto.
  - cbn [y_step] in H. destruct (nth_error (y_so s) j); [|discriminate]. injection H as <- <-; eapply roi_same; eauto.
  - cbn [y_step] in H. destruct x; (destruct (nth_error _ j); [|discriminate]); injection H as <- <-; eapply roi_same; eauto.
  - destruct (step_shape _ _ _ _ _ _ _ _ Hd HI H) as (a & v & Hk & Hs).
    destruct Hs; try (eapply roi_same; eauto; fail). eapply roi_note; eauto. eapply node_started; eauto.
Qed.
Lemma u_ops ls z tr : run (u_step d) u_init ls = Running z tr -> UI z tr /\ ROI (fst z) tr.
Proof.
  apply (run_inv (u_step d) (fun z tr => UI z tr /\ ROI (fst z) tr)).
  - split; [apply ui_init|]. constructor; cbn; [congruence|tauto].
  - intros [s n] t l [s' n'] es [HW HO] Hs. split; [eapply ui_step; eauto|]. pose proof (u_yi _ _ HW) as HI. cbn [fst] in *.
    destruct (u_base _ _ _ _ _ _ Hs) as [(j & i & spur & -> & -> & Hx)|[(v & i & -> & -> & Ec & Hx)|(-> & Hx & _)]].
    + eapply roi_step; [apply ymark_yi; exact HI| |exact Hx]. destruct (ymark_cases s j n) as [[-> _]|(a & v & _ & _ & ->)]; [exact HO|constructor; apply HO].
    + eapply roi_step; eauto.
    + eapply roi_step; eauto.
Qed.

Theorem u_destroy ls1 s1 n1 tr1 j ls2 s n tr v : run (u_step d) u_init ls1 = Running (s1, n1) tr1 ->
  run (u_step d) u_init (ls1 ++ YUnlock true j :: ls2) = Running (s, n) tr -> (forall x i, ~ In (YUnlock x i) ls2) ->
  nth_error (y_act s) (length (y_act s1)) = Some (REnd, v) -> incl (started_ops (sapi tr)) (acquired (sapi tr)) ->
  acqs true (sapi tr) = unls true (sapi tr) -> acqs false (sapi tr) = unls false (sapi tr) -> forall m, m < n -> In (TCall m) (v_tok v).
Proof.
  intros H1 H2 Hn Hk Hall Hx Hs m Hm. destruct (u_ops _ _ _ H2) as [HW HO]. cbn [fst] in HO. destruct (u_ops _ _ _ H1) as [HW1 _].
  pose proof (u_yi _ _ HW) as HI. pose proof (u_yi _ _ HW1) as HI1. cbn [fst] in HI, HI1. unfold run in H1, H2. rewrite run_from_app, H1 in H2. cbn [run_from u_step y_step] in H2.
  destruct (nth_error (y_xo s1) j) as [w|] eqn:Hj; [|discriminate]. cbn [y_lift] in H2.
  assert (Hno : forall b u, In (b, u) (y_act s1) -> rgiv b = false).
  { intros b u Hb. pose proof (y_tok _ _ HI1 true) as T1. pose proof (y_tok _ _ HI1 false) as T2. unfold ol, own in *. cbn [Nat.add] in T1.
    pose proof (sum_map_le (fun p : ract * view => tk true (fst p)) _ _ Hb) as L1. pose proof (sum_map_le (fun p : ract * view => tk false (fst p)) _ _ Hb) as L2. cbn [fst] in L1, L2.
    assert (Hlen : 1 <= length (y_xo s1)) by (destruct (y_xo s1); [destruct j; discriminate|simpl; lia]).
    assert (tk true b = 0 /\ tk false b = 0) as [E1 E2].
    { destruct (cc (y_h s1)); [lia|..]; (destruct (Nat.eqb_spec (nn (y_h s1)) 0); lia). }
    destruct b; try reflexivity; try discriminate. }
  assert (HP : rphase (length (y_act s1)) (s, n)).
  { eapply rphase_run; [| |exact Hn|exact H2].
    - apply (ui_step _ _ (YUnlock true j) _ _ HW1). cbn [u_step y_step]. rewrite Hj. reflexivity.
    - left. cbn [fst y_act]. exists XUnl, w. rewrite nth_error_app2, Nat.sub_diag by auto. split; [reflexivity|]. split; [reflexivity|].
      intros i b u Hi Hb. apply nth_snoc_cases in Hi. destruct Hi as [[_ Hi]|[-> _]]; auto. apply nth_error_In, Hno in Hi. congruence. }
  assert (Hnone : forall a u nd, In (a, u) (y_act s) -> ~ In nd (aops a)).
  { intros a u nd Hi Ho. apply In_nth_error in Hi. destruct Hi as [i Hi]. pose proof (node_started _ _ _ _ _ HI Hi _ Ho) as E.
    assert (Ha : In (fst nd) (acquired (sapi tr))) by (apply Hall, (roi_st _ _ HO); congruence). apply (roi_acq _ _ HO) in Ha. congruence. }
  destruct HP as [(a & u & Ha & Hg & _)|[(u & Ha & _ & _ & Hu)|(Hng & Hst)]]; cbn [fst snd] in *.
  - rewrite Hk in Ha. injection Ha as <- <-. discriminate.
  - rewrite Hk in Ha. injection Ha as <-. destruct (Hu m Hm) as [Ht|(a & x & Hi & Hp & _)]; [exact Ht|]. exfalso.
    destruct a as [o|o|o y|[o|]|[o|] y|o|o y|nd| |y| | |y|y|p| ]; try discriminate; eapply (Hnone _ _ _ Hi); now left.
  - exfalso. pose proof (y_tr _ _ HI true) as Ex. pose proof (y_tr _ _ HI false) as Es. pose proof (y_tok _ _ HI true) as T1. pose proof (y_tok _ _ HI false) as T2.
    assert (Hz : forall x, tks x (y_act s) = 0).
    { intros x. apply sum_map_0. intros [a u] Hi. cbn [fst]. pose proof (Hng _ _ Hi) as Hg.
      destruct a as [o|o|o y|w'|w' y|o|o y|nd| |y| | |y|y|p| ]; try reflexivity; try discriminate; [elim (Hnone _ _ nd Hi); now left|]. destruct p as [|nd p]; [reflexivity|]. elim (Hnone _ _ nd Hi). now left. }
    rewrite !Hz in *. unfold own in *. destruct (cc (y_h s)); [congruence|..]; (destruct (Nat.eqb_spec (nn (y_h s)) 0); lia).
Qed.
End Repaired.

(** ** The code as it is, if no exclusive operation suspends *)
(** operations in flight and in the list were started in their mode; those in the list were suspended *)
Record KI (s : yst) (tr : list sevent) : Prop := {
  k_act : forall a v nd, In (a, v) (y_act s) -> In nd (aops a) -> In (EStart (fst nd) (snd nd)) (sapi tr);
  k_w : forall nd, In nd (y_w s) -> In (EStart (fst nd) (snd nd)) (sapi tr) /\ In (ESusp (fst nd)) (sapi tr)
}.
Lemma readers_sub l p w : readers l = (p, w) -> forall nd, In nd p \/ In nd w -> In nd l.
Proof. intros E nd H. destruct (readers_spec _ _ _ E) as (-> & _). apply in_or_app. exact H. Qed.
Lemma ki_set s tr k a v s' es a' v' : KI s tr -> nth_error (y_act s) k = Some (a, v) -> y_act s' = set_nth (y_act s) k (a', v') ->
  (forall nd, In nd (aops a') -> In nd (aops a) \/ In nd (y_w s)) ->
  (forall nd, In nd (y_w s') -> In nd (y_w s) \/ In nd (aops a) /\ In (ESusp (fst nd)) (sapi es)) -> KI s' (tr ++ es).
Proof.
  intros [K1 K2] Hk Ea Ha Hw. constructor.
  - intros b u nd Hb Hn. rewrite sapi_app, in_app_iff. left. rewrite Ea in Hb. apply In_set_nth in Hb. destruct Hb as [[= -> ->]|Hb]; [|eauto].
    destruct (Ha _ Hn) as [H|H]; [exact (K1 _ _ _ (nth_error_In _ _ Hk) H)|apply (K2 _ H)].
  - intros nd Hn. rewrite sapi_app, !in_app_iff. destruct (Hw _ Hn) as [H|[H1 H2]]; [destruct (K2 _ H); auto|]. split; auto. left. exact (K1 _ _ _ (nth_error_In _ _ Hk) H1).
Qed.
Definition kept (tr : list sevent) (o : outcome yst sevent) : Prop := match o with Next s' es => KI s' (tr ++ es) | _ => True end.
Lemma kept_guard tr s1 u l r : kept tr r -> kept tr (y_guard s1 u l r).
Proof. intros H. unfold y_guard. destruct (negb _); [exact I|]. destruct (negb _); [exact I|exact H]. Qed.
Lemma kept_store tr rel h u x r : (forall h' u', kept tr (r h' u')) -> kept tr (y_store rel h u x r).
Proof. intros H. unfold y_store. destruct (_ =? _); [|exact I]. apply H. Qed.
Lemma ki_step d s tr l : KI s tr -> kept tr (y_step d s l).
Proof.
  intros HK. destruct l as [o x v|v i|v|j|j|x j|k i spur]; cbn [y_step].
  - destruct (y_op s o); try exact I. destruct (_ <? _); [|exact I]. cbn [kept]. destruct HK as [K1 K2]. constructor; cbn [y_act y_w]; rewrite sapi_app.
    + intros a u nd Ha Hn. rewrite in_app_iff. apply In_snoc in Ha. destruct Ha as [Ha|[= -> ->]]; [left; eauto|right]. destruct x; destruct Hn as [<-|[]]; now left.
    + intros nd Hn. rewrite !in_app_iff. destruct (K2 _ Hn). auto.
  - destruct (casr_read _ _ _ _ _ _); try exact I; cbn [kept]; destruct HK as [K1 K2]; constructor; cbn [y_act y_w y_own y_hist]; rewrite sapi_app; intros; rewrite ?in_app_iff; eauto; destruct (K2 nd H); auto.
  - destruct (_ <? _); [|exact I]. cbn [kept]. rewrite app_nil_r. destruct HK as [K1 K2]. constructor; cbn [y_act y_w]; auto.
    intros a u nd Ha Hn. apply In_snoc in Ha. destruct Ha as [Ha|[= -> ->]]; [eauto|destruct Hn].
  - destruct (nth_error _ j); [|exact I]. cbn [kept]. destruct HK as [K1 K2]. constructor; cbn [y_act y_w]; rewrite sapi_acc by discriminate; auto.
  - destruct (nth_error _ j); [|exact I]. cbn [kept]. destruct HK as [K1 K2]. constructor; cbn [y_act y_w]; rewrite sapi_acc by discriminate; auto.
  - destruct x; (destruct (nth_error _ j); [|exact I]); cbn [kept]; destruct HK as [K1 K2]; constructor; cbn [y_act y_w]; rewrite sapi_app.
    + intros a u nd Ha Hn. rewrite in_app_iff. apply In_snoc in Ha. destruct Ha as [Ha|[= -> ->]]; [eauto|destruct Hn].
    + intros nd Hn. rewrite !in_app_iff. destruct (K2 _ Hn). auto.
    + intros a u nd Ha Hn. rewrite in_app_iff. apply In_snoc in Ha. destruct Ha as [Ha|[= -> ->]]; [eauto|destruct Hn].
    + intros nd Hn. rewrite !in_app_iff. destruct (K2 _ Hn). auto.
  - destruct (nth_error (y_act s) k) as [[a v]|] eqn:Hk; [|exact I].
    assert (Hset : forall s' es a' v', y_act s' = set_nth (y_act s) k (a', v') -> y_w s' = y_w s -> (forall nd, In nd (aops a') -> In nd (aops a)) -> KI s' (tr ++ es)).
    { intros s' es a' v' E1 E2 E3. apply (ki_set s tr k a v s' es a' v'); auto. rewrite E2. auto. }
    assert (Hsusp : forall nd h1 v1, In nd (aops a) -> kept tr (y_suspend (y_hist s h1) k nd v1)).
    { intros nd h1 v1 Hn. unfold y_suspend. apply kept_guard. cbn [kept]. eapply (ki_set s tr k a v); [exact HK|exact Hk|ysimp; reflexivity|intros ? []|ysimp].
      intros n' Hn'. apply in_app_iff in Hn'. destruct Hn' as [H|[<-|[]]]; auto. right. split; auto. now left. }
    assert (Hsusp0 : forall nd v1, In nd (aops a) -> kept tr (y_suspend s k nd v1)).
    { intros nd v1 Hn. pose proof (Hsusp nd (y_h s) v1 Hn) as G. rewrite y_hist_id in G. exact G. }
    assert (Hhand : forall p w h' v', (forall nd, In nd p \/ In nd w -> In nd (y_w s)) -> kept tr (y_hand s k p w h' v')).
    { intros p w h' v' Hs. unfold y_hand. cbn [kept]. eapply (ki_set s tr k a v); [exact HK|exact Hk|ysimp; reflexivity|cbn; auto|ysimp; auto]. }
    assert (Hsunl2 : forall x, kept tr (y_sunl2 d s k i spur x v)).
    { intros x. unfold y_sunl2. destruct (1 <? v_n x).
      - destruct (casr_read _ _ _ _ _ _); try exact I; cbn [kept]; eapply Hset; ysimp; eauto; intros ? [].
      - destruct (negb _); [exact I|]. destruct (y_lock s); [exact I|]. destruct (y_w s) as [|[o [|]] w] eqn:Ew; try exact I. apply kept_guard.
        destruct (fix_s d); [apply Hhand|apply kept_store; intros; apply Hhand]; intros nd [[<-|[]]|H]; simpl; auto. }
    destruct a as [o|o|o x|w|w x|o|o x|nd| |x| | |x|x|p| ]; cbn [y_act_step].
    + destruct (casr_read _ _ _ _ _ _); try exact I; cbn [kept]; eapply Hset; ysimp; eauto.
    + destruct (y_lock s); [exact I|]. destruct (rd _ _ _) as [[x w]|]; [|exact I]. cbn [kept]. eapply Hset; ysimp; eauto.
    + destruct (v_c x); [| |apply Hsusp0; now left]; (destruct (casr_read _ _ _ _ _ _); try exact I; try (cbn [kept]; eapply Hset; ysimp; eauto; fail)). apply Hsusp. now left.
    + destruct (rd _ _ _) as [[x u]|]; [|exact I]. cbn [kept]. eapply Hset; ysimp; eauto.
    + assert (Hret : forall s1 b u, y_act s1 = y_act s -> y_w s1 = y_w s -> kept tr (y_try_ret s1 k w b u)).
      { intros s1 b u E1 E2. unfold y_try_ret. destruct w as [o|], b; cbn [kept]; eapply Hset; ysimp; rewrite ?E1; eauto; intros ? []. }
      destruct (v_c x); [|destruct (0 <? v_n x)|]; try (apply Hret; reflexivity); (destruct (casr_read _ _ _ _ _ _); try exact I; [apply Hret; reflexivity|cbn [kept]; eapply Hset; ysimp; eauto]).
    + destruct (y_lock s); [exact I|]. destruct (rd _ _ _) as [[x w]|]; [|exact I]. cbn [kept]. eapply Hset; ysimp; eauto.
    + destruct (v_c x); [| |apply Hsusp0; now left]; (destruct (casr_read _ _ _ _ _ _); try exact I; try (cbn [kept]; eapply Hset; ysimp; eauto; fail)).
      destruct (0 <? v_n x); [cbn [kept]; eapply Hset; ysimp; eauto|apply Hsusp; now left].
    + apply kept_guard. cbn [kept]. eapply Hset; ysimp; eauto. intros ? [].
    + destruct (rd _ _ _) as [[x u]|]; [|exact I]. destruct (v_c x); [exact I|..]; (destruct (0 <? v_n x); [exact I|]); cbn [kept]; eapply Hset; ysimp; eauto.
    + destruct (casr_read _ _ _ _ _ _) as [|y|]; [| |exact I]; [cbn [kept]; eapply Hset; ysimp; eauto|]. destruct (0 <? v_n y); [exact I|]. destruct (v_c y); try exact I. cbn [kept]; eapply Hset; ysimp; eauto.
    + destruct (y_lock s); [exact I|]. destruct (y_w s) as [|[o [|]] w] eqn:Ew; [exact I|..].
      * apply kept_guard. destruct w; [apply kept_store; intros; apply Hhand|apply Hhand]; intros nd [[<-|[]]|H]; simpl in *; auto.
      * destruct (readers _) as [p w'] eqn:Er. apply kept_guard, kept_store. intros. apply Hhand. exact (readers_sub _ _ _ Er).
    + destruct (rd _ _ _) as [[x u]|]; [|exact I]. destruct (v_c x); [exact I|..]; (destruct (0 <? v_n x); [|exact I]); cbn [kept]; eapply Hset; ysimp; eauto.
    + destruct (v_c x); [exact I| |apply Hsunl2]. destruct (_ || _); [|exact I]. destruct (casr_read _ _ _ _ _ _) as [|y|]; [| |exact I]; [cbn [kept]; eapply Hset; ysimp; eauto|].
      destruct (v_c y); [exact I|..]; (destruct (0 <? v_n y); [|exact I]); cbn [kept]; eapply Hset; ysimp; eauto.
    + apply Hsunl2.
    + destruct p as [|nd p]; [exact I|]. apply kept_guard. cbn [kept]. eapply Hset; ysimp; eauto. intros n' Hn'. destruct p; [destruct Hn'|right; exact Hn'].
    + exact I.
Qed.

(** the two versions of the hand-off by unlock_shared() differ only if an exclusive operation waits *)
Lemma step_same d s l : (forall nd, In nd (y_w s) -> snd nd = false) -> y_step d s l = y_step (Ord (fix_x d) true) s l.
Proof.
  intros Hw. destruct l as [o x v|v i|v|j|j|x j|k i spur]; try reflexivity. cbn [y_step]. destruct (nth_error (y_act s) k) as [[a v]|]; [|reflexivity].
  assert (H2 : forall x, y_sunl2 d s k i spur x v = y_sunl2 (Ord (fix_x d) true) s k i spur x v).
  { intros x. unfold y_sunl2. destruct (y_w s) as [|[o [|]] w]; try reflexivity. specialize (Hw _ (or_introl eq_refl)). discriminate. }
  destruct a; try reflexivity; cbn [y_act_step]; rewrite ?H2; reflexivity.
Qed.
Lemma mark_w s k n : y_w (fst (y_mark s k n)) = y_w s.
Proof. destruct (ymark_cases s k n) as [[-> _]|(a & v & _ & _ & ->)]; reflexivity. Qed.
Lemma ustep_same d s n l : (forall nd, In nd (y_w s) -> snd nd = false) -> u_step d (s, n) l = u_step (Ord (fix_x d) true) (s, n) l.
Proof.
  intros Hw. cbn [u_step]. destruct l as [o x v|v i|v|j|j|x j|k i spur]; rewrite <- ?step_same; auto.
  pose proof (mark_w s k n) as E. destruct (y_mark s k n) as [s1 n1]. cbn [fst] in E. rewrite <- step_same; auto. rewrite E. exact Hw.
Qed.
Lemma ki_mark s tr k n : KI s tr -> KI (fst (y_mark s k n)) tr.
Proof.
  intros HK. destruct (ymark_cases s k n) as [[-> _]|(a & v & Hk & _ & ->)]; [exact HK|]. rewrite <- (app_nil_r tr). cbn [fst]. eapply (ki_set s tr k a v); [exact HK|exact Hk|ysimp; reflexivity|auto|ysimp; auto].
Qed.
Lemma ki_u d z tr l z' es : KI (fst z) tr -> u_step d z l = Next z' es -> KI (fst z') (tr ++ es).
Proof.
  intros HK H. destruct z as [s n], z' as [s' n']. cbn [fst] in *.
  assert (Hl : forall s0 l0, KI s0 tr -> y_step d s0 l0 = Next s' es -> KI s' (tr ++ es)) by (intros s0 l0 HK0 E; pose proof (ki_step d _ _ l0 HK0) as G; now rewrite E in G).
  destruct (u_base d _ _ _ _ _ _ H) as [(k & i & spur & -> & -> & Hs)|[(v & i & -> & -> & Ec & Hs)|(-> & Hs & _)]]; eauto. eapply Hl; [|exact Hs]. now apply ki_mark.
Qed.
Lemma run_same d ls : forall z tr z' tr', KI (fst z) tr -> x_never_suspends tr' -> run_from (u_step d) z tr ls = Running z' tr' -> run_from (u_step (Ord (fix_x d) true)) z tr ls = Running z' tr'.
Proof.
  induction ls as [|l ls IH]; intros z tr z' tr' HK Hx Hr; [exact Hr|]. pose proof Hr as Hr0. cbn [run_from] in *.
  assert (Hp : exists t, tr' = tr ++ t).
  { destruct (u_step d z l) as [z1 es| |]; try discriminate. destruct (run_from_trace_prefix _ _ _ _ _ _ Hr) as [t ->]. exists (es ++ t). now rewrite app_assoc. }
  destruct z as [s n]. rewrite <- ustep_same.
  - destruct (u_step d (s, n) l) as [z1 es| |] eqn:E; try discriminate. apply (IH z1 (tr ++ es) z' tr'); auto. eapply ki_u; eauto.
  - intros [o [|]] Hn; [|reflexivity]. exfalso. destruct Hp as [t ->]. destruct (k_w _ _ HK _ Hn) as [H1 H2]. apply (Hx o); rewrite sapi_app, in_app_iff; auto.
Qed.
Theorem u_destroy_partial d ls1 s1 n1 tr1 j ls2 s n tr v : run (u_step d) u_init ls1 = Running (s1, n1) tr1 ->
  run (u_step d) u_init (ls1 ++ YUnlock true j :: ls2) = Running (s, n) tr -> (forall x i, ~ In (YUnlock x i) ls2) -> x_never_suspends tr ->
  nth_error (y_act s) (length (y_act s1)) = Some (REnd, v) -> incl (started_ops (sapi tr)) (acquired (sapi tr)) ->
  acqs true (sapi tr) = unls true (sapi tr) -> acqs false (sapi tr) = unls false (sapi tr) -> forall m, m < n -> In (TCall m) (v_tok v).
Proof.
  intros H1 H2 Hn Hx. assert (HK : KI (fst u_init) []) by (constructor; cbn; tauto).
  assert (Hx1 : x_never_suspends tr1).
  { unfold run in *. rewrite run_from_app, H1 in H2. destruct (run_from_trace_prefix _ _ _ _ _ _ H2) as [t ->]. intros o A B. apply (Hx o); rewrite sapi_app, in_app_iff; auto. }
  apply (u_destroy (Ord (fix_x d) true) eq_refl ls1 s1 n1 tr1 j ls2 s n tr v); auto; [exact (run_same d _ _ _ _ _ HK Hx1 H1)|exact (run_same d _ _ _ _ _ HK Hx H2)].
Qed.
