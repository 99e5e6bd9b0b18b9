(** Runs of shared_mutex: C26-C29. *)
From Coq Require Import List Arith Bool Lia.
From Verif Require Import Lts ListFacts M_Mutex S_Mutex P_Mutex M_SharedMutex S_SharedMutex P_SharedMutex.
Import ListNotations.

Notation rrun ls := (run r_step r_init ls).

Lemma r_inv ls s tr : rrun ls = Running s tr -> owners_unlock tr -> RI s tr.
Proof.
  intros Hr Hc. refine (run_inv_client r_step owners_unlock RI r_init rule_prefix ri_init _ ls s tr Hr Hc).
  intros s0 tr0 l s' es HI E. pose proof (ri_step s0 tr0 l HI) as H. rewrite E in H. exact H.
Qed.
Lemma r_safe ls f tr : rrun ls = Failed f tr -> ~ owners_unlock tr.
Proof.
  refine (run_safe_client r_step owners_unlock RI r_init rule_prefix ri_init _ _ ls f tr).
  - intros s0 tr0 l s' es HI E. pose proof (ri_step s0 tr0 l HI) as H. rewrite E in H. exact H.
  - intros s0 tr0 l f0 es HI Hc E. pose proof (ri_step s0 tr0 l HI) as H. rewrite E in H. simpl in H. tauto.
Qed.

(** ** Events *)
Lemma r_es s l s' es e : r_step s l = Next s' es -> In e es -> (exists o, e = EHand o) \/ es = [e].
Proof.
  assert (H1 : forall (e0 : levent), In e [e0] -> (exists o, e = EHand o) \/ [e0] = [e]) by (intros e0 [->|[]]; auto).
  destruct l as [o x| | |x|k spur]; simpl.
  - destruct (r_op s o); intros E; try discriminate; injection E as _ <-; apply H1.
  - destruct (rval_eqb _ _); intros E; injection E as _ <-; apply H1.
  - intros E; injection E as _ <-. intros [].
  - intros E; injection E as _ <-. apply H1.
  - destruct (nth_error (r_act s) k) as [a|]; [|discriminate]. unfold ract_step, sunl2_step, try_ret, r_suspend, r_hand.
    destruct a as [o|o|o v|w|w v|o|o v|nd| |v| | |v|v|p|]; repeat match goal with |- context [match ?c with _ => _ end] => destruct c end;
      intros E; try discriminate; injection E as _ <-; try apply H1; try (intros []);
      intros Hin; apply in_map_iff in Hin; destruct Hin as (nd & <- & _); left; eauto.
Qed.

(** the states before and after an event that is not a hand-over *)
Lemma r_at ls s t1 e t2 : rrun ls = Running s (t1 ++ e :: t2) -> owners_unlock (t1 ++ e :: t2) -> (forall o, e <> EHand o) ->
  exists s0 l s', RI s0 t1 /\ r_step s0 l = Next s' [e] /\ RI s' (t1 ++ [e]).
Proof.
  intros Hr Hc He. destruct (run_split_event _ _ _ _ _ _ _ Hr) as (ls1 & l & ls2 & s1 & s2 & tr1 & e1 & e2 & -> & H1 & H2 & -> & H3).
  destruct (r_es _ _ _ _ e H2 ltac:(apply in_elt)) as [[o E]|E]; [destruct (He o E)|]. destruct e1 as [|x e1]; [|destruct e1; discriminate]. simpl in *. injection E as ->.
  rewrite app_nil_r in *. assert (Hc1 : owners_unlock (tr1 ++ [e])) by (apply (rule_prefix _ t2); now rewrite <- app_assoc).
  pose proof (r_inv _ _ _ H1 (rule_prefix _ _ Hc1)) as HI. exists s1, l, s2. split; auto. split; auto. pose proof (ri_step s1 tr1 l HI) as Hs. rewrite H2 in Hs. now apply Hs.
Qed.

Definition rw_excl (tr : ltrace) : Prop := acqs true tr <= unls true tr + 1 /\ (acqs true tr = unls true tr + 1 -> acqs false tr <= unls false tr).
Lemma ri_excl s tr : RI s tr -> rw_excl tr.
Proof.
  intros HI. pose proof (ri_tok _ _ HI true) as H1. pose proof (ri_tok _ _ HI false) as H2. unfold own in *. unfold rw_excl. destruct (v_c (r_st s)); [split; lia|..];
    (destruct (Nat.eqb_spec (v_n (r_st s)) 0); split; lia).
Qed.
Lemma r_excl ls s t1 t2 : rrun ls = Running s (t1 ++ t2) -> owners_unlock (t1 ++ t2) -> rw_excl t1.
Proof.
  revert t2. induction t1 as [|e t1 IH] using rev_ind; intros t2 Hr Hc; [split; unfold acqs, unls; simpl; lia|]. rewrite <- app_assoc in *. simpl in *.
  assert (Hd : (exists o, e = EHand o) \/ forall o, e <> EHand o) by (destruct e; try (right; discriminate); left; eauto). destruct Hd as [[o ->]|Hd].
  - specialize (IH _ Hr Hc). unfold rw_excl in *. rewrite !acqs_app, !unls_app. change (acqs true [EHand o]) with 0. change (unls true [EHand o]) with 0.
    change (acqs false [EHand o]) with 0. change (unls false [EHand o]) with 0. rewrite !Nat.add_0_r. exact IH.
  - destruct (r_at _ _ _ _ _ Hr Hc Hd) as (s0 & l & s' & _ & _ & H). now apply (ri_excl s').
Qed.
Lemma r_exclusive ls s t1 t2 : rrun ls = Running s (t1 ++ t2) -> owners_unlock (t1 ++ t2) -> held true t1 <= 1 /\ (held true t1 = 1 -> held false t1 = 0).
Proof. intros Hr Hc. destruct (r_excl _ _ _ _ Hr Hc) as [H1 H2]. unfold held. split; [lia|]. intros E. specialize (H2 ltac:(lia)). lia. Qed.
Lemma r_counts ls s tr x : rrun ls = Running s tr -> owners_unlock tr -> unls x tr <= acqs x tr.
Proof. intros Hr Hc. apply (ri_unl _ _ (r_inv _ _ _ Hr Hc)). Qed.
Lemma r_once ls s tr : rrun ls = Running s tr -> owners_unlock tr -> NoDup (acquired tr) /\ (forall o x, In (EAcq o x) tr -> In (EStart o x) tr).
Proof. intros Hr Hc. pose proof (r_inv _ _ _ Hr Hc) as HI. split; apply HI. Qed.

(** ** Order *)
Lemma r_served s tr : RI s tr -> served tr ++ map fst (flat_map pend (r_act s)) ++ map fst (r_w s) = susps tr.
Proof.
  intros HI. rewrite (ri_susp _ _ HI). rewrite (ri_hand _ _ HI) at 1. rewrite <- app_assoc. f_equal. unfold served. apply filter_ext_in. intros o Ho.
  destruct (memb o (hands tr)) eqn:Hm.
  - apply memb_In in Hm. apply existsb_exists. exists o. rewrite Nat.eqb_refl. split; auto. rewrite (ri_susp _ _ HI). apply in_app_iff. auto.
  - apply memb_not_In in Hm. apply not_true_iff_false. intros He. apply existsb_exists in He. destruct He as (o' & Hin & E). apply Nat.eqb_eq in E. subst o'.
    rewrite (ri_susp _ _ HI) in Hin. apply in_app_iff in Hin. destruct Hin as [Hin|Hin]; [tauto|]. apply in_map_iff in Hin. destruct Hin as (nd & E & Hin).
    apply (r_w_started _ _ HI) in Hin. apply (proj2 (ri_acq _ _ HI)) in Ho. congruence.
Qed.
Lemma r_fifo ls s tr : rrun ls = Running s tr -> owners_unlock tr -> exists waiting, susps tr = served tr ++ waiting.
Proof. intros Hr Hc. pose proof (r_inv _ _ _ Hr Hc) as HI. eexists. symmetry. now apply (r_served s). Qed.
Lemma r_hands ls s tr : rrun ls = Running s tr -> owners_unlock tr -> exists waiting, susps tr = hands tr ++ waiting.
Proof. intros Hr Hc. pose proof (r_inv _ _ _ Hr Hc) as HI. eexists. apply (ri_susp _ _ HI). Qed.

Lemma r_barge ls s t1 o o' x t2 : rrun ls = Running s (t1 ++ EAcq o' x :: t2) -> owners_unlock (t1 ++ EAcq o' x :: t2) ->
  suspended_first o o' t1 -> In o (hands t1) /\ (In (EStart o true) t1 -> In o (acquired t1)).
Proof.
  intros Hr Hc Hf. destruct (r_at _ _ _ _ _ Hr Hc ltac:(discriminate)) as (s0 & l & s' & HI & E & HI').
  assert (Hf' : suspended_first o o' (t1 ++ [EAcq o' x])) by (apply first_snoc; now left).
  assert (Hne : o <> o').
  { intros ->. pose proof (first_In _ _ _ Hf) as [Hin _]. destruct (ri_order _ _ HI o' o' Hf Hin) as (l1 & l2 & El & H1 & H2).
    pose proof (ri_nodup _ _ HI) as Hn. rewrite El in Hn. exact (NoDup_app_disjoint _ _ Hn o' H1 H2). }
  assert (Hac : In o' (acquired (t1 ++ [EAcq o' x]))) by (rewrite acquired_app, in_app_iff; right; now left). split.
  - destruct (in_dec Nat.eq_dec o (hands t1)) as [|Hno]; auto. exfalso.
    destruct (ri_barge _ _ HI' o o' Hf') as [B _]; [|auto]. rewrite hands_app. simpl. now rewrite app_nil_r.
  - intros Hx. destruct (in_dec Nat.eq_dec o (acquired t1)) as [|Hno]; auto. exfalso.
    destruct (ri_bargex _ _ HI' o o' Hf') as [B _]; [apply in_app_iff; now left| |auto]. rewrite acquired_app, in_app_iff. simpl. intuition congruence.
Qed.

Lemma nohand (p : list node) e : map (fun nd => EHand (fst nd)) p = [e] -> (forall o, e <> EHand o) -> False.
Proof. intros E H. destruct p as [|nd p]; [discriminate|]. injection E as E _. now apply (H (fst nd)). Qed.
Lemma r_try_state s l s' x : r_step s l = Next s' [ETry x true] -> v_c (r_st s) = MNone \/ x = false /\ v_c (r_st s) = MLocked /\ 1 <= v_n (r_st s).
Proof.
  destruct l as [o y| | |y|k spur]; simpl.
  - destruct (r_op s o); discriminate.
  - destruct (rval_eqb (r_st s) (RV MNone 0)) eqn:Hb; [|discriminate]. apply rval_eqb_eq in Hb. rewrite Hb. auto.
  - discriminate.
  - discriminate.
  - destruct (nth_error (r_act s) k) as [a|]; [|discriminate]. destruct a as [o|o|o v|w|w v|o|o v|nd| |v| | |v|v|p|]; cbn [ract_step];
      try (unfold sunl2_step, r_suspend, r_hand; repeat match goal with |- context [match ?c with _ => _ end] => destruct c end;
           intros E; try discriminate; exfalso; injection E as _ E; apply nohand in E; try exact E; discriminate).
    destruct (v_c v) eqn:Hv.
    + destruct (rval_eqb (r_st s) v) eqn:Hb; [|discriminate]. apply rval_eqb_eq in Hb. rewrite Hb. auto.
    + destruct (0 <? v_n v) eqn:Hp; [|unfold try_ret; destruct w; discriminate]. apply Nat.ltb_lt in Hp. destruct (rval_eqb (r_st s) v) eqn:Hb; [|discriminate]. apply rval_eqb_eq in Hb.
      unfold try_ret. destruct w; [discriminate|]. intros E. injection E as _ <-. rewrite Hb. auto.
    + unfold try_ret. destruct w; discriminate.
Qed.

Lemma r_try ls s t1 x t2 : rrun ls = Running s (t1 ++ ETry x true :: t2) -> owners_unlock (t1 ++ ETry x true :: t2) ->
  incl (susps t1) (hands t1) /\ forall o, In o (susps t1) -> x = true \/ In (EStart o true) t1 -> In o (acquired t1).
Proof.
  intros Hr Hc. destruct (r_at _ _ _ _ _ Hr Hc ltac:(discriminate)) as (s0 & l & s' & HI & E & _). pose proof (r_try_state _ _ _ _ E) as Hst.
  assert (Hfree : r_w s0 = [] /\ forall nd, In nd (flat_map pend (r_act s0)) -> snd nd = false).
  { apply (free_pend _ _ HI); destruct Hst as [H|(_ & H & H1)]; try rewrite H; auto; discriminate. }
  destruct Hfree as [Hw Hp]. assert (Hh : susps t1 = hands t1) by (rewrite (ri_susp _ _ HI), Hw; apply app_nil_r). split; [rewrite Hh; apply incl_refl|].
  intros o Ho Hor. rewrite Hh in Ho. destruct (r_hand_cases _ _ HI _ Ho) as [H|H]; auto. exfalso. apply in_map_iff in H. destruct H as (nd & En & H). pose proof (Hp _ H) as Hx.
  destruct Hor as [->|Hk].
  - destruct Hst as [Hst|(F & _)]; [|discriminate]. apply in_flat_map in H. destruct H as (a & Ha & H). apply pend_tok in H. rewrite Hx in H.
    pose proof (stok _ _ HI a Ha H) as (Hn & _). congruence.
  - pose proof (ri_kind _ _ HI nd (or_introl (pend_aops _ _ H))) as Hk'. rewrite Hx, En in Hk'. pose proof (kind_unique _ _ HI _ _ _ Hk Hk'). discriminate.
Qed.

(** ** Completion *)
Lemma quiet_sum s f : r_quiet s -> f REnd = 0 -> sum (map f (r_act s)) = 0.
Proof. intros Hq Hf. apply sum_map_0. intros a Ha. now rewrite (Hq a Ha). Qed.
Lemma quiet_flat {B} s (f : ract -> list B) : r_quiet s -> f REnd = [] -> flat_map f (r_act s) = [].
Proof. intros Hq Hf. apply flat_map_nil. intros a Ha. now rewrite (Hq a Ha). Qed.

Lemma quiet_free s tr : RI s tr -> r_quiet s -> held true tr = 0 -> held false tr = 0 -> v_c (r_st s) = MNone.
Proof.
  intros HI Hq H1 H2. pose proof (ri_tok _ _ HI true) as T1. pose proof (ri_tok _ _ HI false) as T2. rewrite (quiet_sum s (tk true) Hq eq_refl) in T1. rewrite (quiet_sum s (tk false) Hq eq_refl) in T2.
  pose proof (ri_unl _ _ HI true). pose proof (ri_unl _ _ HI false). unfold held, own in *. assert (E : v_n (r_st s) = 0) by lia. rewrite E in T1. simpl in T1. destruct (v_c (r_st s)); auto; lia.
Qed.
Lemma r_idle ls s tr : rrun ls = Running s tr -> owners_unlock tr -> r_quiet s -> held true tr = 0 -> held false tr = 0 -> incl (started_ops tr) (acquired tr).
Proof.
  intros Hr Hc Hq H1 H2 o Ho. pose proof (r_inv _ _ _ Hr Hc) as HI. pose proof (quiet_free _ _ HI Hq H1 H2) as Hst.
  assert (Hw : r_w s = []) by (destruct (r_w s) eqn:E; auto; assert (v_c (r_st s) = MCont) by (apply (ri_w _ _ HI); rewrite E; discriminate); congruence).
  apply (proj2 (ri_acq _ _ HI)). apply (proj2 (ri_start _ _ HI)) in Ho. pose proof (ri_place _ _ HI o) as Hp. rewrite Hw, (quiet_flat s aops Hq eq_refl) in Hp. simpl in Hp. rewrite cnt_nil in Hp.
  destruct (r_op s o); congruence || lia || auto.
Qed.
Lemma r_pending ls s tr o : rrun ls = Running s tr -> owners_unlock tr -> r_quiet s -> In o (started_ops tr) -> ~ In o (acquired tr) ->
  (In o (susps tr) /\ ~ In o (hands tr)) /\ (held true tr = 1 \/ held false tr > 0).
Proof.
  intros Hr Hc Hq Ho Hn. pose proof (r_inv _ _ _ Hr Hc) as HI. split; [split|].
  - apply (proj2 (ri_start _ _ HI)) in Ho. assert (Hd : r_op s o <> ODone) by (intros E; apply Hn; now apply (ri_acq _ _ HI)). pose proof (ri_place _ _ HI o) as Hp.
    rewrite (quiet_flat s aops Hq eq_refl) in Hp. simpl in Hp. rewrite ?cnt_nil in Hp. destruct (r_op s o); try congruence.
    rewrite (ri_susp _ _ HI), in_app_iff. right. apply cnt_pos. lia.
  - intros Hh. destruct (r_hand_cases _ _ HI _ Hh) as [H|H]; [auto|]. now rewrite (quiet_flat s pend Hq eq_refl) in H.
  - destruct (Nat.eq_dec (held true tr) 0) as [E1|]; [|left; pose proof (r_exclusive ls s tr [] ltac:(now rewrite app_nil_r) ltac:(now rewrite app_nil_r)); lia].
    destruct (Nat.eq_dec (held false tr) 0) as [E2|]; [|right; lia]. exfalso. apply Hn. now apply (r_idle _ _ _ Hr Hc Hq E1 E2).
Qed.

Lemma r_progress ls s tr : rrun ls = Running s tr -> owners_unlock tr -> (forall k, r_step s (RStep k false) = Disabled) -> r_quiet s.
Proof.
  intros Hr Hc Hd a Ha. pose proof (r_inv _ _ _ Hr Hc) as HI.
  assert (Hl : r_lock s = false).
  { destruct (r_lock s) eqn:Hl; auto. exfalso. pose proof (ri_lock _ _ HI) as H. rewrite Hl in H. simpl in H.
    assert (Hex : exists b, In b (r_act s) /\ lkk b = 1).
    { clear - H. induction (r_act s) as [|b l IH]; [discriminate|]. simpl in H. destruct (lkk b) eqn:E; [destruct (IH H) as (b' & ? & ?); exists b'; split; [now right|auto]|].
      exists b. split; [now left|]. destruct b; simpl in *; congruence. }
    destruct Hex as (b & Hin & Hb). apply In_nth_error in Hin. destruct Hin as [k Hk]. specialize (Hd k). revert Hd. simpl. rewrite Hk.
    destruct b; try discriminate; simpl; unfold r_suspend; repeat match goal with |- context [match ?c with _ => _ end] => destruct c end; discriminate. }
  apply In_nth_error in Ha. destruct Ha as [k Hk]. specialize (Hd k). revert Hd. simpl. rewrite Hk.
  destruct a as [o|o|o v|w|w v|o|o v|nd| |v| | |v|v|p|]; auto; simpl; unfold sunl2_step, try_ret, r_suspend, r_hand; rewrite ?Hl;
    repeat match goal with |- context [match ?c with _ => _ end] => destruct c end; discriminate.
Qed.

(** ** The calls return *)
Definition rrank (a : ract) : nat :=
  match a with
  | XTry _ => 5 | XWait _ => 4 | XLoop _ _ => 3 | STry _ => 6 | STryL _ _ => 5 | SWait _ => 4 | SLoop _ _ => 3 | RSet _ => 1
  | XUnl => 3 | XUnlCas _ => 2 | XUnlLock => 1 | SUnl => 4 | SUnl1 _ => 3 | SUnl2 _ => 2 | RHand p => length p | REnd => 0
  end.
Definition lst (v0 : rval) (a : ract) : nat :=
  match a with XLoop _ v | STryL _ v | SLoop _ v | SUnl1 v | SUnl2 v => if rval_eqb v v0 then 0 else 1 | _ => 0 end.
Definition rm (s : rst) : nat := (length (r_act s) + 1) * (sum (map rrank (r_act s)) + length (r_w s)) + sum (map (lst (r_st s)) (r_act s)).

Lemma lst_sum v l : sum (map (lst v) l) <= length l.
Proof. induction l as [|a l IH]; simpl; auto. assert (lst v a <= 1) by (destruct a; simpl; auto; destruct (rval_eqb _ _); lia). lia. Qed.
Lemma rval_eqb_sym a b : rval_eqb a b = rval_eqb b a.
Proof.
  destruct (rval_eqb a b) eqn:E; [apply rval_eqb_eq in E; subst; symmetry; apply rval_eqb_refl|]. destruct (rval_eqb b a) eqn:E'; auto. apply rval_eqb_eq in E'. subst. now rewrite rval_eqb_refl in E.
Qed.
Lemma set_nth_length {A} (l : list A) k x : length (set_nth l k x) = length l.
Proof. revert k. induction l as [|h t IH]; intros [|k]; simpl; auto. Qed.

Lemma readers_len w : forall p w', readers w = (p, w') -> length p + length w' = length w.
Proof. intros p w' E. destruct (readers_spec _ _ _ E) as (-> & _). now rewrite app_length. Qed.

Lemma rm_step s k spur s' es : r_step s (RStep k spur) = Next s' es ->
  rm s' + 1 <= rm s + (if spur then 1 else 0) /\ forall x, ~ In (EUnlock x) es.
Proof.
  intros E. split.
  2:{ intros x Hx. destruct (r_es _ _ _ _ _ E Hx) as [[o Eo]|Es]; [discriminate|]. subst es. revert E. simpl. destruct (nth_error (r_act s) k) as [a|]; [|discriminate].
      unfold ract_step, sunl2_step, try_ret, r_suspend, r_hand. destruct a as [o|o|o v|w|w v|o|o v|nd| |v| | |v|v|p|];
        repeat match goal with |- context [match ?c with _ => _ end] => destruct c end; intros E; try discriminate; injection E as _ E; apply nohand in E; try exact E; discriminate. }
  simpl in E. destruct (nth_error (r_act s) k) as [a|] eqn:Hk; [|discriminate].
  assert (Hbig : forall a', r_act s' = set_nth (r_act s) k a' -> rrank a' + length (r_w s') + 1 <= rrank a + length (r_w s) -> rm s' + 1 <= rm s + (if spur then 1 else 0)).
  { intros a' Ea Hlt. unfold rm. rewrite Ea, set_nth_length. pose proof (sum_map_set_nth rrank _ k a' a Hk). pose proof (lst_sum (r_st s') (set_nth (r_act s) k a')) as Hs. rewrite set_nth_length in Hs.
    set (N := length (r_act s)) in *. set (R' := sum (map rrank (set_nth (r_act s) k a')) + length (r_w s')). set (R := sum (map rrank (r_act s)) + length (r_w s)).
    assert (HR : R' + 1 <= R) by (unfold R', R; lia). assert ((N + 1) * (R' + 1) <= (N + 1) * R) by (apply Nat.mul_le_mono_l; exact HR). lia. }
  assert (Hretry : forall a', s' = r_with_act s k a' -> rrank a' = rrank a -> lst (r_st s) a' = 0 -> (lst (r_st s) a = 1 \/ spur = true) -> rm s' + 1 <= rm s + (if spur then 1 else 0)).
  { intros a' -> Hr Hz Hor. unfold rm. unfold r_with_act. cbn [r_act r_w r_st]. rewrite set_nth_length. pose proof (sum_map_set_nth rrank _ k a' a Hk). pose proof (sum_map_set_nth (lst (r_st s)) _ k a' a Hk).
    replace (sum (map rrank (set_nth (r_act s) k a'))) with (sum (map rrank (r_act s))) by lia. destruct Hor as [Hor| ->]; lia. }
  assert (Hcas : forall v, negb spur && rval_eqb (r_st s) v = false -> (if rval_eqb v (r_st s) then 0 else 1) = 1 \/ spur = true).
  { intros v Hb. rewrite rval_eqb_sym. destruct spur; auto. simpl in Hb. rewrite Hb. auto. }
  assert (Hz : (if rval_eqb (r_st s) (r_st s) then 0 else 1) = 0) by (now rewrite rval_eqb_refl).
  destruct a as [o|o|o v|w|w v|o|o v|nd| |v| | |v|v|p|]; cbn [ract_step] in E; try discriminate.
  - destruct (rval_eqb _ _); injection E as <- <-; (eapply Hbig; [reflexivity|simpl; lia]).
  - destruct (r_lock s); [discriminate|]. injection E as <- <-. eapply Hbig; [reflexivity|simpl; lia].
  - destruct (v_c v).
    + destruct (negb spur && rval_eqb (r_st s) v) eqn:Hb; injection E as <- <-; [eapply Hbig; [reflexivity|simpl; lia]|]. eapply Hretry; [reflexivity|reflexivity|exact Hz|apply Hcas; exact Hb].
    + destruct (negb spur && rval_eqb (r_st s) v) eqn:Hb; [|injection E as <- <-; eapply Hretry; [reflexivity|reflexivity|exact Hz|apply Hcas; exact Hb]].
      unfold r_suspend in E. destruct (_ && _) in E; [|discriminate]. injection E as <- <-. eapply Hbig; [reflexivity|simpl; rewrite app_length; simpl; lia].
    + unfold r_suspend in E. destruct (_ && _) in E; [|discriminate]. injection E as <- <-. eapply Hbig; [reflexivity|simpl; rewrite app_length; simpl; lia].
  - injection E as <- <-. eapply Hbig; [reflexivity|simpl; lia].
  - assert (Htr : forall st b, try_ret (r_with_st s st) k w b = Next s' es -> rm s' + 1 <= rm s + (if spur then 1 else 0)).
    { intros st b. unfold try_ret. destruct w as [o|], b; intros E0; injection E0 as <- <-; (eapply Hbig; [reflexivity|simpl; lia]). }
    assert (Htr' : forall b, try_ret s k w b = Next s' es -> rm s' + 1 <= rm s + (if spur then 1 else 0)) by (intros b E0; apply (Htr (r_st s) b); now rewrite with_st_same).
    assert (Hre : rval_eqb (r_st s) v = false -> Next (r_with_act s k (STryL w (r_st s))) [] = Next s' es -> rm s' + 1 <= rm s + (if spur then 1 else 0)).
    { intros Hb E0. injection E0 as <- <-. eapply Hretry; [reflexivity|reflexivity|exact Hz|]. left. simpl. rewrite rval_eqb_sym. now rewrite Hb. }
    destruct (v_c v); [destruct (rval_eqb (r_st s) v) eqn:Hb; [eapply Htr; eauto|auto]| |eapply Htr'; eauto].
    destruct (0 <? v_n v); [|eapply Htr'; eauto]. destruct (rval_eqb (r_st s) v) eqn:Hb; [eapply Htr; eauto|auto].
  - destruct (r_lock s); [discriminate|]. injection E as <- <-. eapply Hbig; [reflexivity|simpl; lia].
  - assert (Hre : negb spur && rval_eqb (r_st s) v = false -> Next (r_with_act s k (SLoop o (r_st s))) [] = Next s' es -> rm s' + 1 <= rm s + (if spur then 1 else 0)).
    { intros Hb E0. injection E0 as <- <-. eapply Hretry; [reflexivity|reflexivity|exact Hz|apply Hcas; exact Hb]. }
    destruct (v_c v).
    + destruct (negb spur && rval_eqb (r_st s) v) eqn:Hb; [|auto]. injection E as <- <-. eapply Hbig; [reflexivity|simpl; lia].
    + destruct (0 <? v_n v); (destruct (negb spur && rval_eqb (r_st s) v) eqn:Hb; [|auto]).
      * injection E as <- <-. eapply Hbig; [reflexivity|simpl; lia].
      * unfold r_suspend in E. destruct (_ && _) in E; [|discriminate]. injection E as <- <-. eapply Hbig; [reflexivity|simpl; rewrite app_length; simpl; lia].
    + unfold r_suspend in E. destruct (_ && _) in E; [|discriminate]. injection E as <- <-. eapply Hbig; [reflexivity|simpl; rewrite app_length; simpl; lia].
  - destruct (nd_alive s nd); [|discriminate]. injection E as <- <-. eapply Hbig; [reflexivity|simpl; lia].
  - destruct (v_c (r_st s)); [discriminate|..]; (destruct (0 <? v_n (r_st s)); [discriminate|]); injection E as <- <-; (eapply Hbig; [reflexivity|simpl; lia]).
  - destruct (rval_eqb _ _); [injection E as <- <-; eapply Hbig; [reflexivity|simpl; lia]|]. destruct (0 <? v_n (r_st s)); [discriminate|]. destruct (v_c (r_st s)); try discriminate.
    injection E as <- <-. eapply Hbig; [reflexivity|simpl; lia].
  - destruct (r_lock s); [discriminate|]. unfold r_hand in E. destruct (r_w s) as [|[o [|]] w] eqn:Hw; [discriminate|..].
    + destruct (forallb _ _); [|discriminate]. injection E as <- <-. eapply Hbig; [reflexivity|simpl; lia].
    + destruct (readers ((o, false) :: w)) as [p w'] eqn:Er. apply readers_len in Er. destruct (forallb _ _); [|discriminate]. injection E as <- <-. eapply Hbig; [reflexivity|simpl in *; lia].
  - destruct (v_c (r_st s)); [discriminate|..]; (destruct (0 <? v_n (r_st s)); [|discriminate]); injection E as <- <-; (eapply Hbig; [reflexivity|simpl; lia]).
  - assert (Hs2 : sunl2_step s k spur v = Next s' es -> rm s' + 1 <= rm s + (if spur then 1 else 0)).
    { unfold sunl2_step. destruct (1 <? v_n v).
      - destruct (negb spur && rval_eqb (r_st s) v) eqn:Hb; intros E0; injection E0 as <- <-; (eapply Hbig; [reflexivity|simpl; lia]).
      - destruct (negb (v_n v =? 1)); [discriminate|]. destruct (r_lock s); [discriminate|]. destruct (r_w s) as [|[o [|]] w]; try discriminate. unfold r_hand. destruct (forallb _ _); [|discriminate].
        intros E0. injection E0 as <- <-. eapply Hbig; [reflexivity|simpl; lia]. }
    destruct (v_c v); [discriminate| |auto]. destruct (_ || _); [|discriminate]. destruct (negb spur && rval_eqb (r_st s) v) eqn:Hb; [injection E as <- <-; eapply Hbig; [reflexivity|simpl; lia]|].
    assert (E1 : Next (r_with_act s k (SUnl1 (r_st s))) [] = Next s' es) by (destruct (v_c (r_st s)); [discriminate|..]; (destruct (0 <? v_n (r_st s)); [auto|discriminate])).
    injection E1 as <- <-. eapply Hretry; [reflexivity|reflexivity|exact Hz|apply Hcas; exact Hb].
  - revert E. unfold sunl2_step. destruct (1 <? v_n v).
    + destruct (negb spur && rval_eqb (r_st s) v) eqn:Hb; intros E0; injection E0 as <- <-; [eapply Hbig; [reflexivity|simpl; lia]|]. eapply Hretry; [reflexivity|reflexivity|exact Hz|apply Hcas; exact Hb].
    + destruct (negb (v_n v =? 1)); [discriminate|]. destruct (r_lock s); [discriminate|]. destruct (r_w s) as [|[o [|]] w]; try discriminate. unfold r_hand. destruct (forallb _ _); [|discriminate].
      intros E0. injection E0 as <- <-. eapply Hbig; [reflexivity|simpl; lia].
  - destruct p as [|nd p]; [discriminate|]. destruct (forallb _ _); [|discriminate]. injection E as <- <-. eapply Hbig; [reflexivity|]. destruct p; simpl; lia.
Qed.

Lemma r_finishes s tr : exists n, forall ls' s' tr', Forall r_internal ls' -> run_from r_step s tr ls' = Running s' tr' -> length ls' <= n + r_nspur ls'.
Proof.
  exists (rm s). intros ls'. revert s tr. induction ls' as [|l ls' IH]; intros s tr s' tr' Hf Hr; [simpl; lia|]. inversion Hf as [|? ? Hl Hf']; subst.
  destruct l as [o x| | |x|k spur]; try destruct Hl. cbn [run_from] in Hr. destruct (r_step s (RStep k spur)) as [s1 es| |f es] eqn:E; try discriminate.
  destruct (rm_step _ _ _ _ _ E) as [Hm _]. specialize (IH _ _ _ _ Hf' Hr). unfold r_nspur in *. simpl. destruct spur; simpl in *; lia.
Qed.

(** ** C29: without an exclusive owner and without waiters, a shared acquisition does not suspend *)
Lemma r_shared_free ls s tr o ls' s' tr' : rrun ls = Running s tr -> owners_unlock tr -> r_quiet s -> Forall r_internal ls' ->
  run_from r_step s tr (RStart o false :: ls') = Running s' tr' -> In o (susps tr') ->
  held true tr = 1 \/ exists o', In o' (susps tr) /\ ~ In o' (acquired tr).
Proof.
  intros Hr Hc Hq Hf Hr' Ho. pose proof (r_inv _ _ _ Hr Hc) as HI.
  destruct (Nat.eq_dec (held true tr) 1) as [|Hh]; [now left|]. right.
  destruct (r_w s) as [|nd w] eqn:Hw.
  2:{ exists (fst nd). split; [rewrite (ri_susp _ _ HI), in_app_iff, Hw; right; now left|]. intros Ha. apply (proj2 (ri_acq _ _ HI)) in Ha.
      assert (r_op s (fst nd) = OStarted) by (apply (r_w_started _ _ HI); rewrite Hw; now left). congruence. }
  exfalso.
  assert (Hfree : v_c (r_st s) = MNone \/ v_c (r_st s) = MLocked /\ 0 <? v_n (r_st s) = true).
  { pose proof (ri_tok _ _ HI true) as T1. rewrite (quiet_sum s _ Hq eq_refl) in T1. pose proof (ri_unl _ _ HI true). unfold held, own in *.
    destruct (v_c (r_st s)) eqn:Ec; auto; [|exfalso; apply (ri_w _ _ HI) in Ec; congruence].
    right. split; auto. apply Nat.ltb_lt. destruct (Nat.eqb_spec (v_n (r_st s)) 0); lia. }
  cbn [run_from r_step] in Hr'. destruct (r_op s o) eqn:Hop; try discriminate.
  set (s1 := RS (r_lock s) (r_st s) (r_w s) (upd (r_op s) o OStarted) (r_act s ++ [STry (Some o)])) in *.
  assert (Hns : ~ In o (susps tr)).
  { intros H. rewrite (ri_susp _ _ HI), Hw, app_nil_r in H. destruct (r_hand_cases _ _ HI _ H) as [H1|H1]; [apply (proj2 (ri_acq _ _ HI)) in H1; congruence|]. now rewrite (quiet_flat s pend Hq eq_refl) in H1. }
  set (Q := fun s2 tr2 => susps tr2 = susps tr /\ exists a, r_act s2 = r_act s ++ [a] /\
     ((a = STry (Some o) \/ a = STryL (Some o) (r_st s2)) /\ r_st s2 = r_st s \/ a = RSet (o, false) \/ a = REnd)).
  assert (HQ : forall ls2 s2 tr2 s3 tr3, Q s2 tr2 -> Forall r_internal ls2 -> run_from r_step s2 tr2 ls2 = Running s3 tr3 -> Q s3 tr3).
  { clear Hf Hr' Ho ls' s' tr'. induction ls2 as [|l ls2 IH]; intros s2 tr2 s3 tr3 HQ Hf Hr'; [injection Hr' as <- <-; exact HQ|]. inversion Hf as [|? ? Hl Hf']; subst.
    destruct l as [| | | |k spur]; try destruct Hl. cbn [run_from] in Hr'. destruct (r_step s2 (RStep k spur)) as [s4 es| |f es] eqn:E; try discriminate.
    apply (IH s4 (tr2 ++ es) s3 tr3); auto. destruct HQ as (Hsu & a & Ha & Hcase). simpl in E. rewrite Ha in E.
    assert (Hlast : forall x, set_nth (r_act s ++ [a]) (length (r_act s)) x = r_act s ++ [x]) by (clear; intros x; induction (r_act s) as [|b l IH]; simpl; auto; now rewrite IH).
    destruct (Nat.lt_trichotomy k (length (r_act s))) as [Hlt|[->|Hgt]].
    - rewrite nth_error_app1 in E by auto. destruct (nth_error (r_act s) k) as [b|] eqn:Hb; [|discriminate]. rewrite (Hq b (nth_error_In _ _ Hb)) in E. discriminate.
    - rewrite nth_error_app2, Nat.sub_diag in E by auto. simpl in E. destruct Hcase as [[[->| ->] Hst]|[->| ->]].
      + cbn [ract_step] in E. injection E as <- <-. unfold Q. unfold r_with_act. cbn [r_act r_st]. rewrite app_nil_r. split; auto. eexists. split; [rewrite Ha; apply Hlast|auto].
      + cbn [ract_step] in E. assert (Hne : forall st, try_ret (r_with_st s2 st) (length (r_act s)) (Some o) true = Next s4 es -> Q s4 (tr2 ++ es)).
        { intros st E0. unfold try_ret in E0. injection E0 as <- <-. unfold Q, r_with_act, r_with_st. cbn [r_act r_st]. rewrite app_nil_r. split; auto. eexists. split; [rewrite Ha; apply Hlast|auto]. }
        destruct Hfree as [Hn|[Hl Hp]].
        * rewrite Hst, Hn, rval_eqb_refl in E. eauto.
        * rewrite Hst, Hl, Hp, rval_eqb_refl in E. eauto.
      + cbn [ract_step] in E. destruct (nd_alive s2 (o, false)); [|discriminate]. injection E as <- <-. unfold Q, r_with_act, r_with_op. cbn [r_act r_st]. rewrite susps_app. simpl. rewrite app_nil_r.
        split; auto. eexists. split; [rewrite Ha; apply Hlast|auto].
      + discriminate.
    - rewrite (proj2 (nth_error_None _ _)) in E by (rewrite app_length; simpl; lia). discriminate. }
  assert (Hfin : Q s' tr').
  { apply (HQ ls' s1 (tr ++ [EStart o false])); auto. split; [rewrite susps_app; apply app_nil_r|]. exists (STry (Some o)). split; auto. }
  destruct Hfin as [E _]. rewrite E in Ho. auto.
Qed.
