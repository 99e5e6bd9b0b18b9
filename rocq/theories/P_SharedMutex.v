(** Invariant of shared_mutex. *)
From Coq Require Import List Arith Bool Lia Permutation.
From Verif Require Import Lts ListFacts M_Mutex S_Mutex P_Mutex M_SharedMutex.
Import ListNotations.

(** ** The invariant *)
(** ownership according to st_ *)
Definition own (x : bool) (v : rval) : nat :=
  if x then match v_c v with MNone => 0 | _ => if v_n v =? 0 then 1 else 0 end else v_n v.
(** ownership held by calls in flight: granted but not reported, or being given up *)
Definition tk (x : bool) (a : ract) : nat :=
  match a with
  | RSet nd => b2n (Bool.eqb (snd nd) x)
  | XUnl | XUnlCas _ | XUnlLock => b2n x
  | SUnl | SUnl1 _ | SUnl2 _ => b2n (negb x)
  | RHand p => length (filter (fun nd : node => Bool.eqb (snd nd) x) p)
  | _ => 0
  end.
Definition lkk (a : ract) : nat := match a with XLoop _ _ | SLoop _ _ => 1 | _ => 0 end.
Definition hd1 (a : ract) : nat := match a with RHand _ => 1 | _ => 0 end.
Definition aops (a : ract) : list node :=
  match a with
  | XTry o | XWait o | XLoop o _ => [(o, true)]
  | STry (Some o) | STryL (Some o) _ | SWait o | SLoop o _ => [(o, false)]
  | RSet nd => [nd]
  | RHand p => p
  | _ => []
  end.
Definition pend (a : ract) : list node := match a with RHand p => p | _ => [] end.
(** what a call knows about st_ *)
Definition lc (v0 : rval) (a : ract) : Prop :=
  match a with
  | XLoop _ v | SLoop _ v => v_c v = MCont -> v_c v0 = MCont
  | XUnlCas v => v = RV MLocked 0
  | XUnlLock => v_c v0 = MCont
  | SUnl1 v => v_c v <> MNone /\ 1 <= v_n v /\ (v_c v = MCont -> v_c v0 = MCont /\ v_n v0 <= v_n v)
  | SUnl2 v => v_c v = MCont /\ 1 <= v_n v /\ v_c v0 = MCont /\ v_n v0 <= v_n v
  | RHand p => p <> []
  | _ => True
  end.

Record RI (s : rst) (tr : ltrace) : Prop := {
  ri_tok : forall x, acqs x tr + sum (map (tk x) (r_act s)) = unls x tr + own x (r_st s);
  ri_unl : forall x, unls x tr <= acqs x tr;
  ri_none : v_c (r_st s) = MNone -> v_n (r_st s) = 0;
  ri_w : v_c (r_st s) = MCont <-> r_w s <> [];
  ri_front : v_c (r_st s) = MCont -> v_n (r_st s) > 0 -> exists o w, r_w s = (o, true) :: w;
  ri_lock : sum (map lkk (r_act s)) = b2n (r_lock s);
  ri_lc : forall a, In a (r_act s) -> lc (r_st s) a;
  ri_hd : sum (map hd1 (r_act s)) <= 1;
  ri_place : forall o, cnt o (map fst (flat_map aops (r_act s))) + cnt o (map fst (r_w s)) = match r_op s o with OStarted => 1 | _ => 0 end;
  ri_kind : forall nd, In nd (flat_map aops (r_act s)) \/ In nd (r_w s) -> In (EStart (fst nd) (snd nd)) tr;
  ri_acq : NoDup (acquired tr) /\ forall o, In o (acquired tr) <-> r_op s o = ODone;
  ri_mode : forall o x, In (EAcq o x) tr -> In (EStart o x) tr;
  ri_start : NoDup (started_ops tr) /\ forall o, In o (started_ops tr) <-> r_op s o <> OIdle;
  ri_hand : hands tr = filter (fun o => memb o (hands tr)) (acquired tr) ++ map fst (flat_map pend (r_act s));
  ri_susp : susps tr = hands tr ++ map fst (r_w s);
  ri_nodup : NoDup (susps tr);
  ri_order : forall o o', suspended_first o o' tr -> In o' (susps tr) -> precedes o o' (susps tr);
  ri_barge : forall o o', suspended_first o o' tr -> ~ In o (hands tr) -> ~ In o' (acquired tr) /\ forall x, ~ In (RSet (o', x)) (r_act s);
  ri_bargex : forall o o', suspended_first o o' tr -> In (EStart o true) tr -> ~ In o (acquired tr) ->
    ~ In o' (acquired tr) /\ forall x, ~ In (RSet (o', x)) (r_act s)
}.

Lemma ri_init : RI r_init [].
Proof.
  assert (N : NoDup (@nil nat)) by constructor. assert (F : forall o o', ~ suspended_first o o' []) by (intros o o' (t1 & x & t2 & E & _); destruct t1; discriminate).
  constructor; simpl; auto; try discriminate; try (intros o o' Hf; destruct (F _ _ Hf)).
  - intros [|]; reflexivity.
  - split; [discriminate|congruence].
  - intros a [].
  - intros nd [[]|[]].
  - split; auto. intros o. split; [intros []|discriminate].
  - split; auto. intros o. split; [intros []|congruence].
Qed.

Lemma rval_eqb_eq a b : rval_eqb a b = true -> a = b.
Proof.
  destruct a as [c n], b as [c' n']. unfold rval_eqb. simpl. intros H. apply andb_true_iff in H. destruct H as [H1 H2]. apply Nat.eqb_eq in H2. subst.
  destruct c, c'; try discriminate; reflexivity.
Qed.
Lemma rval_eqb_refl a : rval_eqb a a = true.
Proof. destruct a as [c n]. unfold rval_eqb. simpl. now rewrite mval_eqb_refl, Nat.eqb_refl. Qed.

Lemma lc_mono v v' a : (v_c v = MCont -> v_c v' = MCont /\ v_n v' <= v_n v) -> lc v a -> lc v' a.
Proof.
  intros H. destruct a; simpl; auto; try tauto.
  - intros (H1 & H2 & H3). repeat split; auto; apply H3 in H0; destruct H0 as [Ha Hb]; apply H in Ha; destruct Ha; auto; lia.
  - intros (H1 & H2 & H3 & H4). apply H in H3. destruct H3. repeat split; auto. lia.
Qed.

Section Facts.
Variables (s : rst) (tr : ltrace).
Hypothesis HI : RI s tr.

(** calls with exclusive resp. shared ownership *)
Lemma xtok k a : nth_error (r_act s) k = Some a -> 1 <= tk true a ->
  v_c (r_st s) <> MNone /\ v_n (r_st s) = 0 /\ tk true a = 1 /\ (forall x, acqs x tr = unls x tr) /\
  (forall j b, j <> k -> nth_error (r_act s) j = Some b -> tk true b = 0) /\ (forall b, In b (r_act s) -> tk false b = 0).
Proof.
  intros Hk Ht. pose proof (ri_tok _ _ HI true) as H1. pose proof (ri_tok _ _ HI false) as H2. pose proof (ri_unl _ _ HI true) as U1. pose proof (ri_unl _ _ HI false) as U2.
  pose proof (sum_map_le (tk true) _ _ (nth_error_In _ _ Hk)) as Hle. unfold own in *.
  assert (Hn : v_c (r_st s) <> MNone /\ v_n (r_st s) = 0).
  { destruct (v_c (r_st s)); [lia|..]; (destruct (v_n (r_st s) =? 0) eqn:E; [apply Nat.eqb_eq in E; split; [discriminate|auto]|lia]). }
  destruct Hn as [Hc Hn]. rewrite Hn in *. simpl in *.
  assert (H1' : acqs true tr + sum (map (tk true) (r_act s)) = unls true tr + 1) by (destruct (v_c (r_st s)); [congruence|auto..]).
  split; auto. split; auto. split; [lia|]. split; [intros [|]; lia|]. split.
  - apply (sum_others (tk true) _ k a Hk). lia.
  - intros b Hb. pose proof (sum_map_le (tk false) _ _ Hb). lia.
Qed.
Lemma stok a : In a (r_act s) -> 1 <= tk false a ->
  v_c (r_st s) <> MNone /\ 1 <= v_n (r_st s) /\ sum (map (tk false) (r_act s)) <= v_n (r_st s) /\ (forall b, In b (r_act s) -> tk true b = 0).
Proof.
  intros Ha Ht. pose proof (ri_tok _ _ HI true) as H1. pose proof (ri_tok _ _ HI false) as H2. pose proof (ri_unl _ _ HI true) as U1. pose proof (ri_unl _ _ HI false) as U2.
  pose proof (sum_map_le (tk false) _ _ Ha) as Hle. unfold own in *.
  assert (Hc : v_c (r_st s) <> MNone) by (intros E; apply (ri_none _ _ HI) in E; lia).
  assert (Hn : 1 <= v_n (r_st s)) by lia. split; auto. split; auto. split; [lia|]. intros b Hb. pose proof (sum_map_le (tk true) _ _ Hb).
  destruct (v_c (r_st s)); [congruence|..]; (destruct (v_n (r_st s) =? 0) eqn:E; [apply Nat.eqb_eq in E; lia|lia]).
Qed.
Lemma r_place_started k a nd : nth_error (r_act s) k = Some a -> In nd (aops a) ->
  r_op s (fst nd) = OStarted /\ cnt (fst nd) (map fst (flat_map aops (r_act s))) = 1 /\ ~ In (fst nd) (map fst (r_w s)).
Proof.
  intros Hk Ho. pose proof (ri_place _ _ HI (fst nd)) as H.
  assert (Hin : In (fst nd) (map fst (flat_map aops (r_act s)))) by (apply in_map; apply in_flat_map; exists a; split; auto; eapply nth_error_In; eauto).
  apply cnt_pos in Hin. destruct (r_op s (fst nd)); try lia. split; auto. split; [lia|]. apply cnt_zero. lia.
Qed.
Lemma r_w_started nd : In nd (r_w s) -> r_op s (fst nd) = OStarted.
Proof. intros Ho. pose proof (ri_place _ _ HI (fst nd)) as H. apply (in_map fst) in Ho. apply cnt_pos in Ho. destruct (r_op s (fst nd)); auto; lia. Qed.
Lemma r_w_alive : forallb (nd_alive s) (r_w s) = true.
Proof. apply forallb_forall. intros nd Ho. unfold nd_alive, alive. now rewrite (r_w_started nd Ho). Qed.
Lemma r_alive k a nd : nth_error (r_act s) k = Some a -> In nd (aops a) -> nd_alive s nd = true.
Proof. intros Hk Ho. unfold nd_alive, alive. now rewrite (proj1 (r_place_started k a nd Hk Ho)). Qed.
Lemma r_hand_cases o : In o (hands tr) -> In o (acquired tr) \/ In o (map fst (flat_map pend (r_act s))).
Proof. rewrite (ri_hand _ _ HI), in_app_iff, filter_In. tauto. Qed.
Lemma pend_aops nd : In nd (flat_map pend (r_act s)) -> In nd (flat_map aops (r_act s)).
Proof. rewrite !in_flat_map. intros (a & Ha & H). exists a. split; auto. destruct a; simpl in *; tauto. Qed.
Lemma kind_unique o x y : In (EStart o x) tr -> In (EStart o y) tr -> x = y.
Proof.
  intros H1 H2. pose proof (proj1 (ri_start _ _ HI)) as Hn. apply in_split in H1. destruct H1 as (t1 & t2 & ->). rewrite started_app in Hn. simpl in Hn.
  apply in_app_iff in H2. destruct H2 as [H2|[H2|H2]]; [|congruence|]; exfalso.
  - assert (H : In o (started_ops t1)) by (apply in_flat_map; exists (EStart o y); split; auto; now left). exact (NoDup_app_disjoint _ _ Hn o H ltac:(now left)).
  - apply NoDup_remove_2 in Hn. apply Hn. apply in_app_iff. right. apply in_flat_map. exists (EStart o y). split; auto. now left.
Qed.
(** an operation that is being started has not been suspended *)
Lemma r_not_susp k a nd : nth_error (r_act s) k = Some a -> In nd (aops a) -> pend a = [] -> ~ In (fst nd) (susps tr).
Proof.
  intros Hk Ho Hn Hin. destruct (r_place_started _ _ _ Hk Ho) as (H1 & H2 & H3). rewrite (ri_susp _ _ HI), in_app_iff in Hin. destruct Hin as [Hin|Hin]; [|tauto].
  destruct (r_hand_cases _ Hin) as [Hacq|Hnx].
  - apply (proj2 (ri_acq _ _ HI)) in Hacq. congruence.
  - apply in_map_iff in Hnx. destruct Hnx as (nd' & Ef & Hnx). apply in_flat_map in Hnx. destruct Hnx as (b & Hb & Hob). apply In_nth_error in Hb. destruct Hb as [j Hj].
    destruct (Nat.eq_dec j k) as [->|Hne]; [rewrite Hk in Hj; injection Hj as <-; rewrite Hn in Hob; exact Hob|].
    assert (Hs : sum (map (fun a => cnt (fst nd) (map fst (aops a))) (r_act s)) = 1).
    { rewrite <- H2. clear. induction (r_act s) as [|a l IH]; simpl; auto. now rewrite map_app, cnt_app, IH. }
    assert (Ha : 1 <= cnt (fst nd) (map fst (aops a))) by (apply cnt_pos; now apply in_map).
    pose proof (sum_map_le (fun a => cnt (fst nd) (map fst (aops a))) _ _ (nth_error_In _ _ Hk)) as Hle. cbv beta in Hle.
    pose proof (sum_others (fun a => cnt (fst nd) (map fst (aops a))) _ k a Hk ltac:(lia) j b Hne Hj) as H0. cbv beta in H0. apply cnt_zero in H0. apply H0.
    rewrite <- Ef. apply in_map. destruct b; simpl in *; tauto.
Qed.
End Facts.

(** ** Preservation *)
(** steps that do not move operations *)
Definition plain (es : ltrace) : Prop := es = [] \/ (exists x b, es = [ETry x b]) \/ (exists x, es = [EUnlock x]).

Lemma ri_gen s tr lock' st' act' a0 es : RI s tr -> plain es ->
  (forall x, sum (map (tk x) act') + acqs x es + own x (r_st s) = sum (map (tk x) (r_act s)) + unls x es + own x st') ->
  (forall x, unls x (tr ++ es) <= acqs x (tr ++ es)) ->
  (v_c st' = MNone -> v_n st' = 0) -> (v_c st' = MCont <-> v_c (r_st s) = MCont) -> (v_c (r_st s) = MCont -> v_n st' <= v_n (r_st s)) ->
  sum (map lkk act') = b2n lock' -> sum (map hd1 act') = sum (map hd1 (r_act s)) ->
  flat_map aops act' = flat_map aops (r_act s) -> flat_map pend act' = flat_map pend (r_act s) ->
  (forall a, In a act' -> In a (r_act s) \/ a = a0) -> lc st' a0 ->
  (forall nd, a0 = RSet nd -> r_w s = [] /\ forall nd', In nd' (flat_map pend (r_act s)) -> snd nd' = false) ->
  RI (RS lock' st' (r_w s) (r_op s) act') (tr ++ es).
Proof.
  intros HI He Ht Hu Hn Hc Hle Hl Hh Ha Hp Hin Hlc Hset.
  assert (Hacq : acquired (tr ++ es) = acquired tr) by (rewrite acquired_app; destruct He as [->|[(x & b & ->)|(x & ->)]]; apply app_nil_r).
  assert (Hha : hands (tr ++ es) = hands tr) by (rewrite hands_app; destruct He as [->|[(x & b & ->)|(x & ->)]]; apply app_nil_r).
  assert (Hsu : susps (tr ++ es) = susps tr) by (rewrite susps_app; destruct He as [->|[(x & b & ->)|(x & ->)]]; apply app_nil_r).
  assert (Hsa : started_ops (tr ++ es) = started_ops tr) by (rewrite started_app; destruct He as [->|[(x & b & ->)|(x & ->)]]; apply app_nil_r).
  assert (Hst : forall o x, In (EStart o x) (tr ++ es) <-> In (EStart o x) tr).
  { intros o x. rewrite in_app_iff. destruct He as [->|[(y & b & ->)|(y & ->)]]; simpl; intuition discriminate. }
  assert (Hea : forall o x, In (EAcq o x) (tr ++ es) <-> In (EAcq o x) tr).
  { intros o x. rewrite in_app_iff. destruct He as [->|[(y & b & ->)|(y & ->)]]; simpl; intuition discriminate. }
  assert (Hf0 : forall o o', suspended_first o o' (tr ++ es) -> suspended_first o o' tr).
  { intros o o' Hf. destruct He as [->|[(y & b & ->)|(y & ->)]]; [now rewrite app_nil_r in Hf|..]; apply first_snoc in Hf; destruct Hf as [Hf|[[z E] _]]; auto; discriminate. }
  constructor; cbn [r_lock r_st r_w r_op r_act]; rewrite ?Hacq, ?Hha, ?Hsu, ?Hsa, ?Ha, ?Hp, ?Hh; try apply HI; auto.
  - intros x. rewrite acqs_app, unls_app. pose proof (ri_tok _ _ HI x). specialize (Ht x). lia.
  - rewrite Hc. apply HI.
  - intros E Hgt. apply (ri_front _ _ HI); [now apply Hc|]. apply Hc in E. apply Hle in E. lia.
  - intros a H. apply Hin in H. destruct H as [H| ->]; auto. apply (lc_mono (r_st s)); [|now apply (ri_lc _ _ HI)]. intros E. split; [now apply Hc|auto].
  - intros nd H. apply Hst. now apply (ri_kind _ _ HI).
  - intros o x H. apply Hst, (ri_mode _ _ HI). now apply Hea.
  - intros o o' Hf. apply Hf0 in Hf. now apply HI.
  - intros o o' Hf Hno. apply Hf0 in Hf. destruct (ri_barge _ _ HI o o' Hf Hno) as [B1 B2]. split; auto. intros x H. apply Hin in H. destruct H as [H|H]; [now apply (B2 x)|].
    destruct (Hset _ (eq_sym H)) as [Hw _]. apply Hno. apply first_In in Hf. destruct Hf as [Hf _]. rewrite (ri_susp _ _ HI), Hw, app_nil_r in Hf. exact Hf.
  - intros o o' Hf Hk Hno. apply Hf0 in Hf. apply Hst in Hk. destruct (ri_bargex _ _ HI o o' Hf Hk Hno) as [B1 B2]. split; auto. intros x H. apply Hin in H. destruct H as [H|H]; [now apply (B2 x)|].
    destruct (Hset _ (eq_sym H)) as [Hw Hnx]. apply first_In in Hf. destruct Hf as [Hf _]. rewrite (ri_susp _ _ HI), Hw, app_nil_r in Hf.
    destruct (r_hand_cases _ _ HI _ Hf) as [H0|H0]; [auto|]. apply in_map_iff in H0. destruct H0 as (nd & E & H0).
    pose proof (ri_kind _ _ HI nd (or_introl (pend_aops _ _ H0))) as Hk'. rewrite (Hnx _ H0), E in Hk'. pose proof (kind_unique _ _ HI _ _ _ Hk Hk'). discriminate.
Qed.

Lemma ri_move s tr k a a' lock' st' es : RI s tr -> nth_error (r_act s) k = Some a -> es = [] \/ (exists x b, es = [ETry x b]) ->
  (forall x, tk x a' + acqs x es + own x (r_st s) = tk x a + own x st') ->
  (v_c st' = MNone -> v_n st' = 0) -> (v_c st' = MCont <-> v_c (r_st s) = MCont) -> (v_c (r_st s) = MCont -> v_n st' <= v_n (r_st s)) ->
  lkk a' + b2n (r_lock s) = lkk a + b2n lock' -> hd1 a = 0 -> hd1 a' = 0 -> aops a' = aops a -> lc st' a' ->
  (forall nd, a' = RSet nd -> r_w s = [] /\ forall nd', In nd' (flat_map pend (r_act s)) -> snd nd' = false) ->
  RI (RS lock' st' (r_w s) (r_op s) (set_nth (r_act s) k a')) (tr ++ es).
Proof.
  intros HI Hk He Ht Hn Hc Hle Hl Hh Hh' Ha Hlc Hset. assert (Hp : pend a' = pend a) by (destruct a, a'; try discriminate; reflexivity).
  assert (Hues : forall x, unls x es = 0) by (intros x; destruct He as [->|(y & b & ->)]; reflexivity).
  apply ri_gen with (a0 := a'); auto.
  - destruct He as [->|(y & b & ->)]; [now left|right; left; eauto].
  - intros x. pose proof (sum_map_set_nth (tk x) _ k a' a Hk). specialize (Ht x). rewrite Hues. lia.
  - intros x. rewrite acqs_app, unls_app, Hues. pose proof (ri_unl _ _ HI x). lia.
  - pose proof (sum_map_set_nth lkk _ k a' a Hk). pose proof (ri_lock _ _ HI). lia.
  - pose proof (sum_map_set_nth hd1 _ k a' a Hk). lia.
  - now apply (flat_map_set_same aops _ k a' a).
  - now apply (flat_map_set_same pend _ k a' a).
  - intros b Hb. apply In_set_nth in Hb. tauto.
Qed.

Lemma ri_call s tr a es : RI s tr -> es = [] /\ a = STry None \/ es = [EUnlock true] /\ a = XUnl \/ es = [EUnlock false] /\ a = SUnl ->
  owners_unlock (tr ++ es) -> RI (RS (r_lock s) (r_st s) (r_w s) (r_op s) (r_act s ++ [a])) (tr ++ es).
Proof.
  intros HI Ha Hc. assert (Hu : forall x, unls x (tr ++ es) <= acqs x (tr ++ es)).
  { intros x. pose proof (ri_unl _ _ HI x). destruct Ha as [[-> ->]|[[-> ->]|[-> ->]]]; [now rewrite app_nil_r|..]; apply rule_unlock in Hc; rewrite acqs_app, unls_app.
    - destruct x; [change (unls true [EUnlock true]) with 1; lia|change (unls false [EUnlock true]) with 0; lia].
    - destruct x; [change (unls true [EUnlock false]) with 0; lia|change (unls false [EUnlock false]) with 1; lia]. }
  apply ri_gen with (a0 := a); auto.
  - destruct Ha as [[-> ->]|[[-> ->]|[-> ->]]]; [now left|right; right; eauto|right; right; eauto].
  - intros x. rewrite sum_snoc. destruct Ha as [[-> ->]|[[-> ->]|[-> ->]]]; destruct x; unfold acqs, unls; simpl; lia.
  - apply HI.
  - tauto.
  - rewrite sum_snoc. pose proof (ri_lock _ _ HI). destruct Ha as [[_ ->]|[[_ ->]|[_ ->]]]; simpl; lia.
  - rewrite sum_snoc. destruct Ha as [[_ ->]|[[_ ->]|[_ ->]]]; simpl; lia.
  - apply flat_map_snoc_nil. destruct Ha as [[_ ->]|[[_ ->]|[_ ->]]]; reflexivity.
  - apply flat_map_snoc_nil. destruct Ha as [[_ ->]|[[_ ->]|[_ ->]]]; reflexivity.
  - intros b Hb. now apply In_snoc in Hb.
  - destruct Ha as [[_ ->]|[[_ ->]|[_ ->]]]; exact I.
  - intros nd E. destruct Ha as [[_ ->]|[[_ ->]|[_ ->]]]; discriminate.
Qed.

Lemma ri_try s tr x b st' : RI s tr -> (forall y, acqs y [ETry x b] + own y (r_st s) = own y st') ->
  (v_c st' = MNone -> v_n st' = 0) -> (v_c st' = MCont <-> v_c (r_st s) = MCont) -> (v_c (r_st s) = MCont -> v_n st' <= v_n (r_st s)) ->
  RI (RS (r_lock s) st' (r_w s) (r_op s) (r_act s)) (tr ++ [ETry x b]).
Proof.
  intros HI Ht H1 H2 H3. apply ri_gen with (a0 := REnd); auto; try (intros; discriminate).
  - right; left; eauto.
  - intros y. specialize (Ht y). change (unls y [ETry x b]) with 0. lia.
  - intros y. rewrite acqs_app, unls_app. change (unls y [ETry x b]) with 0. pose proof (ri_unl _ _ HI y). lia.
  - apply HI.
  - exact I.
Qed.

Lemma ri_start_call s tr o (x : bool) : RI s tr -> r_op s o = OIdle ->
  RI (RS (r_lock s) (r_st s) (r_w s) (upd (r_op s) o OStarted) (r_act s ++ [if x then XTry o else STry (Some o)])) (tr ++ [EStart o x]).
Proof.
  intros HI Ho. set (a := if x then XTry o else STry (Some o)).
  assert (Hao : aops a = [(o, x)]) by (unfold a; destruct x; reflexivity). assert (Hpa : pend a = []) by (unfold a; destruct x; reflexivity).
  assert (Hta : forall y, tk y a = 0) by (intros y; unfold a; destruct x; reflexivity). assert (Hlk : lkk a = 0 /\ hd1 a = 0) by (unfold a; destruct x; auto).
  assert (Hacq : acquired (tr ++ [EStart o x]) = acquired tr) by (rewrite acquired_app; apply app_nil_r).
  assert (Hha : hands (tr ++ [EStart o x]) = hands tr) by (rewrite hands_app; apply app_nil_r).
  assert (Hsu : susps (tr ++ [EStart o x]) = susps tr) by (rewrite susps_app; apply app_nil_r).
  pose proof (ri_place _ _ HI o) as Hp. rewrite Ho in Hp.
  assert (Hfresh : forall o', In o' (susps tr) -> o' <> o).
  { intros o' Hin ->. rewrite (ri_susp _ _ HI), in_app_iff in Hin. destruct Hin as [Hin|Hin].
    - destruct (r_hand_cases _ _ HI _ Hin) as [H|H]; [apply (proj2 (ri_acq _ _ HI)) in H; congruence|]. apply in_map_iff in H. destruct H as (nd & E & H).
      apply pend_aops in H. apply (in_map fst) in H. rewrite E in H. apply cnt_pos in H. lia.
    - apply cnt_pos in Hin. lia. }
  assert (Hnset : forall y, ~ In (RSet (o, y)) (r_act s)).
  { intros y Hin. assert (H : In o (map fst (flat_map aops (r_act s)))) by (apply in_map_iff; exists (o, y); split; auto; apply in_flat_map; exists (RSet (o, y)); split; auto; now left). apply cnt_pos in H. lia. }
  assert (Hns : ~ In o (started_ops tr)) by (intros H; apply (proj2 (ri_start _ _ HI)) in H; congruence).
  assert (Hna : ~ In o (acquired tr)) by (intros H; apply (proj2 (ri_acq _ _ HI)) in H; congruence).
  assert (Hset : forall o' y, In (RSet (o', y)) (r_act s ++ [a]) -> In (RSet (o', y)) (r_act s)).
  { intros o' y H. apply In_snoc in H. destruct H as [H|H]; auto. unfold a in H. destruct x; discriminate. }
  constructor; cbn [r_lock r_st r_w r_op r_act]; rewrite ?Hacq, ?Hha, ?Hsu, ?sum_snoc.
  - intros y. rewrite acqs_app, unls_app, sum_snoc, Hta. change (acqs y [EStart o x]) with 0. change (unls y [EStart o x]) with 0. pose proof (ri_tok _ _ HI y). lia.
  - intros y. rewrite acqs_app, unls_app. change (acqs y [EStart o x]) with 0. change (unls y [EStart o x]) with 0. pose proof (ri_unl _ _ HI y). lia.
  - apply HI.
  - apply HI.
  - apply HI.
  - pose proof (ri_lock _ _ HI). lia.
  - intros b Hb. apply In_snoc in Hb. destruct Hb as [Hb| ->]; [now apply (ri_lc _ _ HI)|]. unfold a. destruct x; exact I.
  - pose proof (ri_hd _ _ HI). lia.
  - intros o'. rewrite flat_map_app, map_app, cnt_app. simpl. rewrite app_nil_r, Hao. simpl. rewrite cnt_cons, cnt_nil. pose proof (ri_place _ _ HI o') as Hp'. unfold upd.
    destruct (Nat.eqb_spec o' o) as [->|Hne].
    + rewrite Ho in Hp'. destruct (Nat.eq_dec o o); [lia|congruence].
    + destruct (Nat.eq_dec o o'); [congruence|lia].
  - intros nd H. rewrite flat_map_app, in_app_iff in H. simpl in H. rewrite app_nil_r, Hao in H. apply in_app_iff. destruct H as [[H|[<-|[]]]|H].
    + left. apply (ri_kind _ _ HI). auto.
    + right. now left.
    + left. apply (ri_kind _ _ HI). auto.
  - split; [apply HI|]. intros o'. rewrite (proj2 (ri_acq _ _ HI)). unfold upd. destruct (Nat.eqb_spec o' o) as [->|Hne]; [rewrite Ho; split; discriminate|tauto].
  - intros o' y H. apply in_app_iff. apply in_app_iff in H. destruct H as [H|[H|[]]]; [left; now apply (ri_mode _ _ HI)|discriminate].
  - rewrite started_app. simpl. split; [apply NoDup_snoc; [apply HI|auto]|]. intros o'. rewrite in_app_iff, (proj2 (ri_start _ _ HI)). unfold upd. simpl.
    destruct (Nat.eqb_spec o' o) as [->|Hne].
    + split; [discriminate|]. intros _. right. now left.
    + split; [|now left]. intros [H|[E|[]]]; congruence.
  - rewrite flat_map_snoc_nil by auto. apply HI.
  - apply HI.
  - apply HI.
  - intros o1 o2 Hf Hin. apply first_snoc in Hf. destruct Hf as [Hf|[[y E] _]]; [now apply HI|]. injection E as -> _. now apply Hfresh in Hin.
  - intros o1 o2 Hf Hno. apply first_snoc in Hf. destruct Hf as [Hf|[[y E] _]].
    + destruct (ri_barge _ _ HI o1 o2 Hf Hno) as [B1 B2]. split; auto. intros y0 H. apply Hset in H. now apply (B2 y0).
    + injection E as -> _. split; auto. intros y0 H. apply Hset in H. now apply (Hnset y0).
  - intros o1 o2 Hf Hk Hno. apply in_app_iff in Hk. apply first_snoc in Hf. destruct Hf as [Hf|[[y E] Hin1]].
    + destruct Hk as [Hk|[Hk|[]]].
      * destruct (ri_bargex _ _ HI o1 o2 Hf Hk Hno) as [B1 B2]. split; auto. intros y0 H. apply Hset in H. now apply (B2 y0).
      * exfalso. injection Hk as -> _. apply first_In in Hf. destruct Hf as [Hf _]. now apply Hfresh in Hf.
    + injection E as -> _. split; auto. intros y0 H. apply Hset in H. now apply (Hnset y0).
Qed.

Lemma ops_flat l : map fst (flat_map aops l) = flat_map (fun a => map fst (aops a)) l.
Proof. induction l as [|a l IH]; simpl; auto. now rewrite map_app, IH. Qed.
Lemma cnt_ops_set o l k a' a : nth_error l k = Some a ->
  cnt o (map fst (flat_map aops (set_nth l k a'))) + cnt o (map fst (aops a)) = cnt o (map fst (flat_map aops l)) + cnt o (map fst (aops a')).
Proof. intros Hk. rewrite !ops_flat. exact (cnt_flat_set (fun a => map fst (aops a)) o l k a' a Hk). Qed.
Lemma In_flat_set {A B} (f : A -> list B) l k x z : In z (flat_map f (set_nth l k x)) -> In z (f x) \/ In z (flat_map f l).
Proof. rewrite !in_flat_map. intros (b & Hb & Hz). apply In_set_nth in Hb. destruct Hb as [->|Hb]; eauto. Qed.
Lemma first_no_start o o' tr es : (forall x, ~ In (EStart o' x) es) -> suspended_first o o' (tr ++ es) -> suspended_first o o' tr.
Proof.
  intros Hes (t1 & x & t2 & E & Hin). apply app_eq_app in E. destruct E as (m & [(-> & E)|(-> & E)]).
  - destruct m as [|e m]; simpl in E.
    + exfalso. apply (Hes x). rewrite <- E. now left.
    + injection E as <- ->. exists t1, x, m. auto.
  - exfalso. apply (Hes x). rewrite E. apply in_elt.
Qed.

(** start() suspends *)
Lemma ri_suspend s tr k a nd st' : RI s tr -> nth_error (r_act s) k = Some a -> (exists o v, a = XLoop o v /\ nd = (o, true) \/ a = SLoop o v /\ nd = (o, false)) ->
  v_c st' = MCont -> v_n st' = v_n (r_st s) -> v_c (r_st s) <> MNone -> (r_w s = [] -> snd nd = false -> v_n st' = 0) ->
  RI (RS false st' (r_w s ++ [nd]) (r_op s) (set_nth (r_act s) k REnd)) (tr ++ [ESusp (fst nd)]).
Proof.
  intros HI Hk Ha Hc' Hn' Hc Hfr.
  assert (Hao : aops a = [nd]) by (destruct Ha as (o & v & [[-> ->]|[-> ->]]); reflexivity).
  assert (Hpa : pend a = []) by (destruct Ha as (o & v & [[-> ->]|[-> ->]]); reflexivity).
  assert (Hta : (forall x, tk x a = 0) /\ lkk a = 1 /\ hd1 a = 0) by (destruct Ha as (o & v & [[-> ->]|[-> ->]]); auto). destruct Hta as (Hta & Hla & Hhd).
  pose proof (r_place_started _ _ HI k a nd Hk ltac:(rewrite Hao; now left)) as (Hs1 & Hs2 & Hs3).
  pose proof (r_not_susp _ _ HI k a nd Hk ltac:(rewrite Hao; now left) Hpa) as Hns.
  set (o := fst nd) in *.
  assert (Hacq : acquired (tr ++ [ESusp o]) = acquired tr) by (rewrite acquired_app; apply app_nil_r).
  assert (Hha : hands (tr ++ [ESusp o]) = hands tr) by (rewrite hands_app; apply app_nil_r).
  assert (Hsu : susps (tr ++ [ESusp o]) = susps tr ++ [o]) by (rewrite susps_app; reflexivity).
  assert (Hsa : started_ops (tr ++ [ESusp o]) = started_ops tr) by (rewrite started_app; apply app_nil_r).
  assert (Hown : forall x, own x st' = own x (r_st s)) by (intros [|]; unfold own; rewrite Hn', ?Hc'; auto; destruct (v_c (r_st s)); congruence).
  assert (Hf0 : forall o1 o2, suspended_first o1 o2 (tr ++ [ESusp o]) -> suspended_first o1 o2 tr) by (intros o1 o2; apply first_no_start; intros x [E|[]]; discriminate).
  constructor; cbn [r_lock r_st r_w r_op r_act]; rewrite ?Hacq, ?Hha, ?Hsu, ?Hsa.
  - intros x. rewrite acqs_app, unls_app, Hown. change (acqs x [ESusp o]) with 0. change (unls x [ESusp o]) with 0. pose proof (ri_tok _ _ HI x).
    pose proof (sum_map_set_nth (tk x) _ k REnd a Hk). rewrite Hta in *. simpl in *. lia.
  - intros x. rewrite acqs_app, unls_app. change (acqs x [ESusp o]) with 0. change (unls x [ESusp o]) with 0. pose proof (ri_unl _ _ HI x). lia.
  - congruence.
  - split; [|auto]. intros _ E. destruct (r_w s); discriminate.
  - intros _ Hgt. destruct (r_w s) as [|nd0 w] eqn:Hw.
    + destruct nd as [o0 [|]]; [exists o0, []; reflexivity|]. specialize (Hfr eq_refl eq_refl). lia.
    + destruct (ri_front _ _ HI) as (o1 & w1 & E); [apply (ri_w _ _ HI); rewrite Hw; discriminate|lia|]. rewrite Hw in E. injection E as -> ->. exists o1, (w1 ++ [nd]). reflexivity.
  - pose proof (ri_lock _ _ HI). pose proof (sum_map_set_nth lkk _ k REnd a Hk). rewrite Hla in *. simpl in *. destruct (r_lock s); simpl in *; lia.
  - intros b Hb. apply In_set_nth in Hb. destruct Hb as [->|Hb]; [exact I|]. apply (lc_mono (r_st s)); [|now apply (ri_lc _ _ HI)]. intros _. split; [auto|lia].
  - pose proof (ri_hd _ _ HI). pose proof (sum_map_set_nth hd1 _ k REnd a Hk). simpl in *. lia.
  - intros o'. pose proof (cnt_ops_set o' _ k REnd a Hk) as E. rewrite Hao in E. simpl aops in E. simpl map in E. pose proof (ri_place _ _ HI o').
    rewrite map_app, cnt_app. simpl. fold o in E |- *. rewrite !cnt_cons, !cnt_nil in *. lia.
  - intros nd' H. apply in_app_iff. left. apply (ri_kind _ _ HI). destruct H as [H|H].
    + apply In_flat_set in H. destruct H as [[]|H]. auto.
    + apply In_snoc in H. destruct H as [H| ->]; auto. left. apply in_flat_map. exists a. rewrite Hao. split; [eapply nth_error_In; eauto|now left].
  - apply HI.
  - intros o' x H. apply in_app_iff. left. apply (ri_mode _ _ HI). apply in_app_iff in H. destruct H as [H|[H|[]]]; [auto|discriminate].
  - apply HI.
  - rewrite (flat_map_set_same pend _ k REnd a Hk) by auto. apply HI.
  - rewrite (ri_susp _ _ HI), map_app. simpl. now rewrite app_assoc.
  - apply NoDup_snoc; [apply HI|auto].
  - intros o1 o2 Hf Hin. apply Hf0 in Hf. apply In_snoc in Hin. destruct Hin as [Hin|E].
    + apply precedes_snoc. now apply HI.
    + subst o2. exists (susps tr), [o]. split; auto. split; [apply first_In in Hf; tauto|now left].
  - intros o1 o2 Hf Hno. apply Hf0 in Hf. destruct (ri_barge _ _ HI o1 o2 Hf Hno) as [B1 B2]. split; auto. intros x H. apply In_set_nth in H. destruct H as [H|H]; [discriminate|now apply (B2 x)].
  - intros o1 o2 Hf Hkd Hno. apply Hf0 in Hf. apply in_app_iff in Hkd. destruct Hkd as [Hkd|[Hkd|[]]]; [|discriminate].
    destruct (ri_bargex _ _ HI o1 o2 Hf Hkd Hno) as [B1 B2]. split; auto. intros x H. apply In_set_nth in H. destruct H as [H|H]; [discriminate|now apply (B2 x)].
Qed.

Lemma set_nth_same {A} (l : list A) k x : nth_error l k = Some x -> set_nth l k x = l.
Proof. revert k. induction l as [|h t IH]; intros [|k] E; simpl in *; try discriminate; [congruence|]. now rewrite IH. Qed.
Lemma pend_others s tr k a : RI s tr -> nth_error (r_act s) k = Some a -> hd1 a = 1 -> forall a', flat_map pend (set_nth (r_act s) k a') = pend a'.
Proof.
  intros HI Hk Ha a'. apply (flat_map_single pend _ k a'); [now apply (nth_error_set_nth_same _ k a' a)|]. intros j b Hne Hj. rewrite nth_error_set_nth_other in Hj by auto.
  pose proof (ri_hd _ _ HI). pose proof (sum_map_le hd1 _ _ (nth_error_In _ _ Hk)).
  pose proof (sum_others hd1 _ k a Hk ltac:(lia) j b Hne Hj) as H1. destruct b; simpl in *; auto; discriminate.
Qed.

(** set_value on the receiver *)
Lemma ri_notify s tr k a a' nd : RI s tr -> nth_error (r_act s) k = Some a ->
  a = RSet nd /\ a' = REnd \/ (exists p, a = RHand (nd :: p) /\ a' = match p with [] => REnd | _ => RHand p end) ->
  RI (RS (r_lock s) (r_st s) (r_w s) (upd (r_op s) (fst nd) ODone) (set_nth (r_act s) k a')) (tr ++ [EAcq (fst nd) (snd nd)]).
Proof.
  intros HI Hk Ha.
  assert (Hao : aops a = nd :: aops a') by (destruct Ha as [[-> ->]|([|nd' p] & -> & ->)]; reflexivity).
  assert (Hta : forall x, tk x a = tk x a' + acqs x [EAcq (fst nd) (snd nd)]).
  { intros x. unfold acqs. simpl. destruct Ha as [[-> ->]|([|nd' p] & -> & ->)]; simpl; destruct (Bool.eqb (snd nd) x); simpl; try lia. }
  assert (Hlk : lkk a = 0 /\ lkk a' = 0 /\ hd1 a' <= hd1 a) by (destruct Ha as [[-> ->]|([|nd' p] & -> & ->)]; simpl; auto). destruct Hlk as (Hl1 & Hl2 & Hh).
  pose proof (r_place_started _ _ HI k a nd Hk ltac:(rewrite Hao; now left)) as (Hs1 & Hs2 & Hs3).
  pose proof (ri_kind _ _ HI nd) as Hkd. destruct nd as [o x]. cbn [fst snd] in *.
  assert (Hst : In (EStart o x) tr) by (apply Hkd; left; apply in_flat_map; exists a; rewrite Hao; split; [eapply nth_error_In; eauto|now left]).
  assert (Hnacq : ~ In o (acquired tr)) by (intros H; apply (proj2 (ri_acq _ _ HI)) in H; congruence).
  assert (Hha : hands (tr ++ [EAcq o x]) = hands tr) by (rewrite hands_app; apply app_nil_r).
  assert (Hsu : susps (tr ++ [EAcq o x]) = susps tr) by (rewrite susps_app; apply app_nil_r).
  assert (Hsa : started_ops (tr ++ [EAcq o x]) = started_ops tr) by (rewrite started_app; apply app_nil_r).
  assert (Haq : acquired (tr ++ [EAcq o x]) = acquired tr ++ [o]) by (rewrite acquired_app; reflexivity).
  assert (Hf0 : forall o1 o2, suspended_first o1 o2 (tr ++ [EAcq o x]) -> suspended_first o1 o2 tr) by (intros o1 o2; apply first_no_start; intros y [E|[]]; discriminate).
  assert (Hset : forall o' y, In (RSet (o', y)) (set_nth (r_act s) k a') -> In (RSet (o', y)) (r_act s)).
  { intros o' y H. apply In_set_nth in H. destruct H as [H|H]; auto. destruct Ha as [[-> ->]|([|nd' p] & -> & ->)]; discriminate. }
  (* what was handed over before *)
  assert (Hord : forall o1, suspended_first o1 o tr -> pend a <> [] -> In o1 (acquired tr)).
  { intros o1 Hf Hne. destruct Ha as [[-> _]|(p & -> & _)]; [simpl in Hne; congruence|].
    pose proof (ri_hand _ _ HI) as Hh0. rewrite (flat_map_single pend _ k _ Hk) in Hh0.
    2:{ intros j b Hj Hb. pose proof (ri_hd _ _ HI). pose proof (sum_map_le hd1 _ _ (nth_error_In _ _ Hk)). simpl in *.
        pose proof (sum_others hd1 _ k _ Hk ltac:(simpl; lia) j b Hj Hb) as H1. destruct b; simpl in *; auto; discriminate. }
    simpl in Hh0. pose proof (ri_susp _ _ HI) as Hss. rewrite Hh0, <- app_assoc in Hss. simpl in Hss.
    assert (Hin : In o (susps tr)) by (rewrite Hss; apply in_elt).
    pose proof (precedes_asym _ _ _ _ _ (ri_nodup _ _ HI) (ri_order _ _ HI o1 o Hf Hin) Hss) as Hnb.
    destruct (first_In _ _ _ Hf) as [Hin1 _]. rewrite Hss in Hin1. apply in_app_iff in Hin1. destruct Hin1 as [Hin1|[E|Hin1]].
    - apply filter_In in Hin1. tauto.
    - subst o1. exfalso. destruct (ri_order _ _ HI o o Hf Hin) as (l1 & l2 & El & H1 & H2). pose proof (ri_nodup _ _ HI) as Hn. rewrite El in Hn. exact (NoDup_app_disjoint _ _ Hn o H1 H2).
    - tauto. }
  constructor; cbn [r_lock r_st r_w r_op r_act]; rewrite ?Hha, ?Hsu, ?Hsa, ?Haq; try apply HI.
  - intros y. rewrite acqs_app, unls_app. change (unls y [EAcq o x]) with 0. pose proof (ri_tok _ _ HI y). pose proof (sum_map_set_nth (tk y) _ k a' a Hk). specialize (Hta y). lia.
  - intros y. rewrite acqs_app, unls_app. change (unls y [EAcq o x]) with 0. pose proof (ri_unl _ _ HI y). lia.
  - pose proof (ri_lock _ _ HI). pose proof (sum_map_set_nth lkk _ k a' a Hk). lia.
  - intros b Hb. apply In_set_nth in Hb. destruct Hb as [->|Hb]; [|now apply (ri_lc _ _ HI)]. destruct Ha as [[_ ->]|([|nd' p] & _ & ->)]; simpl; auto. discriminate.
  - pose proof (ri_hd _ _ HI). pose proof (sum_map_set_nth hd1 _ k a' a Hk). lia.
  - intros o'. pose proof (cnt_ops_set o' _ k a' a Hk) as E. rewrite Hao in E. simpl map in E. pose proof (ri_place _ _ HI o') as Hp.
    rewrite !cnt_cons in *. unfold upd. destruct (Nat.eqb_spec o' o) as [->|Hne].
    + destruct (Nat.eq_dec o o); [|congruence]. rewrite Hs1 in Hp. lia.
    + destruct (Nat.eq_dec o o'); [congruence|]. lia.
  - intros nd' H. apply in_app_iff. left. apply (ri_kind _ _ HI). destruct H as [H|H]; auto. left. apply In_flat_set in H. destruct H as [H|H]; auto.
    apply in_flat_map. exists a. rewrite Hao. split; [eapply nth_error_In; eauto|now right].
  - split; [apply NoDup_snoc; [apply HI|auto]|]. intros o'. rewrite In_snoc. unfold upd.
    destruct (Nat.eqb_spec o' o) as [->|Hne]; [tauto|]. rewrite (proj2 (ri_acq _ _ HI)). tauto.
  - intros o' y H. apply in_app_iff. left. apply in_app_iff in H. destruct H as [H|[H|[]]]; [now apply (ri_mode _ _ HI)|]. injection H as <- <-. exact Hst.
  - split; [apply HI|]. intros o'. rewrite (proj2 (ri_start _ _ HI)). unfold upd. destruct (Nat.eqb_spec o' o) as [->|Hne]; [|tauto]. rewrite Hs1. split; discriminate.
  - rewrite filter_app. simpl. pose proof (ri_hand _ _ HI) as Hh0. destruct Ha as [[-> ->]|(p & -> & Ea')].
    + rewrite (flat_map_set_same pend _ k REnd _ Hk eq_refl). replace (memb o (hands tr)) with false; [rewrite app_nil_r; exact Hh0|]. symmetry. apply memb_not_In.
      intros Hin. apply (r_not_susp _ _ HI k _ (o, x) Hk ltac:(now left) eq_refl). simpl. rewrite (ri_susp _ _ HI), in_app_iff. auto.
    + rewrite (pend_others _ _ k _ HI Hk eq_refl a'). pose proof (pend_others _ _ k _ HI Hk eq_refl (RHand ((o, x) :: p))) as Hp0.
      rewrite set_nth_same in Hp0 by auto. rewrite Hp0 in Hh0. simpl in Hh0.
      replace (memb o (hands tr)) with true; [|symmetry; apply memb_In; rewrite Hh0; apply in_elt]. rewrite <- app_assoc. simpl.
      replace (pend a') with p by (rewrite Ea'; destruct p; reflexivity). exact Hh0.
  - intros o1 o2 Hf. apply Hf0 in Hf. now apply HI.
  - intros o1 o2 Hf Hno. apply Hf0 in Hf. destruct (ri_barge _ _ HI o1 o2 Hf Hno) as [B1 B2]. split; [|intros y H; apply Hset in H; now apply (B2 y)].
    intros Hin. apply In_snoc in Hin. destruct Hin as [Hin|E]; [auto|]. subst o2. destruct Ha as [[-> ->]|(p & -> & Ea')]; [apply (B2 x); eapply nth_error_In; eauto|].
    pose proof (Hord o1 Hf ltac:(discriminate)) as Hac. apply Hno. 
    destruct (in_dec Nat.eq_dec o1 (hands tr)) as [|Hn]; auto. exfalso. apply first_In in Hf. destruct Hf as [Hf _]. rewrite (ri_susp _ _ HI), in_app_iff in Hf.
    destruct Hf as [Hf|Hf]; [auto|]. apply in_map_iff in Hf. destruct Hf as (nd' & E & Hf). apply (r_w_started _ _ HI) in Hf. apply (proj2 (ri_acq _ _ HI)) in Hac. congruence.
  - intros o1 o2 Hf Hkx Hno. apply Hf0 in Hf. rewrite In_snoc in Hno. apply in_app_iff in Hkx. destruct Hkx as [Hkx|[Hkx|[]]]; [|discriminate].
    destruct (ri_bargex _ _ HI o1 o2 Hf Hkx ltac:(tauto)) as [B1 B2]. split; [|intros y H; apply Hset in H; now apply (B2 y)].
    intros Hin. apply In_snoc in Hin. destruct Hin as [Hin|E]; [auto|]. subst o2. destruct Ha as [[-> ->]|(p & -> & Ea')]; [apply (B2 x); eapply nth_error_In; eauto|].
    pose proof (Hord o1 Hf ltac:(discriminate)) as Hac. tauto.
Qed.

(** unlock() and unlock_shared() hand over *)
Lemma ri_handover s tr k a p w st' : RI s tr -> nth_error (r_act s) k = Some a -> r_lock s = false ->
  (a = XUnlLock \/ exists v, a = SUnl1 v \/ a = SUnl2 v) -> r_w s = p ++ w -> p <> [] ->
  (forall j b, j <> k -> nth_error (r_act s) j = Some b -> forall x, tk x b = 0) ->
  (forall x, tk x (RHand p) + own x (r_st s) = tk x a + own x st') -> v_c st' = c_of w ->
  (v_c st' = MCont -> v_n st' > 0 -> exists o w', w = (o, true) :: w') ->
  RI (RS (r_lock s) st' w (r_op s) (set_nth (r_act s) k (RHand p))) (tr ++ map (fun nd => EHand (fst nd)) p).
Proof.
  intros HI Hk Hlo Ha Hw Hp Hoth Ht Hc Hfr. set (es := map (fun nd : node => EHand (fst nd)) p).
  assert (Hao : aops a = [] /\ lkk a = 0 /\ hd1 a = 0) by (destruct Ha as [->|(v & [->| ->])]; auto). destruct Hao as (Hao & Hla & Hhd).
  assert (Hes : forall e, In e es -> exists o, e = EHand o) by (intros e H; apply in_map_iff in H; destruct H as (nd & <- & _); eauto).
  assert (Hes0 : forall x, acqs x es = 0 /\ unls x es = 0 /\ acquired es = [] /\ susps es = [] /\ started_ops es = [] /\ hands es = map fst p).
  { intros x. unfold es. clear. induction p as [|nd p IH]; simpl; auto 10. destruct IH as (I1 & I2 & I3 & I4 & I5 & I6). unfold acqs, unls in *. simpl. rewrite I6. auto 10. }
  assert (Hacq : acquired (tr ++ es) = acquired tr) by (rewrite acquired_app; destruct (Hes0 true) as (_ & _ & -> & _); apply app_nil_r).
  assert (Hha : hands (tr ++ es) = hands tr ++ map fst p) by (rewrite hands_app; now destruct (Hes0 true) as (_ & _ & _ & _ & _ & ->)).
  assert (Hsu : susps (tr ++ es) = susps tr) by (rewrite susps_app; destruct (Hes0 true) as (_ & _ & _ & -> & _); apply app_nil_r).
  assert (Hsa : started_ops (tr ++ es) = started_ops tr) by (rewrite started_app; destruct (Hes0 true) as (_ & _ & _ & _ & -> & _); apply app_nil_r).
  assert (Hf0 : forall o1 o2, suspended_first o1 o2 (tr ++ es) -> suspended_first o1 o2 tr) by (intros o1 o2; apply first_no_start; intros x H; apply Hes in H; destruct H; discriminate).
  assert (Hev : forall o x, In (EStart o x) (tr ++ es) <-> In (EStart o x) tr) by (intros o x; rewrite in_app_iff; split; [intros [H|H]; [auto|apply Hes in H; destruct H; discriminate]|auto]).
  assert (Hnohd : forall j b, nth_error (r_act s) j = Some b -> hd1 b = 0).
  { intros j b Hj. destruct (Nat.eq_dec j k) as [->|Hne]; [congruence|]. pose proof (Hoth j b Hne Hj) as Hz. pose proof (ri_lc _ _ HI b (nth_error_In _ _ Hj)) as Hl.
    destruct b as [| | | | | | | | | | | | | |q|]; simpl in *; auto. destruct q as [|[o [|]] q]; [congruence|specialize (Hz true)|specialize (Hz false)]; discriminate. }
  assert (Hnp : forall j b, nth_error (r_act s) j = Some b -> pend b = []) by (intros j b Hj; apply Hnohd in Hj; destruct b; simpl in *; auto; discriminate).
  assert (Hpe : flat_map pend (r_act s) = []) by (apply flat_map_nil; intros b Hb; apply In_nth_error in Hb; destruct Hb as [j Hj]; eauto).
  assert (Hpe' : flat_map pend (set_nth (r_act s) k (RHand p)) = p).
  { apply (flat_map_single pend _ k (RHand p)); [now apply (nth_error_set_nth_same _ k _ a)|]. intros j b Hne Hj. rewrite nth_error_set_nth_other in Hj by auto. eauto. }
  assert (Hnolk : forall b, In b (r_act s) -> lkk b = 0) by (intros b Hb; pose proof (sum_map_le lkk _ _ Hb); pose proof (ri_lock _ _ HI) as Hl; rewrite Hlo in Hl; simpl in Hl; lia).
  assert (Hset : forall o' y, In (RSet (o', y)) (set_nth (r_act s) k (RHand p)) -> In (RSet (o', y)) (r_act s)) by (intros o' y H; apply In_set_nth in H; destruct H as [H|H]; [discriminate|auto]).
  constructor; cbn [r_lock r_st r_w r_op r_act]; rewrite ?Hacq, ?Hha, ?Hsu, ?Hsa; try apply HI.
  - intros x. rewrite acqs_app, unls_app. destruct (Hes0 x) as (-> & -> & _). pose proof (ri_tok _ _ HI x). pose proof (sum_map_set_nth (tk x) _ k (RHand p) a Hk). specialize (Ht x). lia.
  - intros x. rewrite acqs_app, unls_app. destruct (Hes0 x) as (-> & -> & _). pose proof (ri_unl _ _ HI x). lia.
  - rewrite Hc. destruct w; discriminate.
  - rewrite Hc. destruct w; simpl; split; intros; congruence.
  - exact Hfr.
  - pose proof (ri_lock _ _ HI). pose proof (sum_map_set_nth lkk _ k (RHand p) a Hk). simpl in *. lia.
  - intros b Hb. apply In_nth_error in Hb. destruct Hb as [j Hj]. destruct (Nat.eq_dec j k) as [->|Hne].
    + rewrite (nth_error_set_nth_same _ k _ a Hk) in Hj. injection Hj as <-. exact Hp.
    + rewrite nth_error_set_nth_other in Hj by auto. pose proof (Hoth j b Hne Hj true) as Z1. pose proof (Hoth j b Hne Hj false) as Z2.
      pose proof (Hnolk b (nth_error_In _ _ Hj)). pose proof (Hnohd j b Hj). destruct b; simpl in *; auto; discriminate.
  - pose proof (sum_map_set_nth hd1 _ k (RHand p) a Hk). assert (Hz : sum (map hd1 (r_act s)) = 0) by (apply sum_map_0; intros b Hb; apply In_nth_error in Hb; destruct Hb as [j Hj]; eauto). simpl in *. lia.
  - intros o'. pose proof (cnt_ops_set o' _ k (RHand p) a Hk) as E. rewrite Hao in E. simpl aops in E. simpl map in E. pose proof (ri_place _ _ HI o') as Hpl.
    rewrite Hw, map_app, cnt_app in Hpl. rewrite cnt_nil in E. lia.
  - intros nd' H. apply Hev. apply (ri_kind _ _ HI). rewrite Hw. destruct H as [H|H].
    + apply In_flat_set in H. destruct H as [H|H]; [right; apply in_app_iff; now left|auto].
    + right. apply in_app_iff. now right.
  - intros o' y H. apply Hev. apply (ri_mode _ _ HI). apply in_app_iff in H. destruct H as [H|H]; [auto|]. apply Hes in H. destruct H; discriminate.
  - rewrite Hpe'. f_equal. pose proof (ri_hand _ _ HI) as Hh0. rewrite Hpe in Hh0. simpl in Hh0. rewrite app_nil_r in Hh0. rewrite Hh0 at 1. apply filter_ext_in. intros o Ho.
    unfold memb. rewrite existsb_app. replace (existsb (Nat.eqb o) (map fst p)) with false; [now rewrite orb_false_r|]. symmetry. apply not_true_iff_false. intros H.
    apply existsb_exists in H. destruct H as (o' & Hin & E). apply Nat.eqb_eq in E. subst o'. apply in_map_iff in Hin. destruct Hin as (nd & E & Hin).
    assert (Hst : r_op s (fst nd) = OStarted) by (apply (r_w_started _ _ HI); rewrite Hw; apply in_app_iff; now left). apply (proj2 (ri_acq _ _ HI)) in Ho. congruence.
  - rewrite (ri_susp _ _ HI), Hw, map_app, app_assoc. reflexivity.
  - intros o1 o2 Hf. apply Hf0 in Hf. now apply HI.
  - intros o1 o2 Hf Hno. rewrite in_app_iff in Hno. apply Hf0 in Hf. destruct (ri_barge _ _ HI o1 o2 Hf ltac:(tauto)) as [B1 B2]. split; auto. intros x H. apply Hset in H. now apply (B2 x).
  - intros o1 o2 Hf Hkx Hno. apply Hf0 in Hf. apply Hev in Hkx. destruct (ri_bargex _ _ HI o1 o2 Hf Hkx Hno) as [B1 B2]. split; auto. intros x H. apply Hset in H. now apply (B2 x).
Qed.

(** ** One step *)
Lemma pend_tok a nd : In nd (pend a) -> 1 <= tk (snd nd) a.
Proof.
  destruct a; simpl; try tauto. intros H. assert (Hin : In nd (filter (fun nd0 : node => Bool.eqb (snd nd0) (snd nd)) pending)) by (apply filter_In; split; auto; apply eqb_reflx).
  destruct (filter _ pending); [destruct Hin|simpl; lia].
Qed.
Lemma free_pend s tr : RI s tr -> v_c (r_st s) <> MCont -> (v_c (r_st s) = MNone \/ 1 <= v_n (r_st s)) ->
  r_w s = [] /\ forall nd, In nd (flat_map pend (r_act s)) -> snd nd = false.
Proof.
  intros HI Hc Hor. split.
  - destruct (r_w s) eqn:Hw; auto. exfalso. apply Hc. apply (ri_w _ _ HI). rewrite Hw. discriminate.
  - intros nd Hin. apply in_flat_map in Hin. destruct Hin as (a & Ha & Hin). apply pend_tok in Hin. destruct (snd nd) eqn:Ex; auto. exfalso.
    apply In_nth_error in Ha. destruct Ha as [k Hk]. destruct (xtok _ _ HI k a Hk Hin) as (H1 & H2 & _). destruct Hor; [congruence|lia].
Qed.
Lemma readers_spec w : forall p w', readers w = (p, w') -> w = p ++ w' /\ (forall nd, In nd p -> snd nd = false) /\ (w' = [] \/ exists o w'', w' = (o, true) :: w'').
Proof.
  induction w as [|[o [|]] w IH]; simpl; intros p w' E.
  - injection E as <- <-. simpl. split; auto. split; [intros nd []|auto].
  - injection E as <- <-. split; auto. split; [intros nd []|]. right. eauto.
  - destruct (readers w) as [p1 w1]. injection E as <- <-. destruct (IH p1 w1 eq_refl) as (-> & H2 & H3). split; auto. split; auto. intros nd [<-|H]; auto.
Qed.
Lemma filter_all {A} (f : A -> bool) l : (forall x, In x l -> f x = true) -> filter f l = l.
Proof. induction l as [|h t IH]; simpl; intros H; auto. rewrite (H h) by auto. f_equal. apply IH. auto. Qed.
Lemma filter_none {A} (f : A -> bool) l : (forall x, In x l -> f x = false) -> filter f l = [].
Proof. induction l as [|h t IH]; simpl; intros H; auto. rewrite (H h) by auto. apply IH. auto. Qed.
Lemma readers_tk p x : (forall nd, In nd p -> snd nd = false) -> tk x (RHand p) = if x then 0 else length p.
Proof.
  intros H. simpl. destruct x.
  - rewrite filter_none; auto. intros nd Hn. now rewrite (H nd Hn).
  - rewrite filter_all; auto. intros nd Hn. now rewrite (H nd Hn).
Qed.

Definition ok (o : outcome rst levent) (tr : ltrace) : Prop :=
  match o with
  | Next s' es => owners_unlock (tr ++ es) -> RI s' (tr ++ es)
  | Disabled => True
  | Fail _ es => ~ owners_unlock (tr ++ es)
  end.

Ltac rsimp := unfold r_with_act, r_with_st, r_with_lock, r_with_w, r_with_op; cbn [r_lock r_st r_w r_op r_act].

(** a call continues *)
Lemma ok_next s tr k a a' lock' : RI s tr -> nth_error (r_act s) k = Some a -> hd1 a = 0 -> hd1 a' = 0 -> aops a' = aops a -> (forall x, tk x a' = tk x a) ->
  lkk a' + b2n (r_lock s) = lkk a + b2n lock' -> lc (r_st s) a' -> (forall nd, a' <> RSet nd) ->
  ok (Next (RS lock' (r_st s) (r_w s) (r_op s) (set_nth (r_act s) k a')) []) tr.
Proof.
  intros HI Hk H1 H2 H3 H4 H5 H6 H7 _. apply (ri_move s tr k a a' lock' (r_st s) []); auto.
  - intros x. rewrite H4. unfold acqs. simpl. lia.
  - apply HI.
  - tauto.
  - intros nd E. destruct (H7 nd E).
Qed.

Lemma ok_try_ret s tr k w v b : RI s tr -> nth_error (r_act s) k = Some (STryL w v) ->
  forall st', (b = true -> (v_c (r_st s) = MNone /\ st' = RV MLocked 1 \/ v_c (r_st s) = MLocked /\ 1 <= v_n (r_st s) /\ st' = RV MLocked (v_n (r_st s) + 1))) -> (b = false -> st' = r_st s) ->
  ok (try_ret (r_with_st s st') k w b) tr.
Proof.
  intros HI Hk st' Ht Hf. unfold try_ret. rsimp.
  assert (Hc : v_c st' = MCont <-> v_c (r_st s) = MCont).
  { destruct b; [destruct (Ht eq_refl) as [(E & ->)|(E & _ & ->)]; simpl; rewrite E; split; discriminate|now rewrite (Hf eq_refl)]. }
  assert (Hn : v_c st' = MNone -> v_n st' = 0) by (destruct b; [destruct (Ht eq_refl) as [(E & ->)|(E & _ & ->)]; discriminate|rewrite (Hf eq_refl); apply HI]).
  assert (Hle : v_c (r_st s) = MCont -> v_n st' <= v_n (r_st s)) by (destruct b; [destruct (Ht eq_refl) as [(E & ->)|(E & _ & ->)]; congruence|rewrite (Hf eq_refl); auto]).
  assert (Ho : forall x, own x st' = own x (r_st s) + (if x then 0 else b2n b)).
  { intros x. destruct b; [|rewrite (Hf eq_refl); destruct x; simpl; lia]. destruct (Ht eq_refl) as [(E & ->)|(E & H1 & ->)]; unfold own; rewrite E; simpl.
    - rewrite (ri_none _ _ HI E). destruct x; auto.
    - destruct x; auto. destruct (v_n (r_st s)); [lia|reflexivity]. }
  assert (Hfree : b = true -> r_w s = [] /\ forall nd, In nd (flat_map pend (r_act s)) -> snd nd = false).
  { intros Eb. apply (free_pend _ _ HI); destruct (Ht Eb) as [(E & _)|(E & H1 & _)]; rewrite E; auto; discriminate. }
  destruct w as [o|].
  - destruct b.
    + intros _. apply (ri_move s tr k (STryL (Some o) v)); auto.
      * intros x. rewrite Ho. unfold acqs. simpl. destruct x; simpl; lia.
      * exact I.
    + rewrite (Hf eq_refl). apply (ok_next s tr k (STryL (Some o) v)); auto; try exact I; try discriminate.
  - intros _. apply (ri_move s tr k (STryL None v)); auto.
    + right. eauto.
    + intros x. rewrite Ho. unfold acqs. simpl. destruct x, b; simpl; lia.
    + exact I.
    + discriminate.
Qed.

Lemma ok_suspend s tr k a nd st' : RI s tr -> nth_error (r_act s) k = Some a -> (exists o v, a = XLoop o v /\ nd = (o, true) \/ a = SLoop o v /\ nd = (o, false)) ->
  v_c st' = MCont -> v_n st' = v_n (r_st s) -> v_c (r_st s) <> MNone -> (r_w s = [] -> snd nd = false -> v_n st' = 0) ->
  ok (r_suspend (r_with_st s st') k nd) tr.
Proof.
  intros HI Hk Ha H1 H2 H3 H4. unfold r_suspend. assert (Hw : forallb (nd_alive (r_with_st s st')) (r_w s) = true) by exact (r_w_alive _ _ HI).
  assert (Hal : nd_alive (r_with_st s st') nd = true).
  { apply (r_alive _ _ HI k a nd Hk). destruct Ha as (o & v & [[-> ->]|[-> ->]]); now left. }
  cbn [r_with_st r_w] in *. rewrite Hw, Hal. simpl andb. cbv iota. rsimp. intros _. apply (ri_suspend s tr k a); auto.
Qed.

Lemma with_st_same s : r_with_st s (r_st s) = s. Proof. destruct s; reflexivity. Qed.

Lemma ok_hand s tr k a p w st' : RI s tr -> nth_error (r_act s) k = Some a -> r_lock s = false ->
  (a = XUnlLock \/ exists v, a = SUnl1 v \/ a = SUnl2 v) -> r_w s = p ++ w -> p <> [] ->
  (forall j b, j <> k -> nth_error (r_act s) j = Some b -> forall x, tk x b = 0) ->
  (forall x, tk x (RHand p) + own x (r_st s) = tk x a + own x st') -> v_c st' = c_of w ->
  (v_c st' = MCont -> v_n st' > 0 -> exists o w', w = (o, true) :: w') ->
  ok (r_hand s k p w st') tr.
Proof.
  intros HI Hk Hlo Ha Hw Hp Ht1 Ht2 Hc Hf. unfold r_hand. rewrite (r_w_alive _ _ HI). rsimp. intros _. apply (ri_handover s tr k a); auto.
Qed.

Lemma ok_sunl2 s tr k spur a v : RI s tr -> nth_error (r_act s) k = Some a -> a = SUnl1 v \/ a = SUnl2 v -> v_c v = MCont -> ok (sunl2_step s k spur v) tr.
Proof.
  intros HI Hk Ha Hv. pose proof (nth_error_In _ _ Hk) as Hin. assert (Htk : forall x, tk x a = b2n (negb x)) by (destruct Ha as [->| ->]; reflexivity).
  assert (Hl : 1 <= v_n v /\ v_c (r_st s) = MCont /\ v_n (r_st s) <= v_n v).
  { pose proof (ri_lc _ _ HI a Hin) as H. destruct Ha as [->| ->]; simpl in H; [destruct H as (_ & H1 & H2); specialize (H2 Hv)|]; tauto. }
  destruct Hl as (Hv1 & Hc & Hle). destruct (stok _ _ HI a Hin ltac:(rewrite Htk; simpl; lia)) as (_ & Hn1 & Hsum & Hx).
  assert (Haop : aops a = [] /\ lkk a = 0 /\ hd1 a = 0) by (destruct Ha as [->| ->]; auto). destruct Haop as (Hao & Hlk & Hhd).
  unfold sunl2_step. destruct (1 <? v_n v) eqn:Hgt.
  - apply Nat.ltb_lt in Hgt. destruct (negb spur && rval_eqb (r_st s) v) eqn:Hb; rsimp.
    + apply andb_true_iff in Hb. destruct Hb as [_ Hb]. apply rval_eqb_eq in Hb. intros _. apply (ri_move s tr k a); auto; simpl; try discriminate.
      * intros x. rewrite Htk. unfold own. rewrite Hc. simpl. rewrite Hb. unfold acqs. simpl. destruct x; simpl; [|lia].
        destruct (v_n v) as [|[|n]]; simpl; try lia.
      * rewrite Hc. tauto.
      * rewrite Hb. lia.
      * lia.
    + apply (ok_next s tr k a); auto; simpl; try discriminate; try congruence.
      auto.
  - apply Nat.ltb_ge in Hgt. assert (Ev : v_n v = 1) by lia. rewrite Ev. simpl. destruct (r_lock s) eqn:Hlo; [exact I|].
    assert (En : v_n (r_st s) = 1) by lia. destruct (ri_front _ _ HI Hc ltac:(lia)) as (o & w & Hw). rewrite Hw.
    apply (ok_hand s tr k a); auto; try discriminate.
    + right. exists v. exact Ha.
    + intros j b Hne Hj x. destruct x; [apply Hx; eapply nth_error_In; eauto|]. apply (sum_others (tk false) _ k a Hk) with j; auto.
      pose proof (sum_map_le (tk false) _ _ Hin). rewrite (Htk false) in *. simpl in *. lia.
    + intros x. rewrite Htk. unfold own. rewrite Hc, En. simpl. destruct w; destruct x; reflexivity.
    + simpl. intros _ H. lia.
Qed.

Lemma own_none s tr : RI s tr -> v_c (r_st s) = MNone -> forall x, own x (r_st s) = 0.
Proof. intros HI Hc x. unfold own. rewrite Hc. destruct x; auto. now apply HI. Qed.

Lemma ri_step s tr l : RI s tr -> ok (r_step s l) tr.
Proof.
  intros HI. destruct l as [o x| | |x|k spur]; simpl.
  - destruct (r_op s o) eqn:Ho; try exact I. intros _. now apply ri_start_call.
  - destruct (rval_eqb (r_st s) (RV MNone 0)) eqn:Hb.
    + apply rval_eqb_eq in Hb. intros _. rsimp. apply ri_try; auto; rewrite ?Hb; simpl; try discriminate.
      * intros [|]; reflexivity.
      * split; discriminate.
    + intros _. destruct s as [lo st w op act]. apply (ri_try (RS lo st w op act)); auto; simpl; try tauto; try apply (ri_none _ _ HI). intros [|]; reflexivity.
  - intros Hc. apply ri_call; auto.
  - intros Hc. apply ri_call; auto. destruct x; auto.
  - destruct (nth_error (r_act s) k) as [a|] eqn:Hk; [|exact I]. pose proof (nth_error_In _ _ Hk) as Hin. pose proof (ri_lc _ _ HI a Hin) as Hlc.
    assert (Hlocked : lkk a = 1 -> r_lock s = true).
    { intros E. pose proof (sum_map_le lkk _ _ Hin). pose proof (ri_lock _ _ HI). destruct (r_lock s); auto. simpl in *. lia. }
    destruct a as [o|o|o v|w|w v|o|o v|nd| |v| | |v|v|p|]; simpl in Hlc; cbn [ract_step].
    + (* XTry *) destruct (rval_eqb (r_st s) (RV MNone 0)) eqn:Hb; rsimp.
      * apply rval_eqb_eq in Hb. intros _. apply (ri_move s tr k (XTry o)); auto; rewrite ?Hb; simpl; try discriminate; auto.
        -- intros [|]; reflexivity.
        -- split; discriminate.
        -- intros nd _. apply (free_pend _ _ HI); rewrite Hb; auto; discriminate.
      * apply (ok_next s tr k (XTry o)); auto; try exact I; try discriminate.
    + (* XWait *) destruct (r_lock s) eqn:Hlo; [exact I|]. rsimp. apply (ok_next s tr k (XWait o)); auto; simpl; auto; [rewrite Hlo; reflexivity|discriminate].
    + (* XLoop *) specialize (Hlocked eq_refl).
      assert (Hretry : ok (Next (r_with_act s k (XLoop o (r_st s))) []) tr) by (apply (ok_next s tr k (XLoop o v)); auto; simpl; auto; discriminate).
      destruct (v_c v) eqn:Hv.
      * destruct (negb spur && rval_eqb (r_st s) v) eqn:Hb; [|exact Hretry]. apply andb_true_iff in Hb. destruct Hb as [_ Hb]. apply rval_eqb_eq in Hb. rewrite <- Hb in Hv. rsimp.
        intros _. apply (ri_move s tr k (XLoop o v)); auto; simpl; try discriminate; auto.
        -- intros x. rewrite (own_none _ _ HI Hv). destruct x; reflexivity.
        -- rewrite Hv. split; discriminate.
        -- rewrite Hv. discriminate.
        -- rewrite Hlocked. reflexivity.
        -- intros nd _. apply (free_pend _ _ HI); rewrite Hv; auto; discriminate.
      * destruct (negb spur && rval_eqb (r_st s) v) eqn:Hb; [|exact Hretry]. apply andb_true_iff in Hb. destruct Hb as [_ Hb]. apply rval_eqb_eq in Hb.
        apply (ok_suspend s tr k (XLoop o v)); auto; [exists o, v; auto|simpl; congruence|congruence|simpl; discriminate].
      * rewrite <- (with_st_same s) at 1. specialize (Hlc eq_refl). apply (ok_suspend s tr k (XLoop o v)); auto; [exists o, v; auto|congruence|simpl; discriminate].
    + (* STry *) apply (ok_next s tr k (STry w)); auto; try exact I; try discriminate.
    + (* STryL *)
      assert (Hretry : ok (Next (r_with_act s k (STryL w (r_st s))) []) tr) by (apply (ok_next s tr k (STryL w v)); auto; try exact I; try discriminate).
      assert (Hfail : ok (try_ret s k w false) tr) by (rewrite <- (with_st_same s) at 1; apply (ok_try_ret s tr k w v false HI Hk); [discriminate|auto]).
      destruct (v_c v) eqn:Hv; [| |exact Hfail].
      * destruct (rval_eqb (r_st s) v) eqn:Hb; [|exact Hretry]. apply rval_eqb_eq in Hb. apply (ok_try_ret s tr k w v true HI Hk); [|discriminate]. intros _. left. split; [congruence|auto].
      * destruct (0 <? v_n v) eqn:Hp; [|exact Hfail]. apply Nat.ltb_lt in Hp. destruct (rval_eqb (r_st s) v) eqn:Hb; [|exact Hretry]. apply rval_eqb_eq in Hb.
        apply (ok_try_ret s tr k w v true HI Hk); [|discriminate]. intros _. right. rewrite Hb. auto.
    + (* SWait *) destruct (r_lock s) eqn:Hlo; [exact I|]. rsimp. apply (ok_next s tr k (SWait o)); auto; simpl; auto; [rewrite Hlo; reflexivity|discriminate].
    + (* SLoop *) specialize (Hlocked eq_refl).
      assert (Hretry : ok (Next (r_with_act s k (SLoop o (r_st s))) []) tr) by (apply (ok_next s tr k (SLoop o v)); auto; simpl; auto; discriminate).
      destruct (v_c v) eqn:Hv.
      * destruct (negb spur && rval_eqb (r_st s) v) eqn:Hb; [|exact Hretry]. apply andb_true_iff in Hb. destruct Hb as [_ Hb]. apply rval_eqb_eq in Hb. rewrite <- Hb in Hv. rsimp.
        intros _. apply (ri_move s tr k (SLoop o v)); auto; simpl; try discriminate; auto.
        -- intros x. rewrite (own_none _ _ HI Hv). destruct x; reflexivity.
        -- rewrite Hv. split; discriminate.
        -- rewrite Hv. discriminate.
        -- rewrite Hlocked. reflexivity.
        -- intros nd _. apply (free_pend _ _ HI); rewrite Hv; auto; discriminate.
      * destruct (0 <? v_n v) eqn:Hp.
        -- apply Nat.ltb_lt in Hp. destruct (negb spur && rval_eqb (r_st s) v) eqn:Hb; [|exact Hretry]. apply andb_true_iff in Hb. destruct Hb as [_ Hb]. apply rval_eqb_eq in Hb. rewrite <- Hb in *. rsimp.
           intros _. apply (ri_move s tr k (SLoop o v)); auto; simpl; try discriminate; auto; try congruence.
           ++ intros x. unfold own. rewrite Hv. unfold acqs. simpl. destruct x; simpl; [|lia]. destruct (v_n (r_st s)); [lia|reflexivity].
           ++ rewrite Hv. split; discriminate.
           ++ rewrite Hlocked. reflexivity.
           ++ intros nd _. apply (free_pend _ _ HI); rewrite Hv; auto; discriminate.
        -- apply Nat.ltb_ge in Hp. destruct (negb spur && rval_eqb (r_st s) v) eqn:Hb; [|exact Hretry]. apply andb_true_iff in Hb. destruct Hb as [_ Hb]. apply rval_eqb_eq in Hb.
           apply (ok_suspend s tr k (SLoop o v)); auto; [exists o, v; auto|simpl; rewrite Hb; lia|congruence].
      * rewrite <- (with_st_same s) at 1. specialize (Hlc eq_refl). apply (ok_suspend s tr k (SLoop o v)); auto; [exists o, v; auto|congruence|].
        intros Hw _. apply (ri_w _ _ HI) in Hlc. congruence.
    + (* RSet *) rewrite (r_alive _ _ HI k _ nd Hk) by (now left). intros _. rsimp. apply (ri_notify s tr k (RSet nd)); auto.
    + (* XUnl *) destruct (xtok _ _ HI k _ Hk (le_n 1)) as (Hc & Hn & _). rewrite Hn. simpl. destruct (v_c (r_st s)) eqn:Ec; [congruence|..].
      * apply (ok_next s tr k XUnl); auto; simpl; [destruct (r_st s) as [c n]; simpl in *; congruence|discriminate].
      * apply (ok_next s tr k XUnl); auto; simpl; auto; discriminate.
    + (* XUnlCas *) destruct (xtok _ _ HI k _ Hk (le_n 1)) as (Hc & Hn & _). subst v. destruct (rval_eqb (r_st s) (RV MLocked 0)) eqn:Hb.
      * apply rval_eqb_eq in Hb. rsimp. intros _. apply (ri_move s tr k (XUnlCas (RV MLocked 0))); auto; rewrite ?Hb; simpl; try discriminate; auto.
        -- intros [|]; reflexivity.
        -- split; discriminate.
      * rewrite Hn. simpl. destruct (v_c (r_st s)) eqn:Ec; [congruence|..].
        -- exfalso. destruct (r_st s) as [c n]. simpl in *. subst. discriminate.
        -- apply (ok_next s tr k (XUnlCas (RV MLocked 0))); auto; simpl; auto; discriminate.
    + (* XUnlLock *) destruct (r_lock s) eqn:Hlo; [exact I|]. destruct (xtok _ _ HI k _ Hk (le_n 1)) as (_ & Hn & _ & _ & Ho1 & Ho2).
      pose proof (proj1 (ri_w _ _ HI) Hlc) as Hw. assert (Hoth : forall j b, j <> k -> nth_error (r_act s) j = Some b -> forall x, tk x b = 0).
      { intros j b Hne Hj [|]; [now apply (Ho1 j)|]. apply Ho2. eapply nth_error_In; eauto. }
      destruct (r_w s) as [|[o [|]] w] eqn:Ew; [congruence|..].
      * apply (ok_hand s tr k XUnlLock); auto; try discriminate.
        -- intros x. unfold own. destruct w; [simpl|]; rewrite ?Hlc, ?Hn; destruct x; reflexivity.
        -- destruct w; auto.
        -- destruct w; simpl; [discriminate|]. rewrite Hn. intros _ H. lia.
      * destruct (readers ((o, false) :: w)) as [p w'] eqn:Er. destruct (readers_spec _ _ _ Er) as (E1 & E2 & E3). rewrite <- Ew in E1.
        assert (Hp : p <> []) by (simpl in Er; destruct (readers w); injection Er as <- <-; discriminate).
        apply (ok_hand s tr k XUnlLock); auto.
        -- intros x. rewrite readers_tk by auto. unfold own. rewrite Hlc, Hn. simpl. destruct x; [|change (tk false XUnlLock) with 0; simpl; lia]. destruct p; [congruence|]. destruct w'; reflexivity.
        -- simpl. intros Hc _. destruct E3 as [->|H]; [discriminate|exact H].
    + (* SUnl *) destruct (stok _ _ HI _ Hin (le_n 1)) as (Hc & Hn & _ & _). apply Nat.ltb_lt in Hn as Hn'. rewrite Hn'.
      assert (H : ok (Next (r_with_act s k (SUnl1 (r_st s))) []) tr) by (apply (ok_next s tr k SUnl); auto; simpl; auto; discriminate).
      destruct (v_c (r_st s)); [congruence|exact H|exact H].
    + (* SUnl1 *) destruct Hlc as (L1 & L2 & L3). destruct (stok _ _ HI _ Hin (le_n 1)) as (Hc & Hn & _ & _).
      destruct (v_c v) eqn:Hv; [congruence| |apply (ok_sunl2 s tr k spur (SUnl1 v) v HI Hk); auto].
      replace ((1 <? v_n v) || (v_n v =? 1)) with true by (symmetry; apply orb_true_iff; destruct (v_n v) as [|[|n]]; [lia|now right|now left]).
      destruct (negb spur && rval_eqb (r_st s) v) eqn:Hb.
      * apply andb_true_iff in Hb. destruct Hb as [_ Hb]. apply rval_eqb_eq in Hb. rsimp. intros _. apply (ri_move s tr k (SUnl1 v)); auto; try discriminate.
        -- intros x. unfold own. rewrite Hb, Hv. unfold acqs. simpl. destruct (v_n v) as [|[|n]]; [lia|destruct x; reflexivity|destruct x; reflexivity].
        -- destruct (1 <? v_n v); simpl; auto; discriminate.
        -- rewrite Hb, Hv. destruct (1 <? v_n v); simpl; split; discriminate.
        -- rewrite Hb, Hv. discriminate.
        -- exact I.
      * apply Nat.ltb_lt in Hn as Hn'. rewrite Hn'.
        assert (H : ok (Next (r_with_act s k (SUnl1 (r_st s))) []) tr) by (apply (ok_next s tr k (SUnl1 v)); auto; simpl; auto; discriminate).
        destruct (v_c (r_st s)); [congruence|exact H|exact H].
    + (* SUnl2 *) apply (ok_sunl2 s tr k spur (SUnl2 v) v HI Hk); [auto|tauto].
    + (* RHand *) destruct p as [|nd p]; [congruence|].
      assert (Hal : forallb (nd_alive s) (nd :: p) = true) by (apply forallb_forall; intros nd' H; apply (r_alive _ _ HI k _ nd' Hk); exact H).
      rewrite Hal. rsimp. intros _. apply (ri_notify s tr k (RHand (nd :: p))); auto. right. eauto.
    + exact I.
Qed.
