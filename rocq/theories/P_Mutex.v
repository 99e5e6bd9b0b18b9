(** Proofs about mutex: C23-C25. *)
From Coq Require Import List Arith Bool Lia.
From Verif Require Import Lts ListFacts M_Mutex S_Mutex.
Import ListNotations.

(** ** Lists of activities *)
Lemma flat_map_single {A B} (f : A -> list B) l k y : nth_error l k = Some y ->
  (forall j a, j <> k -> nth_error l j = Some a -> f a = []) -> flat_map f l = f y.
Proof.
  revert k. induction l as [|h t IH]; intros k Hk Ho; [destruct k; discriminate|]. destruct k as [|k]; simpl in *.
  - injection Hk as ->. rewrite (flat_map_nil f t), app_nil_r; auto. intros x Hx. apply In_nth_error in Hx. destruct Hx as [j Hj].
    apply (Ho (S j)); auto.
  - rewrite (Ho 0 h); auto. simpl. apply (IH k); auto. intros j a Hj Ha. apply (Ho (S j)); auto.
Qed.
Lemma cnt_flat_map {A} (f : A -> list nat) o l : cnt o (flat_map f l) = sum (map (fun a => cnt o (f a)) l).
Proof. induction l as [|h t IH]; simpl; auto. now rewrite cnt_app, IH. Qed.
Lemma cnt_flat_set {A} (f : A -> list nat) o l k x y : nth_error l k = Some y ->
  cnt o (flat_map f (set_nth l k x)) + cnt o (f y) = cnt o (flat_map f l) + cnt o (f x).
Proof. intros H. rewrite !cnt_flat_map. apply (sum_map_set_nth (fun a => cnt o (f a)) l k x y H). Qed.
Lemma cnt_flat_in {A} (f : A -> list nat) o l y : In y l -> cnt o (f y) <= cnt o (flat_map f l).
Proof. intros H. rewrite cnt_flat_map. exact (sum_map_le (fun a => cnt o (f a)) l y H). Qed.
(** if one element accounts for the whole sum, the others have weight zero *)
Lemma sum_others {A} (f : A -> nat) l k y : nth_error l k = Some y -> sum (map f l) = f y ->
  forall j a, j <> k -> nth_error l j = Some a -> f a = 0.
Proof.
  revert k. induction l as [|h t IH]; intros k Hk Hs j a Hj Ha; [destruct k; discriminate|]. destruct k as [|k]; simpl in *.
  - injection Hk as ->. destruct j as [|j]; [congruence|]. simpl in Ha. pose proof (sum_map_le f t a (nth_error_In _ _ Ha)). lia.
  - pose proof (sum_map_le f t y (nth_error_In _ _ Hk)). destruct j as [|j]; simpl in Ha.
    + injection Ha as ->. lia.
    + apply (IH k Hk) with j; auto. lia.
Qed.

(** ** Traces *)
Lemma acqs_app x t1 t2 : acqs x (t1 ++ t2) = acqs x t1 + acqs x t2.
Proof. unfold acqs. now rewrite filter_app, app_length. Qed.
Lemma unls_app x t1 t2 : unls x (t1 ++ t2) = unls x t1 + unls x t2.
Proof. unfold unls. now rewrite filter_app, app_length. Qed.
Lemma susps_app t1 t2 : susps (t1 ++ t2) = susps t1 ++ susps t2.
Proof. apply flat_map_app. Qed.
Lemma hands_app t1 t2 : hands (t1 ++ t2) = hands t1 ++ hands t2.
Proof. apply flat_map_app. Qed.
Lemma acquired_app t1 t2 : acquired (t1 ++ t2) = acquired t1 ++ acquired t2.
Proof. apply flat_map_app. Qed.
Lemma started_app t1 t2 : started_ops (t1 ++ t2) = started_ops t1 ++ started_ops t2.
Proof. apply flat_map_app. Qed.
Lemma rule_prefix t1 t2 : owners_unlock (t1 ++ t2) -> owners_unlock t1.
Proof. intros H ta x tb ->. apply (H ta x (tb ++ t2)). now rewrite <- app_assoc. Qed.
Lemma first_snoc o o' tr e : suspended_first o o' (tr ++ [e]) <->
  suspended_first o o' tr \/ (exists x, e = EStart o' x) /\ In o (susps tr).
Proof.
  split.
  - intros (t1 & x & t2 & E & Ho). destruct t2 as [|e2 t2] using rev_ind.
    + apply app_inj_tail in E. destruct E as [-> ->]. right. eauto.
    + rewrite app_comm_cons, app_assoc in E. apply app_inj_tail in E. destruct E as [-> _]. left. exists t1, x, t2. auto.
  - intros [(t1 & x & t2 & -> & Ho)|[[x ->] Ho]].
    + exists t1, x, (t2 ++ [e]). now rewrite <- app_assoc.
    + exists tr, x, []. auto.
Qed.
Lemma first_In o o' tr : suspended_first o o' tr -> In o (susps tr) /\ In o' (started_ops tr).
Proof.
  intros (t1 & x & t2 & -> & H). rewrite susps_app, started_app, !in_app_iff. simpl. auto.
Qed.

Definition b2n (b : bool) : nat := if b then 1 else 0.

(** [o] is before [o'] in a list *)
Definition precedes (o o' : nat) (l : list nat) : Prop := exists l1 l2, l = l1 ++ l2 /\ In o l1 /\ In o' l2.
Lemma precedes_snoc o o' l x : precedes o o' l -> precedes o o' (l ++ [x]).
Proof. intros (l1 & l2 & -> & H1 & H2). exists l1, (l2 ++ [x]). rewrite app_assoc, in_app_iff. auto. Qed.
Lemma precedes_asym o o' l a b : NoDup l -> precedes o o' l -> l = a ++ o' :: b -> ~ In o b.
Proof.
  intros Hn (l1 & l2 & -> & H1 & H2) E Hb. apply app_eq_app in E. destruct E as (m & [(-> & E)|(-> & E)]).
  - destruct m as [|y m]; simpl in E.
    + subst l2. rewrite app_nil_r in *. apply (NoDup_app_disjoint _ _ Hn o); [auto|now right].
    + injection E as <- E. exact (NoDup_app_disjoint _ _ Hn o' ltac:(apply in_elt) H2).
  - subst l2. apply (NoDup_app_disjoint _ _ Hn o); auto. rewrite in_app_iff. right. now right.
Qed.

(** ** The invariant *)
Definition tok (a : mact) : nat := match a with ASet _ | AUnl | AUnlCas | AUnlLock | AUnlNext _ => 1 | _ => 0 end.
Definition lk (a : mact) : nat := match a with ALoop _ _ => 1 | _ => 0 end.
Definition aop (a : mact) : list nat := match a with ATry o | AWait o | ALoop o _ | ASet o | AUnlNext o => [o] | _ => [] end.
Definition nxt (a : mact) : list nat := match a with AUnlNext o => [o] | _ => [] end.

Record MI (s : mst) (tr : ltrace) : Prop := {
  mi_tok : acqs true tr + sum (map tok (m_act s)) = unls true tr + (match m_st s with MNone => 0 | _ => 1 end);
  mi_unl : unls true tr <= acqs true tr;
  mi_w : m_st s = MCont <-> m_w s <> [];
  mi_lock : sum (map lk (m_act s)) = b2n (m_lock s);
  mi_loop : forall o, In (ALoop o MCont) (m_act s) -> m_st s = MCont;
  mi_unlk : In AUnlLock (m_act s) -> m_st s = MCont;
  mi_place : forall o, cnt o (flat_map aop (m_act s)) + cnt o (m_w s) = match m_op s o with OStarted => 1 | _ => 0 end;
  mi_acq : NoDup (acquired tr) /\ forall o, In o (acquired tr) <-> m_op s o = ODone;
  mi_start : forall o, In o (started_ops tr) <-> m_op s o <> OIdle;
  mi_hand : hands tr = filter (fun o => memb o (hands tr)) (acquired tr) ++ flat_map nxt (m_act s);
  mi_susp : susps tr = hands tr ++ m_w s;
  mi_nodup : NoDup (susps tr);
  mi_order : forall o o', suspended_first o o' tr -> In o' (susps tr) -> precedes o o' (susps tr);
  mi_barge : forall o o', suspended_first o o' tr -> ~ In o (acquired tr) -> ~ In o' (acquired tr) /\ ~ In (ASet o') (m_act s)
}.

Lemma mi_init : MI m_init [].
Proof.
  constructor; simpl; auto; try constructor; try tauto; try discriminate; try (intros o o' (t1 & x & t2 & E & _); destruct t1; discriminate).
  - constructor.
  - intros o. split; [intros []|discriminate].
Qed.

Section Facts.
Variables (s : mst) (tr : ltrace).
Hypothesis HI : MI s tr.

Lemma one_token k a : nth_error (m_act s) k = Some a -> tok a = 1 ->
  acqs true tr = unls true tr /\ m_st s <> MNone /\ forall j b, j <> k -> nth_error (m_act s) j = Some b -> tok b = 0.
Proof.
  intros Hk Ht. pose proof (mi_tok _ _ HI) as H. pose proof (mi_unl _ _ HI) as Hu.
  pose proof (sum_map_le tok _ _ (nth_error_In _ _ Hk)) as Hle. rewrite Ht in Hle.
  assert (Hst : m_st s <> MNone) by (intros E; rewrite E in H; lia). assert (sum (map tok (m_act s)) = 1) by (destruct (m_st s); try congruence; lia).
  split; [destruct (m_st s); lia|]. split; auto. apply (sum_others tok _ k a Hk). lia.
Qed.
Lemma free_idle : m_st s = MNone -> m_w s = [] /\ flat_map nxt (m_act s) = [] /\ acqs true tr = unls true tr.
Proof.
  intros E. pose proof (mi_tok _ _ HI) as H. pose proof (mi_unl _ _ HI) as Hu. rewrite E in H. split; [|split; [|lia]].
  - destruct (m_w s) eqn:Hw; auto. assert (m_st s = MCont) by (apply (mi_w _ _ HI); rewrite Hw; discriminate). congruence.
  - apply flat_map_nil. intros a Ha. pose proof (sum_map_le tok _ _ Ha). destruct a; simpl in *; auto; lia.
Qed.
(** nobody is suspended while the mutex is free *)
Lemma free_all : m_st s = MNone -> forall o, In o (susps tr) -> In o (acquired tr).
Proof.
  intros E o Ho. destruct (free_idle E) as (H1 & H2 & _). rewrite (mi_susp _ _ HI), H1, app_nil_r, (mi_hand _ _ HI), H2, app_nil_r in Ho.
  apply filter_In in Ho. tauto.
Qed.
Lemma place_started k a o : nth_error (m_act s) k = Some a -> In o (aop a) ->
  m_op s o = OStarted /\ cnt o (flat_map aop (m_act s)) = 1 /\ ~ In o (m_w s) /\ cnt o (aop a) = 1.
Proof.
  intros Hk Ho. pose proof (mi_place _ _ HI o) as H. pose proof (cnt_flat_in aop o _ _ (nth_error_In _ _ Hk)) as Hle.
  apply cnt_pos in Ho. destruct (m_op s o); try lia. split; auto. split; [lia|]. split; [apply cnt_zero|]; lia.
Qed.
Lemma w_started o : In o (m_w s) -> m_op s o = OStarted.
Proof. intros Ho. pose proof (mi_place _ _ HI o) as H. apply cnt_pos in Ho. destruct (m_op s o); auto; lia. Qed.
Lemma w_alive_ok : w_alive s = true.
Proof. apply forallb_forall. intros o Ho. unfold alive. now rewrite (w_started o Ho). Qed.
Lemma hand_cases o : In o (hands tr) -> In o (acquired tr) \/ In o (flat_map nxt (m_act s)).
Proof. rewrite (mi_hand _ _ HI), in_app_iff. rewrite filter_In. tauto. Qed.
Lemma nxt_aop o : In o (flat_map nxt (m_act s)) -> In o (flat_map aop (m_act s)).
Proof. rewrite !in_flat_map. intros (a & Ha & H). exists a. split; auto. destruct a; simpl in *; tauto. Qed.
(** an operation that is being started or about to be notified by its start() has not been suspended *)
Lemma not_susp k a o : nth_error (m_act s) k = Some a -> In o (aop a) -> nxt a = [] -> ~ In o (susps tr).
Proof.
  intros Hk Ho Hn Hin. destruct (place_started _ _ _ Hk Ho) as (H1 & H2 & H3 & H4). rewrite (mi_susp _ _ HI), in_app_iff in Hin. destruct Hin as [Hin|Hin]; [|tauto].
  destruct (hand_cases _ Hin) as [Hacq|Hnx].
  - apply (proj2 (mi_acq _ _ HI)) in Hacq. congruence.
  - apply in_flat_map in Hnx. destruct Hnx as (b & Hb & Hob). apply In_nth_error in Hb. destruct Hb as [j Hj].
    destruct (Nat.eq_dec j k) as [->|Hne]; [rewrite Hk in Hj; injection Hj as <-; rewrite Hn in Hob; exact Hob|].
    assert (Hs : sum (map (fun a => cnt o (aop a)) (m_act s)) = cnt o (aop a)) by (rewrite <- cnt_flat_map; lia).
    pose proof (sum_others (fun a => cnt o (aop a)) _ k a Hk Hs j b Hne Hj) as H0. cbv beta in H0. apply cnt_zero in H0. apply H0. destruct b; simpl in *; tauto.
Qed.
End Facts.

Lemma flat_map_set_same {A B} (f : A -> list B) l k x y : nth_error l k = Some y -> f x = f y -> flat_map f (set_nth l k x) = flat_map f l.
Proof.
  revert k. induction l as [|h t IH]; intros k Hk E; [destruct k; discriminate|]. destruct k as [|k]; simpl in *.
  - injection Hk as ->. now rewrite E.
  - now rewrite (IH k).
Qed.

(** ** Preservation *)
(** a step inside of a call *)
Lemma mi_move s tr k a a' lock' : MI s tr -> nth_error (m_act s) k = Some a ->
  aop a' = aop a -> nxt a' = nxt a -> tok a' = tok a -> lk a' + b2n (m_lock s) = lk a + b2n lock' ->
  (forall o, a' = ALoop o MCont -> m_st s = MCont) -> (a' = AUnlLock -> m_st s = MCont) -> (forall o, a' <> ASet o) ->
  MI (MS lock' (m_st s) (m_w s) (m_op s) (set_nth (m_act s) k a')) tr.
Proof.
  intros HI Hk Ho Hn Ht Hl H1 H2 H3. pose proof (sum_map_set_nth tok _ k a' a Hk) as Et. pose proof (sum_map_set_nth lk _ k a' a Hk) as El.
  pose proof (mi_tok _ _ HI). pose proof (mi_lock _ _ HI).
  constructor; cbn [m_lock m_st m_w m_op m_act]; try apply HI.
  - lia.
  - lia.
  - intros o Hin. apply In_set_nth in Hin. destruct Hin as [E|Hin]; [now apply (H1 o)|eapply mi_loop; eauto].
  - intros Hin. apply In_set_nth in Hin. destruct Hin as [E|Hin]; [now apply H2|eapply mi_unlk; eauto].
  - intros o. pose proof (cnt_flat_set aop o _ k a' a Hk). rewrite Ho in *. pose proof (mi_place _ _ HI o). lia.
  - rewrite (flat_map_set_same nxt _ k a' a Hk Hn). apply HI.
  - intros o o' Hf Hno. destruct (mi_barge _ _ HI o o' Hf Hno) as [B1 B2]. split; auto. intros Hin. apply In_set_nth in Hin. destruct Hin as [E|Hin]; [now apply (H3 o')|auto].
Qed.

(** start() acquires the mutex *)
Lemma mi_acquire s tr k a o lock' : MI s tr -> nth_error (m_act s) k = Some a -> (a = ATry o \/ exists v, a = ALoop o v) ->
  m_st s = MNone -> b2n (m_lock s) = lk a + b2n lock' ->
  MI (MS lock' MLocked (m_w s) (m_op s) (set_nth (m_act s) k (ASet o))) tr.
Proof.
  intros HI Hk Ha Hst Hl. pose proof (sum_map_set_nth tok _ k (ASet o) a Hk) as Et. pose proof (sum_map_set_nth lk _ k (ASet o) a Hk) as El.
  pose proof (mi_tok _ _ HI) as Htk. pose proof (mi_lock _ _ HI). rewrite Hst in Htk. destruct (free_idle _ _ HI Hst) as (Hw & Hnx & _).
  assert (Hta : tok a = 0) by (destruct Ha as [->|[v ->]]; reflexivity). assert (Hao : aop a = [o]) by (destruct Ha as [->|[v ->]]; reflexivity).
  assert (Hna : nxt a = []) by (destruct Ha as [->|[v ->]]; reflexivity). rewrite Hta in Et. simpl in Et, El.
  constructor; cbn [m_lock m_st m_w m_op m_act]; try apply HI.
  - lia.
  - rewrite Hw. split; [discriminate|tauto].
  - lia.
  - intros o' Hin. apply In_set_nth in Hin. destruct Hin as [E|Hin]; [discriminate|]. apply (mi_loop _ _ HI) in Hin. congruence.
  - intros Hin. apply In_set_nth in Hin. destruct Hin as [E|Hin]; [discriminate|]. apply (mi_unlk _ _ HI) in Hin. congruence.
  - intros o'. pose proof (cnt_flat_set aop o' _ k (ASet o) a Hk) as E. rewrite Hao in E. simpl aop in E. pose proof (mi_place _ _ HI o'). lia.
  - rewrite (flat_map_set_same nxt _ k (ASet o) a Hk ltac:(now rewrite Hna)). apply HI.
  - intros o1 o2 Hf Hno. exfalso. apply Hno. apply (free_all _ _ HI Hst). apply first_In in Hf. tauto.
Qed.

(** start() suspends *)
Lemma mi_suspend s tr k o v : MI s tr -> nth_error (m_act s) k = Some (ALoop o v) -> m_st s <> MNone ->
  MI (MS false MCont (m_w s ++ [o]) (m_op s) (set_nth (m_act s) k AEnd)) (tr ++ [ESusp o]).
Proof.
  intros HI Hk Hst. pose proof (sum_map_set_nth tok _ k AEnd _ Hk) as Et. pose proof (sum_map_set_nth lk _ k AEnd _ Hk) as El. simpl in Et, El.
  pose proof (mi_tok _ _ HI) as Htk. pose proof (mi_lock _ _ HI) as Hlk. destruct (place_started _ _ HI k _ o Hk ltac:(now left)) as (Hs1 & Hs2 & Hs3 & _).
  pose proof (not_susp _ _ HI k _ o Hk ltac:(now left) eq_refl) as Hns.
  assert (Hacq : acquired (tr ++ [ESusp o]) = acquired tr) by (rewrite acquired_app; apply app_nil_r).
  assert (Hha : hands (tr ++ [ESusp o]) = hands tr) by (rewrite hands_app; apply app_nil_r).
  constructor; cbn [m_lock m_st m_w m_op m_act]; rewrite ?Hacq, ?Hha, ?acqs_app, ?unls_app; cbn [acqs unls filter is_acq is_unl length].
  - simpl. destruct (m_st s); [congruence|lia|lia].
  - simpl. pose proof (mi_unl _ _ HI). lia.
  - split; [|auto]. intros _ E. destruct (m_w s); discriminate.
  - destruct (m_lock s); simpl in *; lia.
  - auto.
  - auto.
  - intros o'. pose proof (cnt_flat_set aop o' _ k AEnd _ Hk) as E. simpl aop in E. rewrite cnt_nil in E. pose proof (mi_place _ _ HI o').
    rewrite cnt_app. rewrite !cnt_cons, !cnt_nil in *. lia.
  - apply HI.
  - rewrite started_app. simpl. rewrite app_nil_r. apply HI.
  - rewrite (flat_map_set_same nxt _ k AEnd _ Hk eq_refl). apply HI.
  - rewrite susps_app, (mi_susp _ _ HI). simpl. now rewrite app_assoc.
  - rewrite susps_app. simpl. apply NoDup_snoc; [apply HI|auto].
  - intros o1 o2 Hf Hin. apply first_snoc in Hf. destruct Hf as [Hf|[[x E] _]]; [|discriminate]. rewrite susps_app in *. simpl in *.
    apply In_snoc in Hin. destruct Hin as [Hin|E].
    + apply precedes_snoc. now apply HI.
    + subst o2. exists (susps tr), [o]. split; auto. split; [apply first_In in Hf; tauto|now left].
  - intros o1 o2 Hf Hno. apply first_snoc in Hf. destruct Hf as [Hf|[[x E] _]]; [|discriminate]. destruct (mi_barge _ _ HI o1 o2 Hf Hno) as [B1 B2]. split; auto.
    intros Hin. apply In_set_nth in Hin. destruct Hin as [E|Hin]; [discriminate|auto].
Qed.

Lemma filter_snoc_out (l : list nat) o (h : list nat) : ~ In o l -> filter (fun x => memb x (h ++ [o])) l = filter (fun x => memb x h) l.
Proof.
  intros Hno. apply filter_ext_in. intros x Hx. unfold memb. rewrite existsb_app. simpl. destruct (Nat.eqb_spec x o) as [->|]; [tauto|]. now rewrite !orb_false_r.
Qed.

(** set_value on the receiver *)
Lemma mi_notify s tr k a o : MI s tr -> nth_error (m_act s) k = Some a -> a = ASet o \/ a = AUnlNext o ->
  MI (MS (m_lock s) (m_st s) (m_w s) (upd (m_op s) o ODone) (set_nth (m_act s) k AEnd)) (tr ++ [EAcq o true]).
Proof.
  intros HI Hk Ha. assert (Hao : aop a = [o]) by (destruct Ha as [->| ->]; reflexivity). assert (Hta : tok a = 1) by (destruct Ha as [->| ->]; reflexivity).
  assert (Hla : lk a = 0) by (destruct Ha as [->| ->]; reflexivity).
  pose proof (sum_map_set_nth tok _ k AEnd _ Hk) as Et. pose proof (sum_map_set_nth lk _ k AEnd _ Hk) as El. rewrite Hta in Et. rewrite Hla in El. simpl in Et, El.
  pose proof (mi_tok _ _ HI) as Htk. pose proof (mi_lock _ _ HI) as Hlk.
  destruct (place_started _ _ HI k _ o Hk ltac:(rewrite Hao; now left)) as (Hs1 & Hs2 & Hs3 & _).
  destruct (one_token _ _ HI k a Hk Hta) as (Hheld & Hst & Hoth).
  assert (Hnacq : ~ In o (acquired tr)) by (intros H; apply (proj2 (mi_acq _ _ HI)) in H; congruence).
  assert (Hha : hands (tr ++ [EAcq o true]) = hands tr) by (rewrite hands_app; apply app_nil_r).
  assert (Hsu : susps (tr ++ [EAcq o true]) = susps tr) by (rewrite susps_app; apply app_nil_r).
  assert (Hnx : flat_map nxt (m_act s) = nxt a). { apply (flat_map_single nxt _ k a Hk). intros j b Hj Hb. specialize (Hoth j b Hj Hb). destruct b; simpl in *; auto; discriminate. }
  assert (Hnx' : flat_map nxt (set_nth (m_act s) k AEnd) = []).
  { apply flat_map_nil. intros b Hb. apply In_nth_error in Hb. destruct Hb as [j Hj]. destruct (Nat.eq_dec j k) as [->|Hne].
    - rewrite (nth_error_set_nth_same _ k AEnd a Hk) in Hj. injection Hj as <-. reflexivity.
    - rewrite nth_error_set_nth_other in Hj by auto. specialize (Hoth j b Hne Hj). destruct b; simpl in *; auto; discriminate. }
  constructor; cbn [m_lock m_st m_w m_op m_act]; rewrite ?Hha, ?Hsu, ?acqs_app, ?unls_app.
  - change (acqs true [EAcq o true]) with 1. change (unls true [EAcq o true]) with 0. lia.
  - change (acqs true [EAcq o true]) with 1. change (unls true [EAcq o true]) with 0. lia.
  - apply HI.
  - lia.
  - intros o' Hin. apply In_set_nth in Hin. destruct Hin as [E|Hin]; [discriminate|]. eapply mi_loop; eauto.
  - intros Hin. apply In_set_nth in Hin. destruct Hin as [E|Hin]; [discriminate|]. eapply mi_unlk; eauto.
  - intros o'. pose proof (cnt_flat_set aop o' _ k AEnd _ Hk) as E. rewrite Hao in E. simpl aop in E. rewrite cnt_nil in E. pose proof (mi_place _ _ HI o') as Hp.
    rewrite !cnt_cons, !cnt_nil in *. unfold upd. destruct (Nat.eqb_spec o' o) as [->|Hne].
    + destruct (Nat.eq_dec o o); [|congruence]. rewrite Hs1 in Hp. lia.
    + destruct (Nat.eq_dec o o'); [congruence|]. lia.
  - rewrite acquired_app. simpl. split; [apply NoDup_snoc; [apply HI|auto]|]. intros o'. rewrite In_snoc. unfold upd.
    destruct (Nat.eqb_spec o' o) as [->|Hne]; [tauto|]. rewrite (proj2 (mi_acq _ _ HI)). tauto.
  - intros o'. rewrite started_app. simpl. rewrite app_nil_r, (mi_start _ _ HI). unfold upd. destruct (Nat.eqb_spec o' o) as [->|Hne]; [|tauto]. rewrite Hs1. split; discriminate.
  - rewrite acquired_app. simpl. rewrite filter_app, Hnx'. simpl. rewrite app_nil_r. pose proof (mi_hand _ _ HI) as Hh. rewrite Hnx in Hh.
    destruct Ha as [->| ->]; simpl nxt in Hh.
    + rewrite app_nil_r in Hh. replace (memb o (hands tr)) with false; [rewrite app_nil_r; exact Hh|]. symmetry. apply memb_not_In.
      intros Hin. rewrite Hh in Hin. apply filter_In in Hin. tauto.
    + replace (memb o (hands tr)) with true; [exact Hh|]. symmetry. apply memb_In. rewrite Hh. apply in_app_iff. right. now left.
  - apply HI.
  - apply HI.
  - intros o1 o2 Hf. apply first_snoc in Hf. destruct Hf as [Hf|[[x E] _]]; [|discriminate]. now apply HI.
  - intros o1 o2 Hf Hno. apply first_snoc in Hf. destruct Hf as [Hf|[[x E] _]]; [|discriminate]. rewrite acquired_app in *. simpl in *.
    rewrite In_snoc in Hno. assert (Hno1 : ~ In o1 (acquired tr)) by tauto. destruct (mi_barge _ _ HI o1 o2 Hf Hno1) as [B1 B2]. split.
    + rewrite In_snoc. intros [H|E]; [auto|]. subst o2. destruct Ha as [->| ->]; [apply B2; eapply nth_error_In; eauto|].
      (* o was handed over, o1 is still in the list *)
      pose proof (mi_hand _ _ HI) as Hh. rewrite Hnx in Hh. simpl in Hh.
      assert (Hin : In o (susps tr)) by (rewrite (mi_susp _ _ HI), Hh, !in_app_iff; left; right; now left).
      pose proof (mi_order _ _ HI o1 o Hf Hin) as Hpr.
      pose proof (mi_susp _ _ HI) as Hss. rewrite Hh, <- app_assoc in Hss. simpl in Hss.
      pose proof (precedes_asym _ _ _ _ _ (mi_nodup _ _ HI) Hpr Hss) as Hnb.
      destruct (first_In _ _ _ Hf) as [Hin1 _]. rewrite Hss in Hin1. apply in_app_iff in Hin1. destruct Hin1 as [Hin1|[E|Hin1]]; [|subst; tauto|tauto].
      apply filter_In in Hin1. tauto.
    + intros Hin. apply In_set_nth in Hin. destruct Hin as [E|Hin]; [discriminate|auto].
Qed.

(** unlock() without contention *)
Lemma mi_release s tr k : MI s tr -> nth_error (m_act s) k = Some AUnlCas -> m_st s = MLocked ->
  MI (MS (m_lock s) MNone (m_w s) (m_op s) (set_nth (m_act s) k AEnd)) tr.
Proof.
  intros HI Hk Hst. pose proof (sum_map_set_nth tok _ k AEnd _ Hk) as Et. pose proof (sum_map_set_nth lk _ k AEnd _ Hk) as El. simpl in Et, El.
  pose proof (mi_tok _ _ HI) as Htk. pose proof (mi_lock _ _ HI) as Hlk. rewrite Hst in Htk.
  constructor; cbn [m_lock m_st m_w m_op m_act]; try apply HI.
  - lia.
  - split; [discriminate|]. intros Hw. apply (mi_w _ _ HI) in Hw. congruence.
  - lia.
  - intros o' Hin. apply In_set_nth in Hin. destruct Hin as [E|Hin]; [discriminate|]. apply (mi_loop _ _ HI) in Hin. congruence.
  - intros Hin. apply In_set_nth in Hin. destruct Hin as [E|Hin]; [discriminate|]. apply (mi_unlk _ _ HI) in Hin. congruence.
  - intros o'. pose proof (cnt_flat_set aop o' _ k AEnd _ Hk) as E. simpl aop in E. pose proof (mi_place _ _ HI o'). lia.
  - rewrite (flat_map_set_same nxt _ k AEnd _ Hk eq_refl). apply HI.
  - intros o o' Hf Hno. destruct (mi_barge _ _ HI o o' Hf Hno) as [B1 B2]. split; auto. intros Hin. apply In_set_nth in Hin. destruct Hin as [E|Hin]; [discriminate|auto].
Qed.

(** unlock() hands over *)
Lemma mi_handover s tr k o w : MI s tr -> nth_error (m_act s) k = Some AUnlLock -> m_w s = o :: w -> m_lock s = false ->
  MI (MS (m_lock s) (match w with [] => MLocked | _ => m_st s end) w (m_op s) (set_nth (m_act s) k (AUnlNext o))) (tr ++ [EHand o]).
Proof.
  intros HI Hk Hw Hlo. pose proof (sum_map_set_nth tok _ k (AUnlNext o) _ Hk) as Et. pose proof (sum_map_set_nth lk _ k (AUnlNext o) _ Hk) as El. simpl in Et, El.
  pose proof (mi_tok _ _ HI) as Htk. pose proof (mi_lock _ _ HI) as Hlk. pose proof (mi_unlk _ _ HI (nth_error_In _ _ Hk)) as Hst. rewrite Hst in *.
  destruct (one_token _ _ HI k _ Hk eq_refl) as (Hheld & _ & Hoth). rewrite Hlo in Hlk. simpl in Hlk.
  assert (Hos : m_op s o = OStarted) by (apply (w_started _ _ HI); rewrite Hw; now left).
  assert (Hnacq : ~ In o (acquired tr)) by (intros H; apply (proj2 (mi_acq _ _ HI)) in H; congruence).
  assert (Hnx : flat_map nxt (m_act s) = []). { apply (flat_map_single nxt _ k _ Hk). intros j b Hj Hb. specialize (Hoth j b Hj Hb). destruct b; simpl in *; auto; discriminate. }
  assert (Hnx' : flat_map nxt (set_nth (m_act s) k (AUnlNext o)) = [o]).
  { apply (flat_map_single nxt _ k (AUnlNext o)); [apply (nth_error_set_nth_same _ k _ _ Hk)|]. intros j b Hne Hj. rewrite nth_error_set_nth_other in Hj by auto.
    specialize (Hoth j b Hne Hj). destruct b; simpl in *; auto; discriminate. }
  assert (Hacq : acquired (tr ++ [EHand o]) = acquired tr) by (rewrite acquired_app; apply app_nil_r).
  assert (Hsu : susps (tr ++ [EHand o]) = susps tr) by (rewrite susps_app; apply app_nil_r).
  assert (Hha : hands (tr ++ [EHand o]) = hands tr ++ [o]) by (rewrite hands_app; reflexivity).
  constructor; cbn [m_lock m_st m_w m_op m_act]; rewrite ?Hacq, ?Hsu, ?Hha, ?acqs_app, ?unls_app.
  - change (acqs true [EHand o]) with 0. change (unls true [EHand o]) with 0. destruct w; lia.
  - change (acqs true [EHand o]) with 0. change (unls true [EHand o]) with 0. lia.
  - destruct w; split; intros; try discriminate; auto; congruence.
  - rewrite Hlo. simpl. lia.
  - intros o' Hin. exfalso. apply In_set_nth in Hin. destruct Hin as [E|Hin]; [discriminate|]. pose proof (sum_map_le lk _ _ Hin). simpl in *. lia.
  - intros Hin. exfalso. apply In_nth_error in Hin. destruct Hin as [j Hj]. destruct (Nat.eq_dec j k) as [->|Hne].
    + rewrite (nth_error_set_nth_same _ k _ _ Hk) in Hj. discriminate.
    + rewrite nth_error_set_nth_other in Hj by auto. specialize (Hoth j _ Hne Hj). discriminate.
  - intros o'. pose proof (cnt_flat_set aop o' _ k (AUnlNext o) _ Hk) as E. simpl aop in E. rewrite cnt_nil in E. pose proof (mi_place _ _ HI o') as Hp.
    rewrite Hw in Hp. rewrite !cnt_cons, !cnt_nil in *. lia.
  - apply HI.
  - rewrite started_app. simpl. rewrite app_nil_r. apply HI.
  - rewrite Hnx'. rewrite filter_snoc_out by auto. f_equal. pose proof (mi_hand _ _ HI) as Hh. rewrite Hnx, app_nil_r in Hh. exact Hh.
  - rewrite (mi_susp _ _ HI), Hw, <- app_assoc. reflexivity.
  - apply HI.
  - intros o1 o2 Hf. apply first_snoc in Hf. destruct Hf as [Hf|[[x E] _]]; [|discriminate]. now apply HI.
  - intros o1 o2 Hf Hno. apply first_snoc in Hf. destruct Hf as [Hf|[[x E] _]]; [|discriminate]. destruct (mi_barge _ _ HI o1 o2 Hf Hno) as [B1 B2]. split; auto.
    intros Hin. apply In_set_nth in Hin. destruct Hin as [E|Hin]; [discriminate|auto].
Qed.

(** ** Calls *)
Lemma flat_map_snoc_nil {A B} (f : A -> list B) l x : f x = [] -> flat_map f (l ++ [x]) = flat_map f l.
Proof. intros E. rewrite flat_map_app. simpl. rewrite E, !app_nil_r. reflexivity. Qed.
Lemma sum_snoc {A} (f : A -> nat) l x : sum (map f (l ++ [x])) = sum (map f l) + f x.
Proof. rewrite map_app, sum_app. simpl. lia. Qed.

Lemma mi_start_call s tr o : MI s tr -> m_op s o = OIdle ->
  MI (MS (m_lock s) (m_st s) (m_w s) (upd (m_op s) o OStarted) (m_act s ++ [ATry o])) (tr ++ [EStart o true]).
Proof.
  intros HI Ho. pose proof (mi_tok _ _ HI) as Htk. pose proof (mi_lock _ _ HI) as Hlk.
  assert (Hacq : acquired (tr ++ [EStart o true]) = acquired tr) by (rewrite acquired_app; apply app_nil_r).
  assert (Hha : hands (tr ++ [EStart o true]) = hands tr) by (rewrite hands_app; apply app_nil_r).
  assert (Hsu : susps (tr ++ [EStart o true]) = susps tr) by (rewrite susps_app; apply app_nil_r).
  assert (Hfresh : forall o', In o' (susps tr) -> o' <> o).
  { intros o' Hin ->. rewrite (mi_susp _ _ HI), in_app_iff in Hin. pose proof (mi_place _ _ HI o) as Hp. rewrite Ho in Hp. destruct Hin as [Hin|Hin].
    - destruct (hand_cases _ _ HI _ Hin) as [H|H]; [apply (proj2 (mi_acq _ _ HI)) in H; congruence|]. apply nxt_aop in H. apply cnt_pos in H. lia.
    - apply cnt_pos in Hin. lia. }
  assert (Hnset : ~ In (ASet o) (m_act s)).
  { intros Hin. pose proof (cnt_flat_in aop o _ _ Hin) as H. simpl in H. rewrite cnt_cons in H. destruct (Nat.eq_dec o o); [|congruence]. pose proof (mi_place _ _ HI o) as Hp. rewrite Ho in Hp. lia. }
  constructor; cbn [m_lock m_st m_w m_op m_act]; rewrite ?Hacq, ?Hha, ?Hsu, ?acqs_app, ?unls_app, ?sum_snoc; cbn [tok lk].
  - change (acqs true [EStart o true]) with 0. change (unls true [EStart o true]) with 0. lia.
  - change (acqs true [EStart o true]) with 0. change (unls true [EStart o true]) with 0. pose proof (mi_unl _ _ HI). lia.
  - apply HI.
  - lia.
  - intros o' Hin. apply In_snoc in Hin. destruct Hin as [Hin|E]; [eapply mi_loop; eauto|discriminate].
  - intros Hin. apply In_snoc in Hin. destruct Hin as [Hin|E]; [eapply mi_unlk; eauto|discriminate].
  - intros o'. rewrite flat_map_app, cnt_app. simpl. rewrite cnt_cons, cnt_nil. pose proof (mi_place _ _ HI o') as Hp. unfold upd.
    destruct (Nat.eqb_spec o' o) as [->|Hne].
    + rewrite Ho in Hp. destruct (Nat.eq_dec o o); [lia|congruence].
    + destruct (Nat.eq_dec o o'); [congruence|lia].
  - split; [apply HI|]. intros o'. rewrite (proj2 (mi_acq _ _ HI)). unfold upd. destruct (Nat.eqb_spec o' o) as [->|Hne]; [rewrite Ho; split; discriminate|tauto].
  - intros o'. rewrite started_app, in_app_iff, (mi_start _ _ HI). unfold upd. simpl. destruct (Nat.eqb_spec o' o) as [->|Hne].
    + split; [discriminate|]. intros _. right. now left.
    + split; [|now left]. intros [H|[E|[]]]; congruence.
  - rewrite flat_map_snoc_nil by reflexivity. apply HI.
  - apply HI.
  - apply HI.
  - intros o1 o2 Hf Hin. apply first_snoc in Hf. destruct Hf as [Hf|[[x E] _]]; [now apply HI|]. injection E as -> _. now apply Hfresh in Hin.
  - intros o1 o2 Hf Hno. apply first_snoc in Hf. destruct Hf as [Hf|[[x E] _]].
    + destruct (mi_barge _ _ HI o1 o2 Hf Hno) as [B1 B2]. split; auto. intros Hin. apply In_snoc in Hin. destruct Hin as [Hin|E]; [auto|discriminate].
    + injection E as -> _. split; [|intros Hin; apply In_snoc in Hin; destruct Hin as [Hin|E]; [auto|discriminate]].
      intros Hin. apply (proj2 (mi_acq _ _ HI)) in Hin. congruence.
Qed.

(** events other than the ones above *)
Lemma mi_event s tr e st' act' : MI s tr -> (exists b, e = ETry true b) \/ e = EUnlock true ->
  sum (map tok act') + acqs true [e] + (match m_st s with MNone => 0 | _ => 1 end)
    = sum (map tok (m_act s)) + unls true [e] + (match st' with MNone => 0 | _ => 1 end) ->
  unls true (tr ++ [e]) <= acqs true (tr ++ [e]) -> (st' = MCont <-> m_st s = MCont) ->
  (act' = m_act s \/ act' = m_act s ++ [AUnl]) -> 
  MI (MS (m_lock s) st' (m_w s) (m_op s) act') (tr ++ [e]).
Proof.
  intros HI He Ht Hu Hst Ha. pose proof (mi_tok _ _ HI) as Htk. rewrite acqs_app, unls_app in Hu.
  assert (Hac : forall a, In a act' -> In a (m_act s) \/ a = AUnl) by (intros a Hin; destruct Ha as [->| ->]; [auto|now apply In_snoc]).
  assert (Hao : flat_map aop act' = flat_map aop (m_act s)) by (destruct Ha as [->| ->]; [auto|now apply flat_map_snoc_nil]).
  assert (Hnx : flat_map nxt act' = flat_map nxt (m_act s)) by (destruct Ha as [->| ->]; [auto|now apply flat_map_snoc_nil]).
  assert (Hlk : sum (map lk act') = sum (map lk (m_act s))) by (destruct Ha as [->| ->]; [auto|rewrite sum_snoc; simpl; lia]).
  assert (Hacq : acquired (tr ++ [e]) = acquired tr) by (rewrite acquired_app; destruct He as [[b ->]| ->]; apply app_nil_r).
  assert (Hha : hands (tr ++ [e]) = hands tr) by (rewrite hands_app; destruct He as [[b ->]| ->]; apply app_nil_r).
  assert (Hsu : susps (tr ++ [e]) = susps tr) by (rewrite susps_app; destruct He as [[b ->]| ->]; apply app_nil_r).
  assert (Hsa : started_ops (tr ++ [e]) = started_ops tr) by (rewrite started_app; destruct He as [[b ->]| ->]; apply app_nil_r).
  assert (Hf0 : forall o o', suspended_first o o' (tr ++ [e]) -> suspended_first o o' tr)
    by (intros o o' Hf; apply first_snoc in Hf; destruct Hf as [Hf|[[x E] _]]; [auto|destruct He as [[b ->]| ->]; discriminate]).
  constructor; cbn [m_lock m_st m_w m_op m_act]; rewrite ?Hacq, ?Hha, ?Hsu, ?Hsa, ?Hao, ?Hnx, ?Hlk, ?acqs_app, ?unls_app; try apply HI.
  - lia.
  - lia.
  - rewrite Hst. apply HI.
  - intros o Hin. apply Hst. apply Hac in Hin. destruct Hin as [Hin|E]; [eapply mi_loop; eauto|discriminate].
  - intros Hin. apply Hst. apply Hac in Hin. destruct Hin as [Hin|E]; [eapply mi_unlk; eauto|discriminate].
  - intros o o' Hf. apply Hf0 in Hf. now apply HI.
  - intros o o' Hf Hno. apply Hf0 in Hf. destruct (mi_barge _ _ HI o o' Hf Hno) as [B1 B2]. split; auto. intros Hin. apply Hac in Hin. destruct Hin as [Hin|E]; [auto|discriminate].
Qed.

Lemma rule_unlock tr x : owners_unlock (tr ++ [EUnlock x]) -> unls x tr < acqs x tr.
Proof. intros H. now apply (H tr x []). Qed.

(** ** One step *)
Lemma mi_step s tr l : MI s tr ->
  match m_step s l with
  | Next s' es => owners_unlock (tr ++ es) -> MI s' (tr ++ es)
  | Disabled => True
  | Fail _ es => ~ owners_unlock (tr ++ es)
  end.
Proof.
  intros HI. destruct l as [o| | |k spur]; simpl.
  - destruct (m_op s o) eqn:Ho; auto. intros _. now apply mi_start_call.
  - destruct (m_st s) eqn:Hst; intros Hc.
    + apply mi_event; auto; [eauto|..]; rewrite ?Hst.
      * change (acqs true [ETry true true]) with 1. change (unls true [ETry true true]) with 0. lia.
      * rewrite acqs_app, unls_app. change (unls true [ETry true true]) with 0. pose proof (mi_unl _ _ HI). lia.
      * split; discriminate.
    + destruct s as [lo st w op act]. simpl in *. subst st. apply (mi_event _ _ _ _ act HI); auto; [eauto|simpl..].
      * rewrite acqs_app, unls_app. change (unls true [ETry true false]) with 0. pose proof (mi_unl _ _ HI). lia.
      * split; discriminate.
    + destruct s as [lo st w op act]. simpl in *. subst st. apply (mi_event _ _ _ _ act HI); auto; [eauto|simpl..].
      * rewrite acqs_app, unls_app. change (unls true [ETry true false]) with 0. pose proof (mi_unl _ _ HI). lia.
      * tauto.
  - intros Hc. apply rule_unlock in Hc. apply mi_event; auto.
    + rewrite sum_snoc. change (acqs true [EUnlock true]) with 0. change (unls true [EUnlock true]) with 1. simpl. lia.
    + rewrite acqs_app, unls_app. change (acqs true [EUnlock true]) with 0. change (unls true [EUnlock true]) with 1. lia.
    + tauto.
  - destruct (nth_error (m_act s) k) as [a|] eqn:Hk; [|exact I].
    assert (Hal : forall o, In o (aop a) -> alive (m_op s) o = true)
      by (intros o Ho; destruct (place_started _ _ HI k a o Hk Ho) as (H & _); unfold alive; now rewrite H).
    assert (Hlocked : lk a = 1 -> m_lock s = true).
    { intros E. pose proof (sum_map_le lk _ _ (nth_error_In _ _ Hk)). pose proof (mi_lock _ _ HI). destruct (m_lock s); auto. simpl in *. lia. }
    destruct a as [o|o|o v|o| | | |o|]; simpl; unfold suspend, notify, with_act, with_st, with_lock, with_w, with_op; cbn [m_lock m_st m_w m_op m_act].
    + destruct (m_st s) eqn:Hst; rewrite ?app_nil_r; intros _.
      * apply (mi_acquire _ _ k (ATry o)); auto.
      * rewrite <- Hst. apply (mi_move _ _ k (ATry o)); auto; intros; discriminate.
      * rewrite <- Hst. apply (mi_move _ _ k (ATry o)); auto; intros; discriminate.
    + destruct (m_lock s) eqn:Hlo; [exact I|]. rewrite app_nil_r. intros _. apply (mi_move _ _ k (AWait o)); auto; try discriminate.
      * rewrite Hlo. reflexivity.
      * intros o' E. congruence.
    + specialize (Hlocked eq_refl). specialize (Hal o ltac:(now left)). pose proof (w_alive_ok _ _ HI) as Hwa.
      assert (Hretry : owners_unlock (tr ++ []) -> MI (MS (m_lock s) (m_st s) (m_w s) (m_op s) (set_nth (m_act s) k (ALoop o (m_st s)))) (tr ++ [])).
      { rewrite app_nil_r. intros _. apply (mi_move _ _ k (ALoop o v)); auto; try discriminate. intros o' E. congruence. }
      destruct v.
      * destruct (negb spur && mval_eqb (m_st s) MNone) eqn:Hb; [|exact Hretry]. apply andb_true_iff in Hb. destruct Hb as [_ Hb]. rewrite app_nil_r. intros _.
        apply (mi_acquire _ _ k (ALoop o MNone)); eauto; [destruct (m_st s); [auto|discriminate..]|]. rewrite Hlocked. reflexivity.
      * destruct (negb spur && mval_eqb (m_st s) MLocked) eqn:Hb; [|exact Hretry]. apply andb_true_iff in Hb. destruct Hb as [_ Hb].
        unfold w_alive in *. cbn [m_w m_op]. rewrite Hwa, Hal. simpl. intros _. apply (mi_suspend _ _ k o MLocked HI Hk). destruct (m_st s); discriminate.
      * rewrite Hwa, Hal. simpl. intros _. pose proof (mi_loop _ _ HI o (nth_error_In _ _ Hk)) as Hst. rewrite Hst. apply (mi_suspend _ _ k o MCont HI Hk). congruence.
    + rewrite (Hal o) by (now left). intros _. apply (mi_notify _ _ k (ASet o)); auto.
    + destruct (one_token _ _ HI k _ Hk eq_refl) as (_ & Hn & _). destruct (m_st s) eqn:Hst; [congruence|..]; rewrite app_nil_r; intros _.
      * rewrite <- Hst. apply (mi_move _ _ k AUnl); auto; intros; discriminate.
      * rewrite <- Hst. apply (mi_move _ _ k AUnl); auto; intros; discriminate.
    + destruct (one_token _ _ HI k _ Hk eq_refl) as (_ & Hn & _). destruct (m_st s) eqn:Hst; [congruence|..]; rewrite app_nil_r; intros _.
      * now apply mi_release.
      * rewrite <- Hst. apply (mi_move _ _ k AUnlCas); auto; intros; discriminate.
    + destruct (m_lock s) eqn:Hlo; [exact I|]. pose proof (mi_unlk _ _ HI (nth_error_In _ _ Hk)) as Hst. apply (mi_w _ _ HI) in Hst.
      destruct (m_w s) as [|o w] eqn:Hw; [congruence|]. rewrite (w_alive_ok _ _ HI). intros _. rewrite <- Hlo. apply mi_handover; auto.
    + rewrite (Hal o) by (now left). intros _. apply (mi_notify _ _ k (AUnlNext o)); auto.
    + exact I.
Qed.

(** ** Runs *)
Notation mrun ls := (run m_step m_init ls).

Lemma m_inv ls s tr : mrun ls = Running s tr -> owners_unlock tr -> MI s tr.
Proof.
  intros Hr Hc. refine (run_inv_client m_step owners_unlock MI m_init rule_prefix mi_init _ ls s tr Hr Hc).
  intros s0 tr0 l s' es HI E. pose proof (mi_step s0 tr0 l HI) as H. rewrite E in H. exact H.
Qed.
Lemma m_safe ls f tr : mrun ls = Failed f tr -> ~ owners_unlock tr.
Proof.
  refine (run_safe_client m_step owners_unlock MI m_init rule_prefix mi_init _ _ ls f tr).
  - intros s0 tr0 l s' es HI E. pose proof (mi_step s0 tr0 l HI) as H. rewrite E in H. exact H.
  - intros s0 tr0 l f0 es HI Hc E. pose proof (mi_step s0 tr0 l HI) as H. rewrite E in H. tauto.
Qed.

Lemma m_exclusive ls s tr : mrun ls = Running s tr -> owners_unlock tr -> unls true tr <= acqs true tr <= unls true tr + 1.
Proof. intros Hr Hc. pose proof (m_inv _ _ _ Hr Hc) as HI. pose proof (mi_tok _ _ HI). pose proof (mi_unl _ _ HI). destruct (m_st s); lia. Qed.

Lemma m_once ls s tr : mrun ls = Running s tr -> owners_unlock tr -> NoDup (acquired tr) /\ incl (acquired tr) (started_ops tr).
Proof.
  intros Hr Hc. pose proof (m_inv _ _ _ Hr Hc) as HI. split; [apply HI|]. intros o Ho. apply (mi_start _ _ HI). apply (proj2 (mi_acq _ _ HI)) in Ho. congruence.
Qed.

Lemma served_filter s tr : MI s tr -> served tr ++ flat_map nxt (m_act s) ++ m_w s = susps tr.
Proof.
  intros HI. rewrite (mi_susp _ _ HI). rewrite (mi_hand _ _ HI) at 1. rewrite <- app_assoc. f_equal. unfold served. apply filter_ext_in. intros o Ho.
  destruct (memb o (hands tr)) eqn:Hm.
  - apply memb_In in Hm. apply existsb_exists. exists o. rewrite Nat.eqb_refl. split; auto. rewrite (mi_susp _ _ HI). apply in_app_iff. auto.
  - apply memb_not_In in Hm. apply not_true_iff_false. intros He. apply existsb_exists in He. destruct He as (o' & Hin & E). apply Nat.eqb_eq in E. subst o'.
    rewrite (mi_susp _ _ HI) in Hin. apply in_app_iff in Hin. destruct Hin as [Hin|Hin]; [tauto|]. apply (w_started _ _ HI) in Hin. apply (proj2 (mi_acq _ _ HI)) in Ho. congruence.
Qed.
Lemma m_fifo ls s tr : mrun ls = Running s tr -> owners_unlock tr -> exists waiting, susps tr = served tr ++ waiting.
Proof. intros Hr Hc. pose proof (m_inv _ _ _ Hr Hc) as HI. exists (flat_map nxt (m_act s) ++ m_w s). symmetry. now apply served_filter. Qed.

Lemma single_split {E} (tr t1 t2 : list E) es e : es <> [] -> length es <= 1 -> tr ++ es = t1 ++ e :: t2 -> In e es /\ t1 = tr /\ t2 = [] \/ exists t2', tr = t1 ++ e :: t2'.
Proof.
  intros Hn Hl E0. destruct es as [|e' [|? ?]]; [congruence| |simpl in Hl; lia].
  destruct t2 as [|y t2] using rev_ind.
  - apply app_inj_tail in E0. destruct E0 as [-> ->]. left. split; [now left|auto].
  - rewrite app_comm_cons, app_assoc in E0. apply app_inj_tail in E0. destruct E0 as [-> _]. right. eauto.
Qed.

Lemma m_one s l s' es : m_step s l = Next s' es -> length es <= 1.
Proof.
  destruct l as [o| | |k spur]; simpl.
  - destruct (m_op s o); intros E; try discriminate; injection E as _ <-; simpl; lia.
  - destruct (m_st s); intros E; injection E as _ <-; simpl; lia.
  - intros E; injection E as _ <-; simpl; lia.
  - destruct (nth_error (m_act s) k) as [a|]; [|discriminate]. unfold act_step, suspend, notify.
    destruct a as [o|o|o v|o| | | |o|]; [..|discriminate]; try destruct v; repeat match goal with |- context [match ?c with _ => _ end] => destruct c end;
      intros E; try discriminate; injection E as _ <-; simpl; lia.
Qed.

(** the state in which an event happened *)
Lemma m_at ls s t1 e t2 : mrun ls = Running s (t1 ++ e :: t2) -> owners_unlock (t1 ++ e :: t2) ->
  exists s0 l s', MI s0 t1 /\ m_step s0 l = Next s' [e] /\ MI s' (t1 ++ [e]).
Proof.
  intros Hr Hc.
  set (J := fun (s : mst) (tr : ltrace) => MI s tr /\ forall t1 e t2, tr = t1 ++ e :: t2 -> exists s0 l s', MI s0 t1 /\ m_step s0 l = Next s' [e] /\ MI s' (t1 ++ [e])).
  assert (H : J s (t1 ++ e :: t2)).
  - refine (run_inv_client m_step owners_unlock J m_init rule_prefix _ _ ls s _ Hr Hc).
    + split; [apply mi_init|]. intros u1 x u2 E. destruct u1; discriminate.
    + clear. intros s tr l s' es [HI Hall] E Hc. pose proof (mi_step s tr l HI) as Hs. rewrite E in Hs. specialize (Hs Hc). split; auto.
      intros u1 x u2 Eu. pose proof (m_one _ _ _ _ E) as Hl. destruct es as [|e' [|? ?]]; [|..|simpl in Hl; lia].
      * rewrite app_nil_r in *. eapply Hall; eauto.
      * destruct (single_split tr u1 u2 [e'] x ltac:(discriminate) Hl Eu) as [([->|[]] & -> & ->)|(u2' & Eq)]; [|eapply Hall; eauto]. exists s, l, s'. auto.
  - destruct H as [_ H]. eapply H. reflexivity.
Qed.

Lemma m_try ls s t1 t2 : mrun ls = Running s (t1 ++ ETry true true :: t2) -> owners_unlock (t1 ++ ETry true true :: t2) -> incl (susps t1) (acquired t1).
Proof.
  intros Hr Hc o Ho. destruct (m_at _ _ _ _ _ Hr Hc) as (s0 & l & s' & HI & E & _). apply (free_all _ _ HI); auto. destruct l as [o'| | |k spur]; simpl in E.
  - destruct (m_op s0 o'); discriminate.
  - destruct (m_st s0); auto; discriminate.
  - discriminate.
  - destruct (nth_error (m_act s0) k) as [a|]; [|discriminate]. revert E. unfold act_step, suspend, notify.
    destruct a as [oo|oo|oo v|oo| | | |oo|]; [..|discriminate]; try destruct v; repeat match goal with |- context [match ?c with _ => _ end] => destruct c end; discriminate.
Qed.

Lemma m_barge ls s t1 o o' x t2 : mrun ls = Running s (t1 ++ EAcq o' x :: t2) -> owners_unlock (t1 ++ EAcq o' x :: t2) ->
  suspended_first o o' t1 -> In o (acquired t1).
Proof.
  intros Hr Hc Hf. destruct (m_at _ _ _ _ _ Hr Hc) as (s0 & l & s' & HI & E & HI').
  destruct (in_dec Nat.eq_dec o (acquired t1)) as [|Hno]; auto. exfalso.
  assert (Hf' : suspended_first o o' (t1 ++ [EAcq o' x])) by (apply first_snoc; now left).
  assert (Hne : o <> o').
  { intros ->. pose proof (first_In _ _ _ Hf) as [Hin _]. destruct (mi_order _ _ HI o' o' Hf Hin) as (l1 & l2 & El & H1 & H2).
    pose proof (mi_nodup _ _ HI) as Hn. rewrite El in Hn. exact (NoDup_app_disjoint _ _ Hn o' H1 H2). }
  assert (Hno2 : ~ In o (acquired (t1 ++ [EAcq o' x]))) by (rewrite acquired_app, in_app_iff; simpl; intuition congruence).
  destruct (mi_barge _ _ HI' o o' Hf' Hno2) as [B _]. apply B. rewrite acquired_app, in_app_iff. right. now left.
Qed.

(** ** Completion *)

Lemma m_idle ls s tr : mrun ls = Running s tr -> owners_unlock tr -> m_quiet s -> held true tr = 0 -> incl (started_ops tr) (acquired tr).
Proof.
  intros Hr Hc Hq Hh o Ho. pose proof (m_inv _ _ _ Hr Hc) as HI. pose proof (mi_tok _ _ HI) as Ht. pose proof (mi_unl _ _ HI) as Hu. unfold held in Hh.
  assert (H0 : sum (map tok (m_act s)) = 0) by (apply sum_map_0; intros a Ha; now rewrite (Hq a Ha)). assert (Hst : m_st s = MNone) by (destruct (m_st s); auto; lia).
  destruct (free_idle _ _ HI Hst) as (Hw & _ & _). apply (proj2 (mi_acq _ _ HI)). apply (mi_start _ _ HI) in Ho. pose proof (mi_place _ _ HI o) as Hp.
  rewrite Hw, (flat_map_nil aop) in Hp by (intros a Ha; now rewrite (Hq a Ha)). rewrite cnt_nil in Hp. destruct (m_op s o); congruence || lia || auto.
Qed.

Lemma m_pending ls s tr o : mrun ls = Running s tr -> owners_unlock tr -> m_quiet s -> In o (started_ops tr) -> ~ In o (acquired tr) -> In o (susps tr) /\ held true tr = 1.
Proof.
  intros Hr Hc Hq Ho Hn. pose proof (m_inv _ _ _ Hr Hc) as HI. split.
  - apply (mi_start _ _ HI) in Ho. assert (Hd : m_op s o <> ODone) by (intros E; apply Hn; now apply (mi_acq _ _ HI)). pose proof (mi_place _ _ HI o) as Hp.
    rewrite (flat_map_nil aop) in Hp by (intros a Ha; now rewrite (Hq a Ha)). rewrite cnt_nil in Hp. destruct (m_op s o); try congruence.
    rewrite (mi_susp _ _ HI), in_app_iff. right. apply cnt_pos. lia.
  - pose proof (m_exclusive _ _ _ Hr Hc). unfold held. destruct (Nat.eq_dec (acqs true tr) (unls true tr)) as [E|]; [|lia]. exfalso. apply Hn.
    apply (m_idle _ _ _ Hr Hc Hq); auto. unfold held. lia.
Qed.

Lemma m_progress ls s tr : mrun ls = Running s tr -> owners_unlock tr -> (forall k, m_step s (MStep k false) = Disabled) -> m_quiet s.
Proof.
  intros Hr Hc Hd a Ha. pose proof (m_inv _ _ _ Hr Hc) as HI.
  assert (Hl : m_lock s = false).
  { destruct (m_lock s) eqn:Hl; auto. exfalso. pose proof (mi_lock _ _ HI) as H. rewrite Hl in H. simpl in H.
    assert (Hex : exists o v, In (ALoop o v) (m_act s)).
    { clear - H. induction (m_act s) as [|b l IH]; [discriminate|]. simpl in H. destruct b; simpl in H; try (destruct (IH H) as (o' & v' & ?); exists o', v'; now right). exists o, v. now left. }
    destruct Hex as (o & v & Hin). apply In_nth_error in Hin. destruct Hin as [k Hk]. specialize (Hd k). pose proof (mi_step s tr (MStep k false) HI) as Hs. revert Hd. simpl. rewrite Hk.
    destruct v; simpl; unfold suspend; repeat match goal with |- context [if ?c then _ else _] => destruct c end; discriminate. }
  apply In_nth_error in Ha. destruct Ha as [k Hk]. specialize (Hd k). revert Hd. simpl. rewrite Hk.
  destruct a as [o|o|o v|o| | | |o|]; auto; simpl; unfold suspend, notify; try destruct v; rewrite ?Hl; repeat match goal with |- context [match ?c with _ => _ end] => destruct c end; discriminate.
Qed.

(** every call returns: the number of further steps is bounded, up to spurious failures *)
Definition rank (a : mact) : nat :=
  match a with ATry _ => 4 | AWait _ => 3 | ALoop _ _ => 2 | ASet _ => 1 | AUnl => 4 | AUnlCas => 3 | AUnlLock => 2 | AUnlNext _ => 1 | AEnd => 0 end.
Definition stale (st : mval) (a : mact) : nat := match a with ALoop _ v => if mval_eqb v st then 0 else 1 | _ => 0 end.
Definition meas (s : mst) : nat := 2 * sum (map rank (m_act s)) + sum (map (stale (m_st s)) (m_act s)).

Lemma stale_le st a : stale st a <= lk a.
Proof. destruct a; simpl; auto. destruct (mval_eqb v st); lia. Qed.
Lemma mval_eqb_refl v : mval_eqb v v = true. Proof. destruct v; auto. Qed.

Lemma m_meas s tr k spur s' es : MI s tr -> m_step s (MStep k spur) = Next s' es -> MI s' (tr ++ es) ->
  meas s' + 1 <= meas s + (if spur then 1 else 0) /\ forall x, ~ In (EUnlock x) es.
Proof.
  intros HI E HI'. simpl in E. destruct (nth_error (m_act s) k) as [a|] eqn:Hk; [|discriminate].
  assert (Hbig : forall a', m_act s' = set_nth (m_act s) k a' -> rank a' < rank a -> meas s' + 1 <= meas s).
  { intros a' Ea Hlt. unfold meas. rewrite Ea. pose proof (sum_map_set_nth rank _ k a' a Hk). 
    pose proof (sum_map_mono (stale (m_st s')) lk (set_nth (m_act s) k a') ltac:(intros; apply stale_le)). pose proof (mi_lock _ _ HI') as Hl. rewrite Ea in Hl. destruct (m_lock s'); simpl in Hl; lia. }
  assert (Hretry : forall o v, a = ALoop o v -> (spur = true \/ mval_eqb (m_st s) v = false) -> s' = with_act s k (ALoop o (m_st s)) ->
    meas s' + 1 <= meas s + (if spur then 1 else 0)).
  { intros o v -> Hor ->. unfold meas. simpl. pose proof (sum_map_set_nth rank _ k (ALoop o (m_st s)) _ Hk). pose proof (sum_map_set_nth (stale (m_st s)) _ k (ALoop o (m_st s)) _ Hk) as Hst.
    simpl in *. rewrite mval_eqb_refl in Hst. destruct Hor as [->|Hf]; [lia|].
    assert (Hf' : mval_eqb v (m_st s) = false) by (destruct v, (m_st s); auto). rewrite Hf' in Hst. lia. }
  assert (Hz : forall n m, n + 1 <= m -> n + 1 <= m + (if spur then 1 else 0)) by (intros; lia).
  destruct a as [o|o|o v|o| | | |o|]; unfold act_step, suspend, notify in E; try discriminate.
  - destruct (m_st s); injection E as <- <-; (split; [apply Hz; eapply Hbig; [reflexivity|simpl; lia]|intros x []]).
  - destruct (m_lock s); [discriminate|]. injection E as <- <-. split; [apply Hz; eapply Hbig; [reflexivity|simpl; lia]|intros x []].
  - destruct v.
    + destruct (negb spur && mval_eqb (m_st s) MNone) eqn:Hb; injection E as <- <-; (split; [|intros x []]).
      * apply Hz. eapply Hbig; [reflexivity|simpl; lia].
      * eapply Hretry; eauto. destruct spur; auto.
    + destruct (negb spur && mval_eqb (m_st s) MLocked) eqn:Hb.
      * destruct (w_alive _ && alive _ _); [|discriminate]. injection E as <- <-. split; [|intros x [H|[]]; discriminate]. apply Hz. eapply Hbig; [reflexivity|simpl; lia].
      * injection E as <- <-. split; [|intros x []]. eapply Hretry; eauto. destruct spur; auto.
    + destruct (w_alive _ && alive _ _); [|discriminate]. injection E as <- <-. split; [|intros x [H|[]]; discriminate]. apply Hz. eapply Hbig; [reflexivity|simpl; lia].
  - destruct (alive _ _); [|discriminate]. injection E as <- <-. split; [|intros x [H|[]]; discriminate]. apply Hz. eapply Hbig; [reflexivity|simpl; lia].
  - destruct (m_st s); [discriminate|..]; injection E as <- <-; (split; [apply Hz; eapply Hbig; [reflexivity|simpl; lia]|intros x []]).
  - destruct (m_st s); [discriminate|..]; injection E as <- <-; (split; [apply Hz; eapply Hbig; [reflexivity|simpl; lia]|intros x []]).
  - destruct (m_lock s); [discriminate|]. destruct (m_w s); [discriminate|]. destruct (w_alive s); [|discriminate]. injection E as <- <-.
    split; [apply Hz; eapply Hbig; [reflexivity|simpl; lia]|intros x [H|[]]; discriminate].
  - destruct (alive _ _); [|discriminate]. injection E as <- <-. split; [|intros x [H|[]]; discriminate]. apply Hz. eapply Hbig; [reflexivity|simpl; lia].
Qed.

Lemma rule_internal tr es : owners_unlock tr -> (forall x, ~ In (EUnlock x) es) -> owners_unlock (tr ++ es).
Proof.
  intros H Hes t1 x t2 E. apply app_eq_app in E. destruct E as (m & [(-> & E)|(-> & E)]).
  - destruct m as [|e m]; simpl in E.
    + exfalso. apply (Hes x). rewrite <- E. now left.
    + injection E as <- ->. now apply (H t1 x m).
  - exfalso. apply (Hes x). rewrite E. apply in_elt.
Qed.

Lemma m_es_internal s k spur s' es : m_step s (MStep k spur) = Next s' es -> forall x, ~ In (EUnlock x) es.
Proof.
  simpl. destruct (nth_error (m_act s) k) as [a|]; [|discriminate]. unfold act_step, suspend, notify.
  destruct a as [o|o|o v|o| | | |o|]; [..|discriminate]; try destruct v; repeat match goal with |- context [match ?c with _ => _ end] => destruct c end;
    intros E x; try discriminate; injection E as _ <-; simpl; intuition discriminate.
Qed.

Lemma m_bound ls' : forall s tr s' tr', MI s tr -> owners_unlock tr -> Forall internal ls' -> run_from m_step s tr ls' = Running s' tr' ->
  length ls' <= meas s + nspur ls'.
Proof.
  induction ls' as [|l ls' IH]; intros s tr s' tr' HI Hc Hf Hr; [simpl; lia|]. inversion Hf as [|? ? Hl Hf']; subst.
  destruct l as [o| | |k spur]; try destruct Hl. simpl in Hr. destruct (m_step s (MStep k spur)) as [s1 es| |f es] eqn:E; simpl in E; rewrite E in Hr; try discriminate.
  change (m_step s (MStep k spur) = Next s1 es) in E.
  assert (Hc1 : owners_unlock (tr ++ es)) by (apply rule_internal; auto; eapply m_es_internal; eauto).
  pose proof (mi_step s tr (MStep k spur) HI) as Hs. rewrite E in Hs. specialize (Hs Hc1).
  destruct (m_meas s tr k spur s1 es HI E Hs) as [Hm _]. specialize (IH s1 (tr ++ es) s' tr' Hs Hc1 Hf' Hr). unfold nspur in *. simpl. destruct spur; simpl in *; lia.
Qed.

Lemma m_finishes ls s tr : mrun ls = Running s tr -> owners_unlock tr ->
  exists n, forall ls' s' tr', Forall internal ls' -> run_from m_step s tr ls' = Running s' tr' -> length ls' <= n + nspur ls'.
Proof. intros Hr Hc. exists (meas s). intros ls' s' tr' Hf Hr'. eapply m_bound; eauto. now apply (m_inv ls). Qed.

Lemma m_prefix ls s t1 t2 : mrun ls = Running s (t1 ++ t2) -> owners_unlock (t1 ++ t2) -> exists s', MI s' t1.
Proof.
  intros Hr Hc. destruct t1 as [|e t1 _] using rev_ind; [exists m_init; apply mi_init|]. rewrite <- app_assoc in *. simpl in *.
  destruct (m_at _ _ _ _ _ Hr Hc) as (s0 & l & s' & _ & _ & H). eauto.
Qed.
Lemma m_between ls s t1 a t2 b t3 : mrun ls = Running s (t1 ++ a :: t2 ++ b :: t3) -> owners_unlock (t1 ++ a :: t2 ++ b :: t3) ->
  is_acq true a = true -> is_acq true b = true -> exists u, In (EUnlock u) t2.
Proof.
  intros Hr Hc Ha Hb. assert (E : t1 ++ a :: t2 ++ b :: t3 = (t1 ++ a :: t2 ++ [b]) ++ t3) by (now rewrite <- app_assoc; simpl; rewrite <- app_assoc).
  destruct (m_prefix ls s t1 (a :: t2 ++ b :: t3) Hr Hc) as (s1 & H1). rewrite E in Hr, Hc. destruct (m_prefix _ _ _ _ Hr Hc) as (s2 & H2).
  pose proof (mi_unl _ _ H1). pose proof (mi_tok _ _ H2) as Ht. 
  change (a :: t2 ++ [b]) with ([a] ++ t2 ++ [b]) in Ht. rewrite !acqs_app, !unls_app in Ht.
  assert (A : forall e, is_acq true e = true -> acqs true [e] = 1 /\ unls true [e] = 0) by (intros e He; unfold acqs, unls; simpl; rewrite He; destruct e; try discriminate; auto).
  destruct (A a Ha), (A b Hb).
  assert (Hp : unls true t2 <> 0) by (destruct (m_st s2); lia). unfold unls in Hp. destruct (filter (is_unl true) t2) as [|e l] eqn:Ef; [simpl in Hp; lia|].
  assert (Hin : In e (filter (is_unl true) t2)) by (rewrite Ef; now left). apply filter_In in Hin. destruct Hin as [Hin He]. destruct e; try discriminate. eauto.
Qed.
