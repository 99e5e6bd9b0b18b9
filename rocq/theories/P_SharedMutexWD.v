(** Proofs about shared_mutex under the C++ memory model: no data races with the repaired orders (C53). *)
From Coq Require Import List Arith Bool Lia.
From Verif Require Import Lts ListFacts M_Mutex S_Mutex P_Mutex M_SharedMutex P_SharedMutex M_Weak M_SharedMutexW S_SharedMutexW P_SharedMutexW.
Import ListNotations.

(** u is the view of an exclusive/shared owner, or of a call that owns the mutex *)
Definition hv (x : bool) (s : yst) (u : view) : Prop := In u (ol x s) \/ exists b, In (b, u) (y_act s) /\ 1 <= tk x b.
Definition dall (acc : nat) (u : view) : Prop := forall n, n < acc -> In n (accs u).
Definition dwr (tr : list sevent) (u : view) : Prop := forall n, In n (swrites tr) -> In n (accs u).

Record YD (s : yst) (tr : list sevent) : Prop := {
  d_acc : y_acc s = saccs tr;
  d_wlt : forall n, In n (swrites tr) -> n < y_acc s;
  d_x : forall u, hv true s u -> dall (y_acc s) u;
  d_s : forall u, hv false s u -> dwr tr u;
  d_rel : own true (lastr (y_h s)) = 0 -> (forall n, n < y_acc s -> In n (accs (rel_of (y_h s))) \/ exists u, hv false s u /\ In n (accs u)) /\ dwr tr (rel_of (y_h s));
  d_tr : srace_free tr
}.
Lemma yd_init : YD y_init [].
Proof.
  constructor; simpl; auto; try lia; try (intros; contradiction).
  - intros u [[]|(b & [] & _)].
  - intros u [[]|(b & [] & _)].
  - intros _. split; [lia|]. intros n [].
  - split; intros t1 n b t2 E; destruct t1; discriminate.
Qed.

Lemma saccs_app t1 t2 : saccs (t1 ++ t2) = saccs t1 + saccs t2.
Proof. unfold saccs. now rewrite filter_app, app_length. Qed.
Lemma swrites_app t1 t2 : swrites (t1 ++ t2) = swrites t1 ++ swrites t2.
Proof. apply flat_map_app. Qed.
Lemma sfree_snoc tr e : srace_free tr ->
  (forall n b, e = EWr n b -> n = saccs tr /\ forall m, m < n -> In m b) -> (forall n b, e = ERd n b -> n = saccs tr /\ forall m, In m (swrites tr) -> In m b) ->
  srace_free (tr ++ [e]).
Proof.
  intros [H1 H2] Hw Hr. split; intros t1 n b t2 E; (destruct t2 as [|e2 t2] using rev_ind; [apply app_inj_tail in E; destruct E as [-> ->]; auto|]);
    rewrite app_comm_cons, app_assoc in E; apply app_inj_tail in E; destruct E as [E _]; [exact (H1 _ _ _ _ E)|exact (H2 _ _ _ _ E)].
Qed.
Definition quiet (es : list sevent) : Prop := forall e, In e es -> exists a, e = EA a.
Lemma quiet_spec es : quiet es -> saccs es = 0 /\ swrites es = [].
Proof.
  induction es as [|e es IH]; auto. intros H. destruct (H e ltac:(now left)) as [a ->]. destruct IH as [E1 E2]; [intros e He; apply H; now right|]. auto.
Qed.
Lemma sfree_quiet tr es : srace_free tr -> quiet es -> srace_free (tr ++ es).
Proof.
  revert tr. induction es as [|e es IH]; intros tr H Hq; [now rewrite app_nil_r|]. change (tr ++ e :: es) with (tr ++ [e] ++ es). rewrite app_assoc. apply IH.
  - destruct (Hq e ltac:(now left)) as [a ->]. apply sfree_snoc; auto; discriminate.
  - intros e' He. apply Hq. now right.
Qed.

(** ** A step without an access *)
Lemma yd_quiet s tr s' es : YD s tr -> quiet es -> y_acc s' = y_acc s ->
  (forall u, hv true s' u -> (exists u0, hv true s u0 /\ incl (accs u0) (accs u)) \/ dall (y_acc s) u) ->
  (forall u, hv false s' u -> (exists u0, (hv false s u0) /\ incl (accs u0) (accs u)) \/ dwr tr u) ->
  (own true (lastr (y_h s')) = 0 ->
   (forall n, n < y_acc s -> In n (accs (rel_of (y_h s'))) \/ exists u, hv false s' u /\ In n (accs u)) /\ dwr tr (rel_of (y_h s'))) ->
  YD s' (tr ++ es).
Proof.
  intros [H1 H2 H3 H4 H5 H6] Hq Ha Hx Hs Hr. destruct (quiet_spec _ Hq) as [E1 E2]. constructor; rewrite ?saccs_app, ?swrites_app, ?E1, ?E2, ?app_nil_r, ?Nat.add_0_r, ?Ha; auto.
  - intros u Hu. destruct (Hx u Hu) as [(u0 & Hu0 & Hi)|Hd]; auto. intros n Hn. apply Hi. apply (H3 u0); auto.
  - intros u Hu. unfold dwr. rewrite swrites_app, E2, app_nil_r. destruct (Hs u Hu) as [(u0 & Hu0 & Hi)|Hd]; auto. intros n Hn. apply Hi. apply (H4 u0); auto.
  - intros Ho. unfold dwr. rewrite swrites_app, E2, app_nil_r. exact (Hr Ho).
  - now apply sfree_quiet.
Qed.

(** the owners after a step of call k *)
Lemma hv_set x s k a v lock lv h w op a' v' xo so acc u : nth_error (y_act s) k = Some (a, v) ->
  hv x (YS lock lv h w op (set_nth (y_act s) k (a', v')) xo so acc) u ->
  In u (if x then xo else so) \/ (u = v' /\ 1 <= tk x a') \/ exists j b, j <> k /\ nth_error (y_act s) j = Some (b, u) /\ 1 <= tk x b.
Proof.
  intros Hk [Hu|(b & Hb & Ht)]; [left; destruct x; exact Hu|]. cbn [y_act] in Hb. apply (set_nth_cases _ _ _ _ _ Hk) in Hb. destruct Hb as [[= -> ->]|(j & Hj & Hb)]; eauto 8.
Qed.
Lemma hv_set_new x s k a v lock lv h w op a' v' xo so acc : nth_error (y_act s) k = Some (a, v) -> 1 <= tk x a' ->
  hv x (YS lock lv h w op (set_nth (y_act s) k (a', v')) xo so acc) v'.
Proof. intros Hk Ht. right. exists a'. split; auto. cbn [y_act]. apply (nth_error_In _ k). exact (nth_error_set_nth_same _ _ _ _ Hk). Qed.
Lemma hv_set_old x s k a v lock lv h w op a' v' xo so acc j b u : nth_error (y_act s) k = Some (a, v) -> j <> k -> nth_error (y_act s) j = Some (b, u) -> 1 <= tk x b ->
  hv x (YS lock lv h w op (set_nth (y_act s) k (a', v')) xo so acc) u.
Proof. intros Hk Hj Hb Ht. right. exists b. split; auto. cbn [y_act]. apply (nth_error_In _ j). rewrite nth_error_set_nth_other; auto. Qed.
Lemma hv_own x s u : In u (ol x s) -> hv x s u.
Proof. now left. Qed.
Lemma hv_act x s k a v : nth_error (y_act s) k = Some (a, v) -> 1 <= tk x a -> hv x s v.
Proof. intros Hk Ht. right. exists a. split; auto. exact (nth_error_In _ _ Hk). Qed.

(** the call moves on and nobody becomes an owner *)
Lemma yd_move s tr k a v a' v' lock lv h w op es : YD s tr -> nth_error (y_act s) k = Some (a, v) -> quiet es -> (forall x, tk x a' = tk x a) -> incl (accs v) (accs v') ->
  own true (lastr h) = own true (lastr (y_h s)) -> rel_of h = rel_of (y_h s) ->
  YD (YS lock lv h w op (set_nth (y_act s) k (a', v')) (y_xo s) (y_so s) (y_acc s)) (tr ++ es).
Proof.
  intros HD Hk Hq Ht Hi Ho Hr. assert (Hback : forall x u, hv x (YS lock lv h w op (set_nth (y_act s) k (a', v')) (y_xo s) (y_so s) (y_acc s)) u -> exists u0, hv x s u0 /\ incl (accs u0) (accs u)).
  { intros x u Hu. apply (hv_set _ _ _ _ _ _ _ _ _ _ _ _ _ _ _ _ Hk) in Hu. destruct Hu as [Hu|[(-> & Ht1)|(j & b & Hj & Hb & Ht1)]].
    - exists u. split; [apply hv_own; destruct x; exact Hu|apply incl_refl].
    - exists v. split; auto. apply (hv_act _ _ k a); auto. now rewrite <- Ht.
    - exists u. split; [|apply incl_refl]. exact (hv_act _ _ _ _ _ Hb Ht1). }
  apply (yd_quiet s); auto. cbn [y_h]. rewrite Ho, Hr. intros E. destruct (d_rel _ _ HD E) as [D1 D2]. split; auto. intros n Hn. destruct (D1 n Hn) as [D|(u & Hu & D)]; auto. right.
  destruct Hu as [Hu|(b & Hb & Hb1)].
  - exists u. split; auto. left. exact Hu.
  - apply In_nth_error in Hb. destruct Hb as [j Hj]. destruct (Nat.eq_dec j k) as [->|Hne].
    + rewrite Hk in Hj. injection Hj as -> ->. exists v'. split; [|apply Hi, D]. apply (hv_set_new _ _ _ b u); auto. now rewrite Ht.
    + exists u. split; auto. exact (hv_set_old _ _ _ _ _ _ _ _ _ _ _ _ _ _ _ _ _ _ Hk Hne Hj Hb1).
Qed.

Lemma quiet_nil : quiet [].
Proof. intros e []. Qed.
Lemma quiet_one a : quiet [EA a].
Proof. intros e [<-|[]]. eauto. Qed.
Lemma quiet_map (p : list node) : quiet (map (fun nd : node => EA (EHand (fst nd))) p).
Proof. intros e He. apply in_map_iff in He. destruct He as (nd & <- & _). eauto. Qed.
Lemma dall_dwr s tr u : YD s tr -> dall (y_acc s) u -> dwr tr u.
Proof. intros HD H n Hn. apply H. exact (d_wlt _ _ HD n Hn). Qed.

(** ** Becoming an owner *)
Lemma none_rel s tr : YI s tr -> YD s tr -> lastr (y_h s) = RV MNone 0 -> dall (y_acc s) (rel_of (y_h s)).
Proof.
  intros HI HD E n Hn. destruct (none_owner _ _ HI E) as (X & S & T). destruct (d_rel _ _ HD) as [D1 _]; [now rewrite E|]. destruct (D1 n Hn) as [D|(u & [Hu|(b & Hb & Ht)] & D)]; auto; exfalso.
  - unfold ol in Hu. rewrite S in Hu. destruct Hu.
  - rewrite (T _ _ false Hb) in Ht. lia.
Qed.
Lemma yd_acq_x s tr k a v o lock lv : YI s tr -> YD s tr -> nth_error (y_act s) k = Some (a, v) -> lastr (y_h s) = RV MNone 0 ->
  YD (YS lock lv (rmw true false (y_h s) v (RV MLocked 0)) (y_w s) (y_op s) (set_nth (y_act s) k (RSet (o, true), rmw_view true (y_h s) v)) (y_xo s) (y_so s) (y_acc s)) tr.
Proof.
  intros HI HD Hk E. destruct (none_owner _ _ HI E) as (X & S & T). pose proof (none_rel _ _ HI HD E) as Hd. rewrite <- (app_nil_r tr). apply (yd_quiet s); auto using quiet_nil.
  - intros u Hu. right. apply (hv_set _ _ _ _ _ _ _ _ _ _ _ _ _ _ _ _ Hk) in Hu. rewrite X in Hu. destruct Hu as [[]|[(-> & _)|(j & b & Hj & Hb & Ht1)]].
    + intros n Hn. apply rmw_accs. auto.
    + rewrite (T _ _ true (nth_error_In _ _ Hb)) in Ht1. lia.
  - intros u Hu. apply (hv_set _ _ _ _ _ _ _ _ _ _ _ _ _ _ _ _ Hk) in Hu. rewrite S in Hu. destruct Hu as [[]|[(-> & Ht1)|(j & b & Hj & Hb & Ht1)]].
    + cbn in Ht1. lia.
    + rewrite (T _ _ false (nth_error_In _ _ Hb)) in Ht1. lia.
  - cbn [y_h]. unfold rmw. rewrite lastr_snoc. discriminate.
Qed.
Lemma yd_tryx s tr v : YI s tr -> YD s tr -> lastr (y_h s) = RV MNone 0 ->
  YD (y_own (y_hist s (rmw true false (y_h s) v (RV MLocked 0))) true (rmw_view true (y_h s) v)) (tr ++ [EA (ETry true true)]).
Proof.
  intros HI HD E. destruct (none_owner _ _ HI E) as (X & S & T). pose proof (none_rel _ _ HI HD E) as Hd. ysimp. apply (yd_quiet s); auto using quiet_one.
  - intros u [Hu|(b & Hb & Ht)].
    + unfold ol in Hu. cbn [y_xo] in Hu. rewrite X in Hu. destruct Hu as [<-|[]]. right. intros n Hn. apply rmw_accs. auto.
    + cbn [y_act] in Hb. rewrite (T _ _ true Hb) in Ht. lia.
  - intros u [Hu|(b & Hb & Ht)].
    + unfold ol in Hu. cbn [y_so] in Hu. rewrite S in Hu. destruct Hu.
    + cbn [y_act] in Hb. rewrite (T _ _ false Hb) in Ht. lia.
  - cbn [y_h]. unfold rmw. rewrite lastr_snoc. discriminate.
Qed.
Lemma yd_acq_s s tr k a v a' xs lock lv es : YD s tr -> nth_error (y_act s) k = Some (a, v) -> own true (lastr (y_h s)) = 0 -> tk true a = 0 -> tk false a = 0 -> tk true a' = 0 -> quiet es ->
  let v1 := rmw_view true (y_h s) v in
  YD (YS lock lv (rmw true false (y_h s) v (RV MLocked xs)) (y_w s) (y_op s) (set_nth (y_act s) k (a', v1)) (y_xo s)
         (match a' with REnd => y_so s ++ [v1] | _ => y_so s end) (y_acc s)) (tr ++ es).
Proof.
  intros HD Hk E T1 T2 T3 Hq v1. destruct (d_rel _ _ HD E) as [D1 D2]. assert (Hv1 : dwr tr v1) by (intros n Hn; apply rmw_accs; right; auto).
  apply (yd_quiet s); auto.
  - intros u Hu. left. exists u. split; [|apply incl_refl]. apply (hv_set _ _ _ _ _ _ _ _ _ _ _ _ _ _ _ _ Hk) in Hu. destruct Hu as [Hu|[(-> & Ht1)|(j & b & Hj & Hb & Ht1)]].
    + now left.
    + lia.
    + exact (hv_act _ _ _ _ _ Hb Ht1).
  - intros u Hu. apply (hv_set _ _ _ _ _ _ _ _ _ _ _ _ _ _ _ _ Hk) in Hu. destruct Hu as [Hu|[(-> & Ht1)|(j & b & Hj & Hb & Ht1)]]; auto.
    + assert (Hu' : In u (y_so s) \/ u = v1) by (destruct a'; auto; apply In_snoc in Hu; auto). destruct Hu' as [Hu'| ->]; auto. left. exists u. split; [now left|apply incl_refl].
    + left. exists u. split; [|apply incl_refl]. exact (hv_act _ _ _ _ _ Hb Ht1).
  - cbn [y_h]. unfold rmw. rewrite rel_snoc. intros _. split; auto. intros n Hn. destruct (D1 n Hn) as [D|(u & Hu & D)]; auto. right. exists u. split; auto.
    destruct Hu as [Hu|(b & Hb & Hb1)].
    + left. unfold ol in *. cbn [y_so]. destruct a'; auto. apply In_snoc. auto.
    + apply In_nth_error in Hb. destruct Hb as [j Hj]. destruct (Nat.eq_dec j k) as [->|Hne]; [rewrite Hk in Hj; injection Hj as -> ->; lia|].
      exact (hv_set_old _ _ _ _ _ _ _ _ _ _ _ _ _ _ _ _ _ _ Hk Hne Hj Hb1).
Qed.

(** ** An owner leaves *)
Lemma yd_rel s tr k a v y : YI s tr -> YD s tr -> nth_error (y_act s) k = Some (a, v) -> 1 <= tk true a + tk false a ->
  YD (YS (y_lock s) (y_lv s) (rmw false true (y_h s) v y) (y_w s) (y_op s) (set_nth (y_act s) k (REnd, rmw_view false (y_h s) v)) (y_xo s) (y_so s) (y_acc s)) tr.
Proof.
  intros HI HD Hk Ht. rewrite <- (app_nil_r tr). apply (yd_quiet s); auto using quiet_nil.
  - intros u Hu. left. exists u. split; [|apply incl_refl]. apply (hv_set _ _ _ _ _ _ _ _ _ _ _ _ _ _ _ _ Hk) in Hu. destruct Hu as [Hu|[(-> & Ht1)|(j & b & Hj & Hb & Ht1)]].
    + now left.
    + cbn in Ht1. lia.
    + exact (hv_act _ _ _ _ _ Hb Ht1).
  - intros u Hu. left. exists u. split; [|apply incl_refl]. apply (hv_set _ _ _ _ _ _ _ _ _ _ _ _ _ _ _ _ Hk) in Hu. destruct Hu as [Hu|[(-> & Ht1)|(j & b & Hj & Hb & Ht1)]].
    + now left.
    + cbn in Ht1. lia.
    + exact (hv_act _ _ _ _ _ Hb Ht1).
  - cbn [y_h]. unfold rmw. rewrite rel_snoc. intros _. destruct (Nat.le_gt_cases 1 (tk true a)) as [Ht1|Ht1].
    + assert (Hd : dall (y_acc s) (vjoin (rel_of (y_h s)) (rmw_view false (y_h s) v))).
      { intros n Hn. apply accs_join. right. apply rmw_accs. left. apply (d_x _ _ HD v); auto. apply (hv_act _ _ k a); auto. }
      split; [intros n Hn; left; auto|]. exact (dall_dwr _ _ _ HD Hd).
    + assert (Ht2 : 1 <= tk false a) by lia. assert (E : own true (lastr (y_h s)) = 0).
      { destruct (sonly _ _ _ _ _ HI Hk Ht2) as (C & N & _). unfold own. destruct (cc (y_h s)); auto; destruct (Nat.eqb_spec (nn (y_h s)) 0); auto; lia. }
      destruct (d_rel _ _ HD E) as [D1 D2]. split; [|intros n Hn; apply accs_join; auto]. intros n Hn. destruct (D1 n Hn) as [D|(u & Hu & D)]; [left; apply accs_join; auto|].
      destruct Hu as [Hu|(b & Hb & Hb1)]; [right; exists u; split; auto; now left|]. apply In_nth_error in Hb. destruct Hb as [j Hj]. destruct (Nat.eq_dec j k) as [->|Hne].
      * rewrite Hk in Hj. injection Hj as -> ->. left. apply accs_join. right. apply rmw_accs. auto.
      * right. exists u. split; auto. exact (hv_set_old _ _ _ _ _ _ _ _ _ _ _ _ _ _ _ _ _ _ Hk Hne Hj Hb1).
Qed.

(** ** Passing the mutex on *)
Lemma yd_hand s tr k a v p w h v2 : YD s tr -> nth_error (y_act s) k = Some (a, v) -> y_xo s = [] -> y_so s = [] ->
  (forall j b u, j <> k -> nth_error (y_act s) j = Some (b, u) -> tk true b = 0 /\ tk false b = 0) ->
  dall (y_acc s) v2 -> (own true (lastr h) = 0 -> dall (y_acc s) (rel_of h)) ->
  YD (YS false v2 h w (y_op s) (set_nth (y_act s) k (RHand p, v2)) (y_xo s) (y_so s) (y_acc s)) (tr ++ map (fun nd : node => EA (EHand (fst nd))) p).
Proof.
  intros HD Hk X S Hoth Hd Hr. apply (yd_quiet s); auto using quiet_map.
  - intros u Hu. right. apply (hv_set _ _ _ _ _ _ _ _ _ _ _ _ _ _ _ _ Hk) in Hu. rewrite X in Hu. destruct Hu as [[]|[(-> & _)|(j & b & Hj & Hb & Ht1)]]; auto.
    destruct (Hoth _ _ _ Hj Hb). lia.
  - intros u Hu. right. apply (hv_set _ _ _ _ _ _ _ _ _ _ _ _ _ _ _ _ Hk) in Hu. rewrite S in Hu. destruct Hu as [[]|[(-> & _)|(j & b & Hj & Hb & Ht1)]].
    + exact (dall_dwr _ _ _ HD Hd).
    + destruct (Hoth _ _ _ Hj Hb). lia.
  - cbn [y_h]. intros E. specialize (Hr E). split; [intros n Hn; left; auto|]. exact (dall_dwr _ _ _ HD Hr).
Qed.

(** ** The set of owners stays the same *)
Lemma yd_same s tr s' es : YD s tr -> quiet es -> y_acc s' = y_acc s -> y_h s' = y_h s -> (forall x u, hv x s' u <-> hv x s u) -> YD s' (tr ++ es).
Proof.
  intros HD Hq Ha Hh Hv. apply (yd_quiet s); auto.
  - intros u Hu. left. exists u. split; [now apply Hv|apply incl_refl].
  - intros u Hu. left. exists u. split; [now apply Hv|apply incl_refl].
  - rewrite Hh. intros E. destruct (d_rel _ _ HD E) as [D1 D2]. split; auto. intros n Hn. destruct (D1 n Hn) as [D|(u & Hu & D)]; auto. right. exists u. split; auto. now apply Hv.
Qed.
Lemma yd_notify s tr k a v a' nd : YD s tr -> nth_error (y_act s) k = Some (a, v) -> (forall x, tk x a = tk x a' + b2n (Bool.eqb (snd nd) x)) ->
  YD (y_own (y_set (y_done s (fst nd)) k a' v) (snd nd) v) (tr ++ [EA (EAcq (fst nd) (snd nd))]).
Proof.
  intros HD Hk Ht. ysimp. apply (yd_same s); auto using quiet_one. intros x u. split.
  - intros Hu. apply (hv_set _ _ _ _ _ _ _ _ _ _ _ _ _ _ _ _ Hk) in Hu. destruct Hu as [Hu|[(-> & Ht1)|(j & b & Hj & Hb & Ht1)]].
    + assert (H' : In u (ol x s) \/ (u = v /\ snd nd = x)) by (unfold ol; destruct x, (snd nd); auto; apply In_snoc in Hu; destruct Hu; auto).
      destruct H' as [H'|(-> & E)]; [now left|]. apply (hv_act _ _ k a); auto. rewrite Ht, E. destruct x; cbn; lia.
    + apply (hv_act _ _ k a); auto. rewrite Ht. lia.
    + exact (hv_act _ _ _ _ _ Hb Ht1).
  - intros [Hu|(b & Hb & Hb1)].
    + left. unfold ol in *. cbn [y_xo y_so]. destruct x, (snd nd); auto; apply In_snoc; auto.
    + apply In_nth_error in Hb. destruct Hb as [j Hj]. destruct (Nat.eq_dec j k) as [->|Hne]; [|exact (hv_set_old _ _ _ _ _ _ _ _ _ _ _ _ _ _ _ _ _ _ Hk Hne Hj Hb1)].
      rewrite Hk in Hj. injection Hj as -> ->. specialize (Ht x). destruct (Bool.eqb_spec (snd nd) x) as [E|E].
      * left. unfold ol. cbn [y_xo y_so]. destruct x, (snd nd); try discriminate; apply In_snoc; auto.
      * apply (hv_set_new _ _ _ b u); auto. cbn in Ht. lia.
Qed.
Lemma yd_new s tr b u op es : YD s tr -> tk true b = 0 -> tk false b = 0 -> quiet es ->
  YD (YS (y_lock s) (y_lv s) (y_h s) (y_w s) op (y_act s ++ [(b, u)]) (y_xo s) (y_so s) (y_acc s)) (tr ++ es).
Proof.
  intros HD T1 T2 Hq. apply (yd_same s); auto. intros x w. split; (intros [H|(c & Hc & Ht)]; [now left|]).
  - cbn [y_act] in Hc. apply In_snoc in Hc. destruct Hc as [Hc|[= -> ->]]; [right; eauto|]. destruct x; lia.
  - right. exists c. split; auto. cbn [y_act]. apply In_snoc. auto.
Qed.
Lemma nth_remove' {A} (l : list A) j x y : nth_error l j = Some x -> (In y l <-> y = x \/ In y (firstn j l ++ skipn (S j) l)).
Proof.
  revert j. induction l as [|a l IH]; intros [|j] H; simpl in *; try discriminate.
  - injection H as ->. intuition congruence.
  - rewrite (IH j H). tauto.
Qed.
Lemma yd_unlock s tr (x : bool) j v : YD s tr -> nth_error (ol x s) j = Some v ->
  YD (YS (y_lock s) (y_lv s) (y_h s) (y_w s) (y_op s) (y_act s ++ [(if x then XUnl else SUnl, v)])
         (if x then firstn j (y_xo s) ++ skipn (S j) (y_xo s) else y_xo s) (if x then y_so s else firstn j (y_so s) ++ skipn (S j) (y_so s)) (y_acc s)) (tr ++ [EA (EUnlock x)]).
Proof.
  intros HD Hj. pose proof (nth_remove' _ _ _ v Hj) as _. apply (yd_same s); auto using quiet_one. intros y u. pose proof (nth_remove' _ _ _ u Hj) as Hr. split.
  - intros [H|(c & Hc & Ht)].
    + left. unfold ol in *. cbn [y_xo y_so] in H. destruct x, y; auto; apply Hr; auto.
    + cbn [y_act] in Hc. apply In_snoc in Hc. destruct Hc as [Hc|[= -> ->]]; [right; eauto|]. left. destruct x, y; cbn in Ht; try lia; apply Hr; auto.
  - intros [H|(c & Hc & Ht)].
    + destruct (Bool.bool_dec x y) as [<-|Hne].
      * apply Hr in H. destruct H as [->|H]; [|left; unfold ol; cbn [y_xo y_so]; destruct x; auto]. right. eexists. split; [cbn [y_act]; apply In_snoc; right; reflexivity|]. destruct x; cbn; lia.
      * left. unfold ol in *. cbn [y_xo y_so]. destruct x, y; auto; congruence.
    + right. exists c. split; auto. cbn [y_act]. apply In_snoc. auto.
Qed.

(** ** Accesses *)
Lemma xo_only s tr j v : YI s tr -> nth_error (y_xo s) j = Some v -> own true (lastr (y_h s)) = 1 /\ y_xo s = [v] /\ j = 0 /\ y_so s = [] /\ forall b u x, In (b, u) (y_act s) -> tk x b = 0.
Proof.
  intros HI Hj. pose proof (y_tok _ _ HI true) as T1. pose proof (y_tok _ _ HI false) as T2. unfold ol in *.
  assert (Hl : 1 <= length (y_xo s)). { pose proof (nth_error_In _ _ Hj) as H. destruct (y_xo s); [destruct H|simpl; lia]. }
  assert (Ho : own true (lastr (y_h s)) = 1 /\ own false (lastr (y_h s)) = 0). { unfold own in *. destruct (cc (y_h s)); [lia|..]; (destruct (Nat.eqb_spec (nn (y_h s)) 0); [auto|lia]). }
  destruct Ho as [O1 O2]. split; auto. destruct (y_xo s) as [|v0 [|v1 l]]; simpl in *; try lia. assert (E : j = 0 /\ v0 = v) by (destruct j as [|[|j]]; simpl in Hj; try discriminate; split; congruence).
  destruct E as [-> ->]. split; auto. split; auto. split; [destruct (y_so s); auto; simpl in *; lia|]. intros b u x Hb. pose proof (sum_map_le (fun p : ract * view => tk x (fst p)) _ _ Hb) as E. cbn [fst] in E.
  destruct x; lia.
Qed.
Lemma accs_add v n m : In m (accs (vadd v (TData n))) <-> m = n \/ In m (accs v).
Proof. unfold accs, vadd. simpl. intuition. Qed.
Lemma yd_write s tr j v : YI s tr -> YD s tr -> nth_error (y_xo s) j = Some v ->
  YD (YS (y_lock s) (y_lv s) (y_h s) (y_w s) (y_op s) (y_act s) (set_nth (y_xo s) j (vadd v (TData (y_acc s)))) (y_so s) (S (y_acc s))) (tr ++ [EWr (y_acc s) (accs v)]).
Proof.
  intros HI HD Hj. destruct (xo_only _ _ _ _ HI Hj) as (O & X & -> & S0 & T). assert (Hd : dall (y_acc s) v) by (apply (d_x _ _ HD); left; unfold ol; rewrite X; now left).
  constructor; cbn [y_acc y_h]; rewrite ?saccs_app, ?swrites_app.
  - rewrite (d_acc _ _ HD). cbn. lia.
  - intros n Hn. rewrite in_app_iff in Hn. destruct Hn as [Hn|[<-|[]]]; [|lia]. pose proof (d_wlt _ _ HD n Hn). lia.
  - intros u [Hu|(b & Hb & Ht)].
    + unfold ol in Hu. cbn [y_xo] in Hu. rewrite X in Hu. destruct Hu as [<-|[]]. intros n Hn. apply accs_add. destruct (Nat.eq_dec n (y_acc s)); auto. right. apply Hd. lia.
    + cbn [y_act] in Hb. rewrite (T _ _ true Hb) in Ht. lia.
  - intros u [Hu|(b & Hb & Ht)].
    + unfold ol in Hu. cbn [y_so] in Hu. rewrite S0 in Hu. destruct Hu.
    + cbn [y_act] in Hb. rewrite (T _ _ false Hb) in Ht. lia.
  - rewrite O. discriminate.
  - apply sfree_snoc; [apply HD| |discriminate]. intros n b [= <- <-]. split; [apply HD|exact Hd].
Qed.
Lemma yd_read s tr j v : YI s tr -> YD s tr -> nth_error (y_so s) j = Some v ->
  YD (YS (y_lock s) (y_lv s) (y_h s) (y_w s) (y_op s) (y_act s) (y_xo s) (set_nth (y_so s) j (vadd v (TData (y_acc s)))) (S (y_acc s))) (tr ++ [ERd (y_acc s) (accs v)]).
Proof.
  intros HI HD Hj. assert (O : own true (lastr (y_h s)) = 0 /\ y_xo s = [] /\ forall b u, In (b, u) (y_act s) -> tk true b = 0).
  { pose proof (y_tok _ _ HI true) as T1. pose proof (y_tok _ _ HI false) as T2. unfold ol in *. pose proof (nth_error_In _ _ Hj) as Hin.
    assert (Hl : 1 <= length (y_so s)) by (destruct (y_so s); [destruct Hin|simpl; lia]). assert (O : own true (lastr (y_h s)) = 0).
    { unfold own in *. destruct (cc (y_h s)); auto; destruct (Nat.eqb_spec (nn (y_h s)) 0); auto; lia. }
    split; auto. split; [destruct (y_xo s); auto; simpl in *; lia|]. intros b u Hb. pose proof (sum_map_le (fun p : ract * view => tk true (fst p)) _ _ Hb) as E. cbn [fst] in E. lia. }
  destruct O as (O & X & T). assert (Hw : dwr tr v) by (apply (d_s _ _ HD); left; exact (nth_error_In _ _ Hj)).
  assert (Ew : swrites (tr ++ [ERd (y_acc s) (accs v)]) = swrites tr) by (rewrite swrites_app; apply app_nil_r).
  constructor; cbn [y_acc y_h]; unfold dwr; rewrite ?saccs_app, ?Ew.
  - rewrite (d_acc _ _ HD). cbn. lia.
  - intros n Hn. pose proof (d_wlt _ _ HD n Hn). lia.
  - intros u [Hu|(b & Hb & Ht)].
    + unfold ol in Hu. cbn [y_xo] in Hu. rewrite X in Hu. destruct Hu.
    + cbn [y_act] in Hb. rewrite (T _ _ Hb) in Ht. lia.
  - intros u [Hu|(b & Hb & Ht)].
    + unfold ol in Hu. cbn [y_so] in Hu. apply (set_nth_cases _ _ _ _ _ Hj) in Hu. destruct Hu as [->|(i & _ & Hi)].
      * intros n Hn. apply accs_add. auto.
      * apply (d_s _ _ HD). left. exact (nth_error_In _ _ Hi).
    + apply (d_s _ _ HD). right. eauto.
  - intros _. destruct (d_rel _ _ HD O) as [D1 D2]. split; auto. intros n Hn.
    assert (Hnew : hv false (YS (y_lock s) (y_lv s) (y_h s) (y_w s) (y_op s) (y_act s) (y_xo s) (set_nth (y_so s) j (vadd v (TData (y_acc s)))) (S (y_acc s))) (vadd v (TData (y_acc s)))).
    { left. unfold ol. cbn [y_so]. apply (nth_error_In _ j). exact (nth_error_set_nth_same _ _ _ _ Hj). }
    destruct (Nat.eq_dec n (y_acc s)) as [->|Hne]; [right; exists (vadd v (TData (y_acc s))); split; auto; apply accs_add; auto|].
    destruct (D1 n ltac:(lia)) as [D|(u & Hu & D)]; auto. right. destruct Hu as [Hu|(b & Hb & Ht)]; [|exists u; split; auto; right; eauto].
    apply In_nth_error in Hu. destruct Hu as [i Hi]. destruct (Nat.eq_dec i j) as [->|Hij].
    + unfold ol in Hi. rewrite Hj in Hi. injection Hi as <-. exists (vadd v (TData (y_acc s))). split; auto. apply accs_add. auto.
    + exists u. split; auto. left. unfold ol. cbn [y_so]. apply (nth_error_In _ i). rewrite nth_error_set_nth_other; auto.
  - apply sfree_snoc; [apply HD|discriminate|]. intros n b [= <- <-]. split; [apply HD|exact Hw].
Qed.

(** ** Every step *)
Definition goodd (tr : list sevent) (o : outcome yst sevent) : Prop := match o with Next s' es => YD s' (tr ++ es) | _ => True end.
Lemma goodd_guard tr s v l r : goodd tr r -> goodd tr (y_guard s v l r).
Proof. unfold y_guard. destruct (negb _); [intros; exact I|]. destruct (negb _); [intros; exact I|auto]. Qed.
Lemma goodd_store tr rel h v x r : goodd tr (r (h ++ [(x, if rel : bool then vsee v (length h) else vbot)]) (vsee v (length h))) -> goodd tr (y_store rel h v x r).
Proof. unfold y_store. destruct (_ =? _); auto. intros; exact I. Qed.
Lemma own_locked y n : own true (RV MLocked n) = own true (RV MCont n) /\ (v_c y = MLocked -> own true y = own true (RV MLocked (v_n y))).
Proof. split; auto. intros E. unfold own. now rewrite E. Qed.
Lemma accs_join_l a b : incl (accs a) (accs (vjoin a b)).
Proof. intros n H. apply accs_join. auto. Qed.
Lemma accs_rmw {A} acq (h : hist A) v : incl (accs v) (accs (rmw_view acq h v)).
Proof. intros n H. apply rmw_accs. auto. Qed.

Lemma goodd_move s tr k a v a' v' lock lv : YD s tr -> nth_error (y_act s) k = Some (a, v) -> (forall x, tk x a' = tk x a) -> incl (accs v) (accs v') ->
  goodd tr (Next (y_set (y_locked s lock lv) k a' v') []).
Proof. intros HD Hk Ht Hi. cbn [goodd]. ysimp. apply (yd_move s tr k a v); auto using quiet_nil. Qed.
Lemma goodd_see s tr k a v a' v' : YD s tr -> nth_error (y_act s) k = Some (a, v) -> (forall x, tk x a' = tk x a) -> incl (accs v) (accs v') -> goodd tr (Next (y_set s k a' v') []).
Proof. intros HD Hk Ht Hi. cbn [goodd]. ysimp. apply (yd_move s tr k a v); auto using quiet_nil. Qed.
Lemma goodd_susp s tr k a v h1 v1 nd : YD s tr -> nth_error (y_act s) k = Some (a, v) -> (forall x, tk x a = 0) -> incl (accs v) (accs v1) -> own true (lastr h1) = own true (lastr (y_h s)) ->
  rel_of h1 = rel_of (y_h s) -> goodd tr (y_suspend (y_hist s h1) k nd v1).
Proof. intros HD Hk Ht Hi Ho Hr. unfold y_suspend. apply goodd_guard. cbn [goodd]. ysimp. apply (yd_move s tr k a v); auto using quiet_one; intros x; rewrite Ht; reflexivity. Qed.

Lemma goodd_sunl2 d s tr k a x v i spur : d = repaired \/ y_w s = [] -> YI s tr -> YD s tr -> nth_error (y_act s) k = Some (a, v) -> (a = SUnl1 x \/ a = SUnl2 x) -> v_c x = MCont ->
  goodd tr (y_sunl2 d s k i spur x v).
Proof.
  intros Hdd HI HD Hk Ha Hx. assert (Hta : tk false a = 1 /\ tk true a = 0) by (destruct Ha as [-> | ->]; auto). destruct Hta as [Ht1 Ht2]. unfold y_sunl2.
  pose proof (y_aok _ _ HI _ _ (nth_error_In _ _ Hk)) as Aa. destruct (Nat.ltb_spec 1 (v_n x)) as [Hlt|Hge].
  - destruct (casr_read _ _ _ _ _ _) as [|y|] eqn:Ec; [| |exact I].
    + cbn [goodd]. rewrite app_nil_r. ysimp. apply (yd_rel s tr k a v); auto. lia.
    + apply (goodd_see s tr k a v); auto; [intros [|]; [rewrite Ht2|rewrite Ht1]; reflexivity|apply incl_refl].
  - destruct (Nat.eqb_spec (v_n x) 1) as [En|En]; cbn [negb]; [|exact I]. destruct (y_lock s); [exact I|]. destruct (y_w s) as [|[o [|]] w] eqn:Ew; try exact I.
    apply goodd_guard. destruct Hdd as [->|]; [|congruence]. cbn [fix_s repaired]. unfold y_hand. cbn [goodd]. ysimp.
    destruct (sonly _ _ _ _ _ HI Hk ltac:(lia)) as (Hc & Hn & X & _ & Hnx & Hone). assert (Hsok : sok (y_h s) v) by (apply (a_s _ _ _ _ Aa); lia).
    assert (Hat : exists w, nth_error (y_h s) (v_ts v) = Some (x, w)) by (pose proof (a_lc _ _ _ _ Aa) as H; destruct Ha as [-> | ->]; cbn in H; tauto). destruct Hat as [w0 Hat].
    destruct (proj1 Hsok _ _ _ (le_n _) Hat) as (B1 & B2 & B3). destruct (B3 Hx) as [C1 C2]. assert (Hn1 : v_ts v = newest (y_h s)) by lia.
    assert (Hlast : lastr (y_h s) = x) by (unfold lastr; rewrite <- Hn1, Hat; reflexivity). rewrite Hlast in Hone. destruct (Hone En) as (S & _ & Hoth).
    assert (E : own true (lastr (y_h s)) = 0) by (rewrite Hlast; unfold own; rewrite Hx, En; reflexivity). destruct (d_rel _ _ HD E) as [D1 D2].
    apply (yd_hand s tr k a v); auto.
    + intros j b u Hj Hb. split; [apply (Hnx b u); exact (nth_error_In _ _ Hb)|exact (Hoth _ _ _ Hj Hb)].
    + intros n Hnn. apply rmw_accs. destruct (D1 n Hnn) as [D|(u & Hu & D)]; auto. left. apply accs_join. left. destruct Hu as [Hu|(b & Hb & Hb1)]; [unfold ol in Hu; rewrite S in Hu; destruct Hu|].
      apply In_nth_error in Hb. destruct Hb as [j Hj]. destruct (Nat.eq_dec j k) as [->|Hne]; [rewrite Hk in Hj; injection Hj as -> ->; auto|]. specialize (Hoth _ _ _ Hne Hj). lia.
    + unfold rmw. rewrite lastr_snoc. destruct w; discriminate.
Qed.
Lemma goodd_xunl d s tr k v i spur : d = repaired \/ y_w s = [] -> YI s tr -> YD s tr -> nth_error (y_act s) k = Some (XUnlLock, v) -> goodd tr (y_act_step d s k i spur XUnlLock v).
Proof.
  intros Hdd HI HD Hk. cbn [y_act_step]. destruct (y_lock s); [exact I|]. destruct (xonly _ _ _ _ _ HI Hk ltac:(cbn; lia)) as (Hc & Hn & X & S & _ & _ & Hoth).
  assert (Hd : dall (y_acc s) v) by (apply (d_x _ _ HD); apply (hv_act _ _ k XUnlLock); auto).
  assert (Hd1 : dall (y_acc s) (vjoin v (y_lv s))) by (intros n Hnn; apply accs_join; auto). pose proof (y_aok _ _ HI _ _ (nth_error_In _ _ Hk)) as Aa. pose proof (a_lc _ _ _ _ Aa) as Hlc. cbn [lcw] in Hlc.
  destruct (y_w s) as [|[o [|]] w] eqn:Ew; [exact I|..]; (destruct Hdd as [->|]; [|discriminate]).
  - apply goodd_guard. destruct w as [|q w].
    + apply goodd_store. unfold y_hand. cbn [goodd]. ysimp. apply (yd_hand s tr k XUnlLock v); auto. cbn [fix_x repaired]. rewrite rel_snoc. auto.
    + unfold y_hand. cbn [goodd]. ysimp. apply (yd_hand s tr k XUnlLock v); auto. unfold own. rewrite Hlc, Hn. discriminate.
  - destruct (readers _) as [p w']. apply goodd_guard, goodd_store. unfold y_hand. cbn [goodd]. ysimp. apply (yd_hand s tr k XUnlLock v); auto. cbn [fix_x repaired]. rewrite rel_snoc. auto.
Qed.

Lemma goodd_act d s tr k i spur a v : d = repaired \/ y_w s = [] -> YI s tr -> YD s tr -> nth_error (y_act s) k = Some (a, v) -> goodd tr (y_act_step d s k i spur a v).
Proof.
  intros Hdd HI HD Hk. pose proof (y_glob _ _ HI) as Hg. pose proof (y_aok _ _ HI _ _ (nth_error_In _ _ Hk)) as Aa. pose proof (a_lc _ _ _ _ Aa) as Hlc.
  assert (Hnone : forall x, lastr (y_h s) = x -> v_c x = MNone -> lastr (y_h s) = RV MNone 0).
  { intros x E Ex. assert (En : nn (y_h s) = 0) by (apply (g_none _ _ _ Hg); congruence). rewrite (rval_split (lastr (y_h s))), En. congruence. }
  assert (Hs0 : forall x, v_c x = MLocked -> 0 < v_n x -> own true x = 0) by (intros x E Hn; unfold own; rewrite E; destruct (Nat.eqb_spec (v_n x) 0); [lia|auto]).
  assert (Hsusp : forall x n, lastr (y_h s) = x -> v_c x = MLocked -> v_n x = n -> own true (lastr (rmw false false (y_h s) v (RV MCont n))) = own true (lastr (y_h s))).
  { intros x n E Ex En. unfold rmw. rewrite lastr_snoc, E. unfold own. rewrite Ex, En. reflexivity. }
  assert (Hrel : forall y, rel_of (rmw false false (y_h s) v y) = rel_of (y_h s)) by (intros y; unfold rmw; apply rel_snoc).
  assert (Htry : forall w x xs, (y_act s) <> [] -> nth_error (y_act s) k = Some (STryL w x, v) -> own true (lastr (y_h s)) = 0 ->
    goodd tr (y_try_ret (y_hist s (rmw true false (y_h s) v (RV MLocked xs))) k w true (rmw_view true (y_h s) v))).
  { intros w x xs _ Hk' E. unfold y_try_ret. destruct w as [o|]; cbn [goodd]; ysimp.
    - apply (yd_acq_s s tr k (STryL (Some o) x) v (RSet (o, false))); auto using quiet_nil.
    - apply (yd_acq_s s tr k (STryL None x) v REnd); auto using quiet_one. }
  assert (Htryno : forall w x, nth_error (y_act s) k = Some (STryL w x, v) -> goodd tr (y_try_ret s k w false v)).
  { intros w x Hk'. unfold y_try_ret. destruct w as [o|]; cbn [goodd]; ysimp; apply (yd_move s tr k _ v _ v _ _ _ _ _ _ HD Hk'); auto using quiet_nil, quiet_one, incl_refl. }
  assert (Hne : y_act s <> []) by (intros E; rewrite E in Hk; destruct k; discriminate).
  destruct a as [o|o|o x|w|w x|o|o x|nd| |x| | |x|x|p| ]; cbn [y_act_step].
  - destruct (casr_read _ _ _ _ _ _) as [|y|] eqn:Ec; [| |exact I].
    + apply casr_ok in Ec. destruct Ec as (Ec & _). cbn [goodd]. rewrite app_nil_r. ysimp. apply (yd_acq_x s tr k (XTry o) v); auto.
    + apply (goodd_see s tr k (XTry o) v); auto using incl_refl.
  - destruct (y_lock s); [exact I|]. destruct (rd _ _ _) as [[x w]|]; [|exact I]. apply (goodd_move s tr k (XWait o) v); auto. apply accs_join_l.
  - assert (Hno : forall y, goodd tr (Next (y_set s k (XLoop o y) (vsee v i)) [])) by (intros y; apply (goodd_see s tr k (XLoop o x) v); auto using incl_refl).
    destruct (v_c x) eqn:Ex.
    + destruct (casr_read _ _ _ _ _ _) as [|y|] eqn:Ec; [|now apply Hno|exact I]. apply casr_ok in Ec. destruct Ec as (Ec & _). cbn [goodd]. rewrite app_nil_r. ysimp.
      apply (yd_acq_x s tr k (XLoop o x) v); eauto.
    + destruct (casr_read _ _ _ _ _ _) as [|y|] eqn:Ec; [|now apply Hno|exact I]. apply casr_ok in Ec. destruct Ec as (Ec & _).
      apply (goodd_susp s tr k (XLoop o x) v); eauto using accs_rmw.
    + pose proof (goodd_susp s tr k (XLoop o x) v (y_h s) v (o, true) HD Hk ltac:(auto) (incl_refl _) eq_refl eq_refl) as G. rewrite y_hist_id in G. exact G.
  - destruct (rd _ _ _) as [[x u]|]; [|exact I]. apply (goodd_see s tr k (STry w) v); auto using incl_refl.
  - assert (Hno : forall y, goodd tr (Next (y_set s k (STryL w y) (vsee v i)) [])) by (intros y; apply (goodd_see s tr k (STryL w x) v); auto using incl_refl).
    destruct (v_c x) eqn:Ex.
    + destruct (casr_read _ _ _ _ _ _) as [|y|] eqn:Ec; [|now apply Hno|exact I]. apply casr_ok in Ec. destruct Ec as (Ec & _). apply (Htry w x); auto. rewrite (Hnone x Ec Ex). reflexivity.
    + destruct (Nat.ltb_spec 0 (v_n x)) as [Hn|Hn]; [|eauto].
      destruct (casr_read _ _ _ _ _ _) as [|y|] eqn:Ec; [|now apply Hno|exact I]. apply casr_ok in Ec. destruct Ec as (Ec & _). apply (Htry w x); auto. rewrite Ec. auto.
    + eauto.
  - destruct (y_lock s); [exact I|]. destruct (rd _ _ _) as [[x w]|]; [|exact I]. apply (goodd_move s tr k (SWait o) v); auto. apply accs_join_l.
  - assert (Hno : forall y, goodd tr (Next (y_set s k (SLoop o y) (vsee v i)) [])) by (intros y; apply (goodd_see s tr k (SLoop o x) v); auto using incl_refl).
    destruct (v_c x) eqn:Ex.
    + destruct (casr_read _ _ _ _ _ _) as [|y|] eqn:Ec; [|now apply Hno|exact I]. apply casr_ok in Ec. destruct Ec as (Ec & _). cbn [goodd]. ysimp.
      apply (yd_acq_s s tr k (SLoop o x) v (RSet (o, false))); auto using quiet_nil. rewrite (Hnone x Ec Ex). reflexivity.
    + destruct (casr_read _ _ _ _ _ _) as [|y|] eqn:Ec; [|now apply Hno|exact I]. apply casr_ok in Ec. destruct Ec as (Ec & _). destruct (Nat.ltb_spec 0 (v_n x)) as [Hn|Hn].
      * cbn [goodd]. ysimp. apply (yd_acq_s s tr k (SLoop o x) v (RSet (o, false))); auto using quiet_nil. rewrite Ec. auto.
      * apply (goodd_susp s tr k (SLoop o x) v); auto using accs_rmw. apply (Hsusp x); auto. lia.
    + pose proof (goodd_susp s tr k (SLoop o x) v (y_h s) v (o, false) HD Hk ltac:(auto) (incl_refl _) eq_refl eq_refl) as G. rewrite y_hist_id in G. exact G.
  - apply goodd_guard. cbn [goodd]. apply (yd_notify s tr k (RSet nd) v); auto.
  - destruct (rd _ _ _) as [[x u]|]; [|exact I]. destruct (v_c x); [exact I|..]; (destruct (0 <? v_n x); [exact I|]); apply (goodd_see s tr k XUnl v); auto using incl_refl.
  - destruct (casr_read _ _ _ _ _ _) as [|y|] eqn:Ec; [| |exact I].
    + cbn [goodd]. rewrite app_nil_r. ysimp. apply (yd_rel s tr k (XUnlCas x) v); auto.
    + destruct (0 <? v_n y); [exact I|]. destruct (v_c y); try exact I. apply (goodd_see s tr k (XUnlCas x) v); auto using incl_refl.
  - exact (goodd_xunl d s tr k v i spur Hdd HI HD Hk).
  - destruct (rd _ _ _) as [[x u]|]; [|exact I]. destruct (v_c x); [exact I|..]; (destruct (0 <? v_n x); [|exact I]); apply (goodd_see s tr k SUnl v); auto using incl_refl.
  - destruct (v_c x) eqn:Ex; [exact I| |apply (goodd_sunl2 d s tr k (SUnl1 x)); auto]. destruct (_ || _); [|exact I]. destruct (casr_read _ _ _ _ _ _) as [|y|] eqn:Ec; [| |exact I].
    + cbn [goodd]. rewrite app_nil_r. ysimp. apply (yd_rel s tr k (SUnl1 x) v); auto.
    + destruct (v_c y); [exact I|..]; (destruct (0 <? v_n y); [|exact I]); apply (goodd_see s tr k (SUnl1 x) v); auto using incl_refl.
  - cbn [lcw] in Hlc. apply (goodd_sunl2 d s tr k (SUnl2 x)); auto. apply Hlc.
  - destruct p as [|nd p]; [exact I|]. apply goodd_guard. cbn [goodd]. apply (yd_notify s tr k (RHand (nd :: p)) v); auto. intros x.
    destruct p as [|q p]; cbn; destruct (Bool.eqb (snd nd) x); cbn; lia.
  - exact I.
Qed.

Lemma goodd_step d s tr l : d = repaired \/ y_w s = [] -> YI s tr -> YD s tr -> goodd tr (y_step d s l).
Proof.
  intros Hdd HI HD. destruct l as [o x v|v i|v|j|j|x j|k i spur]; cbn [y_step].
  - destruct (y_op s o); try exact I. destruct (_ <? _); [|exact I]. cbn [goodd]. apply yd_new; auto using quiet_one; destruct x; reflexivity.
  - destruct (casr_read _ _ _ _ _ _) as [|y|] eqn:Ec; [| |exact I]; cbn [goodd].
    + apply casr_ok in Ec. destruct Ec as (Ec & _). apply yd_tryx; auto.
    + apply (yd_same s); auto using quiet_one. tauto.
  - destruct (_ <? _); [|exact I]. cbn [goodd]. apply yd_new; auto using quiet_nil.
  - destruct (nth_error (y_xo s) j) eqn:Ej; [|exact I]. cbn [goodd]. apply yd_write; auto.
  - destruct (nth_error (y_so s) j) eqn:Ej; [|exact I]. cbn [goodd]. apply yd_read; auto.
  - destruct x.
    + destruct (nth_error (y_xo s) j) eqn:Ej; [|exact I]. cbn [goodd]. apply (yd_unlock s tr true); auto.
    + destruct (nth_error (y_so s) j) eqn:Ej; [|exact I]. cbn [goodd]. apply (yd_unlock s tr false); auto.
  - destruct (nth_error (y_act s) k) as [[a v]|] eqn:Ek; [|exact I]. apply goodd_act; auto.
Qed.

Theorem sharedw_race_free ls s tr : run (y_step repaired) y_init ls = Running s tr -> srace_free tr.
Proof.
  intros E. apply (run_inv (y_step repaired) (fun s tr => YI s tr /\ YD s tr) y_init) in E.
  - apply E.
  - split; [exact yi_init|exact yd_init].
  - intros s0 tr0 l s' es [HI HD] E0. pose proof (good_step repaired _ _ l HI) as H1. pose proof (goodd_step repaired _ _ l ltac:(auto) HI HD) as H2. now rewrite E0 in H1, H2.
Qed.

(** ** Without suspensions, the orders of the code are sufficient *)
Lemma guard_next s v l r s' es : y_guard s v l r = Next s' es -> r = Next s' es.
Proof. unfold y_guard. destruct (negb _); [discriminate|]. destruct (negb _); [discriminate|auto]. Qed.
Lemma w_step d s l s' es : y_step d s l = Next s' es -> y_w s = [] -> y_w s' = [] \/ exists o, In (EA (ESusp o)) es.
Proof.
  intros H Hw. destruct l as [o x v|v i|v|j|j|x j|k i spur]; cbn [y_step] in H.
  - destruct (y_op s o); try discriminate. destruct (_ <? _); [|discriminate]. injection H as <- <-. auto.
  - destruct (casr_read _ _ _ _ _ _); [| |discriminate]; injection H as <- <-; auto.
  - destruct (_ <? _); [|discriminate]. injection H as <- <-. auto.
  - destruct (nth_error _ _); [|discriminate]. injection H as <- <-. auto.
  - destruct (nth_error _ _); [|discriminate]. injection H as <- <-. auto.
  - destruct x; (destruct (nth_error _ _); [|discriminate]); injection H as <- <-; auto.
  - destruct (nth_error (y_act s) k) as [[a v]|]; [|discriminate].
    assert (Hsu : forall s0 nd v0, y_suspend s0 k nd v0 = Next s' es -> y_w s' = [] \/ exists o, In (EA (ESusp o)) es).
    { intros s0 nd v0 E. apply guard_next in E. injection E as <- <-. right. exists (fst nd). now left. }
    assert (Htr : forall h0 w b v0, y_try_ret (y_hist s h0) k w b v0 = Next s' es -> y_w s' = []).
    { intros h0 w b v0 E. unfold y_try_ret in E. destruct w, b; injection E as <- <-; auto. }
    assert (Htr' : forall w b v0, y_try_ret s k w b v0 = Next s' es -> y_w s' = []).
    { intros w b v0 E. unfold y_try_ret in E. destruct w, b; injection E as <- <-; auto. }
    assert (H2 : forall x, y_sunl2 d s k i spur x v = Next s' es -> y_w s' = []).
    { intros x E. unfold y_sunl2 in E. rewrite Hw in E. destruct (1 <? v_n x); [destruct (casr_read _ _ _ _ _ _); [| |discriminate]; injection E as <- <-; auto|].
      destruct (negb _); [discriminate|]. destruct (y_lock s); discriminate. }
    destruct a as [o|o|o x|w|w x|o|o x|nd| |x| | |x|x|p| ]; cbn [y_act_step] in H; rewrite ?Hw in H;
      repeat match type of H with
      | y_guard _ _ _ _ = _ => apply guard_next in H
      | y_suspend _ _ _ _ = _ => exact (Hsu _ _ _ H)
      | y_try_ret (y_hist _ _) _ _ _ _ = _ => left; exact (Htr _ _ _ _ H)
      | y_try_ret _ _ _ _ _ = _ => left; exact (Htr' _ _ _ H)
      | y_sunl2 _ _ _ _ _ _ _ = _ => left; exact (H2 _ H)
      | Next _ _ = _ => injection H as <- <-; left; exact Hw
      | Fail _ _ = _ => discriminate
      | Disabled = _ => discriminate
      | context [match ?x with _ => _ end] => destruct x
      end.
Qed.
Definition nosusp (tr : list sevent) : Prop := forall o, ~ In (EA (ESusp o)) tr.
Theorem sharedw_nosusp d ls s tr : run (y_step d) y_init ls = Running s tr -> nosusp tr -> srace_free tr.
Proof.
  intros E Hn. apply (run_inv_client (y_step d) nosusp (fun s tr => YI s tr /\ YD s tr /\ y_w s = []) y_init) in E; auto.
  - apply E.
  - intros t1 t2 H o Ho. apply (H o). apply in_app_iff. auto.
  - split; [exact yi_init|]. split; [exact yd_init|reflexivity].
  - intros s0 tr0 l s' es (HI & HD & Hw) E0 Hc. pose proof (good_step d _ _ l HI) as H1. pose proof (goodd_step d _ _ l (or_intror Hw) HI HD) as H2. rewrite E0 in H1, H2. split; [exact H1|]. split; [exact H2|].
    destruct (w_step _ _ _ _ _ E0 Hw) as [H|(o & H)]; auto. destruct (Hc o). apply in_app_iff. auto.
Qed.
