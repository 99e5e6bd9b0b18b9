(** Proofs about mutex under the C++ memory model: C51. *)
From Coq Require Import List Arith Bool Lia.
From Verif Require Import Lts ListFacts M_Mutex S_Mutex P_Mutex M_Weak M_MutexW S_MutexW.
Import ListNotations.

(** ** Views and histories *)
Definition lastv (h : hist mval) : mval := match nth_error h (newest h) with Some (x, _) => x | None => MNone end.

Lemma newest_snoc {A} (h : hist A) m : newest (h ++ [m]) = length h.
Proof. unfold newest. rewrite app_length. simpl. lia. Qed.
Lemma lastv_snoc h x w : lastv (h ++ [(x, w)]) = x.
Proof. unfold lastv. rewrite newest_snoc, nth_error_app2, Nat.sub_diag; auto. Qed.
Lemma rel_snoc {A} (h : hist A) (x : A) w : rel_of (h ++ [(x, w)]) = w.
Proof. unfold rel_of. rewrite newest_snoc, nth_error_app2, Nat.sub_diag; auto. Qed.
Lemma nth_snoc_cases {A} (l : list A) x i y : nth_error (l ++ [x]) i = Some y ->
  (i < length l /\ nth_error l i = Some y) \/ (i = length l /\ y = x).
Proof.
  intros H. destruct (Nat.lt_ge_cases i (length l)) as [Hl|Hl].
  - rewrite nth_error_app1 in H; auto.
  - rewrite nth_error_app2 in H by lia. destruct (i - length l) eqn:E; [right; split; [lia|simpl in H; congruence]|]. destruct n; discriminate.
Qed.
Lemma lastv_nth h w i : i = newest h -> forall x, nth_error h i = Some (x, w) -> lastv h = x.
Proof. intros -> x H. unfold lastv. now rewrite H. Qed.
Lemma newest_lt {A} (h : hist A) : h <> [] -> newest h < length h.
Proof. destruct h; [congruence|]. intros _. unfold newest. simpl. lia. Qed.

Lemma accs_join a b n : In n (accs (vjoin a b)) <-> In n (accs a) \/ In n (accs b).
Proof. unfold accs, vjoin. simpl. rewrite flat_map_app, in_app_iff. tauto. Qed.
Lemma accs_see v i : accs (vsee v i) = accs v.
Proof. reflexivity. Qed.
Lemma knows_join a b o : knows (vjoin a b) o = knows a o || knows b o.
Proof. unfold knows, vjoin. simpl. now rewrite existsb_app. Qed.
Lemma knows_see v i o : knows (vsee v i) o = knows v o.
Proof. reflexivity. Qed.
Lemma rd_some {A} (h : hist A) v i m : rd h v i = Some m -> v_ts v <= i /\ nth_error h i = Some m /\ i < length h.
Proof.
  unfold rd. destruct (Nat.leb_spec (v_ts v) i); [|discriminate]. intros H1. repeat split; auto. apply nth_error_Some. congruence.
Qed.

Lemma cas_ok weak spur h v i e : cas_read weak spur h v i e = CasOk -> lastv h = e /\ h <> [].
Proof.
  unfold cas_read. destruct (rd h v i) as [[x w]|] eqn:E; [|discriminate]. apply rd_some in E. destruct E as (_ & E & Hl).
  destruct (mval_eqb x e) eqn:Ee; [|discriminate].
  destruct ((i =? newest h) && negb (weak && spur)) eqn:Eb; [|destruct weak; discriminate]. intros _.
  apply andb_true_iff in Eb. destruct Eb as [Eb _]. apply Nat.eqb_eq in Eb. split.
  - rewrite (lastv_nth h w i Eb x E). destruct x, e; simpl in Ee; congruence.
  - intros ->. simpl in Hl. lia.
Qed.
Lemma cas_no weak spur h v i e x : cas_read weak spur h v i e = CasNo x ->
  v_ts v <= i /\ i < length h /\ (exists w, nth_error h i = Some (x, w)) /\ (weak = false -> x <> e).
Proof.
  unfold cas_read. destruct (rd h v i) as [[y w]|] eqn:E; [|discriminate]. apply rd_some in E. destruct E as (H1 & E & Hl).
  destruct (mval_eqb y e) eqn:Ee.
  - destruct ((i =? newest h) && negb (weak && spur)); [discriminate|]. destruct weak; [|discriminate]. intros [= <-]. repeat split; eauto. discriminate.
  - intros [= <-]. repeat split; eauto. intros _ ->. destruct e; discriminate.
Qed.

(** ** The invariant *)
Definition fok (h : hist mval) (v : view) : Prop :=
  forall i x w, v_ts v <= i -> nth_error h i = Some (x, w) -> x = MCont -> lastv h = MCont.
Definition holds (h : hist mval) (acc : nat) (v : view) : Prop :=
  fok h v /\ (forall i x w, v_ts v <= i -> nth_error h i = Some (x, w) -> x <> MNone) /\ forall n, n < acc -> In n (accs v).

Record XI (s : xst) (tr : list wevent) : Prop := {
  x_ne : x_h s <> [];
  x_rts : v_ts (rel_of (x_h s)) < length (x_h s);
  x_lts : v_ts (x_lv s) < length (x_h s);
  x_ats : forall a v, In (a, v) (x_act s) -> v_ts v < length (x_h s);
  x_ots : forall v, In v (x_own s) -> v_ts v < length (x_h s);
  x_token : sum (map (fun p => tok (fst p)) (x_act s)) + length (x_own s) = match lastv (x_h s) with MNone => 0 | _ => 1 end;
  x_waits : lastv (x_h s) = MCont <-> x_w s <> [];
  x_lk : sum (map (fun p => lk (fst p)) (x_act s)) = b2n (x_lock s);
  x_fok : fok (x_h s) (x_lv s);
  x_cts : lastv (x_h s) = MCont -> v_ts (x_lv s) = newest (x_h s);
  x_loop : forall o x v, In (ALoop o x, v) (x_act s) -> v_ts (x_lv s) <= v_ts v /\ (forall o', knows (x_lv s) o' = true -> knows v o' = true) /\ (x = MCont -> lastv (x_h s) = MCont);
  x_unlk : forall v, In (AUnlLock, v) (x_act s) -> lastv (x_h s) = MCont;
  x_ha : forall a v, In (a, v) (x_act s) -> tok a = 1 -> holds (x_h s) (x_acc s) v;
  x_ho : forall v, In v (x_own s) -> holds (x_h s) (x_acc s) v;
  x_free : lastv (x_h s) = MNone -> forall n, n < x_acc s -> In n (accs (rel_of (x_h s)));
  x_place : forall o, cnt o (flat_map (fun p => aop (fst p)) (x_act s)) + cnt o (x_w s) = match x_op s o with OStarted => 1 | _ => 0 end;
  x_ka : forall a v o, In (a, v) (x_act s) -> In o (aop a) -> knows v o = true;
  x_kw : forall o, In o (x_w s) -> knows (x_lv s) o = true;
  x_tr : acqs true (api tr) = unls true (api tr) + length (x_own s);
  x_n : x_acc s = naccs tr;
  x_rf : race_free tr
}.

Lemma xi_init : XI x_init [].
Proof.
  constructor; simpl; auto; try discriminate; try lia; try tauto; try (intros; contradiction); try reflexivity.
  - split; [discriminate|congruence].
  - intros i x w _ H. destruct i as [|[|i]]; simpl in H; try discriminate. injection H as <- <-. discriminate.
  - intros t1 n b t2 E. destruct t1; discriminate.
Qed.

Lemma api_snoc tr e : api (tr ++ [EL e]) = api tr ++ [e].
Proof. unfold api. now rewrite flat_map_app. Qed.
Lemma naccs_snoc tr e : naccs (tr ++ [EL e]) = naccs tr.
Proof. unfold naccs. rewrite filter_app, app_length. simpl. lia. Qed.
Lemma rf_snoc tr e : race_free tr -> race_free (tr ++ [EL e]).
Proof.
  intros H t1 n b t2 E. destruct t2 as [|e2 t2] using rev_ind.
  - apply app_inj_tail in E. destruct E as [_ E]. discriminate.
  - rewrite app_comm_cons, app_assoc in E. apply app_inj_tail in E. destruct E as [E _]. exact (H _ _ _ _ E).
Qed.

(** the views of owners only grow in knowledge *)
Lemma holds_mono h acc v v' : holds h acc v -> v_ts v <= v_ts v' -> (forall n, In n (accs v) -> In n (accs v')) -> holds h acc v'.
Proof.
  intros (H1 & H2 & H3) Hle Ha. repeat split.
  - intros i x w Hi. apply H1. lia.
  - intros i x w Hi. apply (H2 i x w). lia.
  - intros n Hn. auto.
Qed.
Lemma fok_mono h v v' : fok h v -> v_ts v <= v_ts v' -> fok h v'.
Proof. intros H1 Hle i x w Hi. apply H1. lia. Qed.

(** ** The view of one call changes, nothing else *)
Lemma xi_move s tr k a v a' v' lock' : XI s tr -> nth_error (x_act s) k = Some (a, v) ->
  aop a' = aop a -> tok a' = tok a -> lk a' + b2n (x_lock s) = lk a + b2n lock' ->
  v_ts v <= v_ts v' -> v_ts v' < length (x_h s) -> (forall n, In n (accs v) -> In n (accs v')) -> (forall o, knows v o = true -> knows v' o = true) ->
  (forall o x, a' = ALoop o x -> v_ts (x_lv s) <= v_ts v' /\ (forall o', knows (x_lv s) o' = true -> knows v' o' = true) /\ (x = MCont -> lastv (x_h s) = MCont)) ->
  (a' = AUnlLock -> lastv (x_h s) = MCont) ->
  XI (XS lock' (x_lv s) (x_h s) (x_w s) (x_op s) (set_nth (x_act s) k (a', v')) (x_own s) (x_acc s)) tr.
Proof.
  intros HI Hk Ho Ht Hl Hts Hlt Hac Hkn H1 H2. pose proof (nth_error_In _ _ Hk) as Hin.
  pose proof (sum_map_set_nth (fun p => tok (fst p)) _ k (a', v') _ Hk) as Et. pose proof (sum_map_set_nth (fun p => lk (fst p)) _ k (a', v') _ Hk) as El.
  cbn [fst] in Et, El.
  destruct HI. constructor; cbn [x_lock x_lv x_h x_w x_op x_act x_own x_acc]; auto.
  - intros b w Hb. apply In_set_nth in Hb. destruct Hb as [[= -> ->]|Hb]; eauto.
  - lia.
  - lia.
  - intros o x w Hb. apply In_set_nth in Hb. destruct Hb as [[= <- <-]|Hb]; [exact (H1 _ _ eq_refl)|exact (x_loop0 _ _ _ Hb)].
  - intros w Hb. apply In_set_nth in Hb. destruct Hb as [[= E1 E2]|Hb]; [exact (H2 (eq_sym E1))|exact (x_unlk0 _ Hb)].
  - intros b w Hb Hb1. apply In_set_nth in Hb. destruct Hb as [[= -> ->]|Hb]; [|eauto]. apply (holds_mono _ _ v); auto. apply (x_ha0 a); auto. congruence.
  - intros o. pose proof (cnt_flat_set (fun p => aop (fst p)) o _ k (a', v') (a, v) Hk) as E. cbn [fst] in E. rewrite Ho in E. specialize (x_place0 o). lia.
  - intros b w o Hb Hob. apply In_set_nth in Hb. destruct Hb as [[= -> ->]|Hb]; [|eauto]. apply Hkn. apply (x_ka0 a v o); auto. congruence.
Qed.

(** ** Holders *)
Lemma no_tok (l : list (mact * view)) : sum (map (fun p => tok (fst p)) l) = 0 -> forall a v, In (a, v) l -> tok a = 0.
Proof. intros H a v Hin. pose proof (sum_map_le (fun p : mact * view => tok (fst p)) _ _ Hin) as Hle. simpl in Hle. lia. Qed.
Lemma no_lk (l : list (mact * view)) : sum (map (fun p => lk (fst p)) l) = 0 -> forall o x v, ~ In (ALoop o x, v) l.
Proof. intros H o x v Hin. pose proof (sum_map_le (fun p : mact * view => lk (fst p)) _ _ Hin) as Hle. simpl in Hle. lia. Qed.
Lemma len0 {A} (l : list A) : length l = 0 -> l = [].
Proof. destruct l; [auto|discriminate]. Qed.
Lemma tok_le1 a : tok a <= 1.
Proof. destruct a; simpl; lia. Qed.

(** the only holder is the call k *)
Lemma only_k s tr k a v : XI s tr -> nth_error (x_act s) k = Some (a, v) -> tok a = 1 ->
  x_own s = [] /\ sum (map (fun p => tok (fst p)) (x_act s)) = 1 /\ lastv (x_h s) <> MNone /\ forall j b w, j <> k -> nth_error (x_act s) j = Some (b, w) -> tok b = 0.
Proof.
  intros HI Hk Ht. pose proof (x_token _ _ HI) as H. pose proof (sum_map_le (fun p : mact * view => tok (fst p)) _ _ (nth_error_In _ _ Hk)) as Hle.
  cbn [fst] in Hle. rewrite Ht in Hle. assert (lastv (x_h s) <> MNone) by (intros E; rewrite E in H; lia).
  assert (length (x_own s) = 0 /\ sum (map (fun p => tok (fst p)) (x_act s)) = 1) as [H1 H2] by (destruct (lastv (x_h s)); try congruence; lia).
  repeat split; auto using len0. intros j b w Hj Hb.
  apply (sum_others (fun p : mact * view => tok (fst p)) _ k (a, v) Hk) with (j := j) (a := (b, w)) in Hj; auto. simpl. lia.
Qed.
Lemma set_nth_cases {A} (l : list A) k x y z : nth_error l k = Some z -> In y (set_nth l k x) -> y = x \/ exists j, j <> k /\ nth_error l j = Some y.
Proof.
  intros Hk H. apply In_nth_error in H. destruct H as [j Hj]. destruct (Nat.eq_dec j k) as [->|Hne].
  - rewrite (nth_error_set_nth_same _ _ _ _ Hk) in Hj. left. congruence.
  - rewrite nth_error_set_nth_other in Hj by auto. right. eauto.
Qed.

(** ** The mutex is acquired: none -> locked, with acquire *)
Lemma fok_push h v x w : fok h v -> lastv h <> MCont -> x <> MCont -> fok (h ++ [(x, w)]) v.
Proof.
  intros H Hn Hx i y u Hi Hy E. subst y. apply nth_snoc_cases in Hy. destruct Hy as [[Hl Hy]|[-> [= E1 E2]]]; [|congruence].
  elim Hn. exact (H i _ _ Hi Hy eq_refl).
Qed.
Lemma holds_new h acc v w : v_ts v = length h -> (forall n, n < acc -> In n (accs v)) -> holds (h ++ [(MLocked, w)]) acc v.
Proof.
  intros Ht Ha. assert (Hx : forall i x u, v_ts v <= i -> nth_error (h ++ [(MLocked, w)]) i = Some (x, u) -> x = MLocked).
  { intros i x u Hi Hy. apply nth_snoc_cases in Hy. destruct Hy as [[Hl Hy]|[-> [= -> ->]]]; [lia|auto]. }
  repeat split; auto.
  - intros i x u Hi Hy E. rewrite (Hx _ _ _ Hi Hy) in E. discriminate.
  - intros i x u Hi Hy E. rewrite (Hx _ _ _ Hi Hy) in E. discriminate.
Qed.


Lemma rmw_ts {A} acq (h : hist A) v : v_ts v < length h -> v_ts (rel_of h) < length h -> v_ts (rmw_view acq h v) = length h.
Proof. intros H1 H2. unfold rmw_view, vsee. cbn [v_ts]. apply Nat.max_r. destruct acq; [unfold vjoin; cbn [v_ts]|]; lia. Qed.
Lemma rmw_len {A} acq rel (h : hist A) v x : length (rmw acq rel h v x) = S (length h).
Proof. unfold rmw. rewrite app_length. simpl. lia. Qed.
Lemma rmw_rel_ts {A} acq rel (h : hist A) v x : v_ts v < length h -> v_ts (rel_of h) < length h -> v_ts (rel_of (rmw acq rel h v x)) < length (rmw acq rel h v x).
Proof.
  intros H1 H2. rewrite rmw_len. unfold rmw. rewrite rel_snoc. destruct rel; [|lia].
  unfold vjoin. cbn [v_ts]. rewrite (rmw_ts acq h v); auto. lia.
Qed.
Lemma rmw_accs {A} acq (h : hist A) v n : In n (accs (rmw_view acq h v)) <-> In n (accs v) \/ (acq = true /\ In n (accs (rel_of h))).
Proof. unfold rmw_view. rewrite accs_see. destruct acq; [rewrite accs_join|]; intuition congruence. Qed.
Lemma rmw_knows {A} acq (h : hist A) v o : knows v o = true -> knows (rmw_view acq h v) o = true.
Proof. intros H. unfold rmw_view. rewrite knows_see. destruct acq; auto. rewrite knows_join, H. reflexivity. Qed.

(** what does not depend on who acquires *)
Lemma acquire_common s tr v lock' lv' act' own' tr' : XI s tr -> lastv (x_h s) = MNone -> v_ts v < length (x_h s) ->
  let h1 := rmw true false (x_h s) v MLocked in
  let v1 := rmw_view true (x_h s) v in
  v_ts (x_lv s) <= v_ts lv' <= length (x_h s) -> (forall o, knows (x_lv s) o = true -> knows lv' o = true) ->
  (forall a w, In (a, w) act' -> (a, w) = (a, v1) /\ tok a = 1 /\ lk a = 0 /\ a <> AUnlLock \/ In (a, w) (x_act s)) ->
  (forall w, In w own' -> w = v1) ->
  sum (map (fun p => tok (fst p)) act') + length own' = 1 ->
  sum (map (fun p => lk (fst p)) act') = b2n lock' ->
  (lv' = x_lv s \/ lock' = false) ->
  (forall o, cnt o (flat_map (fun p => aop (fst p)) act') = cnt o (flat_map (fun p => aop (fst p)) (x_act s))) ->
  (forall a w o, In (a, w) act' -> In o (aop a) -> knows w o = true) ->
  acqs true (api tr') = unls true (api tr') + length own' -> naccs tr' = naccs tr -> race_free tr' ->
  XI (XS lock' lv' h1 (x_w s) (x_op s) act' own' (x_acc s)) tr'.
Proof.
  intros HI Hst Hv h1 v1 Hlv Hkl Hact Hown Htok Hlk Hlv' Hpl Hka Htr Hn Hrf.
  pose proof (rmw_ts true (x_h s) v Hv (x_rts _ _ HI)) as Hts. fold v1 in Hts.
  assert (Hno : sum (map (fun p => tok (fst p)) (x_act s)) = 0) by (pose proof (x_token _ _ HI) as E; rewrite Hst in E; lia).
  assert (Hw : x_w s = []). { destruct (x_w s) eqn:E; auto. assert (lastv (x_h s) = MCont) by (apply (x_waits _ _ HI); rewrite E; discriminate). congruence. }
  assert (Hh1 : forall a w, In (a, w) act' -> v_ts w <= length (x_h s)).
  { intros a w H. destruct (Hact _ _ H) as [([= ->] & _)|H']; [lia|]. pose proof (x_ats _ _ HI _ _ H'). lia. }
  assert (Hacc : forall n, n < x_acc s -> In n (accs v1)). { intros n H. apply rmw_accs. right. split; auto. apply (x_free _ _ HI Hst n H). }
  assert (Hhold : holds h1 (x_acc s) v1) by (apply holds_new; auto).
  assert (Hl1 : lastv h1 = MLocked) by apply lastv_snoc.
  constructor; cbn [x_lock x_lv x_h x_w x_op x_act x_own x_acc].
  - unfold h1, rmw. intros E. apply app_eq_nil in E. destruct E. discriminate.
  - apply rmw_rel_ts; auto. apply HI.
  - unfold h1. rewrite rmw_len. lia.
  - intros a w H. unfold h1. rewrite rmw_len. specialize (Hh1 _ _ H). lia.
  - intros w H. unfold h1. rewrite rmw_len. rewrite (Hown w H). lia.
  - rewrite Hl1. lia.
  - rewrite Hl1, Hw. split; [discriminate|congruence].
  - exact Hlk.
  - apply fok_push; try congruence. apply (fok_mono _ (x_lv s)); [apply HI|lia].
  - rewrite Hl1. discriminate.
  - intros o x w H. destruct (Hact _ _ H) as [(_ & _ & E & _)|H']; [discriminate|]. destruct Hlv' as [->|E].
    + destruct (x_loop _ _ HI _ _ _ H') as (E1 & E2 & E3). repeat split; auto. intros E. specialize (E3 E). congruence.
    + elim (no_lk act' ltac:(rewrite Hlk, E; reflexivity) _ _ _ H).
  - intros w H. destruct (Hact _ _ H) as [(_ & _ & _ & E)|H']; [congruence|]. apply (x_unlk _ _ HI) in H'. congruence.
  - intros a w H Ht. destruct (Hact _ _ H) as [([= ->] & _)|H']; auto. pose proof (no_tok _ Hno _ _ H'). lia.
  - intros w H. rewrite (Hown w H). exact Hhold.
  - rewrite Hl1. discriminate.
  - intros o. rewrite Hpl. apply HI.
  - exact Hka.
  - rewrite Hw. intros o [].
  - exact Htr.
  - rewrite Hn. apply HI.
  - exact Hrf.
Qed.

Lemma act_acquire s tr v k a o (act := x_act s) : XI s tr -> nth_error act k = Some (a, v) -> lastv (x_h s) = MNone -> (a = ATry o \/ exists x, a = ALoop o x) ->
  let v1 := rmw_view true (x_h s) v in
  let act' := set_nth act k (ASet o, v1) in
  (forall b w, In (b, w) act' -> (b, w) = (b, v1) /\ tok b = 1 /\ lk b = 0 /\ b <> AUnlLock \/ In (b, w) act) /\
  sum (map (fun p => tok (fst p)) act') + length (x_own s) = 1 /\ x_own s = [] /\
  sum (map (fun p => lk (fst p)) act') + lk a = b2n (x_lock s) /\
  (forall o', cnt o' (flat_map (fun p => aop (fst p)) act') = cnt o' (flat_map (fun p => aop (fst p)) act)) /\
  (forall b w o', In (b, w) act' -> In o' (aop b) -> knows w o' = true).
Proof.
  intros HI Hk Hst Ha v1 act'. pose proof (x_token _ _ HI) as Htok. rewrite Hst in Htok.
  pose proof (sum_map_set_nth (fun p => tok (fst p)) _ k (ASet o, v1) _ Hk) as Et. pose proof (sum_map_set_nth (fun p => lk (fst p)) _ k (ASet o, v1) _ Hk) as El.
  cbn [fst] in Et, El. assert (Hta : tok a = 0) by (destruct Ha as [->|[x ->]]; reflexivity). assert (Hao : aop a = [o]) by (destruct Ha as [->|[x ->]]; reflexivity).
  pose proof (x_lk _ _ HI) as Hlk. unfold act' in *. fold act in Htok, Hlk. cbn [tok lk] in *. repeat split.
  - intros b w H. apply In_set_nth in H. destruct H as [[= -> ->]|H]; [left|now right]. repeat split; auto. discriminate.
  - lia.
  - apply len0. lia.
  - lia.
  - intros o'. pose proof (cnt_flat_set (fun p => aop (fst p)) o' _ k (ASet o, v1) (a, v) Hk) as E. cbn [fst] in E. rewrite Hao in E. cbn [aop] in E. lia.
  - intros b w o' H Ho. apply In_set_nth in H. destruct H as [[= -> ->]|H].
    + apply rmw_knows. apply (x_ka _ _ HI a v o' (nth_error_In _ _ Hk)). rewrite Hao. exact Ho.
    + exact (x_ka _ _ HI _ _ _ H Ho).
Qed.

(** ** The owner releases the mutex: locked -> none, with release *)
Lemma xi_release s tr k v : XI s tr -> nth_error (x_act s) k = Some (AUnlCas, v) -> lastv (x_h s) = MLocked ->
  XI (XS (x_lock s) (x_lv s) (rmw false true (x_h s) v MNone) (x_w s) (x_op s) (set_nth (x_act s) k (AEnd, rmw_view false (x_h s) v)) (x_own s) (x_acc s)) tr.
Proof.
  intros HI Hk Hst. pose proof (nth_error_In _ _ Hk) as Hin. destruct (only_k _ _ _ _ _ HI Hk eq_refl) as (Hown & Hsum & _ & _).
  pose proof (x_ats _ _ HI _ _ Hin) as Hv. pose proof (rmw_ts false (x_h s) v Hv (x_rts _ _ HI)) as Hts. set (v1 := rmw_view false (x_h s) v) in *.
  pose proof (sum_map_set_nth (fun p => tok (fst p)) _ k (AEnd, v1) _ Hk) as Et. pose proof (sum_map_set_nth (fun p => lk (fst p)) _ k (AEnd, v1) _ Hk) as El.
  cbn [fst tok lk] in Et, El.
  assert (Hw : x_w s = []). { destruct (x_w s) eqn:E; auto. assert (lastv (x_h s) = MCont) by (apply (x_waits _ _ HI); rewrite E; discriminate). congruence. }
  set (h1 := rmw false true (x_h s) v MNone). assert (Hl1 : lastv h1 = MNone) by apply lastv_snoc.
  assert (Hno : forall a w, In (a, w) (set_nth (x_act s) k (AEnd, v1)) -> tok a = 0) by (apply no_tok; lia).
  constructor; cbn [x_lock x_lv x_h x_w x_op x_act x_own x_acc]; try apply HI.
  - unfold h1, rmw. intros E. apply app_eq_nil in E. destruct E. discriminate.
  - apply rmw_rel_ts; auto. apply HI.
  - unfold h1. rewrite rmw_len. pose proof (x_lts _ _ HI). lia.
  - intros a w H. unfold h1. rewrite rmw_len. apply In_set_nth in H. destruct H as [[= -> ->]|H]; [lia|]. pose proof (x_ats _ _ HI _ _ H). lia.
  - rewrite Hown. intros w [].
  - rewrite Hl1, Hown. cbn [length]. lia.
  - rewrite Hl1, Hw. split; [discriminate|congruence].
  - rewrite <- (x_lk _ _ HI). lia.
  - apply fok_push; try congruence. apply HI.
  - rewrite Hl1. discriminate.
  - intros o x w H. apply In_set_nth in H. destruct H as [H|H]; [discriminate|]. destruct (x_loop _ _ HI _ _ _ H) as (E1 & E2 & E3). repeat split; auto. intros E. specialize (E3 E). congruence.
  - intros w H. apply In_set_nth in H. destruct H as [H|H]; [discriminate|]. apply (x_unlk _ _ HI) in H. congruence.
  - intros a w H Ht. pose proof (Hno _ _ H). lia.
  - rewrite Hown. intros w [].
  - intros _ n Hn. unfold h1, rmw. rewrite rel_snoc. apply accs_join. right. apply rmw_accs. left. apply (x_ha _ _ HI _ _ Hin eq_refl). exact Hn.
  - intros o. pose proof (cnt_flat_set (fun p => aop (fst p)) o _ k (AEnd, v1) _ Hk) as E. cbn [fst aop] in E. rewrite cnt_nil in E. pose proof (x_place _ _ HI o). lia.
  - intros b w o H Ho. apply In_set_nth in H. destruct H as [[= -> ->]|H]; [destruct Ho|]. exact (x_ka _ _ HI _ _ _ H Ho).
Qed.

(** ** Suspension *)
Lemma holds_cont h acc v w : holds h acc v -> holds (h ++ [(MCont, w)]) acc v.
Proof.
  intros (H1 & H2 & H3). repeat split; auto.
  - intros i x u _ _ _. apply lastv_snoc.
  - intros i x u Hi Hy. apply nth_snoc_cases in Hy. destruct Hy as [[Hl Hy]|[-> [= E1 E2]]]; [exact (H2 _ _ _ Hi Hy)|congruence].
Qed.

Lemma xi_susp s tr k v v1 h1 o x : XI s tr -> nth_error (x_act s) k = Some (ALoop o x, v) ->
  (h1 = x_h s /\ v1 = v /\ lastv (x_h s) = MCont) \/ (h1 = rmw false false (x_h s) v MCont /\ v1 = rmw_view false (x_h s) v /\ lastv (x_h s) = MLocked) ->
  XI (XS false v1 h1 (x_w s ++ [o]) (x_op s) (set_nth (x_act s) k (AEnd, v1)) (x_own s) (x_acc s)) (tr ++ [EL (ESusp o)]).
Proof.
  intros HI Hk Hc. pose proof (nth_error_In _ _ Hk) as Hin. pose proof (x_ats _ _ HI _ _ Hin) as Hv.
  destruct (x_loop _ _ HI _ _ _ Hin) as (Hlt & Hlk & _).
  assert (Hkv : forall o', knows v o' = true -> knows v1 o' = true) by (destruct Hc as [(_ & -> & _)|(_ & -> & _)]; auto using rmw_knows).
  assert (Hko : knows v1 o = true). { apply Hkv. apply (x_ka _ _ HI _ _ o Hin). simpl. auto. }
  assert (Hne : h1 <> []). { destruct Hc as [(-> & _)|(-> & _)]; [apply HI|]. unfold rmw. intros E. apply app_eq_nil in E. destruct E. discriminate. }
  assert (Hlen : length (x_h s) <= length h1). { destruct Hc as [(-> & _)|(-> & _)]; [lia|rewrite rmw_len; lia]. }
  assert (Hl1 : lastv h1 = MCont). { destruct Hc as [(-> & _ & E)|(-> & _ & _)]; [auto|apply lastv_snoc]. }
  assert (Hst : lastv (x_h s) <> MNone). { destruct Hc as [(_ & _ & E)|(_ & _ & E)]; congruence. }
  assert (Hts : v_ts v1 = newest h1).
  { destruct Hc as [(-> & -> & E)|(-> & -> & _)].
    - pose proof (x_cts _ _ HI E). pose proof (newest_lt _ Hne). unfold newest in *. lia.
    - unfold rmw. rewrite newest_snoc. apply rmw_ts; auto. apply HI. }
  assert (Hrel : v_ts (rel_of h1) < length h1). { destruct Hc as [(-> & _)|(-> & _)]; [apply HI|]. apply rmw_rel_ts; auto. apply HI. }
  assert (Hlk1 : sum (map (fun p => lk (fst p)) (set_nth (x_act s) k (AEnd, v1))) = 0).
  { pose proof (sum_map_set_nth (fun p => lk (fst p)) _ k (AEnd, v1) _ Hk) as El. cbn [fst lk] in El. pose proof (x_lk _ _ HI) as E. destruct (x_lock s); simpl in E; lia. }
  assert (Hhold : forall w, holds (x_h s) (x_acc s) w -> holds h1 (x_acc s) w). { intros w H. destruct Hc as [(-> & _)|(-> & _)]; auto using holds_cont. apply holds_cont. exact H. }
  pose proof (newest_lt _ Hne) as Hnl. pose proof (sum_map_set_nth (fun p => tok (fst p)) _ k (AEnd, v1) _ Hk) as Et. cbn [fst tok] in Et.
  constructor; cbn [x_lock x_lv x_h x_w x_op x_act x_own x_acc]; auto.
  - lia.
  - intros a w H. apply In_set_nth in H. destruct H as [[= -> ->]|H]; [lia|]. pose proof (x_ats _ _ HI _ _ H). lia.
  - intros w H. pose proof (x_ots _ _ HI _ H). lia.
  - rewrite Hl1. pose proof (x_token _ _ HI) as E. destruct (lastv (x_h s)); try congruence; lia.
  - rewrite Hl1. split; [|auto]. intros _ E. apply app_eq_nil in E. destruct E. discriminate.
  - intros i y w _ _ _. exact Hl1.
  - intros o' y w H. elim (no_lk _ Hlk1 _ _ _ H).
  - intros a w H Ht. apply Hhold. apply In_set_nth in H. destruct H as [[= -> ->]|H]; [discriminate|]. exact (x_ha _ _ HI _ _ H Ht).
  - intros w H. apply Hhold. exact (x_ho _ _ HI _ H).
  - rewrite Hl1. discriminate.
  - intros o'. pose proof (cnt_flat_set (fun p => aop (fst p)) o' _ k (AEnd, v1) _ Hk) as E. cbn [fst aop] in E. rewrite cnt_nil in E.
    rewrite cnt_app. pose proof (x_place _ _ HI o'). lia.
  - intros b w o' H Ho. apply In_set_nth in H. destruct H as [[= -> ->]|H]; [destruct Ho|]. exact (x_ka _ _ HI _ _ _ H Ho).
  - intros o' H. apply In_snoc in H. destruct H as [H| ->]; [|exact Hko]. apply Hkv, Hlk. exact (x_kw _ _ HI _ H).
  - rewrite api_snoc, acqs_app, unls_app. pose proof (x_tr _ _ HI). cbn. lia.
  - rewrite naccs_snoc. apply HI.
  - apply rf_snoc. apply HI.
Qed.

(** ** Hand-off *)
Lemma xi_handoff s tr k v o w v2 h1 : XI s tr -> nth_error (x_act s) k = Some (AUnlLock, v) -> x_lock s = false -> x_w s = o :: w ->
  (let v1 := vjoin v (x_lv s) in
   (w = [] /\ h1 = store_rlx (x_h s) MLocked /\ v2 = vsee v1 (length (x_h s))) \/ (w <> [] /\ h1 = x_h s /\ v2 = v1)) ->
  XI (XS false v2 h1 w (x_op s) (set_nth (x_act s) k (AUnlNext o, v2)) (x_own s) (x_acc s)) (tr ++ [EL (EHand o)]).
Proof.
  intros HI Hk Hlock Hw Hc. cbv zeta in Hc. pose proof (nth_error_In _ _ Hk) as Hin. pose proof (x_ats _ _ HI _ _ Hin) as Hv.
  destruct (only_k _ _ _ _ _ HI Hk eq_refl) as (Hown & Hsum & Hst & Hoth). pose proof (x_unlk _ _ HI _ Hin) as Hcont.
  pose proof (x_cts _ _ HI Hcont) as Hcts. pose proof (newest_lt _ (x_ne _ _ HI)) as Hnl.
  assert (Hk2 : forall o', knows v o' = true \/ knows (x_lv s) o' = true -> knows v2 o' = true).
  { intros o' H. assert (E : knows (vjoin v (x_lv s)) o' = true) by (rewrite knows_join; destruct H as [-> | ->]; auto with bool). destruct Hc as [(_ & _ & ->)|(_ & _ & ->)]; auto. }
  assert (Ha2 : forall n, In n (accs v) -> In n (accs v2)).
  { intros n H. assert (E : In n (accs (vjoin v (x_lv s)))) by (apply accs_join; auto). destruct Hc as [(_ & _ & ->)|(_ & _ & ->)]; auto. }
  assert (Hne : h1 <> []). { destruct Hc as [(_ & -> & _)|(_ & -> & _)]; [|apply HI]. unfold store_rlx. intros E. apply app_eq_nil in E. destruct E. discriminate. }
  assert (Hlen : length (x_h s) <= length h1). { destruct Hc as [(_ & -> & _)|(_ & -> & _)]; [unfold store_rlx; rewrite app_length; simpl; lia|lia]. }
  assert (Hts : v_ts v2 = newest h1).
  { destruct Hc as [(_ & -> & ->)|(_ & -> & ->)].
    - unfold store_rlx. rewrite newest_snoc. unfold vsee, vjoin. cbn [v_ts]. lia.
    - unfold vjoin. cbn [v_ts]. unfold newest in *. lia. }
  pose proof (newest_lt _ Hne) as Hnl1.
  assert (Hl1 : (w = [] /\ lastv h1 = MLocked) \/ (w <> [] /\ lastv h1 = MCont)).
  { destruct Hc as [(E & -> & _)|(E & -> & _)]; [left|right]; split; auto. apply lastv_snoc. }
  assert (Hhold : holds h1 (x_acc s) v2).
  { destruct (x_ha _ _ HI _ _ Hin eq_refl) as (F1 & F2 & F3). destruct Hc as [(_ & -> & ->)|(_ & -> & ->)].
    - apply holds_new; [|auto]. unfold vsee, vjoin. cbn [v_ts]. lia.
    - apply (holds_mono _ _ v); auto; [repeat split; auto|unfold vjoin; cbn [v_ts]; lia]. }
  assert (Hlk1 : sum (map (fun p => lk (fst p)) (set_nth (x_act s) k (AUnlNext o, v2))) = 0).
  { pose proof (sum_map_set_nth (fun p => lk (fst p)) _ k (AUnlNext o, v2) _ Hk) as El. cbn [fst lk] in El. pose proof (x_lk _ _ HI) as E. rewrite Hlock in E. simpl in E; lia. }
  pose proof (sum_map_set_nth (fun p => tok (fst p)) _ k (AUnlNext o, v2) _ Hk) as Et. cbn [fst tok] in Et.
  constructor; cbn [x_lock x_lv x_h x_w x_op x_act x_own x_acc]; auto.
  - destruct Hc as [(_ & -> & _)|(_ & -> & _)]; [|apply HI]. unfold store_rlx. rewrite rel_snoc, app_length. simpl. lia.
  - lia.
  - intros a u H. apply In_set_nth in H. destruct H as [[= -> ->]|H]; [lia|]. pose proof (x_ats _ _ HI _ _ H). lia.
  - intros u H. pose proof (x_ots _ _ HI _ H). lia.
  - rewrite Hown. cbn [length]. destruct Hl1 as [(_ & ->)|(_ & ->)]; lia.
  - destruct Hl1 as [(-> & ->)|(E & ->)]; split; congruence.
  - apply Hhold.
  - intros o' x u H. elim (no_lk _ Hlk1 _ _ _ H).
  - intros u H. apply (set_nth_cases _ _ _ _ _ Hk) in H. destruct H as [H|(j & Hj & H)]; [discriminate|]. specialize (Hoth _ _ _ Hj H). discriminate.
  - intros a u H Ht. apply (set_nth_cases _ _ _ _ _ Hk) in H. destruct H as [[= -> ->]|(j & Hj & H)]; auto. specialize (Hoth _ _ _ Hj H). lia.
  - rewrite Hown. intros u [].
  - intros E. destruct Hl1 as [(_ & E')|(_ & E')]; congruence.
  - intros o'. pose proof (cnt_flat_set (fun p => aop (fst p)) o' _ k (AUnlNext o, v2) _ Hk) as E. cbn [fst aop] in E. rewrite cnt_nil in E.
    pose proof (x_place _ _ HI o') as E2. rewrite Hw in E2. rewrite cnt_cons in E, E2. rewrite cnt_nil in E. lia.
  - intros b u o' H Ho. apply In_set_nth in H. destruct H as [[= -> ->]|H]; [|exact (x_ka _ _ HI _ _ _ H Ho)].
    apply Hk2. right. apply (x_kw _ _ HI). rewrite Hw. destruct Ho as [<-|[]]. now left.
  - intros o' H. apply Hk2. right. apply (x_kw _ _ HI). rewrite Hw. now right.
  - rewrite api_snoc, acqs_app, unls_app. pose proof (x_tr _ _ HI). cbn. lia.
  - rewrite naccs_snoc. apply HI.
  - apply rf_snoc. apply HI.
Qed.

(** ** Notification *)
Lemma xi_notify s tr k a v o : XI s tr -> nth_error (x_act s) k = Some (a, v) -> (a = ASet o \/ a = AUnlNext o) ->
  XI (XS (x_lock s) (x_lv s) (x_h s) (x_w s) (upd (x_op s) o ODone) (set_nth (x_act s) k (AEnd, v)) (x_own s ++ [v]) (x_acc s)) (tr ++ [EL (EAcq o true)]).
Proof.
  intros HI Hk Ha. pose proof (nth_error_In _ _ Hk) as Hin. assert (Hta : tok a = 1 /\ lk a = 0 /\ aop a = [o]) by (destruct Ha as [-> | ->]; auto).
  destruct Hta as (Hta & Hla & Hoa). pose proof (sum_map_set_nth (fun p => tok (fst p)) _ k (AEnd, v) _ Hk) as Et. pose proof (sum_map_set_nth (fun p => lk (fst p)) _ k (AEnd, v) _ Hk) as El.
  cbn [fst tok lk] in Et, El. constructor; cbn [x_lock x_lv x_h x_w x_op x_act x_own x_acc]; try apply HI.
  - intros b w H. apply In_set_nth in H. destruct H as [[= -> ->]|H]; apply HI with (1 := H) || apply HI with (1 := Hin).
  - intros w H. apply In_snoc in H. destruct H as [H| ->]; [apply HI with (1 := H)|apply HI with (1 := Hin)].
  - rewrite app_length. cbn [length]. pose proof (x_token _ _ HI). lia.
  - rewrite <- (x_lk _ _ HI). lia.
  - intros o' x w H. apply In_set_nth in H. destruct H as [H|H]; [discriminate|]. exact (x_loop _ _ HI _ _ _ H).
  - intros w H. apply In_set_nth in H. destruct H as [H|H]; [discriminate|]. exact (x_unlk _ _ HI _ H).
  - intros b w H Ht. apply In_set_nth in H. destruct H as [[= -> ->]|H]; [discriminate|]. exact (x_ha _ _ HI _ _ H Ht).
  - intros w H. apply In_snoc in H. destruct H as [H| ->]; [exact (x_ho _ _ HI _ H)|exact (x_ha _ _ HI _ _ Hin Hta)].
  - intros o'. pose proof (cnt_flat_set (fun p => aop (fst p)) o' _ k (AEnd, v) _ Hk) as E. cbn [fst aop] in E. rewrite cnt_nil, Hoa in E.
    pose proof (x_place _ _ HI o') as E2. rewrite cnt_cons, cnt_nil in E. unfold upd. destruct (Nat.eqb_spec o' o) as [->|Hne].
    + destruct (Nat.eq_dec o o) as [_|]; [|congruence]. destruct (x_op s o); lia.
    + destruct (Nat.eq_dec o o'); [congruence|]. lia.
  - intros b w o' H Ho. apply In_set_nth in H. destruct H as [[= -> ->]|H]; [destruct Ho|]. exact (x_ka _ _ HI _ _ _ H Ho).
  - rewrite api_snoc, acqs_app, unls_app, app_length. pose proof (x_tr _ _ HI). cbn in *. lia.
  - rewrite naccs_snoc. apply HI.
  - apply rf_snoc. apply HI.
Qed.

(** ** Calls of the clients *)
Lemma xi_start s tr o v : XI s tr -> x_op s o = OIdle -> v_ts v < length (x_h s) ->
  XI (XS (x_lock s) (x_lv s) (x_h s) (x_w s) (upd (x_op s) o OStarted) (x_act s ++ [(ATry o, vadd v (TObj o))]) (x_own s) (x_acc s)) (tr ++ [EL (EStart o true)]).
Proof.
  intros HI Ho Hv. constructor; cbn [x_lock x_lv x_h x_w x_op x_act x_own x_acc]; try apply HI.
  - intros a w H. apply In_snoc in H. destruct H as [H|[= -> ->]]; [apply HI with (1 := H)|exact Hv].
  - rewrite map_app, sum_app. cbn. pose proof (x_token _ _ HI). lia.
  - rewrite map_app, sum_app. cbn. pose proof (x_lk _ _ HI). lia.
  - intros o' x w H. apply In_snoc in H. destruct H as [H|H]; [exact (x_loop _ _ HI _ _ _ H)|discriminate].
  - intros w H. apply In_snoc in H. destruct H as [H|H]; [exact (x_unlk _ _ HI _ H)|discriminate].
  - intros a w H Ht. apply In_snoc in H. destruct H as [H|[= -> ->]]; [exact (x_ha _ _ HI _ _ H Ht)|discriminate].
  - intros o'. rewrite flat_map_app, cnt_app. cbn [flat_map fst aop]. rewrite app_nil_r, cnt_cons, cnt_nil. pose proof (x_place _ _ HI o') as E.
    unfold upd. destruct (Nat.eqb_spec o' o) as [->|Hne].
    + rewrite Ho in E. destruct (Nat.eq_dec o o); [lia|congruence].
    + destruct (Nat.eq_dec o o'); [congruence|]. lia.
  - intros a w o' H Hin. apply In_snoc in H. destruct H as [H|[= -> ->]]; [exact (x_ka _ _ HI _ _ _ H Hin)|].
    destruct Hin as [->|[]]. unfold knows, vadd. cbn [v_tok existsb]. now rewrite Nat.eqb_refl.
  - rewrite api_snoc, acqs_app, unls_app. pose proof (x_tr _ _ HI). cbn. lia.
  - rewrite naccs_snoc. apply HI.
  - apply rf_snoc. apply HI.
Qed.

Lemma nth_remove {A} (l : list A) j x : nth_error l j = Some x -> length l = S (length (firstn j l ++ skipn (S j) l)) /\ forall y, In y (firstn j l ++ skipn (S j) l) -> In y l.
Proof.
  revert j. induction l as [|h t IH]; intros j H; [destruct j; discriminate|]. destruct j as [|j]; simpl in *.
  - auto.
  - destruct (IH _ H) as [H1 H2]. split; [lia|]. intros y [->|Hy]; auto.
Qed.

Lemma xi_unlock s tr j v : XI s tr -> nth_error (x_own s) j = Some v ->
  XI (XS (x_lock s) (x_lv s) (x_h s) (x_w s) (x_op s) (x_act s ++ [(AUnl, v)]) (firstn j (x_own s) ++ skipn (S j) (x_own s)) (x_acc s)) (tr ++ [EL (EUnlock true)]).
Proof.
  intros HI Hj. pose proof (nth_error_In _ _ Hj) as Hin. destruct (nth_remove _ _ _ Hj) as [Hlen Hsub]. set (own' := firstn j (x_own s) ++ skipn (S j) (x_own s)) in *.
  constructor; cbn [x_lock x_lv x_h x_w x_op x_act x_own x_acc]; try apply HI.
  - intros a w H. apply In_snoc in H. destruct H as [H|[= -> ->]]; [apply HI with (1 := H)|exact (x_ots _ _ HI _ Hin)].
  - intros w H. exact (x_ots _ _ HI _ (Hsub _ H)).
  - rewrite map_app, sum_app. cbn. pose proof (x_token _ _ HI). lia.
  - rewrite map_app, sum_app. cbn. pose proof (x_lk _ _ HI). lia.
  - intros o' x w H. apply In_snoc in H. destruct H as [H|H]; [exact (x_loop _ _ HI _ _ _ H)|discriminate].
  - intros w H. apply In_snoc in H. destruct H as [H|H]; [exact (x_unlk _ _ HI _ H)|discriminate].
  - intros a w H Ht. apply In_snoc in H. destruct H as [H|[= -> ->]]; [exact (x_ha _ _ HI _ _ H Ht)|exact (x_ho _ _ HI _ Hin)].
  - intros w H. exact (x_ho _ _ HI _ (Hsub _ H)).
  - intros o'. rewrite flat_map_app, cnt_app. cbn [flat_map fst aop app]. rewrite cnt_nil. pose proof (x_place _ _ HI o') as E. lia.
  - intros a w o' H Hi. apply In_snoc in H. destruct H as [H|[= -> ->]]; [exact (x_ka _ _ HI _ _ _ H Hi)|destruct Hi].
  - rewrite api_snoc, acqs_app, unls_app. pose proof (x_tr _ _ HI). cbn in *. lia.
  - rewrite naccs_snoc. apply HI.
  - apply rf_snoc. apply HI.
Qed.

Lemma one_owner s tr j v : XI s tr -> nth_error (x_own s) j = Some v -> x_own s = [v] /\ j = 0 /\ forall a w, In (a, w) (x_act s) -> tok a = 0.
Proof.
  intros HI Hj. pose proof (x_token _ _ HI) as E. assert (Hl : j < length (x_own s)) by (apply nth_error_Some; congruence).
  assert (H1 : length (x_own s) = 1 /\ sum (map (fun p => tok (fst p)) (x_act s)) = 0) by (destruct (lastv (x_h s)); lia). destruct H1 as [H1 H2].
  destruct (x_own s) as [|u [|u2 l]]; try discriminate. destruct j as [|j]; [|simpl in Hl; lia]. injection Hj as ->. split; auto. split; auto. apply no_tok; auto.
Qed.

Lemma xi_access s tr j v : XI s tr -> nth_error (x_own s) j = Some v ->
  XI (XS (x_lock s) (x_lv s) (x_h s) (x_w s) (x_op s) (x_act s) (set_nth (x_own s) j (vadd v (TData (x_acc s)))) (S (x_acc s))) (tr ++ [EAcc (x_acc s) (accs v)]).
Proof.
  intros HI Hj. destruct (one_owner _ _ _ _ HI Hj) as (Hown & -> & Hno). pose proof (x_ho _ _ HI v ltac:(rewrite Hown; now left)) as Hh.
  assert (Hst : lastv (x_h s) <> MNone). { intros E. pose proof (x_token _ _ HI) as E2. rewrite E, Hown in E2. cbn in E2. lia. }
  rewrite Hown. cbn [set_nth]. assert (Hapi : api (tr ++ [EAcc (x_acc s) (accs v)]) = api tr) by (unfold api; rewrite flat_map_app; apply app_nil_r).
  constructor; cbn [x_lock x_lv x_h x_w x_op x_act x_own x_acc]; try apply HI.
  - intros w [<-|[]]. cbn. apply (x_ots _ _ HI). rewrite Hown. now left.
  - pose proof (x_token _ _ HI) as E. rewrite Hown in E. exact E.
  - intros a w H Ht. rewrite (Hno _ _ H) in Ht. discriminate.
  - intros w [<-|[]]. destruct Hh as (H1 & H2 & H3). repeat split; auto. intros n Hn. cbn. destruct (Nat.eq_dec n (x_acc s)) as [->|]; [now left|right]. apply H3. lia.
  - intros E. congruence.
  - rewrite Hapi. pose proof (x_tr _ _ HI) as E. rewrite Hown in E. exact E.
  - unfold naccs. rewrite filter_app, app_length. cbn. pose proof (x_n _ _ HI). unfold naccs in *. lia.
  - intros t1 n b t2 E. destruct t2 as [|e2 t2] using rev_ind.
    + apply app_inj_tail in E. destruct E as [<- [= <- <-]]. split; [apply HI|]. apply Hh.
    + rewrite app_comm_cons, app_assoc in E. apply app_inj_tail in E. destruct E as [E _]. exact (x_rf _ _ HI _ _ _ _ E).
Qed.

(** ** All steps *)
Lemma x_guard_next s v l r s' es : x_guard s v l r = Next s' es -> r = Next s' es.
Proof. unfold x_guard, x_ok. destruct (negb (forallb (alive (x_op s)) l)); [discriminate|]. destruct (negb (forallb (knows v) l)); [discriminate|auto]. Qed.
Lemma x_guard_ok s v l r : (forall o, In o l -> x_op s o = OStarted) -> (forall o, In o l -> knows v o = true) -> x_guard s v l r = r.
Proof.
  intros H1 H2. unfold x_guard, x_ok. rewrite (proj2 (forallb_forall (alive (x_op s)) l)) by (intros o Ho; unfold alive; now rewrite (H1 o Ho)).
  rewrite (proj2 (forallb_forall (knows v) l)) by auto. reflexivity.
Qed.
Lemma vsee_le v i : v_ts v <= v_ts (vsee v i).
Proof. cbn. lia. Qed.

Lemma xi_act s tr k i spur a v s' es : XI s tr -> nth_error (x_act s) k = Some (a, v) -> x_act_step s k i spur a v = Next s' es -> XI s' (tr ++ es).
Proof.
  intros HI Hk H. pose proof (nth_error_In _ _ Hk) as Hin. pose proof (x_ats _ _ HI _ _ Hin) as Hv. unfold x_act_step in H.
  destruct a as [o|o|o x|o| | | |o|]; try discriminate.
  - destruct (cas_read false false (x_h s) v i MNone) as [|x|] eqn:Ec; try discriminate; injection H as <- <-; rewrite app_nil_r.
    + apply cas_ok in Ec. destruct Ec as [Hst _].
      destruct (act_acquire _ _ _ _ _ o HI Hk Hst ltac:(auto)) as (A1 & A2 & A3 & A4 & A5 & A6). cbv zeta in *.
      unfold x_set, x_hist. cbn [x_lock x_lv x_h x_w x_op x_act x_own x_acc].
      pose proof (x_lts _ _ HI). eapply acquire_common; eauto; try apply HI.
      * lia.
      * rewrite A3. intros w [].
      * cbn in A4. lia.
    + apply cas_no in Ec. destruct Ec as (E1 & E2 & _). unfold x_set. eapply xi_move; eauto; try discriminate; cbn; auto; try lia.
  - destruct (x_lock s) eqn:El; [discriminate|]. destruct (rd (x_h s) (vjoin v (x_lv s)) i) as [[x w]|] eqn:Er; [|discriminate].
    injection H as <- <-. rewrite app_nil_r. apply rd_some in Er. destruct Er as (E1 & E2 & E3). unfold x_set, x_locked. cbn [x_lock x_lv x_h x_w x_op x_act x_own x_acc].
    cbn in E1. eapply xi_move; eauto; try discriminate.
    + rewrite El. reflexivity.
    + cbn. lia.
    + cbn. lia.
    + intros n Hn. rewrite accs_see. apply accs_join. auto.
    + intros o' Ho. rewrite knows_see, knows_join, Ho. reflexivity.
    + intros o' y [= <- <-]. repeat split.
      * cbn. lia.
      * intros o' Ho. rewrite knows_see, knows_join, Ho. apply orb_true_r.
      * intros ->. apply (x_fok _ _ HI i MCont w); auto. lia.
  - destruct (x_loop _ _ HI _ _ _ Hin) as (L1 & L2 & L3). destruct x.
    + destruct (cas_read true spur (x_h s) v i MNone) as [|x|] eqn:Ec; try discriminate; injection H as <- <-; rewrite app_nil_r.
      * apply cas_ok in Ec. destruct Ec as [Hst _].
        destruct (act_acquire _ _ _ _ _ o HI Hk Hst ltac:(eauto)) as (A1 & A2 & A3 & A4 & A5 & A6). cbv zeta in *.
        unfold x_set, x_hist, x_locked. cbn [x_lock x_lv x_h x_w x_op x_act x_own x_acc].
        pose proof (x_lts _ _ HI). pose proof (rmw_ts true (x_h s) v Hv (x_rts _ _ HI)). eapply acquire_common; eauto; try apply HI.
        -- lia.
        -- auto using rmw_knows.
        -- rewrite A3. intros w [].
        -- cbn in A4. destruct (x_lock s); simpl in *; lia.
      * apply cas_no in Ec. destruct Ec as (E1 & E2 & (w & E3) & _). unfold x_set. eapply xi_move; eauto; try discriminate; cbn; auto; try lia.
        intros o' y [= <- <-]. repeat split; auto; [lia|]. intros ->. apply (x_fok _ _ HI i MCont w); auto. lia.
    + destruct (cas_read true spur (x_h s) v i MLocked) as [|x|] eqn:Ec; try discriminate.
      * apply cas_ok in Ec. destruct Ec as [Hst _]. unfold x_suspend in H. apply x_guard_next in H. injection H as <- <-.
        unfold x_set, x_hist, x_locked, x_wait. cbn [x_lock x_lv x_h x_w x_op x_act x_own x_acc]. eapply xi_susp; eauto.
      * injection H as <- <-; rewrite app_nil_r. apply cas_no in Ec. destruct Ec as (E1 & E2 & (w & E3) & _). unfold x_set. eapply xi_move; eauto; try discriminate; cbn; auto; try lia.
        intros o' y [= <- <-]. repeat split; auto; [lia|]. intros ->. apply (x_fok _ _ HI i MCont w); auto. lia.
    + unfold x_suspend in H. apply x_guard_next in H. injection H as <- <-.
      unfold x_set, x_hist, x_locked, x_wait. cbn [x_lock x_lv x_h x_w x_op x_act x_own x_acc]. eapply xi_susp; eauto.
  - unfold x_notify in H. apply x_guard_next in H. injection H as <- <-. eapply xi_notify; eauto.
  - destruct (rd (x_h s) v i) as [[x w]|] eqn:Er; [|discriminate]. apply rd_some in Er. destruct Er as (E1 & E2 & E3).
    destruct (x_ha _ _ HI _ _ Hin eq_refl) as (F1 & F2 & F3). destruct x; try discriminate; injection H as <- <-; rewrite app_nil_r; unfold x_set; eapply xi_move; eauto; try discriminate; cbn; auto; try lia.

  - destruct (x_ha _ _ HI _ _ Hin eq_refl) as (F1 & F2 & F3). destruct (cas_read false false (x_h s) v i MLocked) as [|x|] eqn:Ec; try discriminate.
    + injection H as <- <-; rewrite app_nil_r. apply cas_ok in Ec. destruct Ec as [Hst _]. unfold x_set, x_hist. cbn [x_lock x_lv x_h x_w x_op x_act x_own x_acc]. apply xi_release; auto.
    + destruct x; try discriminate. injection H as <- <-; rewrite app_nil_r. apply cas_no in Ec. destruct Ec as (E1 & E2 & (w & E3) & _).
      unfold x_set; eapply xi_move; eauto; try discriminate; cbn; auto; try lia.
  - destruct (x_lock s) eqn:El; [discriminate|]. destruct (x_w s) as [|o w] eqn:Ew; [discriminate|]. apply x_guard_next in H. destruct w as [|o2 w].
    + destruct (v_ts (vjoin v (x_lv s)) =? newest (x_h s)); [|discriminate]. injection H as <- <-.
      unfold x_set, x_hist, x_locked, x_wait. cbn [x_lock x_lv x_h x_w x_op x_act x_own x_acc]. eapply xi_handoff; eauto.
    + injection H as <- <-. unfold x_set, x_hist, x_locked, x_wait. cbn [x_lock x_lv x_h x_w x_op x_act x_own x_acc]. eapply xi_handoff; eauto. right. repeat split; auto. discriminate.
  - unfold x_notify in H. apply x_guard_next in H. injection H as <- <-. eapply xi_notify; eauto.
Qed.

Lemma xi_step s tr l s' es : XI s tr -> x_step s l = Next s' es -> XI s' (tr ++ es).
Proof.
  intros HI H. destruct l as [o v|v i|j|j|k i spur]; cbn [x_step] in H.
  - destruct (x_op s o) eqn:Eo; try discriminate. destruct (Nat.ltb_spec (v_ts v) (length (x_h s))); [|discriminate]. injection H as <- <-. apply xi_start; auto.
  - destruct (cas_read false false (x_h s) v i MNone) as [|x|] eqn:Ec; try discriminate; injection H as <- <-.
    + assert (Hv : v_ts v < length (x_h s)). { unfold cas_read in Ec. destruct (rd (x_h s) v i) eqn:Er; [|discriminate]. apply rd_some in Er. lia. }
      apply cas_ok in Ec. destruct Ec as [Hst _]. pose proof (x_token _ _ HI) as Htok. rewrite Hst in Htok. pose proof (x_lts _ _ HI).
      assert (Hown : x_own s = []) by (apply len0; lia). rewrite Hown. eapply acquire_common; eauto; try apply HI.
      * lia.
      * intros w [<-|[]]. reflexivity.
      * cbn. lia.
      * rewrite api_snoc, acqs_app, unls_app. pose proof (x_tr _ _ HI) as E. rewrite Hown in E. cbn in *. lia.
      * apply naccs_snoc.
      * apply rf_snoc, HI.
    + destruct HI. constructor; auto.
      * rewrite api_snoc, acqs_app, unls_app. cbn. lia.
      * now rewrite naccs_snoc.
      * now apply rf_snoc.
  - destruct (nth_error (x_own s) j) eqn:Ej; [|discriminate]. injection H as <- <-. apply xi_access; auto.
  - destruct (nth_error (x_own s) j) eqn:Ej; [|discriminate]. injection H as <- <-. apply xi_unlock; auto.
  - destruct (nth_error (x_act s) k) as [[a v]|] eqn:Ek; [|discriminate]. eapply xi_act; eauto.
Qed.

Lemma place_started s tr k a v o : XI s tr -> nth_error (x_act s) k = Some (a, v) -> In o (aop a) -> x_op s o = OStarted.
Proof.
  intros HI Hk Ho. pose proof (x_place _ _ HI o) as H. pose proof (cnt_flat_in (fun p : mact * view => aop (fst p)) o _ _ (nth_error_In _ _ Hk)) as Hle.
  cbn [fst] in Hle. apply cnt_pos in Ho. destruct (x_op s o); auto; lia.
Qed.
Lemma w_started s tr o : XI s tr -> In o (x_w s) -> x_op s o = OStarted.
Proof. intros HI Ho. pose proof (x_place _ _ HI o) as H. apply cnt_pos in Ho. destruct (x_op s o); auto; lia. Qed.

Lemma x_nofail s tr l f es : XI s tr -> x_step s l <> Fail f es.
Proof.
  intros HI H. destruct l as [o v|v i|j|j|k i spur]; cbn [x_step] in H.
  - destruct (x_op s o); try discriminate. destruct (v_ts v <? length (x_h s)); discriminate.
  - destruct (cas_read false false (x_h s) v i MNone); discriminate.
  - destruct (nth_error (x_own s) j); discriminate.
  - destruct (nth_error (x_own s) j); discriminate.
  - destruct (nth_error (x_act s) k) as [[a v]|] eqn:Hk; [|discriminate]. pose proof (nth_error_In _ _ Hk) as Hin. unfold x_act_step in H.
    assert (Hsus : forall o v' h', In o (aop a) -> (forall o', knows v o' = true -> knows v' o' = true) -> (forall o', knows (x_lv s) o' = true -> knows v o' = true) ->
              x_suspend (x_hist s h') k o v' <> Fail f es).
    { intros o v' h' Ho Hkn Hl. unfold x_suspend. rewrite x_guard_ok; [discriminate| |].
      - intros o' [<-|Ho']; [exact (place_started _ _ _ _ _ _ HI Hk Ho)|exact (w_started _ _ _ HI Ho')].
      - intros o' [<-|Ho']; [apply Hkn; exact (x_ka _ _ HI _ _ _ Hin Ho)|]. apply Hkn, Hl. exact (x_kw _ _ HI _ Ho'). }
    assert (Hnot : forall o, In o (aop a) -> x_notify s k o v <> Fail f es).
    { intros o Ho. unfold x_notify. rewrite x_guard_ok; [discriminate| |].
      - intros o' [<-|[]]. exact (place_started _ _ _ _ _ _ HI Hk Ho).
      - intros o' [<-|[]]. exact (x_ka _ _ HI _ _ _ Hin Ho). }
    destruct a as [o|o|o x|o| | | |o|]; try discriminate.
    + destruct (cas_read false false (x_h s) v i MNone); discriminate.
    + destruct (x_lock s); [discriminate|]. destruct (rd (x_h s) (vjoin v (x_lv s)) i) as [[x w]|]; discriminate.
    + destruct (x_loop _ _ HI _ _ _ Hin) as (L1 & L2 & L3). destruct x.
      * destruct (cas_read true spur (x_h s) v i MNone); discriminate.
      * destruct (cas_read true spur (x_h s) v i MLocked); try discriminate. revert H. apply Hsus; simpl; auto using rmw_knows.
      * revert H. assert (E : s = x_hist s (x_h s)) by (destruct s; reflexivity). rewrite E at 1. apply Hsus; simpl; auto.
    + revert H. apply Hnot. simpl. auto.
    + destruct (rd (x_h s) v i) as [[x w]|] eqn:Er; [|discriminate]. apply rd_some in Er. destruct Er as (E1 & E2 & E3).
      destruct (x_ha _ _ HI _ _ Hin eq_refl) as (F1 & F2 & F3). destruct x; try discriminate. exact (F2 _ _ _ E1 E2 eq_refl).
    + destruct (x_ha _ _ HI _ _ Hin eq_refl) as (F1 & F2 & F3). destruct (cas_read false false (x_h s) v i MLocked) as [|x|] eqn:Ec; try discriminate.
      apply cas_no in Ec. destruct Ec as (E1 & E2 & (w & E3) & E4). destruct x; try discriminate; [exact (F2 _ _ _ E1 E3 eq_refl)|exact (E4 eq_refl eq_refl)].
    + destruct (x_lock s); [discriminate|]. pose proof (x_unlk _ _ HI _ Hin) as Hc. pose proof (proj1 (x_waits _ _ HI) Hc) as Hw. destruct (x_w s) as [|o w] eqn:Ew; [congruence|].
      rewrite x_guard_ok in H.
      * destruct w; [|discriminate]. pose proof (x_cts _ _ HI Hc). pose proof (x_ats _ _ HI _ _ Hin). pose proof (newest_lt _ (x_ne _ _ HI)).
        destruct (Nat.eqb_spec (v_ts (vjoin v (x_lv s))) (newest (x_h s))) as [|E]; [discriminate|]. elim E. unfold vjoin, newest in *. cbn [v_ts]. lia.
      * intros o' Ho'. apply (w_started _ _ _ HI). now rewrite Ew.
      * intros o' Ho'. rewrite knows_join, (x_kw _ _ HI o'); [apply orb_true_r|now rewrite Ew].
    + revert H. apply Hnot. simpl. auto.
Qed.

(** ** Theorems *)
Theorem mutexw_safe ls f tr : run x_step x_init ls <> Failed f tr.
Proof. intros H. eapply (run_safe x_step XI); eauto; [apply xi_init|intros; eapply xi_step; eauto|intros; eapply x_nofail; eauto]. Qed.
Theorem mutexw_inv ls s tr : run x_step x_init ls = Running s tr -> XI s tr.
Proof. apply (run_inv x_step XI); [apply xi_init|intros; eapply xi_step; eauto]. Qed.
Theorem mutexw_race_free ls s tr : run x_step x_init ls = Running s tr -> race_free tr.
Proof. intros H. apply (x_rf _ _ (mutexw_inv _ _ _ H)). Qed.
Theorem mutexw_exclusive ls s tr : run x_step x_init ls = Running s tr -> acqs true (api tr) <= unls true (api tr) + 1.
Proof.
  intros H. pose proof (mutexw_inv _ _ _ H) as HI. rewrite (x_tr _ _ HI). pose proof (x_token _ _ HI). destruct (lastv (x_h s)); lia.
Qed.
