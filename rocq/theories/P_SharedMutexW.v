(** Proofs about shared_mutex under the C++ memory model: C52, C53. *)
From Coq Require Import List Arith Bool Lia.
From Verif Require Import Lts ListFacts M_Mutex S_Mutex P_Mutex M_SharedMutex P_SharedMutex M_Weak M_SharedMutexW S_SharedMutexW.
Import ListNotations.

(** ** Views and histories *)
Definition lastr (h : hist rval) : rval := match nth_error h (newest h) with Some (x, _) => x | None => RV MNone 0 end.

Lemma newest_snoc {A} (h : hist A) m : newest (h ++ [m]) = length h.
Proof. unfold newest. rewrite app_length. simpl. lia. Qed.
Lemma lastr_snoc h x w : lastr (h ++ [(x, w)]) = x.
Proof. unfold lastr. rewrite newest_snoc, nth_error_app2, Nat.sub_diag; auto. Qed.
Lemma rel_snoc {A} (h : hist A) (x : A) w : rel_of (h ++ [(x, w)]) = w.
Proof. unfold rel_of. rewrite newest_snoc, nth_error_app2, Nat.sub_diag; auto. Qed.
Lemma nth_snoc_cases {A} (l : list A) x i y : nth_error (l ++ [x]) i = Some y ->
  (i < length l /\ nth_error l i = Some y) \/ (i = length l /\ y = x).
Proof.
  intros H. destruct (Nat.lt_ge_cases i (length l)) as [Hl|Hl].
  - rewrite nth_error_app1 in H; auto.
  - rewrite nth_error_app2 in H by lia. destruct (i - length l) eqn:E; [right; split; [lia|simpl in H; congruence]|]. destruct n; discriminate.
Qed.
Lemma newest_lt {A} (h : hist A) : h <> [] -> newest h < length h.
Proof. destruct h; [congruence|]. intros _. unfold newest. simpl. lia. Qed.
Lemma snoc_ne {A} (l : list A) x : l ++ [x] <> [].
Proof. intros E. apply app_eq_nil in E. destruct E. discriminate. Qed.
Lemma snoc_len {A} (l : list A) x : length (l ++ [x]) = S (length l).
Proof. rewrite app_length. simpl. lia. Qed.

Lemma accs_join a b n : In n (accs (vjoin a b)) <-> In n (accs a) \/ In n (accs b).
Proof. unfold accs, vjoin. simpl. rewrite flat_map_app, in_app_iff. tauto. Qed.
Lemma knows_join a b o : knows (vjoin a b) o = knows a o || knows b o.
Proof. unfold knows, vjoin. simpl. now rewrite existsb_app. Qed.
Lemma rd_some {A} (h : hist A) v i m : rd h v i = Some m -> v_ts v <= i /\ nth_error h i = Some m /\ i < length h.
Proof.
  unfold rd. destruct (Nat.leb_spec (v_ts v) i); [|discriminate]. intros H1. repeat split; auto. apply nth_error_Some. congruence.
Qed.
Lemma casr_ok weak spur h v i e : casr_read weak spur h v i e = RCasOk -> lastr h = e /\ h <> [] /\ v_ts v < length h.
Proof.
  unfold casr_read. destruct (rd h v i) as [[x w]|] eqn:E; [|discriminate]. apply rd_some in E. destruct E as (H1 & E & Hl).
  destruct (rval_eqb x e) eqn:Ee; [|discriminate].
  destruct ((i =? newest h) && negb (weak && spur)) eqn:Eb; [|destruct weak; discriminate]. intros _.
  apply andb_true_iff in Eb. destruct Eb as [Eb _]. apply Nat.eqb_eq in Eb. apply rval_eqb_eq in Ee. subst. split; [|split].
  - unfold lastr. now rewrite E.
  - intros ->. simpl in Hl. lia.
  - lia.
Qed.
Lemma casr_no weak spur h v i e x : casr_read weak spur h v i e = RCasNo x ->
  v_ts v <= i /\ i < length h /\ (exists w, nth_error h i = Some (x, w)) /\ (weak = false -> x <> e).
Proof.
  unfold casr_read. destruct (rd h v i) as [[y w]|] eqn:E; [|discriminate]. apply rd_some in E. destruct E as (H1 & E & Hl).
  destruct (rval_eqb y e) eqn:Ee.
  - destruct ((i =? newest h) && negb (weak && spur)); [discriminate|]. destruct weak; [|discriminate]. intros [= <-]. repeat split; eauto. discriminate.
  - intros [= <-]. repeat split; eauto. intros _ ->. now rewrite rval_eqb_refl in Ee.
Qed.
Lemma rmw_ts {A} acq (h : hist A) v : v_ts v < length h -> v_ts (rel_of h) < length h -> v_ts (rmw_view acq h v) = length h.
Proof. intros H1 H2. unfold rmw_view, vsee. cbn [v_ts]. apply Nat.max_r. destruct acq; [unfold vjoin; cbn [v_ts]|]; lia. Qed.
Lemma rmw_accs {A} acq (h : hist A) v n : In n (accs (rmw_view acq h v)) <-> In n (accs v) \/ (acq = true /\ In n (accs (rel_of h))).
Proof. unfold rmw_view. change (accs (vsee ?v ?i)) with (accs v). destruct acq; [rewrite accs_join|]; intuition congruence. Qed.
Lemma rmw_knows {A} acq (h : hist A) v o : knows v o = true -> knows (rmw_view acq h v) o = true.
Proof. intros H. unfold rmw_view. change (knows (vsee ?v ?i) o) with (knows v o). destruct acq; auto. rewrite knows_join, H. reflexivity. Qed.

(** ** The invariant *)
Notation cc h := (v_c (lastr h)).
Notation nn h := (v_n (lastr h)).
(** a view from which only messages are visible that were written while the thread owned the mutex in exclusive/shared mode *)
Definition xok (h : hist rval) (v : view) : Prop :=
  forall i x w, v_ts v <= i -> nth_error h i = Some (x, w) -> v_c x <> MNone /\ v_n x = 0 /\ (v_c x = MCont -> cc h = MCont).
Definition sok (h : hist rval) (v : view) : Prop :=
  (forall i x w, v_ts v <= i -> nth_error h i = Some (x, w) ->
   v_c x <> MNone /\ 1 <= v_n x /\ (v_c x = MCont -> cc h = MCont /\ (i = newest h \/ nn h < v_n x))) /\
  (forall i j x y w w', v_ts v <= i -> i <= j -> nth_error h i = Some (x, w) -> nth_error h j = Some (y, w') -> v_c x = MCont -> v_c y = MCont).
Definition fokr (h : hist rval) (v : view) : Prop :=
  forall i x w, v_ts v <= i -> nth_error h i = Some (x, w) -> v_c x = MCont -> cc h = MCont.

Definition lcw (h : hist rval) (lv : view) (b : ract) (u : view) : Prop :=
  match b with
  | XLoop _ x | SLoop _ x => v_ts lv <= v_ts u /\ (forall o, knows lv o = true -> knows u o = true) /\ (v_c x = MCont -> cc h = MCont)
  | XUnlCas x => x = RV MLocked 0
  | XUnlLock => cc h = MCont
  | SUnl1 x => exists w, nth_error h (v_ts u) = Some (x, w)
  | SUnl2 x => v_c x = MCont /\ exists w, nth_error h (v_ts u) = Some (x, w)
  | RHand p => p <> []
  | _ => True
  end.
Record aok (h : hist rval) (lv : view) (b : ract) (u : view) : Prop := {
  a_ts : v_ts u < length h;
  a_kn : forall nd, In nd (aops b) -> knows u (fst nd) = true;
  a_x : 1 <= tk true b -> xok h u;
  a_s : 1 <= tk false b -> sok h u;
  a_lc : lcw h lv b u
}.
Record glob (h : hist rval) (lv : view) (w : list node) : Prop := {
  g_ne : h <> [];
  g_rts : v_ts (rel_of h) < length h;
  g_lts : v_ts lv < length h;
  g_none : cc h = MNone -> nn h = 0;
  g_waits : cc h = MCont <-> w <> [];
  g_front : cc h = MCont -> nn h > 0 -> exists o w', w = (o, true) :: w';
  g_fok : fokr h lv;
  g_cts : cc h = MCont -> nn h = 0 -> v_ts lv = newest h;
  g_kw : forall nd, In nd w -> knows lv (fst nd) = true
}.
Definition stt (x : lost) : nat := match x with OStarted => 1 | _ => 0 end.
Definition ol (x : bool) (s : yst) : list view := if x then y_xo s else y_so s.
Notation tks x l := (sum (map (fun p : ract * view => tk x (fst p)) l)).
Notation lks l := (sum (map (fun p : ract * view => lkk (fst p)) l)).
Notation ops l := (map fst (flat_map (fun p : ract * view => aops (fst p)) l)).

Record YI (s : yst) (tr : list sevent) : Prop := {
  y_glob : glob (y_h s) (y_lv s) (y_w s);
  y_tok : forall x, tks x (y_act s) + length (ol x s) = own x (lastr (y_h s));
  y_lk : lks (y_act s) = b2n (y_lock s);
  y_aok : forall b u, In (b, u) (y_act s) -> aok (y_h s) (y_lv s) b u;
  y_xok : forall u, In u (y_xo s) -> xok (y_h s) u /\ v_ts u < length (y_h s);
  y_sok : forall u, In u (y_so s) -> sok (y_h s) u /\ v_ts u < length (y_h s);
  y_place : forall o, cnt o (ops (y_act s)) + cnt o (map fst (y_w s)) = stt (y_op s o);
  y_tr : forall x, acqs x (sapi tr) = unls x (sapi tr) + length (ol x s)
}.

Lemma yi_init : YI y_init [].
Proof.
  constructor; simpl; auto; try (intros; contradiction).
  - constructor; simpl; auto; try discriminate; try lia; try (intros; contradiction).
    + split; [discriminate|congruence].
    + intros i x w _ H. destruct i as [|[|i]]; simpl in H; try discriminate. injection H as <- <-. discriminate.
  - intros [|]; reflexivity.
  - intros [|]; reflexivity.
Qed.

(** ** Pushing a message *)
Lemma xok_push h v y w : xok h v -> v_c y <> MNone -> v_n y = 0 -> (cc h = MCont -> v_c y = MCont) -> xok (h ++ [(y, w)]) v.
Proof.
  intros H H1 H2 H3 i x u Hi Hx. rewrite lastr_snoc. apply nth_snoc_cases in Hx. destruct Hx as [[Hl Hx]|[-> [= -> ->]]]; auto.
  destruct (H _ _ _ Hi Hx) as (A & B & C). auto.
Qed.
Lemma sok_push h v y w : sok h v -> v_c y <> MNone -> 1 <= v_n y -> (cc h = MCont -> v_c y = MCont /\ v_n y < nn h) -> h <> [] -> sok (h ++ [(y, w)]) v.
Proof.
  intros [H H'] H1 H2 H3 Hne. split.
  - intros i x u Hi Hx. rewrite lastr_snoc, newest_snoc. apply nth_snoc_cases in Hx. destruct Hx as [[Hl Hx]|[-> [= -> ->]]]; [|auto].
    destruct (H _ _ _ Hi Hx) as (A & B & C). split; [auto|]. split; [auto|]. intros E. destruct (C E) as [C1 C2]. destruct (H3 C1) as [D1 D2]. split; [auto|].
    right. destruct C2 as [->|C2]; [|lia]. assert (x = lastr h) by (unfold lastr; now rewrite Hx). subst x. lia.
  - intros i j x z u u' Hi Hij Hx Hz E. apply nth_snoc_cases in Hx, Hz. destruct Hx as [[Hl Hx]|[-> [= -> ->]]], Hz as [[Hl' Hz]|[-> [= -> ->]]]; eauto; [|lia].
    apply H3. apply (H _ _ _ Hi Hx). exact E.
Qed.
Lemma xok_new h v y w : v_ts v = length h -> v_c y <> MNone -> v_n y = 0 -> xok (h ++ [(y, w)]) v.
Proof.
  intros Ht H1 H2 i x u Hi Hx. rewrite lastr_snoc. apply nth_snoc_cases in Hx. destruct Hx as [[Hl Hx]|[-> [= -> ->]]]; [lia|auto].
Qed.
Lemma sok_new h v y w : v_ts v = length h -> v_c y <> MNone -> 1 <= v_n y -> sok (h ++ [(y, w)]) v.
Proof.
  intros Ht H1 H2. split.
  - intros i x u Hi Hx. rewrite lastr_snoc, newest_snoc. apply nth_snoc_cases in Hx. destruct Hx as [[Hl Hx]|[-> [= -> ->]]]; [lia|auto].
  - intros i j x z u u' Hi Hij Hx Hz E. apply nth_snoc_cases in Hx, Hz. destruct Hx as [[Hl Hx]|[-> [= -> ->]]], Hz as [[Hl' Hz]|[-> [= -> ->]]]; try lia. exact E.
Qed.
Lemma fokr_push h v y w : fokr h v -> (cc h = MCont -> v_c y = MCont) -> fokr (h ++ [(y, w)]) v.
Proof.
  intros H H1 i x u Hi Hx E. rewrite lastr_snoc. apply nth_snoc_cases in Hx. destruct Hx as [[Hl Hx]|[-> [= -> ->]]]; auto. apply H1. exact (H _ _ _ Hi Hx E).
Qed.
Lemma fokr_new h v y w : v_ts v = length h -> fokr (h ++ [(y, w)]) v.
Proof. intros Ht i x u Hi Hx E. rewrite lastr_snoc. apply nth_snoc_cases in Hx. destruct Hx as [[Hl Hx]|[-> [= -> ->]]]; [lia|auto]. Qed.
Lemma xok_mono h v v' : xok h v -> v_ts v <= v_ts v' -> xok h v'.
Proof. intros H Hle i x w Hi. apply H. lia. Qed.
Lemma sok_mono h v v' : sok h v -> v_ts v <= v_ts v' -> sok h v'.
Proof. intros [H H'] Hle. split; [intros i x w Hi; apply H; lia|intros i j x y w w' Hi; apply H'; lia]. Qed.
Lemma fokr_mono h v v' : fokr h v -> v_ts v <= v_ts v' -> fokr h v'.
Proof. intros H Hle i x w Hi. apply H. lia. Qed.

Lemma aok_push h lv b u y w : aok h lv b u -> h <> [] -> (cc h = MCont -> v_c y = MCont) ->
  (1 <= tk true b -> v_c y <> MNone /\ v_n y = 0) -> (1 <= tk false b -> v_c y <> MNone /\ 1 <= v_n y /\ (cc h = MCont -> v_n y < nn h)) ->
  aok (h ++ [(y, w)]) lv b u.
Proof.
  intros [A1 A2 A3 A4 A5] Hne H1 H2 H3. constructor; auto.
  - rewrite snoc_len. lia.
  - intros Ht. destruct (H2 Ht). apply xok_push; auto.
  - intros Ht. destruct (H3 Ht) as (B1 & B2 & B3). apply sok_push; auto.
  - destruct b; simpl in *; rewrite ?lastr_snoc; auto.
    + destruct A5 as (C1 & C2 & C3). auto.
    + destruct A5 as (C1 & C2 & C3). auto.
    + destruct A5 as (w0 & E). exists w0. rewrite nth_error_app1; auto.
    + destruct A5 as (E0 & w0 & E). split; auto. exists w0. rewrite nth_error_app1; auto.
Qed.
(** calls that neither own the mutex nor hold mutex_ do not care *)
Lemma aok_idle h lv h' lv' b u : aok h lv b u -> tk true b = 0 -> tk false b = 0 -> lkk b = 0 -> length h <= length h' -> aok h' lv' b u.
Proof.
  intros [A1 A2 A3 A4 A5] H1 H2 H3 Hl. constructor; auto; try lia. destruct b; simpl in *; try discriminate; auto.
Qed.
Lemma aok_lv h lv lv' b u : aok h lv b u -> lkk b = 0 -> aok h lv' b u.
Proof. intros [A1 A2 A3 A4 A5] H. constructor; auto. destruct b; simpl in *; try discriminate; auto. Qed.

Lemma set_nth_cases {A} (l : list A) k x y z : nth_error l k = Some z -> In y (set_nth l k x) -> y = x \/ exists j, j <> k /\ nth_error l j = Some y.
Proof.
  intros Hk H. apply In_nth_error in H. destruct H as [j Hj]. destruct (Nat.eq_dec j k) as [->|Hne].
  - rewrite (nth_error_set_nth_same _ _ _ _ Hk) in Hj. left. congruence.
  - rewrite nth_error_set_nth_other in Hj by auto. right. eauto.
Qed.
Lemma cnt_ops_set o l k x y : nth_error l k = Some y ->
  cnt o (ops (set_nth l k x)) + cnt o (map fst (aops (fst y))) = cnt o (ops l) + cnt o (map fst (aops (fst x))).
Proof.
  assert (E : forall l, cnt o (ops l) = sum (map (fun p : ract * view => cnt o (map fst (aops (fst p)))) l)).
  { induction l0 as [|h t IH]; simpl; auto. now rewrite map_app, cnt_app, IH. }
  intros H. rewrite !E. apply (sum_map_set_nth (fun p : ract * view => cnt o (map fst (aops (fst p)))) l k x y H).
Qed.

(** ** A step of one call *)
Lemma yi_act s tr k a v a' v' lock' lv' h' w' op' xo' so' acc' tr' :
  YI s tr -> nth_error (y_act s) k = Some (a, v) ->
  let s' := YS lock' lv' h' w' op' (set_nth (y_act s) k (a', v')) xo' so' acc' in
  glob h' lv' w' ->
  (forall j b u, j <> k -> nth_error (y_act s) j = Some (b, u) -> aok (y_h s) (y_lv s) b u -> aok h' lv' b u) ->
  aok h' lv' a' v' ->
  (forall u, In u xo' -> xok h' u /\ v_ts u < length h') -> (forall u, In u so' -> sok h' u /\ v_ts u < length h') ->
  (forall x, tk x a' + length (ol x s') + own x (lastr (y_h s)) = tk x a + length (ol x s) + own x (lastr h')) ->
  lkk a' + b2n (y_lock s) = lkk a + b2n lock' ->
  (forall o, cnt o (map fst (aops a')) + cnt o (map fst w') + stt (y_op s o) = cnt o (map fst (aops a)) + cnt o (map fst (y_w s)) + stt (op' o)) ->
  (forall x, acqs x (sapi tr') + unls x (sapi tr) + length (ol x s) = unls x (sapi tr') + acqs x (sapi tr) + length (ol x s')) ->
  YI s' tr'.
Proof.
  intros HI Hk s' Hg Hold Hnew Hx Hs Htok Hlk Hpl Htr.
  pose proof (sum_map_set_nth (fun p => lkk (fst p)) _ k (a', v') _ Hk) as El. cbn [fst] in El.
  constructor; cbn [y_lock y_lv y_h y_w y_op y_act y_xo y_so y_acc s']; auto.
  - intros x. pose proof (sum_map_set_nth (fun p => tk x (fst p)) _ k (a', v') _ Hk) as Et. cbn [fst] in Et.
    pose proof (y_tok _ _ HI x). specialize (Htok x). lia.
  - pose proof (y_lk _ _ HI). lia.
  - intros b u H. apply (set_nth_cases _ _ _ _ _ Hk) in H. destruct H as [[= -> ->]|(j & Hj & H)]; auto.
    apply (Hold j); auto. apply (y_aok _ _ HI). exact (nth_error_In _ _ H).
  - intros o. pose proof (cnt_ops_set o _ k (a', v') _ Hk) as E. cbn [fst] in E. pose proof (y_place _ _ HI o). specialize (Hpl o). lia.
  - intros x. pose proof (y_tr _ _ HI x). specialize (Htr x). lia.
Qed.

Section Facts.
Variables (s : yst) (tr : list sevent) (k : nat) (a : ract) (v : view).
Hypothesis HI : YI s tr.
Hypothesis Hk : nth_error (y_act s) k = Some (a, v).
Let Hin : In (a, v) (y_act s) := nth_error_In _ _ Hk.

Lemma tk_le x : tk x a <= tks x (y_act s).
Proof. exact (sum_map_le (fun p : ract * view => tk x (fst p)) _ _ Hin). Qed.
(** call k owns the mutex in exclusive mode *)
Lemma xonly : 1 <= tk true a -> cc (y_h s) <> MNone /\ nn (y_h s) = 0 /\ y_xo s = [] /\ y_so s = [] /\ tk true a = 1 /\ tk false a = 0 /\
  forall j b u, j <> k -> nth_error (y_act s) j = Some (b, u) -> tk true b = 0 /\ tk false b = 0.
Proof.
  intros Ht. pose proof (tk_le true) as Hle. pose proof (tk_le false) as Hle2. pose proof (y_tok _ _ HI true) as H1. pose proof (y_tok _ _ HI false) as H2. unfold own, ol in *.
  assert (Hn : cc (y_h s) <> MNone /\ nn (y_h s) = 0).
  { destruct (cc (y_h s)); [lia|..]; (destruct (nn (y_h s) =? 0) eqn:E; [apply Nat.eqb_eq in E; split; [discriminate|auto]|lia]). }
  destruct Hn as [Hc Hn]. rewrite Hn in *. assert (H1' : tks true (y_act s) + length (y_xo s) = 1) by (destruct (cc (y_h s)); [congruence|auto..]).
  split; auto. split; auto. split; [destruct (y_xo s); auto; simpl in *; lia|]. split; [destruct (y_so s); auto; simpl in *; lia|]. split; [lia|]. split; [lia|].
  intros j b u Hj Hb. split.
  - apply (sum_others (fun p : ract * view => tk true (fst p)) _ k (a, v) Hk) with (j := j) (a := (b, u)) in Hj; auto. cbn [fst]. lia.
  - pose proof (sum_map_le (fun p : ract * view => tk false (fst p)) _ _ (nth_error_In _ _ Hb)) as E. cbn [fst] in E. lia.
Qed.
(** ... in shared mode *)
Lemma sonly : 1 <= tk false a -> cc (y_h s) <> MNone /\ 1 <= nn (y_h s) /\ y_xo s = [] /\ tk true a = 0 /\
  (forall b u, In (b, u) (y_act s) -> tk true b = 0) /\
  (nn (y_h s) = 1 -> y_so s = [] /\ tk false a = 1 /\ forall j b u, j <> k -> nth_error (y_act s) j = Some (b, u) -> tk false b = 0).
Proof.
  intros Ht. pose proof (tk_le true) as Hle. pose proof (tk_le false) as Hle2. pose proof (y_tok _ _ HI true) as H1. pose proof (y_tok _ _ HI false) as H2. unfold own, ol in *.
  assert (Hc : cc (y_h s) <> MNone) by (intros E; apply (g_none _ _ _ (y_glob _ _ HI)) in E; lia).
  assert (Hn : 1 <= nn (y_h s)) by lia. assert (H1' : tks true (y_act s) + length (y_xo s) = 0).
  { destruct (cc (y_h s)); [congruence|..]; (destruct (nn (y_h s) =? 0) eqn:E; [apply Nat.eqb_eq in E; lia|lia]). }
  split; auto. split; auto. split; [destruct (y_xo s); auto; simpl in *; lia|]. split; [lia|]. split.
  - intros b u Hb. pose proof (sum_map_le (fun p : ract * view => tk true (fst p)) _ _ Hb) as E. cbn [fst] in E. lia.
  - intros En. split; [destruct (y_so s); auto; simpl in *; lia|]. split; [lia|]. intros j b u Hj Hb.
    apply (sum_others (fun p : ract * view => tk false (fst p)) _ k (a, v) Hk) with (j := j) (a := (b, u)) in Hj; auto. cbn [fst]. lia.
Qed.
(** call k holds mutex_ *)
Lemma lonly : 1 <= lkk a -> y_lock s = true /\ forall j b u, j <> k -> nth_error (y_act s) j = Some (b, u) -> lkk b = 0.
Proof.
  intros Hl. pose proof (y_lk _ _ HI) as E. pose proof (sum_map_le (fun p : ract * view => lkk (fst p)) _ _ Hin) as Hle. cbn [fst] in Hle.
  destruct (y_lock s); [|simpl in E; lia]. split; auto. simpl in E. intros j b u Hj Hb.
  apply (sum_others (fun p : ract * view => lkk (fst p)) _ k (a, v) Hk) with (j := j) (a := (b, u)) in Hj; auto. cbn [fst]. lia.
Qed.
Lemma nolock : y_lock s = false -> forall b u, In (b, u) (y_act s) -> lkk b = 0.
Proof.
  intros El b u Hb. pose proof (y_lk _ _ HI) as E. rewrite El in E. pose proof (sum_map_le (fun p : ract * view => lkk (fst p)) _ _ Hb) as Hle. cbn [fst] in Hle. simpl in E. lia.
Qed.
Lemma node_started nd : In nd (aops a) -> y_op s (fst nd) = OStarted.
Proof.
  intros Ho. pose proof (y_place _ _ HI (fst nd)) as H.
  assert (Hi : In (fst nd) (ops (y_act s))) by (apply in_map, in_flat_map; exists (a, v); auto). apply cnt_pos in Hi. destruct (y_op s (fst nd)); simpl in H; auto; lia.
Qed.
End Facts.
Lemma wnode_started s tr nd : YI s tr -> In nd (y_w s) -> y_op s (fst nd) = OStarted.
Proof. intros HI Ho. pose proof (y_place _ _ HI (fst nd)) as H. apply (in_map fst) in Ho. apply cnt_pos in Ho. destruct (y_op s (fst nd)); simpl in H; auto; lia. Qed.

Lemma glob_push h lv w y w0 lv' w' : glob h lv w -> v_ts w0 <= length h -> v_ts lv <= v_ts lv' -> v_ts lv' <= length h ->
  (v_c y = MNone -> v_n y = 0) -> (v_c y = MCont <-> w' <> []) -> (v_c y = MCont -> v_n y > 0 -> exists o w1, w' = (o, true) :: w1) ->
  ((cc h = MCont -> v_c y = MCont) \/ v_ts lv' = length h) -> (v_c y = MCont -> v_n y = 0 -> v_ts lv' = length h) ->
  (forall nd, In nd w' -> knows lv' (fst nd) = true) -> glob (h ++ [(y, w0)]) lv' w'.
Proof.
  intros Hg H1 H2 H3 H4 H5 H6 H7 H8 H9. constructor; rewrite ?lastr_snoc, ?rel_snoc, ?newest_snoc, ?snoc_len; auto; try lia.
  - apply snoc_ne.
  - destruct H7 as [H7|H7]; [|now apply fokr_new]. apply fokr_push; auto. apply (fokr_mono _ lv); auto. apply Hg.
Qed.
Lemma rel_ts_rmw h lv w (acq rel : bool) v : glob h lv w -> v_ts v < length h ->
  v_ts (if rel then vjoin (rel_of h) (rmw_view acq h v) else rel_of h) <= length h.
Proof.
  intros Hg Hv. pose proof (g_rts _ _ _ Hg). destruct rel; [|lia]. cbn [vjoin v_ts]. rewrite (rmw_ts acq h v); auto. lia.
Qed.

(** ** Nothing is written to st_ *)
Lemma yi_move s tr k a v a' v' lock' : YI s tr -> nth_error (y_act s) k = Some (a, v) ->
  aops a' = aops a -> (forall x, tk x a' = tk x a) -> lkk a' + b2n (y_lock s) = lkk a + b2n lock' -> aok (y_h s) (y_lv s) a' v' ->
  YI (YS lock' (y_lv s) (y_h s) (y_w s) (y_op s) (set_nth (y_act s) k (a', v')) (y_xo s) (y_so s) (y_acc s)) tr.
Proof.
  intros HI Hk Ho Ht Hl Ha. eapply yi_act; eauto; try apply HI.
  - intros o. rewrite Ho. lia.
  - intros x. destruct x; cbn; lia.
Qed.

Lemma sapi_snoc tr e : sapi (tr ++ [EA e]) = sapi tr ++ [e].
Proof. unfold sapi. now rewrite flat_map_app. Qed.

(** ** none -> locked, exclusive *)
Section NoOwner.
Variables (s : yst) (tr : list sevent).
Hypothesis HI : YI s tr.
Hypothesis Hst : lastr (y_h s) = RV MNone 0.
Lemma none_owner : y_xo s = [] /\ y_so s = [] /\ forall b u x, In (b, u) (y_act s) -> tk x b = 0.
Proof.
  pose proof (y_tok _ _ HI true) as H1. pose proof (y_tok _ _ HI false) as H2. rewrite Hst in *. cbn in H1, H2.
  split; [destruct (y_xo s); auto; simpl in *; lia|]. split; [destruct (y_so s); auto; simpl in *; lia|].
  intros b u x Hb. pose proof (sum_map_le (fun p : ract * view => tk x (fst p)) _ _ Hb) as E. cbn [fst] in E. destruct x; lia.
Qed.
Lemma none_w : y_w s = [].
Proof. destruct (y_w s) eqn:E; auto. pose proof (proj2 (g_waits _ _ _ (y_glob _ _ HI))) as H. rewrite Hst, E in H. discriminate H. discriminate. Qed.
End NoOwner.

(** the new view of mutex_: unchanged, or that of a thread which unlocks it *)
Definition lv_ok (s : yst) (k : nat) (lock' : bool) (lv' : view) : Prop :=
  v_ts (y_lv s) <= v_ts lv' <= length (y_h s) /\ (forall o, knows (y_lv s) o = true -> knows lv' o = true) /\
  (lv' = y_lv s \/ forall j b u, j <> k -> nth_error (y_act s) j = Some (b, u) -> lkk b = 0).
Lemma aok_lv' s k lock' lv' j b u h : lv_ok s k lock' lv' -> j <> k -> nth_error (y_act s) j = Some (b, u) -> aok h (y_lv s) b u -> aok h lv' b u.
Proof. intros (_ & _ & [->|H]) Hj Hb Ha; auto. apply (aok_lv _ (y_lv s)); auto. exact (H _ _ _ Hj Hb). Qed.

Lemma yi_acq_x s tr k a v o lock' lv' : YI s tr -> nth_error (y_act s) k = Some (a, v) -> aops a = [(o, true)] ->
  lastr (y_h s) = RV MNone 0 -> lv_ok s k lock' lv' -> b2n (y_lock s) = lkk a + b2n lock' ->
  YI (YS lock' lv' (rmw true false (y_h s) v (RV MLocked 0)) (y_w s) (y_op s) (set_nth (y_act s) k (RSet (o, true), rmw_view true (y_h s) v)) (y_xo s) (y_so s) (y_acc s)) tr.
Proof.
  intros HI Hk Ha Hst Hlv Hlk. pose proof (nth_error_In _ _ Hk) as Hin. pose proof (y_aok _ _ HI _ _ Hin) as Aa. pose proof (y_glob _ _ HI) as Hg.
  destruct (none_owner _ _ HI Hst) as (X & S & T). pose proof (none_w _ _ HI Hst) as W. pose proof (rmw_ts true _ v (a_ts _ _ _ _ Aa) (g_rts _ _ _ Hg)) as Hts.
  destruct Hlv as (L1 & L2 & L3). unfold rmw. eapply yi_act; [eassumption|eassumption|..].
  - apply (glob_push _ (y_lv s) (y_w s)); cbn [v_c v_n]; auto; try discriminate; try lia; try (rewrite W; intros nd0 []).
    + pose proof (g_rts _ _ _ Hg); cbn iota; lia.
    + rewrite W. split; [discriminate|congruence].
    + left. rewrite Hst. discriminate.
  - intros j b u Hj Hb A. assert (E : forall x, tk x b = 0) by (intros x; apply (T b u x); exact (nth_error_In _ _ Hb)).
    assert (aok (y_h s ++ [(RV MLocked 0, rel_of (y_h s))]) (y_lv s) b u).
    { apply aok_push; auto; try (rewrite E; lia); [apply Hg|rewrite Hst; discriminate]. }
    apply (aok_lv' s k lock' lv' j); auto. split; auto.
  - constructor; cbn [aops tk lcw snd fst Bool.eqb b2n]; auto; try lia.
    + rewrite snoc_len. lia.
    + intros nd [<-|[]]. apply rmw_knows. apply (a_kn _ _ _ _ Aa). rewrite Ha. now left.
    + intros _. apply xok_new; auto. discriminate.
  - rewrite X. intros u [].
  - rewrite S. intros u [].
  - intros x. rewrite lastr_snoc, Hst, (T a v x Hin). destruct x; cbn; lia.
  - cbn [lkk]. lia.
  - intros o'. rewrite Ha. cbn [aops]. lia.
  - intros x. destruct x; cbn; lia.
Qed.

(** ** A shared owner is added *)
Lemma yi_acq_s s tr k a v a' xs w lock' lv' tr' : YI s tr -> nth_error (y_act s) k = Some (a, v) ->
  (lastr (y_h s) = RV MNone 0 /\ xs = 1 \/ cc (y_h s) = MLocked /\ 1 <= nn (y_h s) /\ xs = nn (y_h s) + 1) ->
  tk true a = 0 -> tk false a = 0 ->
  let v1 := rmw_view true (y_h s) v in
  (a' = RSet (w, false) /\ aops a = [(w, false)] /\ tr' = tr \/ a' = REnd /\ aops a = [] /\ tr' = tr ++ [EA (ETry false true)]) ->
  lv_ok s k lock' lv' -> b2n (y_lock s) = lkk a + b2n lock' ->
  YI (YS lock' lv' (rmw true false (y_h s) v (RV MLocked xs)) (y_w s) (y_op s) (set_nth (y_act s) k (a', v1)) (y_xo s)
         (match a' with REnd => y_so s ++ [v1] | _ => y_so s end) (y_acc s)) tr'.
Proof.
  intros HI Hk Hst Hta Htb v1 Ha Hlv Hlk. pose proof (nth_error_In _ _ Hk) as Hin. pose proof (y_aok _ _ HI _ _ Hin) as Aa. pose proof (y_glob _ _ HI) as Hg.
  assert (Hnx : y_xo s = [] /\ tks true (y_act s) = 0).
  { pose proof (y_tok _ _ HI true) as H1. unfold own, ol in H1. destruct Hst as [(E & _)|(E & E2 & _)].
    - rewrite E in H1. cbn in H1. destruct (y_xo s); simpl in *; [split; auto; lia|lia].
    - rewrite E in H1. destruct (Nat.eqb_spec (nn (y_h s)) 0); [lia|]. destruct (y_xo s); simpl in *; [split; auto; lia|lia]. }
  destruct Hnx as [X T]. assert (Hcc : cc (y_h s) <> MCont) by (destruct Hst as [(E & _)|(E & _)]; rewrite E; discriminate).
  assert (Hxs : 1 <= xs) by (destruct Hst as [(_ & ->)|(_ & _ & ->)]; lia).
  assert (W : y_w s = []). { pose proof (proj2 (g_waits _ _ _ Hg)) as HW. destruct (y_w s); auto. elim Hcc. apply HW. discriminate. }
  pose proof (rmw_ts true _ v (a_ts _ _ _ _ Aa) (g_rts _ _ _ Hg)) as Hts. fold v1 in Hts. assert (Hlv2 := Hlv). destruct Hlv as (L1 & L2 & L3).
  assert (Hown : own false (RV MLocked xs) = S (own false (lastr (y_h s))) /\ own true (RV MLocked xs) = 0 /\ own true (lastr (y_h s)) = 0).
  { pose proof (y_tok _ _ HI true) as H1. unfold ol in H1. rewrite X, T in H1. cbn [length] in H1.
    split; [destruct Hst as [(-> & ->)|(_ & _ & ->)]; cbn; lia|]. split; [|lia]. cbn. destruct xs; [lia|auto]. }
  destruct Hown as (O1 & O2 & O3).
  assert (Hso : forall u, In u (match a' with REnd => y_so s ++ [v1] | _ => y_so s end) -> In u (y_so s) \/ u = v1).
  { intros u. destruct Ha as [(-> & _)|(-> & _)]; auto. rewrite In_snoc. auto. }
  unfold rmw. eapply yi_act; [eassumption|eassumption|..].
  - apply (glob_push _ (y_lv s) (y_w s)); cbn [v_c v_n]; auto; try discriminate; try lia; try (rewrite W; intros nd0 []).
    + pose proof (g_rts _ _ _ Hg); cbn iota; lia.
    + rewrite W. split; [discriminate|congruence].
    + left. congruence.
  - intros j b u Hj Hb A. assert (E : tk true b = 0).
    { pose proof (sum_map_le (fun p : ract * view => tk true (fst p)) _ _ (nth_error_In _ _ Hb)) as E. cbn [fst] in E. lia. }
    assert (aok (y_h s ++ [(RV MLocked xs, rel_of (y_h s))]) (y_lv s) b u).
    { apply aok_push; auto; try (rewrite E; lia); [apply Hg|congruence|]. intros _. repeat split; auto; [discriminate|congruence]. }
    apply (aok_lv' s k lock' lv' j); auto.
  - destruct Ha as [(-> & Ea & _)|(-> & Ea & _)]; constructor; cbn [aops tk lcw snd fst Bool.eqb b2n]; auto; try lia; try (rewrite snoc_len; lia); try (now (intros nd0 [])).
    + intros nd [<-|[]]. apply rmw_knows. apply (a_kn _ _ _ _ Aa). rewrite Ea. now left.
    + intros _. apply sok_new; auto. discriminate.
  - rewrite X. intros u [].
  - intros u Hu. rewrite snoc_len. destruct (Hso u Hu) as [Hu'| ->].
    + destruct (y_sok _ _ HI _ Hu') as [A B]. split; [|lia]. apply sok_push; auto; [discriminate|congruence|apply Hg].
    + split; [|lia]. apply sok_new; auto. discriminate.
  - intros x. rewrite lastr_snoc. destruct x; cbn [ol y_xo y_so].
    + rewrite O2, O3, Hta. destruct Ha as [(-> & _)|(-> & _)]; cbn; lia.
    + rewrite O1, Htb. destruct Ha as [(-> & _)|(-> & _)]; cbn; rewrite ?app_length; cbn; lia.
  - destruct Ha as [(-> & _)|(-> & _)]; cbn [lkk]; lia.
  - intros o'. destruct Ha as [(-> & Ea & _)|(-> & Ea & _)]; rewrite Ea; cbn [aops]; lia.
  - intros x. destruct Ha as [(-> & _ & ->)|(-> & _ & ->)].
    + destruct x; cbn; lia.
    + rewrite sapi_snoc, acqs_app, unls_app. destruct x; cbn; rewrite ?app_length; cbn; lia.
Qed.

(** ** Suspension *)
Lemma yi_susp s tr k a v v1 h1 nd x : YI s tr -> nth_error (y_act s) k = Some (a, v) -> (a = XLoop (fst nd) x \/ a = SLoop (fst nd) x) -> aops a = [nd] ->
  (h1 = y_h s /\ v1 = v /\ cc (y_h s) = MCont) \/
  (h1 = rmw false false (y_h s) v (RV MCont (nn (y_h s))) /\ v1 = rmw_view false (y_h s) v /\ cc (y_h s) = MLocked /\ (snd nd = false -> nn (y_h s) = 0)) ->
  YI (YS false v1 h1 (y_w s ++ [nd]) (y_op s) (set_nth (y_act s) k (REnd, v1)) (y_xo s) (y_so s) (y_acc s)) (tr ++ [EA (ESusp (fst nd))]).
Proof.
  intros HI Hk Haa Hao Hc. pose proof (nth_error_In _ _ Hk) as Hin. pose proof (y_aok _ _ HI _ _ Hin) as Aa. pose proof (y_glob _ _ HI) as Hg.
  assert (Hl1 : lkk a = 1) by (destruct Haa as [-> | ->]; reflexivity). assert (Ht0 : forall y, tk y a = 0) by (intros y; destruct Haa as [-> | ->]; reflexivity).
  destruct (lonly _ _ _ _ _ HI Hk ltac:(lia)) as [Hlock Hoth].
  assert (Hlc : v_ts (y_lv s) <= v_ts v /\ forall o, knows (y_lv s) o = true -> knows v o = true) by (pose proof (a_lc _ _ _ _ Aa) as H; destruct Haa as [-> | ->]; simpl in H; tauto).
  destruct Hlc as [Hl2 Hl3].
  assert (Hkv : forall o', knows v o' = true -> knows v1 o' = true) by (destruct Hc as [(_ & -> & _)|(_ & -> & _)]; auto using rmw_knows).
  assert (Hknd : knows v1 (fst nd) = true). { apply Hkv. apply (a_kn _ _ _ _ Aa). rewrite Hao. now left. }
  assert (Hkw : forall n, In n (y_w s ++ [nd]) -> knows v1 (fst n) = true).
  { intros n H. apply In_snoc in H. destruct H as [H| ->]; auto. apply Hkv, Hl3, (g_kw _ _ _ Hg). exact H. }
  pose proof (a_ts _ _ _ _ Aa) as Hv. pose proof (rmw_ts false _ v Hv (g_rts _ _ _ Hg)) as Hts.
  assert (Hglob : glob h1 v1 (y_w s ++ [nd])).
  { destruct Hc as [(-> & -> & E)|(-> & -> & E & En)].
    - constructor; auto; try apply Hg.
      + split; [intros _; apply snoc_ne|auto].
      + intros _ Hn. destruct (g_front _ _ _ Hg E Hn) as (o & w' & ->). exists o, (w' ++ [nd]). reflexivity.
      + apply (fokr_mono _ (y_lv s)); [apply Hg|lia].
      + intros _ Hn. pose proof (g_cts _ _ _ Hg E Hn). pose proof (newest_lt _ (g_ne _ _ _ Hg)). unfold newest in *. lia.
    - assert (W : y_w s = []). { pose proof (proj2 (g_waits _ _ _ Hg)) as HW. destruct (y_w s); auto. rewrite HW in E; discriminate. }
      unfold rmw. apply (glob_push _ (y_lv s) (y_w s)); cbn [v_c v_n]; auto; try discriminate; try lia.
      + pose proof (g_rts _ _ _ Hg); cbn iota; lia.
      + split; [intros _; apply snoc_ne|auto].
      + intros _ Hn. rewrite W. exists (fst nd), []. destruct nd as [o [|]]; auto. simpl in En. specialize (En eq_refl). lia. }
  assert (Hlast : (forall y, own y (lastr h1) = own y (lastr (y_h s))) /\ length (y_h s) <= length h1).
  { destruct Hc as [(-> & _)|(-> & _ & E & _)]; [auto|]. unfold rmw. rewrite lastr_snoc, snoc_len. split; [|lia]. unfold own. cbn. rewrite E. intros [|]; reflexivity. }
  destruct Hlast as [Hlast Hlen].
  assert (Hao' : forall b u, lkk b = 0 -> aok (y_h s) (y_lv s) b u -> (1 <= tk true b -> nn (y_h s) = 0) -> (1 <= tk false b -> 1 <= nn (y_h s)) -> aok h1 v1 b u).
  { intros b u E A A1 A2. apply (aok_lv _ (y_lv s)); auto. destruct Hc as [(-> & _)|(-> & _ & E' & _)]; auto. unfold rmw. apply aok_push; auto.
    - apply Hg.
    - cbn. intros H. split; [discriminate|auto].
    - cbn. intros H. split; [discriminate|]. split; [auto|congruence]. }
  eapply yi_act; [eassumption|eassumption|exact Hglob|..].
  - intros j b u Hj Hb A. apply Hao'; auto.
    + exact (Hoth _ _ _ Hj Hb).
    + intros H. apply (xonly _ _ _ _ _ HI Hb H).
    + intros H. apply (sonly _ _ _ _ _ HI Hb H).
  - constructor; cbn [aops tk lcw snd fst Bool.eqb b2n]; auto; try lia; try (now (intros nd0 [])). pose proof (newest_lt _ (g_ne _ _ _ Hglob)). pose proof (g_lts _ _ _ Hglob). lia.
  - intros u Hu. destruct (y_xok _ _ HI _ Hu) as [A B]. split; [|lia]. destruct Hc as [(-> & _)|(-> & _ & E & _)]; auto. apply xok_push; auto; [discriminate|].
    pose proof (y_tok _ _ HI true) as Ht. unfold own, ol in Ht. rewrite E in Ht. destruct (y_xo s); [destruct Hu|]. simpl in Ht. cbn. destruct (Nat.eqb_spec (nn (y_h s)) 0); lia.
  - intros u Hu. destruct (y_sok _ _ HI _ Hu) as [A B]. split; [|lia]. destruct Hc as [(-> & _)|(-> & _ & E & _)]; auto. apply sok_push; auto; [discriminate| |congruence|apply Hg].
    pose proof (y_tok _ _ HI false) as Ht. unfold own, ol in Ht. destruct (y_so s); [destruct Hu|]. simpl in Ht. cbn. lia.
  - intros y. rewrite Hlast, Ht0. destruct y; cbn; lia.
  - rewrite Hlock, Hl1. reflexivity.
  - intros o'. rewrite Hao, map_app, cnt_app. cbn [aops map]. rewrite !cnt_cons, !cnt_nil. lia.
  - intros y. rewrite sapi_snoc, acqs_app, unls_app. destruct y; cbn; lia.
Qed.

(** ** An owner leaves without passing the mutex on *)
Lemma yi_rel_x s tr k v x : YI s tr -> nth_error (y_act s) k = Some (XUnlCas x, v) -> lastr (y_h s) = RV MLocked 0 ->
  YI (YS (y_lock s) (y_lv s) (rmw false true (y_h s) v (RV MNone 0)) (y_w s) (y_op s) (set_nth (y_act s) k (REnd, rmw_view false (y_h s) v)) (y_xo s) (y_so s) (y_acc s)) tr.
Proof.
  intros HI Hk Hst. pose proof (nth_error_In _ _ Hk) as Hin. pose proof (y_aok _ _ HI _ _ Hin) as Aa. pose proof (y_glob _ _ HI) as Hg.
  destruct (xonly _ _ _ _ _ HI Hk ltac:(cbn; lia)) as (_ & _ & X & S & _ & _ & Hoth). pose proof (a_ts _ _ _ _ Aa) as Hv. pose proof (rmw_ts false _ v Hv (g_rts _ _ _ Hg)) as Hts.
  assert (W : y_w s = []). { pose proof (proj2 (g_waits _ _ _ Hg)) as HW. destruct (y_w s); auto. rewrite Hst in HW. discriminate HW. discriminate. }
  pose proof (g_lts _ _ _ Hg) as Hlt. unfold rmw. eapply yi_act; [eassumption|eassumption|..].
  - apply (glob_push _ (y_lv s) (y_w s)); cbn [v_c v_n]; auto; try discriminate; try lia; try (rewrite W; intros nd0 []).
    + apply (rel_ts_rmw _ (y_lv s) (y_w s) false true); auto.
    + rewrite W. split; [discriminate|congruence].
    + left. rewrite Hst. discriminate.
  - intros j b u Hj Hb A. destruct (Hoth _ _ _ Hj Hb) as [E1 E2]. apply aok_push; auto; try lia; [apply Hg|rewrite Hst; discriminate].
  - constructor; cbn [aops tk lcw snd fst Bool.eqb b2n]; auto; try lia; try (now (intros nd0 [])). rewrite snoc_len. lia.
  - rewrite X. intros u [].
  - rewrite S. intros u [].
  - intros y. rewrite lastr_snoc, Hst. destruct y; cbn; lia.
  - cbn. lia.
  - intros o'. cbn [aops]. lia.
  - intros y. destruct y; cbn; lia.
Qed.

Lemma yi_rel_s s tr k a v y : YI s tr -> nth_error (y_act s) k = Some (a, v) -> ((exists x, a = SUnl1 x) \/ exists x, a = SUnl2 x) ->
  (v_c (lastr (y_h s)) <> MNone /\ 1 < nn (y_h s) /\ y = RV (cc (y_h s)) (nn (y_h s) - 1) \/ lastr (y_h s) = RV MLocked 1 /\ y = RV MNone 0) ->
  YI (YS (y_lock s) (y_lv s) (rmw false true (y_h s) v y) (y_w s) (y_op s) (set_nth (y_act s) k (REnd, rmw_view false (y_h s) v)) (y_xo s) (y_so s) (y_acc s)) tr.
Proof.
  intros HI Hk Ha Hst. pose proof (nth_error_In _ _ Hk) as Hin. pose proof (y_aok _ _ HI _ _ Hin) as Aa. pose proof (y_glob _ _ HI) as Hg.
  assert (Hta : tk false a = 1 /\ tk true a = 0 /\ lkk a = 0 /\ aops a = []) by (destruct Ha as [[x ->]|[x ->]]; auto). destruct Hta as (Ht1 & Ht2 & Hl0 & Ha0).
  destruct (sonly _ _ _ _ _ HI Hk ltac:(lia)) as (Hc & Hn & X & _ & Hnx & Hone). pose proof (a_ts _ _ _ _ Aa) as Hv. pose proof (rmw_ts false _ v Hv (g_rts _ _ _ Hg)) as Hts.
  pose proof (g_lts _ _ _ Hg) as Hlt.
  assert (Hcm : cc (y_h s) = MCont -> v_c y = MCont /\ v_n y < nn (y_h s) /\ 1 <= v_n y). { intros E. destruct Hst as [(_ & E2 & ->)|(E2 & _)]; [cbn; split; [auto|lia]|rewrite E2 in E; discriminate]. }
  unfold rmw. eapply yi_act; [eassumption|eassumption|..].
  - apply (glob_push _ (y_lv s) (y_w s)); auto; try lia.
    + apply (rel_ts_rmw _ (y_lv s) (y_w s) false true); auto.
    + destruct Hst as [(E1 & E2 & ->)|(_ & ->)]; cbn; auto. congruence.
    + rewrite <- (g_waits _ _ _ Hg). destruct Hst as [(E1 & E2 & ->)|(E2 & ->)]; cbn; [tauto|]. rewrite E2. cbn. split; discriminate.
    + intros E _. destruct Hst as [(E1 & E2 & ->)|(E2 & ->)]; [|discriminate]. cbn in E. apply (g_front _ _ _ Hg E). lia.
    + left. intros E. apply (Hcm E).
    + intros E E0. destruct Hst as [(E1 & E2 & ->)|(E2 & ->)]; [|discriminate]. cbn in E0. lia.
    + apply Hg.
  - intros j b u Hj Hb A. assert (E : tk true b = 0) by (apply (Hnx b u); exact (nth_error_In _ _ Hb)). apply aok_push; auto; try lia; [apply Hg|intros Ec; apply (Hcm Ec)|].
    intros Hs. destruct Hst as [(E1 & E2 & ->)|(E2 & ->)]; cbn.
    + split; auto. split; [lia|]. intros; lia.
    + rewrite E2 in Hone. destruct (Hone eq_refl) as (_ & _ & Ho). specialize (Ho _ _ _ Hj Hb). lia.
  - constructor; cbn [aops tk lcw snd fst Bool.eqb b2n]; auto; try lia; try (now (intros nd0 [])). rewrite snoc_len. lia.
  - rewrite X. intros u [].
  - intros u Hu. destruct (y_sok _ _ HI _ Hu) as [A B]. split; [|rewrite snoc_len; lia]. destruct Hst as [(E1 & E2 & ->)|(E2 & ->)].
    + apply sok_push; auto; cbn; [lia| |apply Hg]. intros; split; auto; lia.
    + rewrite E2 in Hone. destruct (Hone eq_refl) as (E & _). rewrite E in Hu. destruct Hu.
  - intros z. rewrite lastr_snoc. destruct z; cbn [ol y_xo y_so].
    + rewrite Ht2. cbn [tk]. destruct Hst as [(E1 & E2 & ->)|(-> & ->)]; cbn; auto. destruct (cc (y_h s)); cbn; destruct (Nat.eqb_spec (nn (y_h s)) 0); destruct (Nat.eqb_spec (nn (y_h s) - 1) 0); lia.
    + rewrite Ht1. cbn [tk]. destruct Hst as [(E1 & E2 & ->)|(-> & ->)]; cbn; lia.
  - rewrite Hl0. cbn. lia.
  - intros o'. rewrite Ha0. cbn [aops]. lia.
  - intros z. destruct z; cbn; lia.
Qed.

(** ** Passing the mutex on *)
Lemma tk_pos_x p : 1 <= tk true (RHand p) -> exists nd, In nd p /\ snd nd = true.
Proof.
  cbn [tk]. destruct (filter _ p) as [|nd l] eqn:E; simpl; [lia|]. intros _. exists nd. assert (H : In nd (nd :: l)) by now left. rewrite <- E in H. apply filter_In in H.
  destruct H as [H1 H2]. split; auto. destruct (snd nd); auto; discriminate.
Qed.
Lemma sapi_hand tr p : sapi (tr ++ map (fun nd : node => EA (EHand (fst nd))) p) = sapi tr ++ map (fun nd : node => EHand (fst nd)) p.
Proof. unfold sapi. rewrite flat_map_app. f_equal. induction p as [|a p IH]; simpl; auto. now rewrite IH. Qed.
Lemma hand_acqs x (p : list node) : acqs x (map (fun nd : node => EHand (fst nd)) p) = 0 /\ unls x (map (fun nd : node => EHand (fst nd)) p) = 0.
Proof. unfold acqs, unls. induction p as [|a p IH]; simpl; auto. Qed.

Lemma yi_hand s tr k a v p w' h' v1 : YI s tr -> nth_error (y_act s) k = Some (a, v) -> y_lock s = false -> y_w s = p ++ w' -> p <> [] ->
  aops a = [] -> lkk a = 0 -> y_xo s = [] -> y_so s = [] -> (forall j b u, j <> k -> nth_error (y_act s) j = Some (b, u) -> tk true b = 0 /\ tk false b = 0) ->
  length (y_h s) <= length h' -> glob h' v1 w' -> (forall nd, In nd p -> knows v1 (fst nd) = true) ->
  (forall x, tk x (RHand p) + own x (lastr (y_h s)) = tk x a + own x (lastr h')) ->
  (1 <= tk true (RHand p) -> xok h' v1) -> (1 <= tk false (RHand p) -> sok h' v1) ->
  YI (YS false v1 h' w' (y_op s) (set_nth (y_act s) k (RHand p, v1)) (y_xo s) (y_so s) (y_acc s)) (tr ++ map (fun nd : node => EA (EHand (fst nd))) p).
Proof.
  intros HI Hk Hlock Hw Hp Ha Hlk X S Hoth Hlen Hg Hkn Htok HX HS. eapply yi_act; [eassumption|eassumption|exact Hg|..].
  - intros j b u Hj Hb A. destruct (Hoth _ _ _ Hj Hb) as [E1 E2]. apply (aok_idle (y_h s) (y_lv s)); auto. apply (nolock _ _ HI Hlock b u). exact (nth_error_In _ _ Hb).
  - constructor; auto. apply Hg.
  - rewrite X. intros u [].
  - rewrite S. intros u [].
  - intros x. specialize (Htok x). unfold ol in *. cbn [y_xo y_so]. destruct x; lia.
  - rewrite Hlock, Hlk. reflexivity.
  - intros o. rewrite Ha, Hw, map_app, cnt_app. cbn [aops map]. rewrite cnt_nil. lia.
  - intros x. rewrite sapi_hand, acqs_app, unls_app. destruct (hand_acqs x p) as [-> ->]. unfold ol. cbn [y_xo y_so]. destruct x; lia.
Qed.

(** ** An operation completes *)
Lemma yi_notify s tr k a v a' nd : YI s tr -> nth_error (y_act s) k = Some (a, v) ->
  (a = RSet nd /\ a' = REnd \/ exists p, a = RHand (nd :: p) /\ a' = match p with [] => REnd | _ => RHand p end) ->
  YI (y_own (y_set (y_done s (fst nd)) k a' v) (snd nd) v) (tr ++ [EA (EAcq (fst nd) (snd nd))]).
Proof.
  intros HI Hk Haa. pose proof (nth_error_In _ _ Hk) as Hin. pose proof (y_aok _ _ HI _ _ Hin) as Aa. pose proof (y_glob _ _ HI) as Hg.
  assert (Hx : (forall x, tk x a = tk x a' + b2n (Bool.eqb (snd nd) x)) /\ aops a = nd :: aops a' /\ lkk a = 0 /\ lkk a' = 0 /\ lcw (y_h s) (y_lv s) a' v).
  { destruct Haa as [(-> & ->)|(p & -> & ->)].
    - repeat split; auto.
    - split; [|destruct p; cbn; repeat split; auto; discriminate]. intros x. destruct p as [|q p]; cbn; destruct (Bool.eqb (snd nd) x); cbn; lia. }
  destruct Hx as (Ht & Hop & L1 & L2 & Hlc).
  assert (Hst : y_op s (fst nd) = OStarted) by (apply (node_started _ _ _ _ _ HI Hk); rewrite Hop; now left).
  assert (Hown : if snd nd then xok (y_h s) v else sok (y_h s) v).
  { destruct (snd nd) eqn:E; [apply (a_x _ _ _ _ Aa)|apply (a_s _ _ _ _ Aa)]; rewrite Ht; rewrite ?E; cbn; lia. }
  pose proof (a_ts _ _ _ _ Aa) as Hv.
  unfold y_own, y_set, y_done. cbn [y_lock y_lv y_h y_w y_op y_act y_xo y_so y_acc]. eapply yi_act; [eassumption|eassumption|exact Hg|..].
  - auto.
  - destruct Aa as [A1 A2 A3 A4 A5]. constructor; auto.
    + intros n Hn. apply A2. rewrite Hop. now right.
    + intros H. apply A3. rewrite Ht. lia.
    + intros H. apply A4. rewrite Ht. lia.
  - intros u Hu. destruct (snd nd); [apply In_snoc in Hu; destruct Hu as [Hu| ->]; [|auto]|]; apply (y_xok _ _ HI _ Hu).
  - intros u Hu. destruct (snd nd); [|apply In_snoc in Hu; destruct Hu as [Hu| ->]; [|auto]]; apply (y_sok _ _ HI _ Hu).
  - intros x. rewrite Ht. unfold ol. cbn [y_xo y_so]. destruct (snd nd), x; cbn; rewrite ?app_length; cbn; lia.
  - lia.
  - intros o. rewrite Hop. cbn [map]. rewrite cnt_cons. unfold upd. destruct (Nat.eq_dec (fst nd) o) as [E|E]; [subst o; rewrite Nat.eqb_refl, Hst; cbn [stt]; lia|]. destruct (Nat.eqb_spec o (fst nd)); [congruence|lia].
  - intros x. rewrite sapi_snoc, acqs_app, unls_app. unfold ol. cbn [y_xo y_so]. destruct (snd nd), x; cbn; rewrite ?app_length; cbn; lia.
Qed.

(** ** Calls by the clients *)
Lemma yi_new s tr b u op' xo' so' tr' : YI s tr -> aok (y_h s) (y_lv s) b u -> lkk b = 0 -> incl xo' (y_xo s) -> incl so' (y_so s) ->
  let s' := YS (y_lock s) (y_lv s) (y_h s) (y_w s) op' (y_act s ++ [(b, u)]) xo' so' (y_acc s) in
  (forall x, tk x b + length (ol x s') = length (ol x s)) ->
  (forall o, cnt o (map fst (aops b)) + stt (y_op s o) = stt (op' o)) ->
  (forall x, acqs x (sapi tr') + unls x (sapi tr) + length (ol x s) = unls x (sapi tr') + acqs x (sapi tr) + length (ol x s')) -> YI s' tr'.
Proof.
  intros HI Ha Hl Hx Hs s' Ht Hp Htr. constructor; cbn [y_lock y_lv y_h y_w y_op y_act y_xo y_so y_acc s'].
  - apply HI.
  - intros x. rewrite map_app, sum_app. cbn. specialize (Ht x). pose proof (y_tok _ _ HI x). lia.
  - rewrite map_app, sum_app. cbn. pose proof (y_lk _ _ HI). lia.
  - intros c w Hc. apply In_snoc in Hc. destruct Hc as [Hc|[= -> ->]]; auto. now apply (y_aok _ _ HI).
  - intros w Hw. apply (y_xok _ _ HI), Hx, Hw.
  - intros w Hw. apply (y_sok _ _ HI), Hs, Hw.
  - intros o. rewrite flat_map_app, map_app, cnt_app. cbn. rewrite app_nil_r. specialize (Hp o). pose proof (y_place _ _ HI o). lia.
  - intros x. specialize (Htr x). pose proof (y_tr _ _ HI x). lia.
Qed.
Lemma nth_remove {A} (l : list A) j x : nth_error l j = Some x -> length l = S (length (firstn j l ++ skipn (S j) l)) /\ incl (firstn j l ++ skipn (S j) l) l.
Proof.
  revert j. induction l as [|a l IH]; intros [|j] H; simpl in *; try discriminate.
  - split; auto. intros y Hy. now right.
  - destruct (IH _ H) as [E1 E2]. split; [lia|]. intros y [->|Hy]; [now left|right; auto].
Qed.

(** ** st_ is changed by try_lock() *)
Lemma yi_tryx s tr v : YI s tr -> lastr (y_h s) = RV MNone 0 -> v_ts v < length (y_h s) ->
  YI (y_own (y_hist s (rmw true false (y_h s) v (RV MLocked 0))) true (rmw_view true (y_h s) v)) (tr ++ [EA (ETry true true)]).
Proof.
  intros HI Hst Hv. pose proof (y_glob _ _ HI) as Hg. destruct (none_owner _ _ HI Hst) as (X & S & T). pose proof (none_w _ _ HI Hst) as W.
  pose proof (rmw_ts true _ v Hv (g_rts _ _ _ Hg)) as Hts. pose proof (g_lts _ _ _ Hg) as Hlt. unfold y_own, y_hist, rmw. cbn [y_lock y_lv y_h y_w y_op y_act y_xo y_so y_acc].
  constructor; cbn [y_lock y_lv y_h y_w y_op y_act y_xo y_so y_acc].
  - apply (glob_push _ (y_lv s) (y_w s)); cbn [v_c v_n]; auto; try discriminate; try lia; try (rewrite W; intros nd0 []).
    + pose proof (g_rts _ _ _ Hg); cbn iota; lia.
    + rewrite W. split; [discriminate|congruence].
    + left. rewrite Hst. discriminate.
  - intros x. rewrite lastr_snoc. pose proof (y_tok _ _ HI x) as H. rewrite Hst in H. unfold ol in *. cbn [y_xo y_so]. rewrite X, S in *. destruct x; cbn in *; lia.
  - apply HI.
  - intros b u Hb. apply aok_push; try (rewrite (T b u _ Hb); lia); [now apply (y_aok _ _ HI)|apply Hg|rewrite Hst; discriminate].
  - rewrite X. intros u [<-|[]]. rewrite snoc_len. split; [|lia]. apply xok_new; auto. discriminate.
  - rewrite S. intros u [].
  - apply HI.
  - intros x. rewrite sapi_snoc, acqs_app, unls_app. pose proof (y_tr _ _ HI x) as H. unfold ol in *. cbn [y_xo y_so]. destruct x; cbn; rewrite ?app_length; cbn; lia.
Qed.

(** ** Every step *)
Definition good (tr : list sevent) (o : outcome yst sevent) : Prop := match o with Next s' es => YI s' (tr ++ es) | Disabled => True | Fail _ _ => False end.

Lemma y_guard_ok s v l r : (forall nd, In nd l -> y_op s (fst nd) = OStarted) -> (forall nd, In nd l -> knows v (fst nd) = true) -> y_guard s v l r = r.
Proof.
  intros H1 H2. unfold y_guard. assert (E1 : forallb (fun nd : node => alive (y_op s) (fst nd)) l = true) by (apply forallb_forall; intros nd Hn; unfold alive; now rewrite (H1 _ Hn)).
  assert (E2 : forallb (fun nd : node => knows v (fst nd)) l = true) by (apply forallb_forall; auto). now rewrite E1, E2.
Qed.
Lemma aok_up h lv a a' v v' : aok h lv a v -> v_ts v <= v_ts v' -> v_ts v' < length h -> (forall o, knows v o = true -> knows v' o = true) ->
  aops a' = aops a -> (forall x, tk x a' = tk x a) -> lcw h lv a' v' -> aok h lv a' v'.
Proof.
  intros [A1 A2 A3 A4 A5] H1 H2 H3 H4 H5 H6. constructor; auto.
  - intros nd Hn. rewrite H4 in Hn. auto.
  - rewrite H5. intros Ht. apply (xok_mono _ v); auto.
  - rewrite H5. intros Ht. apply (sok_mono _ v); auto.
Qed.
Lemma yi_skip s tr e : YI s tr -> (forall x, acqs x [e] = 0 /\ unls x [e] = 0) -> YI s (tr ++ [EA e]).
Proof.
  intros [H1 H2 H3 H4 H5 H6 H7 H8] He. constructor; auto. intros x. rewrite sapi_snoc, acqs_app, unls_app. destruct (He x) as [-> ->]. specialize (H8 x). lia.
Qed.
Lemma see_ts v i n : v_ts v < n -> i < n -> v_ts (vsee v i) < n.
Proof. intros. cbn. lia. Qed.
Lemma see_le v i : v_ts v <= v_ts (vsee v i).
Proof. cbn. lia. Qed.
Lemma see_at v i : v_ts v <= i -> v_ts (vsee v i) = i.
Proof. cbn. lia. Qed.

(** a call moves on after a load, without touching mutex_ *)
Lemma good_see s tr k a v a' i : YI s tr -> nth_error (y_act s) k = Some (a, v) -> i < length (y_h s) -> aops a' = aops a -> (forall x, tk x a' = tk x a) -> lkk a' = lkk a ->
  lcw (y_h s) (y_lv s) a' (vsee v i) -> YI (y_set s k a' (vsee v i)) tr.
Proof.
  intros HI Hk Hi H1 H2 H3 H4. pose proof (y_aok _ _ HI _ _ (nth_error_In _ _ Hk)) as Aa. pose proof (a_ts _ _ _ _ Aa). eapply yi_move; [eassumption|eassumption|auto|auto|lia|].
  apply (aok_up _ _ a _ v); auto using see_le, see_ts.
Qed.
Lemma good_stay s tr k a v a' : YI s tr -> nth_error (y_act s) k = Some (a, v) -> aops a' = aops a -> (forall x, tk x a' = tk x a) -> lkk a' = lkk a ->
  lcw (y_h s) (y_lv s) a' v -> YI (y_set s k a' v) tr.
Proof.
  intros HI Hk H1 H2 H3 H4. pose proof (y_aok _ _ HI _ _ (nth_error_In _ _ Hk)) as Aa. pose proof (a_ts _ _ _ _ Aa). eapply yi_move; [eassumption|eassumption|auto|auto|lia|].
  apply (aok_up _ _ a _ v); auto.
Qed.
(** ... or after it has locked mutex_ *)
Lemma good_lock s tr k a v a' i x w : YI s tr -> nth_error (y_act s) k = Some (a, v) -> y_lock s = false -> rd (y_h s) (vjoin v (y_lv s)) i = Some (x, w) ->
  aops a' = aops a -> (forall y, tk y a' = tk y a) -> lkk a = 0 -> (exists o, a' = XLoop o x \/ a' = SLoop o x) ->
  YI (y_set (y_locked s true (y_lv s)) k a' (vsee (vjoin v (y_lv s)) i)) tr.
Proof.
  intros HI Hk Hl Hr H1 H2 H3 (o & H4). pose proof (y_aok _ _ HI _ _ (nth_error_In _ _ Hk)) as Aa. pose proof (a_ts _ _ _ _ Aa) as Hv. pose proof (y_glob _ _ HI) as Hg.
  pose proof (g_lts _ _ _ Hg) as Hlt. apply rd_some in Hr. destruct Hr as (R1 & R2 & R3). apply (yi_move s tr k a v a' _ true); [assumption|assumption|auto|auto|..].
  - rewrite Hl, H3. destruct H4 as [-> | ->]; reflexivity.
  - apply (aok_up _ _ a _ v); auto.
    + cbn. lia.
    + cbn in *. lia.
    + intros o' Ho. change (knows (vsee ?v ?i) ?o) with (knows v o). now rewrite knows_join, Ho.
    + assert (Hc : v_c x = MCont -> cc (y_h s) = MCont). { apply (g_fok _ _ _ Hg i x w); auto. cbn in R1. lia. }
      assert (Hkn : forall o', knows (y_lv s) o' = true -> knows (vsee (vjoin v (y_lv s)) i) o' = true).
      { intros o' Ho. change (knows (vsee ?v ?i) ?o) with (knows v o). rewrite knows_join, Ho. apply orb_true_r. }
      assert (Hts : v_ts (y_lv s) <= v_ts (vsee (vjoin v (y_lv s)) i)) by (cbn; lia).
      destruct H4 as [-> | ->]; cbn [lcw]; auto.
Qed.
Lemma lcw_loop s tr k a v o x i y w : YI s tr -> nth_error (y_act s) k = Some (a, v) -> (a = XLoop o x \/ a = SLoop o x) -> v_ts v <= i -> nth_error (y_h s) i = Some (y, w) ->
  v_ts (y_lv s) <= v_ts (vsee v i) /\ (forall o, knows (y_lv s) o = true -> knows (vsee v i) o = true) /\ (v_c y = MCont -> cc (y_h s) = MCont).
Proof.
  intros HI Hk Ha Hi Hy. pose proof (a_lc _ _ _ _ (y_aok _ _ HI _ _ (nth_error_In _ _ Hk))) as H. pose proof (g_fok _ _ _ (y_glob _ _ HI)) as Hf.
  assert (H' : v_ts (y_lv s) <= v_ts v /\ forall o, knows (y_lv s) o = true -> knows v o = true) by (destruct Ha as [-> | ->]; cbn in H; tauto). destruct H' as [H1 H2].
  split; [cbn; lia|]. split; [auto|]. apply (Hf i y w); auto. lia.
Qed.
Lemma lv_same s k lock' h lv w : glob h lv w -> y_h s = h -> y_lv s = lv -> lv_ok s k lock' lv.
Proof. intros Hg <- <-. pose proof (g_lts _ _ _ Hg). split; [lia|]. split; auto. Qed.
Lemma lv_unlock s tr k a v o x acq : YI s tr -> nth_error (y_act s) k = Some (a, v) -> (a = XLoop o x \/ a = SLoop o x) -> lv_ok s k false (rmw_view acq (y_h s) v).
Proof.
  intros HI Hk Ha. pose proof (y_aok _ _ HI _ _ (nth_error_In _ _ Hk)) as Aa. pose proof (a_lc _ _ _ _ Aa) as H. pose proof (y_glob _ _ HI) as Hg.
  assert (H' : v_ts (y_lv s) <= v_ts v /\ forall o, knows (y_lv s) o = true -> knows v o = true) by (destruct Ha as [-> | ->]; cbn in H; tauto). destruct H' as [H1 H2].
  pose proof (a_ts _ _ _ _ Aa) as Hv. pose proof (rmw_ts acq _ v Hv (g_rts _ _ _ Hg)) as E. split; [lia|]. split; [auto using rmw_knows|]. right.
  apply (lonly _ _ _ _ _ HI Hk). destruct Ha as [-> | ->]; cbn; lia.
Qed.
Lemma rval_split x : x = RV (v_c x) (v_n x).
Proof. now destruct x. Qed.

(** suspension, with the guard *)
Lemma good_susp s tr k a v v1 h1 nd x : YI s tr -> nth_error (y_act s) k = Some (a, v) -> (a = XLoop (fst nd) x \/ a = SLoop (fst nd) x) -> aops a = [nd] ->
  (h1 = y_h s /\ v1 = v /\ cc (y_h s) = MCont) \/
  (h1 = rmw false false (y_h s) v (RV MCont (nn (y_h s))) /\ v1 = rmw_view false (y_h s) v /\ cc (y_h s) = MLocked /\ (snd nd = false -> nn (y_h s) = 0)) ->
  good tr (y_suspend (y_hist s h1) k nd v1).
Proof.
  intros HI Hk Ha Ho Hc. pose proof (y_aok _ _ HI _ _ (nth_error_In _ _ Hk)) as Aa. pose proof (a_lc _ _ _ _ Aa) as H. pose proof (y_glob _ _ HI) as Hg.
  assert (H' : forall o, knows (y_lv s) o = true -> knows v o = true) by (destruct Ha as [-> | ->]; cbn in H; tauto).
  assert (Hkv : forall o', knows v o' = true -> knows v1 o' = true) by (destruct Hc as [(_ & -> & _)|(_ & -> & _)]; auto using rmw_knows).
  unfold y_suspend. rewrite y_guard_ok.
  - cbn [good]. apply (yi_susp s tr k a v v1 h1 nd x); auto.
  - intros n [<-|Hn]; [apply (node_started _ _ _ _ _ HI Hk); rewrite Ho; now left|exact (wnode_started _ _ _ HI Hn)].
  - intros n [<-|Hn]; [apply Hkv, (a_kn _ _ _ _ Aa); rewrite Ho; now left|]. apply Hkv, H', (g_kw _ _ _ Hg). exact Hn.
Qed.

(** ** Passing the mutex on: the three places *)
Lemma c_of_cont w : c_of w = MCont <-> w <> [].
Proof. destruct w; simpl; split; congruence. Qed.
Lemma c_of_none w : c_of w <> MNone.
Proof. destruct w; discriminate. Qed.
Lemma store_ok (rel : bool) h v x (r : hist rval -> view -> outcome yst sevent) : v_ts v = newest h -> y_store rel h v x r = r (h ++ [(x, if rel then vsee v (length h) else vbot)]) (vsee v (length h)).
Proof. intros E. unfold y_store. now rewrite E, Nat.eqb_refl. Qed.

Ltac ysimp := unfold y_set, y_locked, y_hist, y_wait, y_own, y_done; cbn [y_lock y_lv y_h y_w y_op y_act y_xo y_so y_acc].

Section Hand.
Variables (s : yst) (tr : list sevent) (k : nat) (a : ract) (v : view).
Hypothesis HI : YI s tr.
Hypothesis Hk : nth_error (y_act s) k = Some (a, v).
Hypothesis Hlock : y_lock s = false.
Let v1 := vjoin v (y_lv s).
Lemma v1_ts : v_ts v1 < length (y_h s).
Proof. unfold v1. cbn. pose proof (a_ts _ _ _ _ (y_aok _ _ HI _ _ (nth_error_In _ _ Hk))). pose proof (g_lts _ _ _ (y_glob _ _ HI)). lia. Qed.
Lemma v1_kw nd : In nd (y_w s) -> knows v1 (fst nd) = true.
Proof. intros H. unfold v1. rewrite knows_join, (g_kw _ _ _ (y_glob _ _ HI) _ H). apply orb_true_r. Qed.
Lemma guard_w r : y_guard s v1 (y_w s) r = r.
Proof. apply y_guard_ok; [intros nd; exact (wnode_started _ _ _ HI)|apply v1_kw]. Qed.

(** a new message (x, w0) is written, and p is woken up *)
Lemma good_hand p w x w0 v2 : y_w s = p ++ w -> p <> [] -> aops a = [] -> lkk a = 0 -> y_xo s = [] -> y_so s = [] ->
  (forall j b u, j <> k -> nth_error (y_act s) j = Some (b, u) -> tk true b = 0 /\ tk false b = 0) ->
  v_c x = c_of w -> (v_n x > 0 -> w <> [] -> exists o w', w = (o, true) :: w') ->
  v_ts w0 <= length (y_h s) -> v_ts v2 = length (y_h s) -> (forall o, knows v1 o = true -> knows v2 o = true) ->
  (forall y, tk y (RHand p) + own y (lastr (y_h s)) = tk y a + own y x) -> (forall y, tk y (RHand p) = own y x) ->
  good tr (y_hand s k p w (y_h s ++ [(x, w0)]) v2).
Proof.
  intros Hw Hp Ha Hl X S Hoth Hx Hfr Hw0 Hv2 Hkn Ht Ho. unfold y_hand. cbn [good]. ysimp. pose proof (y_glob _ _ HI) as Hg. pose proof (g_lts _ _ _ Hg) as Hlt.
  apply (yi_hand s tr k a v p w); auto.
  - rewrite snoc_len. lia.
  - apply (glob_push _ (y_lv s) (y_w s)); auto; try lia; rewrite ?Hx.
    + intros E. destruct (c_of_none w E).
    + apply c_of_cont.
    + intros E H. apply Hfr; auto. now apply c_of_cont.
    + intros nd Hn. apply Hkn, v1_kw. rewrite Hw. apply in_app_iff. auto.
  - intros nd Hn. apply Hkn, v1_kw. rewrite Hw. apply in_app_iff. auto.
  - intros y. rewrite lastr_snoc. auto.
  - rewrite Ho. intros H. apply xok_new; auto; [rewrite Hx; apply c_of_none|]. cbn in H. destruct (v_c x); [lia|..]; (destruct (Nat.eqb_spec (v_n x) 0); [auto|lia]).
  - rewrite Ho. intros H. apply sok_new; auto. rewrite Hx. apply c_of_none.
Qed.

End Hand.

Lemma good_xunl s tr k v d i spur : YI s tr -> nth_error (y_act s) k = Some (XUnlLock, v) -> good tr (y_act_step d s k i spur XUnlLock v).
Proof.
  intros HI Hk. cbn [y_act_step]. destruct (y_lock s) eqn:Hlock; [exact I|]. pose proof (y_glob _ _ HI) as Hg. pose proof (y_aok _ _ HI _ _ (nth_error_In _ _ Hk)) as Aa. pose proof (a_lc _ _ _ _ Aa) as Hc. cbn [lcw] in Hc.
  destruct (xonly _ _ _ _ _ HI Hk ltac:(cbn; lia)) as (_ & Hn & X & S & _ & _ & Hoth). pose proof (proj1 (g_waits _ _ _ Hg) Hc) as Hw.
  set (v1 := vjoin v (y_lv s)). pose proof (v1_ts _ _ _ _ _ HI Hk) as Hv1. fold v1 in Hv1. assert (Hv1n : v_ts v1 = newest (y_h s)). { pose proof (g_cts _ _ _ Hg Hc Hn) as E. unfold newest in *. unfold v1 in *. cbn in *. lia. }
  assert (Hv2 : v_ts (vsee v1 (length (y_h s))) = length (y_h s)) by (cbn [vsee v_ts]; lia).
  assert (Hw0 : forall b : bool, v_ts (if b then vsee v1 (length (y_h s)) else vbot) <= length (y_h s)) by (intros [|]; [lia|simpl; lia]).
  assert (Hlast : lastr (y_h s) = RV MCont 0) by (rewrite (rval_split (lastr (y_h s))), Hc, Hn; reflexivity).
  pose proof (guard_w _ _ v HI) as Hguard. fold v1 in Hguard. pose proof (fun nd => v1_kw _ _ v HI nd) as Hkw. fold v1 in Hkw.
  destruct (y_w s) as [|[o [|]] w] eqn:Ew; [congruence|..].
  - rewrite Hguard. destruct w as [|q w].
    + rewrite store_ok by auto. apply (good_hand s tr k XUnlLock v); auto; try discriminate; try (intros [|]; rewrite ?Hlast; reflexivity). cbn. lia.
    + unfold y_hand. cbn [good]. ysimp. apply (yi_hand s tr k XUnlLock v [(o, true)] (q :: w)); auto; try discriminate.
      * constructor; auto; try apply Hg.
        -- rewrite Hc. split; [discriminate|auto].
        -- rewrite Hn. lia.
        -- apply (fokr_mono _ (y_lv s)); [apply Hg|unfold v1; cbn; lia].
        -- intros nd Hn'. apply Hkw. now right.
      * intros nd [<-|[]]. apply Hkw. now left.
      * intros [|]; cbn; lia.
      * intros _. apply (xok_mono _ v); [apply (a_x _ _ _ _ Aa); cbn; lia|unfold v1; cbn; lia].
      * cbn. lia.
  - destruct (readers ((o, false) :: w)) as [p w'] eqn:Er. destruct (readers_spec _ _ _ Er) as (E1 & E2 & E3).
    assert (Hp : p <> []) by (simpl in Er; destruct (readers w); injection Er as <- <-; discriminate). rewrite Hguard, store_ok by auto.
    assert (Hlp : 1 <= length p) by (destruct p; [congruence|simpl; lia]).
    assert (Hown : forall y, own y (RV (c_of w') (length p)) = if y then 0 else length p).
    { intros [|]; cbn; [|reflexivity]. destruct w'; simpl; (destruct (Nat.eqb_spec (length p) 0); [lia|reflexivity]). }
    apply (good_hand s tr k XUnlLock v); auto; try congruence.
    + intros _ Hne. destruct E3 as [E3|E3]; [congruence|exact E3].
    + intros y. rewrite readers_tk, Hown, Hlast by auto. destruct y; cbn; lia.
    + intros y. rewrite readers_tk, Hown by auto. reflexivity.
Qed.


Lemma good_sunl2 s tr k a x v d i spur : YI s tr -> nth_error (y_act s) k = Some (a, v) -> (a = SUnl1 x \/ a = SUnl2 x) -> v_c x = MCont ->
  good tr (y_sunl2 d s k i spur x v).
Proof.
  intros HI Hk Haa Hx. pose proof (y_glob _ _ HI) as Hg. pose proof (y_aok _ _ HI _ _ (nth_error_In _ _ Hk)) as Aa. pose proof (a_ts _ _ _ _ Aa) as Hv.
  assert (Hta : tk false a = 1 /\ tk true a = 0 /\ lkk a = 0 /\ aops a = []) by (destruct Haa as [-> | ->]; auto). destruct Hta as (Ht1 & Ht2 & Hl0 & Ha0).
  destruct (sonly _ _ _ _ _ HI Hk ltac:(lia)) as (Hc & Hn & X & _ & Hnx & Hone). assert (Hsok : sok (y_h s) v) by (apply (a_s _ _ _ _ Aa); lia).
  assert (Hat : exists w, nth_error (y_h s) (v_ts v) = Some (x, w)) by (pose proof (a_lc _ _ _ _ Aa) as H; destruct Haa as [-> | ->]; cbn in H; tauto). destruct Hat as [w0 Hat].
  destruct (proj1 Hsok _ _ _ (le_n _) Hat) as (B1 & B2 & B3). destruct (B3 Hx) as [C1 C2]. unfold y_sunl2. destruct (Nat.ltb_spec 1 (v_n x)) as [Hlt|Hge].
  - destruct (casr_read true spur (y_h s) v i x) as [|y|] eqn:Ec; [| |exact I]; cbn [good]; rewrite app_nil_r.
    + apply casr_ok in Ec. destruct Ec as (Ec & _). apply (yi_rel_s s tr k a v); auto.
      * destruct Haa as [-> | ->]; [left|right]; eauto.
      * left. rewrite Ec, Hx. repeat split; auto; discriminate.
    + apply casr_no in Ec. destruct Ec as (D1 & D2 & (w1 & D3) & _). apply (good_see s tr k a v); auto.
      * intros [|]; [rewrite Ht2|rewrite Ht1]; reflexivity.
      * cbn [lcw]. rewrite (see_at _ _ D1). split; [|eauto]. exact (proj2 Hsok _ _ _ _ _ _ (le_n _) D1 Hat D3 Hx).
  - assert (Hx1 : v_n x = 1) by lia. rewrite Hx1. cbn [Nat.eqb negb]. assert (Hn1 : v_ts v = newest (y_h s)) by lia. destruct (y_lock s) eqn:Hlock; [exact I|].
    assert (Hlast : lastr (y_h s) = x). { unfold lastr. rewrite <- Hn1, Hat. reflexivity. } assert (Enn : nn (y_h s) = 1) by (rewrite Hlast; auto).
    destruct (Hone Enn) as (S & _ & Hoth). destruct (g_front _ _ _ Hg C1 ltac:(lia)) as (o & w & Ew). set (v1 := vjoin v (y_lv s)).
    pose proof (v1_ts _ _ _ _ _ HI Hk) as Hv1. fold v1 in Hv1. pose proof (guard_w _ _ v HI) as Hguard. fold v1 in Hguard. rewrite Ew in *. rewrite Hguard.
    assert (Hoth' : forall j b u, j <> k -> nth_error (y_act s) j = Some (b, u) -> tk true b = 0 /\ tk false b = 0).
    { intros j b u Hj Hb. split; [apply (Hnx b u); exact (nth_error_In _ _ Hb)|exact (Hoth _ _ _ Hj Hb)]. }
    assert (Hown : forall y, own y (RV (c_of w) 0) = if y then 1 else 0) by (intros [|]; destruct w; reflexivity).
    assert (Hown0 : forall y, own y (lastr (y_h s)) = if y then 0 else 1) by (rewrite Hlast; intros [|]; unfold own; rewrite Hx1, ?Hx; reflexivity).
    destruct (fix_s d).
    + unfold rmw. apply (good_hand s tr k a v); auto; try discriminate; cbn [v_c v_n].
      * lia.
      * pose proof (g_rts _ _ _ Hg). cbn iota. lia.
      * apply rmw_ts; auto. apply Hg.
      * intros o'. apply rmw_knows.
      * intros y. rewrite Hown, Hown0. destruct y; [rewrite Ht2|rewrite Ht1]; reflexivity.
      * intros y. rewrite Hown. destruct y; reflexivity.
    + rewrite store_ok by (unfold v1, newest in *; cbn in *; lia). apply (good_hand s tr k a v); auto; try discriminate; cbn [v_c v_n].
      * lia.
      * cbn. lia.
      * cbn [vsee v_ts]. lia.
      * intros y. rewrite Hown, Hown0. destruct y; [rewrite Ht2|rewrite Ht1]; reflexivity.
      * intros y. rewrite Hown. destruct y; reflexivity.
Qed.

Lemma good_try_ok s tr k w x v xs : YI s tr -> nth_error (y_act s) k = Some (STryL w x, v) ->
  (lastr (y_h s) = RV MNone 0 /\ xs = 1 \/ cc (y_h s) = MLocked /\ 1 <= nn (y_h s) /\ xs = nn (y_h s) + 1) ->
  good tr (y_try_ret (y_hist s (rmw true false (y_h s) v (RV MLocked xs))) k w true (rmw_view true (y_h s) v)).
Proof.
  intros HI Hk Hst. pose proof (lv_same s k (y_lock s) _ _ _ (y_glob _ _ HI) eq_refl eq_refl) as Hlv. unfold y_try_ret. destruct w as [o|]; cbn [good]; ysimp.
  - rewrite app_nil_r. apply (yi_acq_s s tr k (STryL (Some o) x) v (RSet (o, false)) xs o); auto.
  - apply (yi_acq_s s tr k (STryL None x) v REnd xs 0); auto.
Qed.
Lemma good_try_no s tr k w x v : YI s tr -> nth_error (y_act s) k = Some (STryL w x, v) -> good tr (y_try_ret s k w false v).
Proof.
  intros HI Hk. unfold y_try_ret. destruct w as [o|]; cbn [good].
  - rewrite app_nil_r. apply (good_stay s tr k (STryL (Some o) x) v); auto. exact I.
  - apply yi_skip; [|intros [|]; auto]. apply (good_stay s tr k (STryL None x) v); auto. exact I.
Qed.

Lemma y_hist_id s : y_hist s (y_h s) = s.
Proof. now destruct s. Qed.
Lemma good_act d s tr k i spur a v : YI s tr -> nth_error (y_act s) k = Some (a, v) -> good tr (y_act_step d s k i spur a v).
Proof.
  intros HI Hk. pose proof (y_glob _ _ HI) as Hg. pose proof (y_aok _ _ HI _ _ (nth_error_In _ _ Hk)) as Aa. pose proof (a_ts _ _ _ _ Aa) as Hv. pose proof (a_lc _ _ _ _ Aa) as Hlc.
  assert (Hnone : forall x, lastr (y_h s) = x -> v_c x = MNone -> lastr (y_h s) = RV MNone 0).
  { intros x E Ex. assert (En : nn (y_h s) = 0) by (apply (g_none _ _ _ Hg); congruence). rewrite (rval_split (lastr (y_h s))), En. congruence. }
  pose proof (fun b => lv_same s k b _ _ _ Hg eq_refl eq_refl) as Hlv.
  destruct a as [o|o|o x|w|w x|o|o x|nd| |x| | |x|x|p| ]; cbn [y_act_step].
  - (* XTry *) destruct (casr_read _ _ _ _ _ _) as [|y|] eqn:Ec; [| |exact I]; cbn [good]; rewrite app_nil_r.
    + apply casr_ok in Ec. destruct Ec as (Ec & _). ysimp. apply (yi_acq_x s tr k (XTry o) v); auto.
    + apply casr_no in Ec. apply (good_see s tr k (XTry o) v); auto; apply Ec.
  - (* XWait *) destruct (y_lock s) eqn:El; [exact I|]. destruct (rd _ _ _) as [[x w]|] eqn:Er; [|exact I]. cbn [good]. rewrite app_nil_r.
    apply (good_lock s tr k (XWait o) v _ i x w); eauto.
  - (* XLoop *) destruct (lonly _ _ _ _ _ HI Hk ltac:(cbn; lia)) as [Hl _]. assert (Hno : forall y, casr_read true spur (y_h s) v i x = RCasNo y -> good tr (Next (y_set s k (XLoop o y) (vsee v i)) [])).
    { intros y Ec. cbn [good]. rewrite app_nil_r. apply casr_no in Ec. destruct Ec as (D1 & D2 & (w1 & D3) & _). apply (good_see s tr k (XLoop o x) v); auto.
      cbn [lcw]. exact (lcw_loop _ _ _ _ _ o x _ _ _ HI Hk ltac:(auto) D1 D3). }
    destruct (v_c x) eqn:Ex.
    + destruct (casr_read _ _ _ _ _ _) as [|y|] eqn:Ec; [|now apply Hno|exact I]. cbn [good]. rewrite app_nil_r. apply casr_ok in Ec. destruct Ec as (Ec & _). ysimp.
      apply (yi_acq_x s tr k (XLoop o x) v); eauto; [apply (lv_unlock s tr k (XLoop o x) v o x true); auto|rewrite Hl; reflexivity].
    + destruct (casr_read _ _ _ _ _ _) as [|y|] eqn:Ec; [|now apply Hno|exact I]. apply casr_ok in Ec. destruct Ec as (Ec & _).
      apply (good_susp s tr k (XLoop o x) v _ _ (o, true) x); auto. right. rewrite Ec. repeat split; auto. discriminate.
    + cbn [lcw] in Hlc. pose proof (good_susp s tr k (XLoop o x) v v (y_h s) (o, true) x HI Hk ltac:(auto) eq_refl ltac:(tauto)) as G. rewrite y_hist_id in G. exact G.
  - (* STry *) destruct (rd _ _ _) as [[x u]|] eqn:Er; [|exact I]. cbn [good]. rewrite app_nil_r. apply rd_some in Er. destruct Er as (R1 & R2 & R3).
    apply (good_see s tr k (STry w) v); auto; destruct w; reflexivity.
  - (* STryL *) assert (Hno : forall y, casr_read false false (y_h s) v i x = RCasNo y -> good tr (Next (y_set s k (STryL w y) (vsee v i)) [])).
    { intros y Ec. cbn [good]. rewrite app_nil_r. apply casr_no in Ec. destruct Ec as (D1 & D2 & _ & _). apply (good_see s tr k (STryL w x) v); auto; exact I. }
    destruct (v_c x) eqn:Ex.
    + destruct (casr_read _ _ _ _ _ _) as [|y|] eqn:Ec; [|now apply Hno|exact I]. apply casr_ok in Ec. destruct Ec as (Ec & _). apply (good_try_ok s tr k w x v); eauto.
    + destruct (Nat.ltb_spec 0 (v_n x)) as [Hn|Hn]; [|exact (good_try_no _ _ _ _ _ _ HI Hk)].
      destruct (casr_read _ _ _ _ _ _) as [|y|] eqn:Ec; [|now apply Hno|exact I]. apply casr_ok in Ec. destruct Ec as (Ec & _). apply (good_try_ok s tr k w x v); auto.
      right. rewrite Ec. auto.
    + exact (good_try_no _ _ _ _ _ _ HI Hk).
  - (* SWait *) destruct (y_lock s) eqn:El; [exact I|]. destruct (rd _ _ _) as [[x w]|] eqn:Er; [|exact I]. cbn [good]. rewrite app_nil_r.
    apply (good_lock s tr k (SWait o) v _ i x w); eauto.
  - (* SLoop *) destruct (lonly _ _ _ _ _ HI Hk ltac:(cbn; lia)) as [Hl _]. assert (Hno : forall y, casr_read true spur (y_h s) v i x = RCasNo y -> good tr (Next (y_set s k (SLoop o y) (vsee v i)) [])).
    { intros y Ec. cbn [good]. rewrite app_nil_r. apply casr_no in Ec. destruct Ec as (D1 & D2 & (w1 & D3) & _). apply (good_see s tr k (SLoop o x) v); auto.
      cbn [lcw]. exact (lcw_loop _ _ _ _ _ o x _ _ _ HI Hk ltac:(auto) D1 D3). }
    pose proof (lv_unlock s tr k (SLoop o x) v o x true HI Hk ltac:(auto)) as Hlu.
    destruct (v_c x) eqn:Ex.
    + destruct (casr_read _ _ _ _ _ _) as [|y|] eqn:Ec; [|now apply Hno|exact I]. cbn [good]. rewrite app_nil_r. apply casr_ok in Ec. destruct Ec as (Ec & _). ysimp.
      apply (yi_acq_s s tr k (SLoop o x) v (RSet (o, false)) 1 o); eauto. rewrite Hl. reflexivity.
    + destruct (casr_read _ _ _ _ _ _) as [|y|] eqn:Ec; [|now apply Hno|exact I]. apply casr_ok in Ec. destruct Ec as (Ec & _). destruct (Nat.ltb_spec 0 (v_n x)) as [Hn|Hn].
      * cbn [good]. rewrite app_nil_r. ysimp. apply (yi_acq_s s tr k (SLoop o x) v (RSet (o, false)) (v_n x + 1) o); auto.
        -- right. rewrite Ec. auto.
        -- rewrite Hl. reflexivity.
      * replace 0 with (nn (y_h s)) by (rewrite Ec; lia). apply (good_susp s tr k (SLoop o x) v _ _ (o, false) x); auto. right. rewrite Ec. repeat split; auto. intros _. lia.
    + cbn [lcw] in Hlc. pose proof (good_susp s tr k (SLoop o x) v v (y_h s) (o, false) x HI Hk ltac:(auto) eq_refl ltac:(tauto)) as G. rewrite y_hist_id in G. exact G.
  - (* RSet *) rewrite y_guard_ok.
    + cbn [good]. apply (yi_notify s tr k (RSet nd) v); auto.
    + intros n [<-|[]]. apply (node_started _ _ _ _ _ HI Hk). now left.
    + intros n [<-|[]]. apply (a_kn _ _ _ _ Aa). now left.
  - (* XUnl *) destruct (rd _ _ _) as [[x u]|] eqn:Er; [|exact I]. apply rd_some in Er. destruct Er as (R1 & R2 & R3). pose proof (a_x _ _ _ _ Aa ltac:(cbn; lia)) as Hx.
    destruct (Hx _ _ _ R1 R2) as (B1 & B2 & B3). rewrite B2. cbn [Nat.ltb Nat.leb]. destruct (v_c x) eqn:Ex; [congruence|..]; cbn [good]; rewrite app_nil_r; apply (good_see s tr k XUnl v); auto.
    + cbn [lcw]. rewrite (rval_split x), Ex, B2. reflexivity.
    + cbn [lcw]. auto.
  - (* XUnlCas *) cbn [lcw] in Hlc. subst x. destruct (casr_read _ _ _ _ _ _) as [|y|] eqn:Ec; [| |exact I].
    + apply casr_ok in Ec. destruct Ec as (Ec & _). cbn [good]. rewrite app_nil_r. ysimp. apply (yi_rel_x s tr k v (RV MLocked 0)); auto.
    + apply casr_no in Ec. destruct Ec as (D1 & D2 & (w1 & D3) & D4). pose proof (a_x _ _ _ _ Aa ltac:(cbn; lia)) as Hx. destruct (Hx _ _ _ D1 D3) as (B1 & B2 & B3). rewrite B2. cbn [Nat.ltb Nat.leb].
      destruct (v_c y) eqn:Ey; [congruence|exfalso; apply D4; auto; rewrite (rval_split y), Ey, B2; reflexivity|]. cbn [good]. rewrite app_nil_r.
      apply (good_see s tr k (XUnlCas (RV MLocked 0)) v); auto. cbn [lcw]. auto.
  - exact (good_xunl s tr k v d i spur HI Hk).
  - (* SUnl *) destruct (rd _ _ _) as [[x u]|] eqn:Er; [|exact I]. apply rd_some in Er. destruct Er as (R1 & R2 & R3). pose proof (a_s _ _ _ _ Aa ltac:(cbn; lia)) as Hx.
    destruct (proj1 Hx _ _ _ R1 R2) as (B1 & B2 & B3). destruct (Nat.ltb_spec 0 (v_n x)) as [Hn|Hn]; [|lia]. 
    destruct (v_c x) eqn:Ex; [congruence|..]; cbn [good]; rewrite app_nil_r; apply (good_see s tr k SUnl v); auto; cbn [lcw]; rewrite (see_at _ _ R1); eauto.
  - (* SUnl1 *) pose proof (a_s _ _ _ _ Aa ltac:(cbn; lia)) as Hx. cbn [lcw] in Hlc. destruct Hlc as (w0 & Hat). destruct (proj1 Hx _ _ _ (le_n _) Hat) as (B1 & B2 & B3).
    destruct (v_c x) eqn:Ex; [congruence| |apply (good_sunl2 s tr k (SUnl1 x)); auto]. assert (E1 : (1 <? v_n x) || (v_n x =? 1) = true) by (destruct (Nat.ltb_spec 1 (v_n x)), (Nat.eqb_spec (v_n x) 1); auto; lia). rewrite E1.
    destruct (casr_read _ _ _ _ _ _) as [|y|] eqn:Ec; [| |exact I].
    + apply casr_ok in Ec. destruct Ec as (Ec & _). cbn [good]. rewrite app_nil_r. ysimp. apply (yi_rel_s s tr k (SUnl1 x) v); eauto.
      rewrite Ec, Ex. destruct (Nat.ltb_spec 1 (v_n x)) as [Hn|Hn]; [left; repeat split; auto; discriminate|right]. split; auto. rewrite (rval_split x), Ex. f_equal. lia.
    + apply casr_no in Ec. destruct Ec as (D1 & D2 & (w1 & D3) & D4). destruct (proj1 Hx _ _ _ D1 D3) as (C1 & C2 & C3). destruct (Nat.ltb_spec 0 (v_n y)) as [Hn|Hn]; [|lia].
      destruct (v_c y) eqn:Ey; [congruence|..]; cbn [good]; rewrite app_nil_r; apply (good_see s tr k (SUnl1 x) v); auto; cbn [lcw]; rewrite (see_at _ _ D1); eauto.
  - (* SUnl2 *) cbn [lcw] in Hlc. apply (good_sunl2 s tr k (SUnl2 x)); auto. apply Hlc.
  - (* RHand *) cbn [lcw] in Hlc. destruct p as [|nd p]; [congruence|]. rewrite y_guard_ok.
    + cbn [good]. apply (yi_notify s tr k (RHand (nd :: p)) v); auto. right. exists p. auto.
    + intros n Hn. exact (node_started _ _ _ _ _ HI Hk _ Hn).
    + intros n Hn. exact (a_kn _ _ _ _ Aa _ Hn).
  - exact I.
Qed.

(** ** Accesses and calls by the clients *)
Lemma set_nth_len {A} (l : list A) k x : length (set_nth l k x) = length l.
Proof. revert k. induction l as [|a l IH]; intros [|k]; simpl; auto. Qed.
Lemma sapi_acc tr e : (forall x, e <> EA x) -> sapi (tr ++ [e]) = sapi tr.
Proof. intros H. unfold sapi. rewrite flat_map_app. destruct e; simpl; [now destruct (H e)|now rewrite app_nil_r..]. Qed.
Lemma yi_access s tr (x : bool) j v e : YI s tr -> nth_error (ol x s) j = Some v -> (forall a, e <> EA a) ->
  YI (YS (y_lock s) (y_lv s) (y_h s) (y_w s) (y_op s) (y_act s) (if x then set_nth (y_xo s) j (vadd v (TData (y_acc s))) else y_xo s)
         (if x then y_so s else set_nth (y_so s) j (vadd v (TData (y_acc s)))) (S (y_acc s))) (tr ++ [e]).
Proof.
  intros HI Hj He. destruct HI as [H1 H2 H3 H4 H5 H6 H7 H8]. constructor; cbn [y_lock y_lv y_h y_w y_op y_act y_xo y_so y_acc]; auto.
  - intros y. specialize (H2 y). unfold ol in *. cbn [y_xo y_so]. destruct x, y; rewrite ?set_nth_len; auto.
  - intros u Hu. destruct x; auto. apply (set_nth_cases _ _ _ _ _ Hj) in Hu. destruct Hu as [->|(i & _ & Hi)]; [|apply H5; exact (nth_error_In _ _ Hi)].
    apply (H5 v). exact (nth_error_In _ _ Hj).
  - intros u Hu. destruct x; auto. apply (set_nth_cases _ _ _ _ _ Hj) in Hu. destruct Hu as [->|(i & _ & Hi)]; [|apply H6; exact (nth_error_In _ _ Hi)].
    apply (H6 v). exact (nth_error_In _ _ Hj).
  - intros y. rewrite sapi_acc by auto. specialize (H8 y). unfold ol in *. cbn [y_xo y_so]. destruct x, y; rewrite ?set_nth_len; auto.
Qed.

Lemma good_step d s tr l : YI s tr -> good tr (y_step d s l).
Proof.
  intros HI. pose proof (y_glob _ _ HI) as Hg. destruct l as [o x v|v i|v|j|j|x j|k i spur]; cbn [y_step].
  - destruct (y_op s o) eqn:Eo; try exact I. destruct (Nat.ltb_spec (v_ts v) (length (y_h s))) as [Hl|Hl]; [|exact I]. cbn [good].
    apply (yi_new s tr); auto; try apply incl_refl.
    + destruct x; constructor; cbn [aops tk lcw]; auto; try lia; intros nd [<-|[]]; cbn; now rewrite Nat.eqb_refl.
    + destruct x; reflexivity.
    + intros y. destruct x, y; reflexivity.
    + intros o'. unfold upd. replace (map fst (aops (if x then XTry o else STry (Some o)))) with [o] by (destruct x; reflexivity). rewrite cnt_cons, cnt_nil.
      destruct (Nat.eq_dec o o') as [E|E]; [subst o'; rewrite Nat.eqb_refl, Eo; reflexivity|]. destruct (Nat.eqb_spec o' o); [congruence|lia].
    + intros y. rewrite sapi_snoc, acqs_app, unls_app. destruct y; cbn; lia.
  - destruct (casr_read _ _ _ _ _ _) as [|y|] eqn:Ec; [| |exact I]; cbn [good].
    + assert (Hv : v_ts v < length (y_h s)). { unfold casr_read in Ec. destruct (rd (y_h s) v i) eqn:Er; [|discriminate]. apply rd_some in Er. lia. }
      apply casr_ok in Ec. destruct Ec as (Ec & _). apply yi_tryx; auto.
    + apply yi_skip; auto. intros [|]; auto.
  - destruct (Nat.ltb_spec (v_ts v) (length (y_h s))) as [Hl|Hl]; [|exact I]. cbn [good]. rewrite app_nil_r. apply (yi_new s tr); auto; try apply incl_refl.
    + constructor; cbn [aops tk lcw]; auto; try lia.
    + intros y. destruct y; cbn; lia.
  - destruct (nth_error (y_xo s) j) eqn:Ej; [|exact I]. cbn [good]. apply (yi_access s tr true); auto. discriminate.
  - destruct (nth_error (y_so s) j) eqn:Ej; [|exact I]. cbn [good]. apply (yi_access s tr false); auto. discriminate.
  - destruct x.
    + destruct (nth_error (y_xo s) j) as [v|] eqn:Ej; [|exact I]. cbn [good]. destruct (nth_remove _ _ _ Ej) as [E1 E2]. set (r := firstn j (y_xo s) ++ skipn (S j) (y_xo s)) in *. clearbody r. destruct (y_xok _ _ HI v (nth_error_In _ _ Ej)) as [Hx Hv].
      apply (yi_new s tr); auto; try apply incl_refl.
      * constructor; cbn [aops tk lcw b2n]; auto; try lia; try (now (intros nd [])).
      * intros [|]; unfold ol; cbn [tk b2n y_xo y_so]; lia.
      * intros y. rewrite sapi_snoc, acqs_app, unls_app. unfold ol. cbn [y_xo y_so]. destruct y; cbn; lia.
    + destruct (nth_error (y_so s) j) as [v|] eqn:Ej; [|exact I]. cbn [good]. destruct (nth_remove _ _ _ Ej) as [E1 E2]. set (r := firstn j (y_so s) ++ skipn (S j) (y_so s)) in *. clearbody r. destruct (y_sok _ _ HI v (nth_error_In _ _ Ej)) as [Hx Hv].
      apply (yi_new s tr); auto; try apply incl_refl.
      * constructor; cbn [aops tk lcw b2n negb]; auto; try lia; try (now (intros nd [])).
      * intros [|]; unfold ol; cbn [tk b2n negb y_xo y_so]; lia.
      * intros y. rewrite sapi_snoc, acqs_app, unls_app. unfold ol. cbn [y_xo y_so]. destruct y; cbn; lia.
  - destruct (nth_error (y_act s) k) as [[a v]|] eqn:Ek; [|exact I]. apply good_act; auto.
Qed.

(** ** Theorems for every choice of the orders in question *)
Theorem sharedw_safe d ls f tr : run (y_step d) y_init ls <> Failed f tr.
Proof.
  apply (run_safe (y_step d) YI y_init); [exact yi_init|..].
  - intros s tr0 l s' es HI E. pose proof (good_step d _ _ l HI) as H. now rewrite E in H.
  - intros s tr0 l f0 es HI E. pose proof (good_step d _ _ l HI) as H. now rewrite E in H.
Qed.
Theorem sharedw_inv d ls s tr : run (y_step d) y_init ls = Running s tr -> YI s tr.
Proof.
  apply (run_inv (y_step d) YI y_init); [exact yi_init|]. intros s0 tr0 l s' es HI E. pose proof (good_step d _ _ l HI) as H. now rewrite E in H.
Qed.
Theorem sharedw_exclusive d ls s tr : run (y_step d) y_init ls = Running s tr ->
  acqs true (sapi tr) <= unls true (sapi tr) + 1 /\ (unls true (sapi tr) < acqs true (sapi tr) -> acqs false (sapi tr) = unls false (sapi tr)).
Proof.
  intros E. apply sharedw_inv in E. pose proof (y_tok _ _ E true) as T1. pose proof (y_tok _ _ E false) as T2. pose proof (y_tr _ _ E true) as H1. pose proof (y_tr _ _ E false) as H2.
  unfold own in *. destruct (v_c (lastr (y_h s))); destruct (Nat.eqb_spec (nn (y_h s)) 0); lia.
Qed.
