(** When a wait_group may be destroyed under the C++ memory model: C94. *)
From Coq Require Import List Arith Bool Lia.
From Verif Require Import Lts ListFacts M_Weak M_WaitGroupW S_WaitGroupW P_WaitGroupW M_WaitGroupWD S_WaitGroupWD.
Import ListNotations.

Definition tc (m : nat) (v : view) : Prop := In (TCall m) (v_tok v).
Lemma calls_spec v m : In m (calls v) <-> tc m v.
Proof.
  unfold calls, tc. rewrite in_flat_map. split.
  - intros (t & Ht & Hm). destruct t; simpl in Hm; try tauto. destruct Hm as [<-|[]]. exact Ht.
  - intros H. exists (TCall m). split; [exact H|]. now left.
Qed.
Lemma tc_join m a b : tc m (vjoin a b) <-> tc m a \/ tc m b.
Proof. unfold tc, vjoin. simpl. apply in_app_iff. Qed.
Lemma tc_rmw {A} m acq (h : hist A) v : tc m v \/ (acq = true /\ tc m (rel_of h)) -> tc m (rmw_view acq h v).
Proof. unfold rmw_view, tc. simpl. destruct acq; simpl; rewrite ?in_app_iff; intuition congruence. Qed.

(** ** Marking a call does not matter for the invariants of M_WaitGroupW *)
Lemma mark_nth s k m k' u pc v : nth_error (g_dn (g_mark s k m)) k' = Some (u, pc, v) ->
  exists v0, nth_error (g_dn s) k' = Some (u, pc, v0) /\ v_ts v = v_ts v0 /\ (forall n, In n (accs v0) <-> In n (accs v)) /\
             ((k' = k /\ v = vadd v0 (TCall m)) \/ (k' <> k /\ v = v0)).
Proof.
  unfold g_mark. destruct (nth_error (g_dn s) k) as [[[u0 pc0] v0]|] eqn:Ek; simpl; intros H.
  - destruct (Nat.eq_dec k' k) as [->|Hn].
    + rewrite (nth_error_set_nth_same _ _ _ _ Ek) in H. injection H as <- <- <-. exists v0. split; [exact Ek|]. split; [reflexivity|]. split; [intros n; reflexivity|]. left. split; reflexivity.
    + rewrite nth_error_set_nth_other in H by auto. exists v. split; [exact H|]. split; [reflexivity|]. split; [intros n; reflexivity|]. right. split; [exact Hn|reflexivity].
  - exists v. split; [exact H|]. split; [reflexivity|]. split; [intros n; reflexivity|]. right. split; [intros ->; congruence|reflexivity].
Qed.
Lemma mark_nth' s k m k' u pc v : nth_error (g_dn s) k' = Some (u, pc, v) -> exists v', nth_error (g_dn (g_mark s k m)) k' = Some (u, pc, v').
Proof.
  unfold g_mark. intros H. destruct (nth_error (g_dn s) k) as [[[u0 pc0] v0]|] eqn:Ek; simpl; [|eauto].
  destruct (Nat.eq_dec k' k) as [->|Hn]; [rewrite H in Ek; injection Ek as <- <- <-; rewrite (nth_error_set_nth_same _ _ _ _ H); eauto|].
  rewrite nth_error_set_nth_other by auto. eauto.
Qed.
Lemma mark_same s k m : g_h (g_mark s k m) = g_h s /\ g_lv (g_mark s k m) = g_lv s /\ g_q (g_mark s k m) = g_q s /\ g_op (g_mark s k m) = g_op s /\
  g_un (g_mark s k m) = g_un s /\ g_wk (g_mark s k m) = g_wk s /\ g_acc (g_mark s k m) = g_acc s.
Proof. unfold g_mark. destruct (nth_error (g_dn s) k) as [[[u pc] v]|]; simpl; repeat split. Qed.
Lemma mark_GI s k m tr : GI s tr -> GI (g_mark s k m) tr.
Proof.
  intros G. destruct (mark_same s k m) as (E1 & E2 & E3 & E4 & E5 & E6 & E7).
  split; rewrite ?E1, ?E2, ?E3, ?E4, ?E5, ?E6, ?E7; try solve [apply G].
  - intros k' u pc v Hk Hpc. apply mark_nth in Hk as (v0 & Hk & Ht & Ha & _). destruct (gi_dn _ _ G _ _ _ _ Hk Hpc) as (w & H1 & H2 & H3 & H4 & (n & H5 & H6) & H7).
    exists w. rewrite Ht. repeat split; auto. exists n. split; [exact H5|]. apply Ha. exact H6.
  - intros k1 k2 u pc1 pc2 v1 v2 H1 H2. apply mark_nth in H1 as (v3 & H1 & _). apply mark_nth in H2 as (v4 & H2 & _). exact (gi_one _ _ G _ _ _ _ _ _ _ H1 H2).
  - intros u w Hu (k' & pc & v & Hk). apply (gi_acc _ _ G u w Hu). apply mark_nth in Hk as (v0 & Hk & _). eauto.
  - intros k' u pc v Hk. apply mark_nth in Hk as (v0 & Hk & _). exact (gi_dnu _ _ G _ _ _ _ Hk).
  - intros os v o Hw Ho. destruct (gi_wk _ _ G os v o Hw Ho) as (kn & H1 & H2). exists kn. split; [exact H1|]. intros u Hu. destruct (H2 u Hu) as (n & (w & H3 & H4) & H5).
    exists n. split; [exists w; rewrite E5; auto|exact H5].
  - intros u n (w & Hw & Hn). rewrite E5 in Hw. apply (gi_tacc _ _ G). exists w. auto.
Qed.

(** ** The accesses of done() *)
Definition by_done (ws : list who) (m u : nat) : Prop := nth_error ws m = Some (WDone u).
Definition by_wait (ws : list who) (m o : nat) : Prop := nth_error ws m = Some (WWait o).
(** all accesses of done() for units that were decremented up to message i are known in v *)
Definition seesc (un : list wunit) (ws : list who) (i : nat) (v : view) : Prop :=
  forall u w f, nth_error un u = Some w -> u_fin w = Some f -> f <= i -> forall m, by_done ws m u -> tc m v.
Definition fin (un : list wunit) (u : nat) : Prop := exists w f, nth_error un u = Some w /\ u_fin w = Some f.

Record ZI (s : gst) (ws : list who) (nt : list (nat * list nat * list nat)) : Prop := ZInv {
  zi_rel : forall i x w, nth_error (g_h s) i = Some (x, w) -> seesc (g_un s) ws i w;
  zi_zero : forall i w, nth_error (g_h s) i = Some (0, w) -> seesc (g_un s) ws i (g_lv s);
  zi_dn : forall k u pc v, nth_error (g_dn s) k = Some (u, pc, v) -> pc <> GEnd -> forall m, by_done ws m u -> tc m v;
  zi_who : forall m u, by_done ws m u -> exists k pc v, nth_error (g_dn s) k = Some (u, pc, v);
  zi_wk : forall os v o kn u, In (os, v) (g_wk s) -> In o os -> g_op s o = GWait kn -> In u kn -> fin (g_un s) u /\ forall m, by_done ws m u -> tc m v;
  zi_not : forall o us c u, In (o, us, c) nt -> In u us -> fin (g_un s) u /\ forall m, by_done ws m u -> In m c;
  zi_wq : forall m o, by_wait ws m o -> In o (g_q s) -> tc m (g_lv s);
  zi_ww : forall m o os v, by_wait ws m o -> In (os, v) (g_wk s) -> In o os -> tc m v;
  zi_wn : forall m o us c, by_wait ws m o -> In (o, us, c) nt -> In m c;
  zi_op : forall m o, by_wait ws m o -> g_op s o <> GIdle;
  zi_od : forall o us c, In (o, us, c) nt -> g_op s o = GDone }.

Lemma ZI_init n0 : ZI (g_init n0) [] [].
Proof.
  assert (Hn : forall (A : Type) m (x : A), nth_error [] m = Some x -> False) by (intros A [|m] x H; discriminate).
  split; unfold seesc, by_done, by_wait; simpl; intros; try tauto; try (exfalso; eauto; fail).
Qed.

(** an access by somebody else *)
Lemma by_done_snoc ws a m u : by_done (ws ++ [a]) m u -> by_done ws m u \/ (m = length ws /\ a = WDone u).
Proof. intros H. apply nth_snoc in H as [[_ H]|[H ->]]; auto. Qed.
Lemma by_wait_snoc ws a m o : by_wait (ws ++ [a]) m o -> by_wait ws m o \/ (m = length ws /\ a = WWait o).
Proof. intros H. apply nth_snoc in H as [[_ H]|[H ->]]; auto. Qed.

Section Steps.
Variables a_acq a_rel : bool.
Notation step := (g_step true true a_acq a_rel).

(** add() *)
Lemma ZI_add s ws nt tr n v : GI s tr -> ZI s ws nt -> 
  ZI (GS (rmw a_acq a_rel (g_h s) v (g_newest s + n)) (g_lv s) (g_q s) (g_op s) (g_un s ++ repeat (WU (length (g_h s)) None None) n) (g_dn s) (g_wk s) (g_acc s)) (ws ++ [WAdd]) nt.
Proof.
  intros G Z. change (g_newest s) with (gval (g_h s)). pose proof (gi_hi _ _ G) as H. pose proof (hi_h _ _ H) as Hne.
  assert (Hd : forall m u, by_done (ws ++ [WAdd]) m u -> by_done ws m u) by (intros m u E; apply by_done_snoc in E as [E|[_ E]]; [exact E|discriminate]).
  assert (Hw : forall m u, by_wait (ws ++ [WAdd]) m u -> by_wait ws m u) by (intros m u E; apply by_wait_snoc in E as [E|[_ E]]; [exact E|discriminate]).
  assert (Hnew : forall u w, nth_error (g_un s ++ repeat (WU (length (g_h s)) None None) n) u = Some w -> nth_error (g_un s) u = Some w \/ w = WU (length (g_h s)) None None).
  { intros u w Hu. apply nth_app_cases in Hu as [Hu|[_ Hu]]; [auto|]. right. exact (repeat_spec _ _ _ Hu). }
  assert (Hsn : forall i w, seesc (g_un s) ws i w -> seesc (g_un s ++ repeat (WU (length (g_h s)) None None) n) (ws ++ [WAdd]) i w).
  { intros i w Hse u w' f Hu Hf Hle m Hm. destruct (Hnew u w' Hu) as [Hu' | ->]; [eauto|discriminate]. }
  assert (Hfin : forall u, fin (g_un s) u -> fin (g_un s ++ repeat (WU (length (g_h s)) None None) n) u).
  { intros u (w & f & Hu & Hf). exists w, f. split; [|exact Hf]. rewrite nth_error_app1; [exact Hu|]. apply nth_error_Some. congruence. }
  assert (Hup : forall u w f, nth_error (g_un s) u = Some w -> u_fin w = Some f -> f <= newest (g_h s)).
  { intros u w f Hu Hf. pose proof (proj2 (hi_un _ _ H u w Hu) f Hf). unfold newest. lia. }
  split; simpl.
  - intros i x w Hi. apply Hsn. unfold rmw in Hi. apply nth_snoc in Hi as [[_ Hi]|[-> Hi]]; [exact (zi_rel _ _ _ Z _ _ _ Hi)|].
    injection Hi as _ ->. intros u w f Hu Hf _ m Hm. pose proof (zi_rel _ _ _ Z _ _ _ (newest_nth _ Hne) u w f Hu Hf (Hup _ _ _ Hu Hf) m Hm) as Ht.
    destruct a_rel; [|exact Ht]. apply tc_join. left. exact Ht.
  - intros i w Hi. apply Hsn. unfold rmw in Hi. apply nth_snoc in Hi as [[_ Hi]|[-> Hi]]; [exact (zi_zero _ _ _ Z _ _ Hi)|].
    assert (Hz : gval (g_h s) = 0) by (injection Hi as Hi _; lia). pose proof (newest_nth _ Hne) as Hn. rewrite Hz in Hn.
    intros u w' f Hu Hf _. exact (zi_zero _ _ _ Z _ _ Hn u w' f Hu Hf (Hup _ _ _ Hu Hf)).
  - intros k u pc v0 Hk Hpc m Hm. exact (zi_dn _ _ _ Z k u pc v0 Hk Hpc m (Hd _ _ Hm)).
  - intros m u Hm. exact (zi_who _ _ _ Z m u (Hd _ _ Hm)).
  - intros os v0 o kn u H1 H2 H3 H4. destruct (zi_wk _ _ _ Z os v0 o kn u H1 H2 H3 H4) as [H5 H6]. split; auto.
  - intros o us c u H1 H2. destruct (zi_not _ _ _ Z o us c u H1 H2) as [H3 H4]. split; auto.
  - intros m o Hm. exact (zi_wq _ _ _ Z m o (Hw _ _ Hm)).
  - intros m o os v0 Hm. exact (zi_ww _ _ _ Z m o os v0 (Hw _ _ Hm)).
  - intros m o us c Hm. exact (zi_wn _ _ _ Z m o us c (Hw _ _ Hm)).
  - intros m o Hm. exact (zi_op _ _ _ Z m o (Hw _ _ Hm)).
  - exact (zi_od _ _ _ Z).
Qed.

(** the call of done() *)
Lemma ZI_done s ws nt tr u v p : GI s tr -> ZI s ws nt -> nth_error (g_un s) u = Some (WU p None None) ->
  ZI (GS (g_h s) (g_lv s) (g_q s) (g_op s) (set_nth (g_un s) u (WU p (Some (g_acc s)) None)) (g_dn s ++ [(u, GLoad, vadd v (TData (g_acc s)))]) (g_wk s) (S (g_acc s))) ws nt.
Proof.
  intros G Z Hu. set (w1 := WU p (Some (g_acc s)) None).
  assert (Hc : forall u' w' f, nth_error (set_nth (g_un s) u w1) u' = Some w' -> u_fin w' = Some f -> nth_error (g_un s) u' = Some w').
  { intros u' w' f Hu' Hf. destruct (Nat.eq_dec u' u) as [->|Hn].
    - rewrite (nth_error_set_nth_same _ _ _ _ Hu) in Hu'. injection Hu' as <-. discriminate.
    - rewrite nth_error_set_nth_other in Hu' by auto. exact Hu'. }
  assert (Hfin : forall u', fin (g_un s) u' -> fin (set_nth (g_un s) u w1) u').
  { intros u' (w & f & Hw & Hf). exists w, f. split; [|exact Hf]. rewrite nth_error_set_nth_other; [exact Hw|]. intros ->. rewrite Hu in Hw. injection Hw as <-. discriminate. }
  assert (Hno : forall m, by_done ws m u -> False).
  { intros m Hm. destruct (zi_who _ _ _ Z m u Hm) as (k & pc & v0 & Hk). apply (gi_acc _ _ G u _ Hu); [eauto|reflexivity]. }
  split; simpl.
  - intros i x w Hi u' w' f Hu' Hf. exact (zi_rel _ _ _ Z i x w Hi u' w' f (Hc _ _ _ Hu' Hf) Hf).
  - intros i w Hi u' w' f Hu' Hf. exact (zi_zero _ _ _ Z i w Hi u' w' f (Hc _ _ _ Hu' Hf) Hf).
  - intros k u' pc v0 Hk Hpc m Hm. apply nth_snoc in Hk as [[_ Hk]|[_ Hk]]; [exact (zi_dn _ _ _ Z k u' pc v0 Hk Hpc m Hm)|].
    injection Hk as -> -> ->. destruct (Hno m Hm).
  - intros m u' Hm. destruct (zi_who _ _ _ Z m u' Hm) as (k & pc & v0 & Hk). exists k, pc, v0. rewrite nth_error_app1; [exact Hk|]. apply nth_error_Some. congruence.
  - intros os v0 o kn u' H1 H2 H3 H4. destruct (zi_wk _ _ _ Z os v0 o kn u' H1 H2 H3 H4) as [H5 H6]. split; auto.
  - intros o us c u' H1 H2. destruct (zi_not _ _ _ Z o us c u' H1 H2) as [H3 H4]. split; auto.
  - exact (zi_wq _ _ _ Z).
  - exact (zi_ww _ _ _ Z).
  - exact (zi_wn _ _ _ Z).
  - exact (zi_op _ _ _ Z).
  - exact (zi_od _ _ _ Z).
Qed.

(** the marked call: the new access is known to the call; the accesses of all other calls are where they were *)
Lemma set_dn (l : list (nat * wdpc * view)) k x y k' u' pc' v' : nth_error l k = Some y -> nth_error (set_nth l k x) k' = Some (u', pc', v') ->
  (k' = k /\ x = (u', pc', v')) \/ (k' <> k /\ nth_error l k' = Some (u', pc', v')).
Proof.
  intros Hk Hk'. destruct (Nat.eq_dec k' k) as [->|Hn].
  - rewrite (nth_error_set_nth_same _ _ _ _ Hk) in Hk'. injection Hk' as ->. auto.
  - rewrite nth_error_set_nth_other in Hk' by auto. auto.
Qed.
Lemma ZI_mark s ws nt tr k u pc v : GI s tr -> ZI s ws nt -> nth_error (g_dn s) k = Some (u, pc, v) -> pc <> GEnd -> ZI (g_mark s k (length ws)) (ws ++ [WDone u]) nt.
Proof.
  intros G Z Hk Hpc. destruct (mark_same s k (length ws)) as (E1 & E2 & E3 & E4 & E5 & E6 & E7).
  destruct (gi_dn _ _ G _ _ _ _ Hk Hpc) as (w0 & Hw0 & Hf0 & _).
  assert (Hw : forall m o, by_wait (ws ++ [WDone u]) m o -> by_wait ws m o) by (intros m o E; apply by_wait_snoc in E as [E|[_ E]]; [exact E|discriminate]).
  assert (Hfd : forall u' m w' f, nth_error (g_un s) u' = Some w' -> u_fin w' = Some f -> by_done (ws ++ [WDone u]) m u' -> by_done ws m u').
  { intros u' m w' f Hu' Hf Hm. apply by_done_snoc in Hm as [Hm|[_ E]]; [exact Hm|]. injection E as <-. congruence. }
  split; rewrite ?E1, ?E2, ?E3, ?E4, ?E5, ?E6.
  - intros i x w Hi u' w' f Hu' Hf Hle m Hm. exact (zi_rel _ _ _ Z i x w Hi u' w' f Hu' Hf Hle m (Hfd _ _ _ _ Hu' Hf Hm)).
  - intros i w Hi u' w' f Hu' Hf Hle m Hm. exact (zi_zero _ _ _ Z i w Hi u' w' f Hu' Hf Hle m (Hfd _ _ _ _ Hu' Hf Hm)).
  - intros k' u' pc' v' Hk' Hpc' m Hm. apply mark_nth in Hk' as (v0 & Hk' & _ & _ & Hv).
    apply by_done_snoc in Hm as [Hm|[-> E]].
    + pose proof (zi_dn _ _ _ Z k' u' pc' v0 Hk' Hpc' m Hm) as Ht. destruct Hv as [[_ ->]|[_ ->]]; [right; exact Ht|exact Ht].
    + injection E as <-. pose proof (gi_one _ _ G _ _ _ _ _ _ _ Hk' Hk) as ->. destruct Hv as [[_ ->]|[Hn _]]; [now left|congruence].
  - intros m u' Hm. assert (He : exists k' pc' v', nth_error (g_dn s) k' = Some (u', pc', v')).
    { apply by_done_snoc in Hm as [Hm|[_ E]]; [exact (zi_who _ _ _ Z m u' Hm)|]. injection E as <-. eauto. }
    destruct He as (k' & pc' & v' & Hk'). destruct (mark_nth' s k (length ws) _ _ _ _ Hk') as (v'' & Hv). eauto.
  - intros os v0 o kn u' H1 H2 H3 H4. destruct (zi_wk _ _ _ Z os v0 o kn u' H1 H2 H3 H4) as [H5 H6]. split; [exact H5|]. intros m Hm.
    destruct H5 as (w' & f & Hu' & Hf). exact (H6 m (Hfd _ _ _ _ Hu' Hf Hm)).
  - intros o us c u' H1 H2. destruct (zi_not _ _ _ Z o us c u' H1 H2) as [H3 H4]. split; [exact H3|]. intros m Hm.
    destruct H3 as (w' & f & Hu' & Hf). exact (H4 m (Hfd _ _ _ _ Hu' Hf Hm)).
  - intros m o Hm. exact (zi_wq _ _ _ Z m o (Hw _ _ Hm)).
  - intros m o os v0 Hm. exact (zi_ww _ _ _ Z m o os v0 (Hw _ _ Hm)).
  - intros m o us c Hm. exact (zi_wn _ _ _ Z m o us c (Hw _ _ Hm)).
  - intros m o Hm. exact (zi_op _ _ _ Z m o (Hw _ _ Hm)).
  - exact (zi_od _ _ _ Z).
Qed.

(** a load or a failing compare-exchange of done() *)
Lemma ZI_read s ws nt k u pc v x v' : ZI s ws nt -> nth_error (g_dn s) k = Some (u, pc, v) -> pc <> GEnd -> v_tok v' = v_tok v ->
  ZI (GS (g_h s) (g_lv s) (g_q s) (g_op s) (g_un s) (set_nth (g_dn s) k (u, GLoop x, v')) (g_wk s) (g_acc s)) ws nt.
Proof.
  intros Z Hk Hpc Hv. split; simpl; try solve [apply Z].
  - intros k' u' pc' v0 Hk' Hpc' m Hm. destruct (set_dn _ _ _ _ _ _ _ _ Hk Hk') as [[-> E]|[_ H]]; [|exact (zi_dn _ _ _ Z k' u' pc' v0 H Hpc' m Hm)].
    injection E as <- <- <-. unfold tc. rewrite Hv. exact (zi_dn _ _ _ Z k u pc v Hk Hpc m Hm).
  - intros m u' Hm. destruct (zi_who _ _ _ Z m u' Hm) as (k' & pc' & v0 & Hk'). destruct (Nat.eq_dec k' k) as [->|Hn].
    + exists k, (GLoop x), v'. rewrite (nth_error_set_nth_same _ _ _ _ Hk). congruence.
    + exists k', pc', v0. rewrite nth_error_set_nth_other by auto. exact Hk'.
Qed.

(** the decrement of done() *)
Lemma ZI_fin s ws nt tr k u pc v va c lv' : GI s tr -> ZI s ws nt -> nth_error (g_dn s) k = Some (u, pc, v) -> pc <> GEnd -> S c = gval (g_h s) ->
  (forall m, tc m v -> tc m va) -> 
  (lv' = g_lv s /\ c <> 0) \/ (lv' = rmw_view true (g_h s) va /\ forall m, tc m (g_lv s) -> tc m va) ->
  GI (GS (rmw true true (g_h s) va c) lv' (if c =? 0 then [] else g_q s) (g_op s) (fin_unit (g_un s) u (length (g_h s)))
         (set_nth (g_dn s) k (u, GEnd, rmw_view true (g_h s) va)) (if c =? 0 then g_wk s ++ [(g_q s, rmw_view true (g_h s) va)] else g_wk s) (g_acc s)) tr ->
  ZI (GS (rmw true true (g_h s) va c) lv' (if c =? 0 then [] else g_q s) (g_op s) (fin_unit (g_un s) u (length (g_h s)))
         (set_nth (g_dn s) k (u, GEnd, rmw_view true (g_h s) va)) (if c =? 0 then g_wk s ++ [(g_q s, rmw_view true (g_h s) va)] else g_wk s) (g_acc s)) ws nt.
Proof.
  intros G Z Hk Hpc Hcv Hva Hlv G'. pose proof (gi_hi _ _ G) as H. pose proof (hi_h _ _ H) as Hne.
  destruct (gi_dn _ _ G k u pc v Hk Hpc) as (w0 & Hw & Hf & Hp & Hll & _).
  set (v2 := rmw_view true (g_h s) va) in *. set (un' := fin_unit (g_un s) u (length (g_h s))) in *.
  assert (Hv2 : forall m, tc m va \/ tc m (rel_of (g_h s)) -> tc m v2) by (intros m Hm; apply tc_rmw; intuition).
  assert (Hup : forall u w f, nth_error (g_un s) u = Some w -> u_fin w = Some f -> f <= newest (g_h s)).
  { intros u' w f Hu' Hf'. pose proof (proj2 (hi_un _ _ H u' w Hu') f Hf'). unfold newest. lia. }
  assert (Hall : seesc un' ws (length (g_h s)) v2).
  { intros u' w' f Hu' Hf' _ m Hm. apply Hv2. destruct (fin_unit_nth _ _ _ _ _ _ Hw Hu') as [[-> ->]|[_ Ho]].
    - left. apply Hva. exact (zi_dn _ _ _ Z k u pc v Hk Hpc m Hm).
    - right. exact (zi_rel _ _ _ Z _ _ _ (newest_nth _ Hne) u' w' f Ho Hf' (Hup _ _ _ Ho Hf') m Hm). }
  assert (Hold : forall i w, i < length (g_h s) -> seesc (g_un s) ws i w -> seesc un' ws i w).
  { intros i w Hl Hs u' w' f Hu' Hf' Hle m Hm. destruct (fin_unit_nth _ _ _ _ _ _ Hw Hu') as [[-> ->]|[_ Ho]]; [|exact (Hs u' w' f Ho Hf' Hle m Hm)].
    simpl in Hf'. injection Hf' as <-. lia. }
  assert (Hlm : forall m, tc m (g_lv s) -> tc m lv') by (intros m Hm; destruct Hlv as [[-> _]|[-> Hs]]; [exact Hm|apply Hv2; left; auto]).
  assert (Hfin : forall u', fin (g_un s) u' -> fin un' u').
  { intros u' (w & f & Hu' & Hf'). destruct (fin_unit_keep (g_un s) u (length (g_h s)) u' w f Hu' Hf') as (w' & f' & H1 & H2). exists w', f'. auto. }
  split; simpl.
  - intros i x w Hi. unfold rmw in Hi. apply nth_snoc in Hi as [[Hl Hi]|[-> Hi]]; [exact (Hold _ _ Hl (zi_rel _ _ _ Z _ _ _ Hi))|].
    injection Hi as _ ->. intros u' w' f Hu' Hf' Hle m Hm. apply tc_join. right. exact (Hall u' w' f Hu' Hf' Hle m Hm).
  - intros i w Hi. unfold rmw in Hi. apply nth_snoc in Hi as [[Hl Hi]|[-> Hi]].
    + intros u' w' f Hu' Hf' Hle m Hm. apply Hlm. exact (Hold _ _ Hl (zi_zero _ _ _ Z _ _ Hi) u' w' f Hu' Hf' Hle m Hm).
    + injection Hi as Hi _. destruct Hlv as [[_ Hlv]|[-> _]]; [congruence|exact Hall].
  - intros k' u' pc' v' Hk' Hpc' m Hm. destruct (set_dn _ _ _ _ _ _ _ _ Hk Hk') as [[-> E]|[_ H']]; [injection E as <- <- <-; congruence|].
    exact (zi_dn _ _ _ Z k' u' pc' v' H' Hpc' m Hm).
  - intros m u' Hm. destruct (zi_who _ _ _ Z m u' Hm) as (k' & pc' & v0 & Hk'). destruct (Nat.eq_dec k' k) as [->|Hn].
    + exists k, GEnd, v2. rewrite (nth_error_set_nth_same _ _ _ _ Hk). congruence.
    + exists k', pc', v0. rewrite nth_error_set_nth_other by auto. exact Hk'.
  - intros os v' o kn u' Hos Ho Hop Hu'. assert (Hcase : In (os, v') (g_wk s) \/ (c = 0 /\ os = g_q s /\ v' = v2)).
    { destruct (Nat.eqb_spec c 0); [|auto]. apply in_app_or in Hos as [Hos|[E|[]]]; [auto|]. injection E as <- <-. auto. }
    destruct Hcase as [Hos'|(-> & -> & ->)].
    + destruct (zi_wk _ _ _ Z os v' o kn u' Hos' Ho Hop Hu') as [H1 H2]. split; auto.
    + pose proof (gi_hi _ _ G') as HI'. simpl in HI'. destruct (gi_kn _ _ G' o kn u' Hop Hu') as (w'' & Hw''). simpl in Hw''.
      assert (Hz : nth_error (rmw true true (g_h s) va 0) (length (g_h s)) = Some (0, vjoin (rel_of (g_h s)) v2)) by (unfold rmw; rewrite nth_error_app2 by lia; rewrite Nat.sub_diag; reflexivity).
      pose proof (hi_un _ _ HI' _ _ Hw'') as [Hpos _]. unfold rmw in Hpos. rewrite app_length in Hpos. simpl in Hpos.
      destruct (hi_zero _ _ _ _ _ _ HI' Hz Hw'' ltac:(lia)) as (f & Hf' & Hle). split; [exists w'', f; auto|]. intros m Hm. exact (Hall u' w'' f Hw'' Hf' Hle m Hm).
  - intros o us d u' H1 H2. destruct (zi_not _ _ _ Z o us d u' H1 H2) as [H3 H4]. split; auto.
  - intros m o Hm Ho. apply Hlm. apply (zi_wq _ _ _ Z m o Hm). destruct (c =? 0); [destruct Ho|exact Ho].
  - intros m o os v' Hm Hos Ho. assert (Hcase : In (os, v') (g_wk s) \/ (c = 0 /\ os = g_q s /\ v' = v2)).
    { destruct (Nat.eqb_spec c 0); [|auto]. apply in_app_or in Hos as [Hos|[E|[]]]; [auto|]. injection E as <- <-. auto. }
    destruct Hcase as [Hos'|(-> & -> & ->)]; [exact (zi_ww _ _ _ Z m o os v' Hm Hos' Ho)|].
    destruct Hlv as [[_ Hlv]|[_ Hs]]; [congruence|]. apply Hv2. left. apply Hs. exact (zi_wq _ _ _ Z m o Hm Ho).
  - exact (zi_wn _ _ _ Z).
  - exact (zi_op _ _ _ Z).
  - exact (zi_od _ _ _ Z).
Qed.

(** start() *)
Lemma ZI_wait_fast s ws nt tr o v i w : GI s tr -> ZI s ws nt -> g_op s o = GIdle -> rd (g_h s) (vjoin (vadd v (TCall (length ws))) (g_lv s)) i = Some (0, w) ->
  let v2 := vsee (vjoin (vadd v (TCall (length ws))) (g_lv s)) i in
  ZI (GS (g_h s) v2 (g_q s) (upd (g_op s) o GDone) (g_un s) (g_dn s) (g_wk s) (g_acc s)) (ws ++ [WWait o]) ((o, known_units s v, calls v2) :: nt).
Proof.
  intros G Z Ho Hr v2. apply rd_some in Hr as (Hle & Hi & Hl). simpl in Hle. pose proof (gi_hi _ _ G) as H.
  assert (Hlm : forall m, tc m (g_lv s) -> tc m v2) by (intros m Hm; apply tc_join; auto).
  assert (Hnew : tc (length ws) v2) by (apply tc_join; left; now left).
  assert (Hd : forall m u, by_done (ws ++ [WWait o]) m u -> by_done ws m u) by (intros m u E; apply by_done_snoc in E as [E|[_ E]]; [exact E|discriminate]).
  assert (Hno : forall m, by_wait ws m o -> False) by (intros m Hm; exact (zi_op _ _ _ Z m o Hm Ho)).
  assert (Hnn : forall us c, In (o, us, c) nt -> False) by (intros us c Hin; pose proof (zi_od _ _ _ Z o us c Hin); congruence).
  assert (Hnq : forall o', In o' (g_q s ++ flat_map fst (g_wk s)) -> o' <> o) by (intros o' Hq ->; destruct (queued_waits s tr o G Hq); congruence).
  split; simpl.
  - intros j x w' Hj u w0 f Hu Hf Hle' m Hm. exact (zi_rel _ _ _ Z j x w' Hj u w0 f Hu Hf Hle' m (Hd _ _ Hm)).
  - intros j w' Hj u w0 f Hu Hf Hle' m Hm. apply Hlm. exact (zi_zero _ _ _ Z j w' Hj u w0 f Hu Hf Hle' m (Hd _ _ Hm)).
  - intros k u pc v0 Hk Hpc m Hm. exact (zi_dn _ _ _ Z k u pc v0 Hk Hpc m (Hd _ _ Hm)).
  - intros m u Hm. exact (zi_who _ _ _ Z m u (Hd _ _ Hm)).
  - intros os v0 o' kn u H1 H2 H3 H4. assert (Hn : o' <> o) by (apply Hnq; apply in_or_app; right; apply in_flat_map; exists (os, v0); auto).
    rewrite upd_other in H3 by exact Hn. destruct (zi_wk _ _ _ Z os v0 o' kn u H1 H2 H3 H4) as [H5 H6]. split; auto.
  - intros o' us c u [E|H1] H2.
    + injection E as <- <- <-. apply known_spec in H2 as (wu & Hwu & Hp). destruct (hi_zero _ _ _ _ _ _ H Hi Hwu ltac:(lia)) as (f & Hf & Hfl).
      split; [exists wu, f; auto|]. intros m Hm. apply calls_spec, Hlm. exact (zi_zero _ _ _ Z i w Hi u wu f Hwu Hf Hfl m (Hd _ _ Hm)).
    + destruct (zi_not _ _ _ Z o' us c u H1 H2) as [H3 H4]. split; auto.
  - intros m o' Hm Hq. apply by_wait_snoc in Hm as [Hm|[-> _]]; [|exact Hnew]. apply Hlm. exact (zi_wq _ _ _ Z m o' Hm Hq).
  - intros m o' os v0 Hm Hos Ho'. apply by_wait_snoc in Hm as [Hm|[-> E]]; [exact (zi_ww _ _ _ Z m o' os v0 Hm Hos Ho')|]. injection E as <-.
    destruct (Hnq o); [|reflexivity]. apply in_or_app. right. apply in_flat_map. exists (os, v0). auto.
  - intros m o' us c Hm [E|Hin].
    + injection E as <- <- <-. apply by_wait_snoc in Hm as [Hm|[-> _]]; [destruct (Hno m Hm)|]. apply calls_spec. exact Hnew.
    + apply by_wait_snoc in Hm as [Hm|[-> E]]; [exact (zi_wn _ _ _ Z m o' us c Hm Hin)|]. injection E as <-. destruct (Hnn us c Hin).
  - intros m o' Hm. destruct (Nat.eq_dec o' o) as [->|Hn]; [rewrite upd_same; discriminate|]. rewrite upd_other by exact Hn.
    apply by_wait_snoc in Hm as [Hm|[_ E]]; [exact (zi_op _ _ _ Z m o' Hm)|congruence].
  - intros o' us c [E|Hin]; [injection E as <- _ _; apply upd_same|]. destruct (Nat.eq_dec o' o) as [->|Hn]; [apply upd_same|]. rewrite upd_other by exact Hn.
    exact (zi_od _ _ _ Z o' us c Hin).
Qed.
Lemma ZI_wait_slow s ws nt tr o v i kn : GI s tr -> ZI s ws nt -> g_op s o = GIdle ->
  let v2 := vsee (vjoin (vadd v (TCall (length ws))) (g_lv s)) i in
  ZI (GS (g_h s) v2 (g_q s ++ [o]) (upd (g_op s) o (GWait kn)) (g_un s) (g_dn s) (g_wk s) (g_acc s)) (ws ++ [WWait o]) nt.
Proof.
  intros G Z Ho v2.
  assert (Hlm : forall m, tc m (g_lv s) -> tc m v2) by (intros m Hm; apply tc_join; auto).
  assert (Hnew : tc (length ws) v2) by (apply tc_join; left; now left).
  assert (Hd : forall m u, by_done (ws ++ [WWait o]) m u -> by_done ws m u) by (intros m u E; apply by_done_snoc in E as [E|[_ E]]; [exact E|discriminate]).
  assert (Hno : forall m, by_wait ws m o -> False) by (intros m Hm; exact (zi_op _ _ _ Z m o Hm Ho)).
  assert (Hnn : forall us c, In (o, us, c) nt -> False) by (intros us c Hin; pose proof (zi_od _ _ _ Z o us c Hin); congruence).
  assert (Hnq : forall o', In o' (g_q s ++ flat_map fst (g_wk s)) -> o' <> o) by (intros o' Hq ->; destruct (queued_waits s tr o G Hq); congruence).
  split; simpl.
  - intros j x w' Hj u w0 f Hu Hf Hle' m Hm. exact (zi_rel _ _ _ Z j x w' Hj u w0 f Hu Hf Hle' m (Hd _ _ Hm)).
  - intros j w' Hj u w0 f Hu Hf Hle' m Hm. apply Hlm. exact (zi_zero _ _ _ Z j w' Hj u w0 f Hu Hf Hle' m (Hd _ _ Hm)).
  - intros k u pc v0 Hk Hpc m Hm. exact (zi_dn _ _ _ Z k u pc v0 Hk Hpc m (Hd _ _ Hm)).
  - intros m u Hm. exact (zi_who _ _ _ Z m u (Hd _ _ Hm)).
  - intros os v0 o' kn' u H1 H2 H3 H4. assert (Hn : o' <> o) by (apply Hnq; apply in_or_app; right; apply in_flat_map; exists (os, v0); auto).
    rewrite upd_other in H3 by exact Hn. destruct (zi_wk _ _ _ Z os v0 o' kn' u H1 H2 H3 H4) as [H5 H6]. split; auto.
  - intros o' us c u H1 H2. destruct (zi_not _ _ _ Z o' us c u H1 H2) as [H3 H4]. split; auto.
  - intros m o' Hm Hq. apply by_wait_snoc in Hm as [Hm|[-> _]]; [|exact Hnew]. apply Hlm. apply (zi_wq _ _ _ Z m o' Hm).
    apply in_app_or in Hq as [Hq|[<-|[]]]; [exact Hq|destruct (Hno m Hm)].
  - intros m o' os v0 Hm Hos Ho'. apply by_wait_snoc in Hm as [Hm|[-> E]]; [exact (zi_ww _ _ _ Z m o' os v0 Hm Hos Ho')|]. injection E as <-.
    destruct (Hnq o); [|reflexivity]. apply in_or_app. right. apply in_flat_map. exists (os, v0). auto.
  - intros m o' us c Hm Hin. apply by_wait_snoc in Hm as [Hm|[-> E]]; [exact (zi_wn _ _ _ Z m o' us c Hm Hin)|]. injection E as <-. destruct (Hnn us c Hin).
  - intros m o' Hm. destruct (Nat.eq_dec o' o) as [->|Hn]; [rewrite upd_same; discriminate|]. rewrite upd_other by exact Hn.
    apply by_wait_snoc in Hm as [Hm|[_ E]]; [exact (zi_op _ _ _ Z m o' Hm)|congruence].
  - intros o' us c Hin. destruct (Nat.eq_dec o' o) as [->|Hn]; [destruct (Hnn us c Hin)|]. rewrite upd_other by exact Hn. exact (zi_od _ _ _ Z o' us c Hin).
Qed.

(** the loop of done() *)
Lemma ZI_wake s ws nt tr k o os v kn : GI s tr -> ZI s ws nt -> nth_error (g_wk s) k = Some (o :: os, v) -> g_op s o = GWait kn ->
  ZI (GS (g_h s) (g_lv s) (g_q s) (upd (g_op s) o GDone) (g_un s) (g_dn s) (set_nth (g_wk s) k (os, v)) (g_acc s)) ws ((o, kn, calls v) :: nt).
Proof.
  intros G Z Hk Ho. pose proof (nth_error_In _ _ Hk) as Hin0.
  assert (Hwk : forall os' v', In (os', v') (set_nth (g_wk s) k (os, v)) -> exists os'', In (os'', v') (g_wk s) /\ incl os' os'').
  { intros os' v' Hin. apply In_set_nth in Hin as [E|Hin]; [injection E as -> ->; exists (o :: os); split; [exact Hin0|intros x Hx; now right]|].
    exists os'. split; [exact Hin|intros x Hx; exact Hx]. }
  assert (Hop : forall o' kn', upd (g_op s) o GDone o' = GWait kn' -> g_op s o' = GWait kn').
  { intros o' kn'. destruct (Nat.eq_dec o' o) as [->|Hn]; [rewrite upd_same; discriminate|]. rewrite upd_other by exact Hn. auto. }
  split; simpl; try solve [apply Z].
  - intros os' v' o' kn' u H1 H2 H3 H4. destruct (Hwk _ _ H1) as (os'' & H5 & H6). exact (zi_wk _ _ _ Z os'' v' o' kn' u H5 (H6 _ H2) (Hop _ _ H3) H4).
  - intros o' us c u [E|H1] H2; [|exact (zi_not _ _ _ Z o' us c u H1 H2)]. injection E as <- <- <-.
    destruct (zi_wk _ _ _ Z _ _ o kn u Hin0 (or_introl eq_refl) Ho H2) as [H3 H4]. split; [exact H3|]. intros m Hm. apply calls_spec. auto.
  - intros m o' os' v' Hm H1 H2. destruct (Hwk _ _ H1) as (os'' & H5 & H6). exact (zi_ww _ _ _ Z m o' os'' v' Hm H5 (H6 _ H2)).
  - intros m o' us c Hm [E|H1]; [|exact (zi_wn _ _ _ Z m o' us c Hm H1)]. injection E as <- <- <-. apply calls_spec.
    exact (zi_ww _ _ _ Z m o _ _ Hm Hin0 (or_introl eq_refl)).
  - intros m o' Hm. destruct (Nat.eq_dec o' o) as [->|Hn]; [rewrite upd_same; discriminate|]. rewrite upd_other by exact Hn. exact (zi_op _ _ _ Z m o' Hm).
  - intros o' us c [E|H1]; [injection E as <- _ _; apply upd_same|]. destruct (Nat.eq_dec o' o) as [->|Hn]; [apply upd_same|]. rewrite upd_other by exact Hn.
    exact (zi_od _ _ _ Z o' us c H1).
Qed.
End Steps.

(** ** All steps *)
Section Run.
Variable n0 : nat.
Variables a_acq a_rel : bool.
Notation step := (z_step true true a_acq a_rel).

Record ZJ (z : zst) (tr : list zevent) : Prop := ZJnv {
  zj_g : GI (z_g z) (gev tr);
  zj_z : ZI (z_g z) (z_who z) (z_not z);
  zj_d : z_dead z = true -> forall u, u < length (g_un (z_g z)) -> fin (g_un (z_g z)) u }.

Lemma gev_map es : gev (map ZE es) = es.
Proof. induction es as [|e es IH]; [reflexivity|]. simpl. congruence. Qed.
Lemma gev_app a b : gev (a ++ b) = gev a ++ gev b.
Proof. apply flat_map_app. Qed.

Lemma ZJ_init : ZJ (z_init n0) [].
Proof. split; [apply GI_init|apply ZI_init|discriminate]. Qed.

(** what a step of done() does to the accesses *)
Lemma ZI_gstep s ws nt tr k i u pc v s' es : GI s tr -> ZI s ws nt -> nth_error (g_dn s) k = Some (u, pc, v) -> pc <> GEnd ->
  g_step true true a_acq a_rel (g_mark s k (length ws)) (GLStep k i) = Next s' es -> ZI s' (ws ++ [WDone u]) nt.
Proof.
  intros G Z Hk Hpc Hs. pose proof (mark_GI s k (length ws) tr G) as G1. pose proof (ZI_mark s ws nt tr k u pc v G Z Hk Hpc) as Z1.
  pose proof (proj1 (GI_step a_acq a_rel _ tr (GLStep k i) G1) s' es Hs) as G2.
  assert (Hk1 : nth_error (g_dn (g_mark s k (length ws))) k = Some (u, pc, vadd v (TCall (length ws)))).
  { unfold g_mark. rewrite Hk. simpl. exact (nth_error_set_nth_same _ _ _ _ Hk). }
  revert G1 Z1 G2 Hk1 Hs. generalize (g_mark s k (length ws)), (ws ++ [WDone u]), (vadd v (TCall (length ws))). clear s ws v G Z Hk. intros s ws v G Z G2 Hk Hs.
  simpl in Hs. rewrite Hk in Hs. unfold g_done_step in Hs. pose proof (gi_hi _ _ G) as H.
  destruct pc as [|x|]; [| |congruence].
  - destruct (rd (g_h s) v i) as [[x w]|] eqn:Hr; [|discriminate]. injection Hs as <- <-. apply (ZI_read s ws nt k u GLoad v x _ Z Hk Hpc). reflexivity.
  - destruct (gi_dn _ _ G k u (GLoop x) v Hk Hpc) as (w0 & Hw & Hf & Hp & Hll & Hn & H0).
    destruct x as [|[|x]]; [congruence| |].
    + change (g_newest s) with (gval (g_h s)) in Hs. destruct (gval (g_h s)) as [|c] eqn:Hg; [discriminate|]. injection Hs as <- <-.
      apply (ZI_fin s ws nt tr k u (GLoop 1) v (vjoin v (g_lv s)) c (rmw_view true (g_h s) (vjoin v (g_lv s))) G Z Hk Hpc (eq_sym Hg)).
      * intros m Hm. apply tc_join. auto.
      * right. split; [reflexivity|]. intros m Hm. apply tc_join. auto.
      * rewrite app_nil_r in G2. exact G2.
    + destruct (rd (g_h s) v i) as [[y w]|] eqn:Hr; [|discriminate]. destruct (Nat.eqb_spec y (S (S x))) as [E1|E1].
      * destruct (Nat.eqb_spec i (newest (g_h s))) as [->|E2]; [|discriminate]. injection Hs as <- <-. rewrite app_nil_r in G2.
        apply rd_some in Hr as (_ & Hr & _). rewrite (newest_nth _ (hi_h _ _ H)) in Hr. injection Hr as Hg _.
        assert (Hc : S (S x) = gval (g_h s)) by congruence.
        exact (ZI_fin s ws nt tr k u (GLoop (S (S x))) v v (S x) (g_lv s) G Z Hk Hpc Hc (fun n h => h) (or_introl (conj eq_refl (Nat.neq_succ_0 x))) G2).
      * injection Hs as <- <-. apply (ZI_read s ws nt k u (GLoop (S (S x))) v y _ Z Hk Hpc). reflexivity.
Qed.

Lemma del_known z tr kn : ZJ z tr -> may_del z kn = true ->
  (forall u, u < length (g_un (z_g z)) -> fin (g_un (z_g z)) u) /\ forall m, m < length (z_who z) -> In m kn.
Proof.
  intros [G Z _] H. unfold may_del in H. apply andb_true_iff in H as [H1 H2]. apply existsb_exists in H1 as ([[o us] c] & Hin & H1). apply andb_true_iff in H1 as [H1 H3].
  rewrite forallb_forall in H1, H2, H3.
  assert (Hc : forall m, In m c -> In m kn) by (intros m Hm; apply memb_In, H1, Hm).
  assert (Hu : forall u, u < length (g_un (z_g z)) -> In u us) by (intros u Hu; apply memb_In, H3, in_seq; lia).
  split; [intros u Hlt; exact (proj1 (zi_not _ _ _ Z o us c u Hin (Hu u Hlt)))|].
  intros m Hm. assert (Hs : In m (seq 0 (length (z_who z)))) by (apply in_seq; lia). specialize (H2 m Hs).
  destruct (nth_error (z_who z) m) as [[|u|o']|] eqn:E; simpl in H2.
  - apply memb_In, H2.
  - apply Hc. destruct (zi_who _ _ _ Z m u E) as (k & pc & v & Hk). destruct (gi_dnu _ _ G _ _ _ _ Hk) as (w & Hw).
    apply (proj2 (zi_not _ _ _ Z o us c u Hin (Hu u ltac:(apply nth_error_Some; congruence)))). exact E.
  - apply orb_true_iff in H2 as [H2|H2]; [apply memb_In, H2|]. apply existsb_exists in H2 as ([[o1 us1] c1] & Hin1 & H4). apply andb_true_iff in H4 as [H4 H5].
    apply Nat.eqb_eq in H4. subst o1. rewrite forallb_forall in H5. apply memb_In, H5. exact (zi_wn _ _ _ Z m o' us1 c1 E Hin1).
  - apply nth_error_None in E. lia.
Qed.

Lemma ZJ_step z tr l : ZJ z tr -> (forall z' es, step z l = Next z' es -> ZJ z' (tr ++ es)) /\ forall f es, step z l <> Fail f es.
Proof.
  intros J. pose proof J as [G Z D]. destruct l as [[n v|u v|k i|o v i|k]|kn]; cbn [z_step].
  - destruct (z_dead z) eqn:Ed; [split; discriminate|]. destruct (GI_step a_acq a_rel _ _ (GLAdd n (vadd v (TCall (length (z_who z))))) G) as [H1 H2].
    cbn [g_step] in *. destruct (v_ts (vadd v (TCall (length (z_who z)))) <? length (g_h (z_g z))); [|split; discriminate]. simpl. split; [|discriminate].
    intros z' es E. injection E as <- <-. split; [| |discriminate].
    + rewrite gev_app. exact (H1 _ _ eq_refl).
    + simpl. exact (ZI_add a_acq a_rel _ _ _ _ _ _ G Z).
  - destruct (z_dead z) eqn:Ed; [split; discriminate|]. destruct (GI_step a_acq a_rel _ _ (GLDone u v) G) as [H1 H2].
    cbn [g_step] in *. destruct (nth_error (g_un (z_g z)) u) as [[p [a|] f]|] eqn:Hu; try (split; discriminate).
    destruct ((p <=? v_ts v) && (v_ts v <? length (g_h (z_g z)))); [|split; discriminate]. simpl. split; [|discriminate].
    intros z' es E. injection E as <- <-. split; [| |discriminate].
    + rewrite gev_app. exact (H1 _ _ eq_refl).
    + simpl. assert (Hf0 : f = None).
      { destruct f as [f|]; [|reflexivity]. destruct (hi_top _ _ (gi_hi _ _ G)) as (_ & Hs & _). pose proof (proj2 (hi_un _ _ (gi_hi _ _ G) _ _ Hu) f eq_refl) as Hff.
        destruct (Hs u _ f Hu eq_refl ltac:(lia)) as (m & Hm & _). discriminate. }
      subst f. exact (ZI_done _ _ _ _ _ _ _ G Z Hu).
  - destruct (nth_error (g_dn (z_g z)) k) as [[[u pc] v]|] eqn:Hk; [|split; discriminate].
    destruct (GI_step a_acq a_rel _ _ (GLStep k i) (mark_GI _ k (length (z_who z)) _ G)) as [H1 H2].
    destruct (g_step true true a_acq a_rel (g_mark (z_g z) k (length (z_who z))) (GLStep k i)) as [s' es| |f es] eqn:Hs; [|split; discriminate|destruct (H2 f es eq_refl)].
    assert (Hpc : pc <> GEnd).
    { intros ->. simpl in Hs. destruct (mark_nth' (z_g z) k (length (z_who z)) _ _ _ _ Hk) as (v' & Hv). rewrite Hv in Hs. discriminate. }
    destruct (z_dead z) eqn:Ed.
    + exfalso. destruct (gi_dn _ _ G _ _ _ _ Hk Hpc) as (w & Hw & Hf & _). destruct (D eq_refl u ltac:(apply nth_error_Some; congruence)) as (w' & f & Hw' & Hf'). congruence.
    + simpl. split; [|discriminate]. intros z' es' E. injection E as <- <-. split; [| |discriminate].
      * rewrite gev_app, gev_map. exact (H1 _ _ eq_refl).
      * simpl. exact (ZI_gstep _ _ _ _ _ _ _ _ _ _ _ G Z Hk Hpc Hs).
  - destruct (z_dead z) eqn:Ed; [split; discriminate|]. destruct (GI_step a_acq a_rel _ _ (GLWait o (vadd v (TCall (length (z_who z)))) i) G) as [H1 H2].
    cbn [g_step] in *. destruct (g_op (z_g z) o) eqn:Ho; try (split; discriminate).
    destruct (rd (g_h (z_g z)) (vjoin (vadd v (TCall (length (z_who z)))) (g_lv (z_g z))) i) as [[[|x] w]|] eqn:Hr; [| |split; discriminate].
    + destruct (v_ts (vadd v (TCall (length (z_who z)))) <? length (g_h (z_g z))); [|split; discriminate]. simpl. split; [|discriminate].
      intros z' es E. injection E as <- <-. split; [| |discriminate].
      * rewrite gev_app. exact (H1 _ _ eq_refl).
      * simpl. rewrite upd_same. exact (ZI_wait_fast _ _ _ _ _ _ _ _ G Z Ho Hr).
    + destruct (v_ts (vadd v (TCall (length (z_who z)))) <? length (g_h (z_g z))); [|split; discriminate]. simpl. split; [|discriminate].
      intros z' es E. injection E as <- <-. split; [| |discriminate].
      * rewrite gev_app. exact (H1 _ _ eq_refl).
      * simpl. rewrite upd_same. exact (ZI_wait_slow _ _ _ _ _ v i _ G Z Ho).
  - destruct (GI_step a_acq a_rel _ _ (GLWake k) G) as [H1 H2]. cbn [g_step] in *.
    destruct (nth_error (g_wk (z_g z)) k) as [[[|o os] v]|] eqn:Hk; try (split; discriminate).
    destruct (gi_wk _ _ G _ _ o (nth_error_In _ _ Hk) (or_introl eq_refl)) as (kn & Ho & _). rewrite Ho in *. simpl. split; [|discriminate].
    intros z' es E. injection E as <- <-. split.
    + rewrite gev_app. exact (H1 _ _ eq_refl).
    + simpl. exact (ZI_wake _ _ _ _ _ _ _ _ _ G Z Hk Ho).
    + simpl. exact D.
  - destruct (z_dead z) eqn:Ed; [split; discriminate|]. destruct (may_del z kn) eqn:Em; [|split; discriminate].
    destruct (del_known z tr kn J Em) as [K1 K2].
    assert (Ef : forallb (fun m => memb m kn) (seq 0 (length (z_who z))) = true) by (apply forallb_forall; intros m Hm; apply memb_In, K2; apply in_seq in Hm; lia).
    rewrite Ef. split; [|discriminate]. intros z' es E. injection E as <- <-. split; simpl.
    + rewrite gev_app. simpl. rewrite app_nil_r. exact G.
    + exact Z.
    + intros _. exact K1.
Qed.

Theorem z_inv ls z tr : run step (z_init n0) ls = Running z tr -> ZJ z tr.
Proof. apply (run_inv step ZJ (z_init n0) ZJ_init). intros s1 tr1 l s2 es J Hs. exact (proj1 (ZJ_step s1 tr1 l J) s2 es Hs). Qed.
Theorem z_safe ls f tr : run step (z_init n0) ls <> Failed f tr.
Proof. revert ls f tr. apply (run_safe step ZJ (z_init n0) ZJ_init); intros s1 tr1 l; [intros s2 es J Hs; exact (proj1 (ZJ_step s1 tr1 l J) s2 es Hs)|intros f es J; exact (proj2 (ZJ_step s1 tr1 l J) f es)]. Qed.

(** waits are notified *)
Lemma mark_GL s k m tr : GL n0 s tr -> GL n0 (g_mark s k m) tr.
Proof.
  intros L. destruct (mark_same s k m) as (E1 & E2 & E3 & E4 & E5 & E6 & E7). split; unfold acc_of; rewrite ?E3, ?E4, ?E5, ?E6; try solve [apply L].
  - intros u n H. destruct (gl_dn _ _ _ L u n H) as (k' & pc & v & Hk). destruct (mark_nth' s k m _ _ _ _ Hk) as (v' & Hv). eauto.
  - intros k' u v Hk. apply mark_nth in Hk as (v0 & Hk & _). exact (gl_fin _ _ _ L _ _ _ Hk).
Qed.
Lemma ZL_step z tr l z' es : ZJ z tr -> GL n0 (z_g z) (gev tr) -> step z l = Next z' es -> GL n0 (z_g z') (gev (tr ++ es)).
Proof.
  intros [G _ _] L. rewrite gev_app. destruct l as [[n v|u v|k i|o v i|k]|kn]; cbn [z_step].
  3: { destruct (nth_error (g_dn (z_g z)) k) as [[[u pc] v]|]; [|discriminate]. destruct (g_step _ _ _ _ _ _) as [s' es'| |f es'] eqn:Hs; try discriminate; (destruct (z_dead z); [discriminate|]); simpl; [|discriminate].
       intros E. injection E as <- <-. rewrite gev_map. exact (GL_step n0 a_acq a_rel _ _ _ _ _ (mark_GI _ _ _ _ G) (mark_GL _ _ _ _ L) Hs). }
  5: { destruct (z_dead z); [discriminate|]. destruct (may_del z kn); [|discriminate]. destruct (forallb _ _); [|discriminate]. intros E. injection E as <- <-. simpl. rewrite app_nil_r. exact L. }
  all: try (destruct (z_dead z); [discriminate|]); destruct (g_step _ _ _ _ _ _) as [s' es'| |f es'] eqn:Hs; try discriminate; simpl; intros E; injection E as <- <-; rewrite gev_map;
    exact (GL_step n0 a_acq a_rel _ _ _ _ _ G L Hs).
Qed.
Theorem z_linv ls z tr : run step (z_init n0) ls = Running z tr -> ZJ z tr /\ GL n0 (z_g z) (gev tr).
Proof.
  apply (run_inv step (fun z tr => ZJ z tr /\ GL n0 (z_g z) (gev tr)) (z_init n0) (conj ZJ_init (GL_init n0))).
  intros s1 tr1 l s2 es [J L] Hs. split; [exact (proj1 (ZJ_step s1 tr1 l J) s2 es Hs)|exact (ZL_step _ _ _ _ _ J L Hs)].
Qed.
Theorem z_once ls z tr o : run step (z_init n0) ls = Running z tr -> notified o (gev tr) <= 1.
Proof. intros Hr. destruct (z_linv ls z tr Hr) as [_ L]. rewrite (gl_n _ _ _ L o). destruct (g_op (z_g z) o); lia. Qed.
Theorem z_live ls z tr o kn : run step (z_init n0) ls = Running z tr -> g_quiet (z_g z) -> all_done n0 (gev tr) -> In (GEWait o kn) (gev tr) -> notified o (gev tr) = 1.
Proof. intros Hr. destruct (z_linv ls z tr Hr) as [J L]. exact (g_live_at n0 _ _ o kn (zj_g _ _ J) L). Qed.

Theorem z_over ls z tr : run step (z_init n0) ls = Running z tr -> over z /\ past z.
Proof.
  intros H. destruct (z_inv ls z tr H) as [G Z _]. split.
  - intros o us c Hin m. split; [intros u Hm Hu; exact (proj2 (zi_not _ _ _ Z o us c u Hin Hu) m Hm)|intros Hm; exact (zi_wn _ _ _ Z m o us c Hm Hin)].
  - intros o us c u k pc v Hin Hu Hk. destruct pc; [| |reflexivity]; exfalso;
      (destruct (gi_dn _ _ G _ _ _ _ Hk ltac:(discriminate)) as (w & Hw & Hf & _); destruct (zi_not _ _ _ Z o us c u Hin Hu) as [(w' & f & Hw' & Hf') _]; congruence).
Qed.
Theorem z_vis ls z tr : run step (z_init n0) ls = Running z tr -> sees_units (gev tr).
Proof. intros H. exact (gi_vis _ _ (zj_g _ _ (z_inv ls z tr H))). Qed.
End Run.

(** ** The record of notified waits *)
Section Record.
Variable n0 : nat.
Variables d_acq d_rel a_acq a_rel : bool.
Notation step := (z_step d_acq d_rel a_acq a_rel).
Definition RJ (z : zst) (tr : list zevent) : Prop := recorded z tr /\ forall o us, g_op (z_g z) o = GWait us -> In (GEWait o us) (gev tr).
Lemma RJ_same z z' tr es : RJ z tr -> z_not z' = z_not z -> g_op (z_g z') = g_op (z_g z) -> (forall o b, ~ In (GENotify o b) (gev es)) -> RJ z' (tr ++ es).
Proof.
  intros [[H1 H2] H3] E1 E2 Hn. unfold RJ, recorded. rewrite E1, E2, gev_app. split; [split|].
  - intros o b H. apply in_app_or in H as [H|H]; [exact (H1 o b H)|destruct (Hn o b H)].
  - intros o us c H. apply in_or_app. left. exact (H2 o us c H).
  - intros o us H. apply in_or_app. left. exact (H3 o us H).
Qed.
Lemma done_step_op s k i s' es : g_step d_acq d_rel a_acq a_rel s (GLStep k i) = Next s' es -> g_op s' = g_op s /\ es = [].
Proof.
  simpl. destruct (nth_error (g_dn s) k) as [[[u pc] v]|]; [|discriminate]. unfold g_done_step. intros H.
  destruct pc as [|[|[|x]]|]; try discriminate.
  - destruct (rd (g_h s) v i) as [[x w]|]; [|discriminate]. injection H as <- <-. auto.
  - destruct (g_newest s); [discriminate|]. injection H as <- <-. auto.
  - destruct (rd (g_h s) v i) as [[y w]|]; [|discriminate]. destruct (y =? S (S x)); [destruct (i =? newest (g_h s)); [|discriminate]|]; injection H as <- <-; auto.
Qed.
Lemma RJ_step z tr l z' es : RJ z tr -> step z l = Next z' es -> RJ z' (tr ++ es).
Proof.
  intros J H. destruct l as [[n v|u v|k i|o v i|k]|kn]; cbn [z_step] in H.
  - destruct (z_dead z); [discriminate|]. cbn [g_step] in H. destruct (v_ts (vadd v (TCall (length (z_who z)))) <? length (g_h (z_g z))); [|discriminate]. injection H as <- <-.
    apply (RJ_same z _ tr _ J); simpl; auto. intros o b [E|[]]. discriminate.
  - destruct (z_dead z); [discriminate|]. cbn [g_step] in H. destruct (nth_error (g_un (z_g z)) u) as [[p [a|] f]|]; try discriminate.
    destruct ((p <=? v_ts v) && (v_ts v <? length (g_h (z_g z)))); [|discriminate]. injection H as <- <-. apply (RJ_same z _ tr _ J); simpl; auto. intros o b [E|[]]. discriminate.
  - destruct (nth_error (g_dn (z_g z)) k) as [[[u pc] v]|]; [|discriminate].
    destruct (g_step d_acq d_rel a_acq a_rel (g_mark (z_g z) k (length (z_who z))) (GLStep k i)) as [s' es'| |f es'] eqn:Hs; [| |destruct (z_dead z)]; try discriminate.
    destruct (z_dead z); [discriminate|]. injection H as <- <-. apply done_step_op in Hs as [Hs ->]. apply (RJ_same z _ tr _ J); simpl; auto. rewrite Hs. apply mark_same.
  - destruct (z_dead z); [discriminate|]. cbn [g_step] in H. destruct (g_op (z_g z) o) eqn:Ho; try discriminate. destruct J as [[H1 H2] H3].
    destruct (rd (g_h (z_g z)) (vjoin (vadd v (TCall (length (z_who z)))) (g_lv (z_g z))) i) as [[[|x] w]|]; [| |discriminate];
      (destruct (v_ts (vadd v (TCall (length (z_who z)))) <? length (g_h (z_g z))); [|discriminate]); injection H as <- <-; unfold RJ, recorded; simpl; rewrite upd_same, gev_app; simpl.
    + split; [split|].
      * intros o' b Hin. apply in_app_or in Hin as [Hin|[E|[E|[]]]]; [destruct (H1 o' b Hin) as (us & c & Hc); eauto|discriminate|]. injection E as <- _. eauto.
      * intros o' us c [E|Hin]; apply in_or_app; [right; injection E as <- <- _; now left|left; exact (H2 o' us c Hin)].
      * intros o' us E. apply in_or_app. destruct (Nat.eq_dec o' o) as [->|Hn]; [rewrite upd_same in E; discriminate|]. rewrite upd_other in E by exact Hn. left. exact (H3 o' us E).
    + split; [split|].
      * intros o' b Hin. apply in_app_or in Hin as [Hin|[E|[]]]; [exact (H1 o' b Hin)|discriminate].
      * intros o' us c Hin. apply in_or_app. left. exact (H2 o' us c Hin).
      * intros o' us E. apply in_or_app. destruct (Nat.eq_dec o' o) as [->|Hn]; [rewrite upd_same in E; injection E as <-; right; now left|]. rewrite upd_other in E by exact Hn. left. exact (H3 o' us E).
  - cbn [g_step] in H. destruct (nth_error (g_wk (z_g z)) k) as [[[|o os] v]|]; try discriminate. destruct (g_op (z_g z) o) as [|us0|] eqn:Ho; try discriminate. injection H as <- <-.
    destruct J as [[H1 H2] H3]. unfold RJ, recorded. simpl. rewrite gev_app. simpl. split; [split|].
    + intros o' b Hin. apply in_app_or in Hin as [Hin|[E|[]]]; [destruct (H1 o' b Hin) as (us & c & Hc); eauto|]. injection E as <- _. eauto.
    + intros o' us c [E|Hin]; apply in_or_app; left; [injection E as <- <- _; exact (H3 _ _ Ho)|exact (H2 o' us c Hin)].
    + intros o' us E. apply in_or_app. destruct (Nat.eq_dec o' o) as [->|Hn]; [rewrite upd_same in E; discriminate|]. rewrite upd_other in E by exact Hn. left. exact (H3 o' us E).
  - destruct (z_dead z); [discriminate|]. destruct (may_del z kn); [|discriminate]. destruct (forallb (fun m => memb m kn) (seq 0 (length (z_who z)))); [|discriminate]. injection H as <- <-.
    apply (RJ_same z _ tr _ J); simpl; auto.
Qed.
Theorem z_recorded ls z tr : run step (z_init n0) ls = Running z tr -> recorded z tr.
Proof.
  intros H. enough (RJ z tr) by (destruct H0; assumption). revert H. apply (run_inv step RJ (z_init n0)).
  - split; [split|]; simpl; intros; contradiction || discriminate.
  - intros s1 tr1 l s2 es J Hs. exact (RJ_step s1 tr1 l s2 es J Hs).
Qed.
End Record.
