(** Race freedom and visibility for with_cancel_cb. *)
From Coq Require Import List Arith Bool Lia.
From Verif Require Import Lts ListFacts M_Suspend M_WithCancel S_WithCancel P_WithCancel P_Result M_HB P_HB M_WithCancelHB S_WithCancelHB.
Import ListNotations.

Section Tok.
Variable tok : bool.
Notation hstep := (wc_step tok true true true true).
Notation acts := (wc_acts tok true true true true).
Notation v_ h t := (mv_cur (ms_view h t)).
Notation lg h := (mm_log (ms_mem h)).
Notation rl h x := (mm_rel (ms_mem h) x).
Notation st h := (ms_base h).
Notation hv := (hview wc_src).
Notation BI := (P_WithCancel.WI tok).

(** The calls of start() and set_value(); those of the cancel handler *)
Definition is_main (a : wact) : bool :=
  match a with WSet | WGo | WCall WStart | WCb WStart | WSub WStart | WReset | WVSub => true | _ => false end.
Definition is_canc (a : wact) : bool := match a with WCall _ | WCb _ | WSub _ => true | _ => false end.
(** What they know *)
Definition Mk (g : mlog) (v : hbs) : Prop := kn g v l_ev /\ kn g v l_op /\ kn g v l_val /\ kw g v l_cs.
Definition Ck (g : mlog) (v : hbs) : Prop := kn g v l_hook /\ kn g v l_cb /\ kw g v l_cs.

(** The access x is known to a call in flight, to the wrapped operation, or released *)
Definition T (h : mst (S := wst)) (x : nat) : Prop :=
  (w_in (st h) = IRun /\ In x (v_ h t_in)) \/ (exists k a, nth_error (w_acts (st h)) k = Some a /\ a <> WEnd /\ In x (v_ h (t_act k))) \/ In x (rl h x_cs).

Record Inv (h : mst (S := wst)) : Prop := In_ {
  iv_all : forall x, x < length (lg h) -> T h x;
  iv_r0 : w_ph (st h) <> OTaken -> rl h x_cs = [];
  iv_in : w_in (st h) = IRun -> Mk (lg h) (v_ h t_in);
  iv_mn : forall k a, nth_error (w_acts (st h)) k = Some a -> is_main a = true -> Mk (lg h) (v_ h (t_act k));
  iv_cc : forall k a, nth_error (w_acts (st h)) k = Some a -> is_canc a = true -> Ck (lg h) (v_ h (t_act k));
  iv_mx : w_ph (st h) = OSet -> tok = true -> Ck (lg h) (rl h x_mtx);
  iv_cm : forall k c, nth_error (w_acts (st h)) k = Some (WCompl c) -> incl (rl h x_cs) (v_ h (t_act k)) }.
Definition WI (h : mst (S := wst)) : Prop :=
  if w_started (st h) then (w_dead (st h) = false -> Inv h) else lg h = [] /\ rl h x_cs = [].

Lemma Mk_ka g v : ka g v -> Mk g v.
Proof. intros H. unfold Mk. repeat split; try apply kn_kw; now apply ka_kn. Qed.
Lemma Ck_ka g v : ka g v -> Ck g v.
Proof. intros H. unfold Ck. repeat split; try apply kn_kw; now apply ka_kn. Qed.
Lemma Mk_incl g v w : Mk g v -> incl v w -> Mk g w.
Proof. intros (A & B & C & D) H. repeat split; eauto using kn_incl, kw_incl. Qed.
Lemma Ck_incl g v w : Ck g v -> incl v w -> Ck g w.
Proof. intros (A & B & C) H. repeat split; eauto using kn_incl, kw_incl. Qed.

Definition Mfree (l : list mact) : Prop := forall x w, In (Touch x w) l -> x <> l_ev /\ x <> l_op /\ x <> l_val /\ (x = l_cs -> w = false).
Definition Cfree (l : list mact) : Prop := forall x w, In (Touch x w) l -> x <> l_hook /\ x <> l_cb /\ (x = l_cs -> w = false).
Section Eff.
Context {m : mmem} {v : mview} {l : list mact} {m' : mmem} {v' : mview}.
Hypothesis He : eff m v l m' v'.
Lemma Mk_own : Mk (mm_log m) (mv_cur v) -> Mk (mm_log m') (mv_cur v').
Proof. intros (A & B & C & D). repeat split; [now apply (eff_kn He)..|now apply (eff_kw He)]. Qed.
Lemma Ck_own : Ck (mm_log m) (mv_cur v) -> Ck (mm_log m') (mv_cur v').
Proof. intros (A & B & C). repeat split; [now apply (eff_kn He)..|now apply (eff_kw He)]. Qed.
Lemma Mk_other u : Mk (mm_log m) u -> Mfree l -> Mk (mm_log m') u.
Proof.
  intros (A & B & C & D) F. repeat split; [apply (eff_kn_other He); auto..|apply (eff_kw_other He); auto].
  1-3: intros w Hw; apply F in Hw; destruct Hw as (H1 & H2 & H3 & _); congruence.
  intros Hw. apply F in Hw. destruct Hw as (_ & _ & _ & H). specialize (H eq_refl). discriminate.
Qed.
Lemma Ck_other u : Ck (mm_log m) u -> Cfree l -> Ck (mm_log m') u.
Proof.
  intros (A & B & C) F. repeat split; [apply (eff_kn_other He); auto..|apply (eff_kw_other He); auto].
  1-2: intros w Hw; apply F in Hw; destruct Hw as (H1 & H2 & _); congruence.
  intros Hw. apply F in Hw. destruct Hw as (_ & _ & H). specialize (H eq_refl). discriminate.
Qed.
Lemma eff_new_in x : x < length (mm_log m') -> x < length (mm_log m) \/ In x (mv_cur v').
Proof.
  intros Hx. destruct (nth_error (mm_log m') x) as [[a p]|] eqn:Hni; [|apply nth_error_None in Hni; lia].
  destruct (eff_cases He _ _ _ Hni) as [[H _]|(_ & H & _)]; auto.
Qed.
End Eff.

(** ** Who is in flight *)
Lemma eqb_wend (a : wact) : {a = WEnd} + {a <> WEnd}.
Proof. destruct a; (left; reflexivity) || (right; discriminate). Defined.
Lemma sum_two {A} (f : A -> nat) l j k a b : j <> k -> nth_error l j = Some a -> nth_error l k = Some b -> f a + f b <= sum (map f l).
Proof.
  revert j k. induction l as [|c l IH]; intros [|j] [|k] Hn Hj Hk; simpl in *; try discriminate; try congruence.
  - injection Hj as ->. pose proof (sum_map_le f _ _ (nth_error_In _ _ Hk)). lia.
  - injection Hk as ->. pose proof (sum_map_le f _ _ (nth_error_In _ _ Hj)). lia.
  - specialize (IH j k ltac:(lia) Hj Hk). lia.
Qed.
Lemma set_nth_cases {A} (l : list A) k x j y : nth_error (set_nth l k x) j = Some y -> (j = k /\ y = x) \/ (j <> k /\ nth_error l j = Some y).
Proof.
  destruct (Nat.eq_dec j k) as [->|Hn].
  - intros H. left. split; [reflexivity|]. destruct (nth_error l k) as [z|] eqn:Hz.
    + rewrite (nth_error_set_nth_same l k x z Hz) in H. congruence.
    + apply nth_error_None in Hz. rewrite <- (set_nth_length l k x) in Hz. apply nth_error_None in Hz. congruence.
  - intros H. right. split; [exact Hn|]. rewrite nth_error_set_nth_other in H by auto. exact H.
Qed.

(** weight of main, of the handler, of the completion *)
Definition g_main (a : wact) : nat := f_pre a + f_rst a + f_vs a.
Definition g_canc (a : wact) : nat := f_call a + f_cb a + f_sub a.
Lemma sum_add {A} (f g : A -> nat) l : sum (map (fun a => f a + g a) l) = sum (map f l) + sum (map g l).
Proof. induction l as [|a l IH]; simpl; lia. Qed.
Lemma g_main_sum s : cn g_main s = cn f_pre s + cn f_rst s + cn f_vs s.
Proof. unfold cn, g_main. rewrite !sum_add. lia. Qed.
Lemma g_canc_sum s : cn g_canc s = cn f_call s + cn f_cb s + cn f_sub s.
Proof. unfold cn, g_canc. rewrite !sum_add. lia. Qed.
Lemma is_main_g a : is_main a = true -> g_main a = 1.
Proof. destruct a as [| |[]|[]|[]| | |[]|]; simpl; try discriminate; reflexivity. Qed.
Lemma is_canc_g a : is_canc a = true -> g_canc a = 1.
Proof. destruct a; simpl; try discriminate; reflexivity. Qed.
Definition isrun (i : inner) : nat := match i with IRun => 1 | _ => 0 end.

Record Wts (s : wst) : Prop := {
  wt_main : cn g_main s + isrun (w_in s) <= 1;
  wt_canc : cn g_canc s <= 1;
  wt_canc_ph : w_ph s <> OTaken -> cn g_canc s = 0;
  wt_com : cn f_com s <= 1;
  wt_com0 : 0 < cn f_com s -> cn g_main s + isrun (w_in s) + cn g_canc s = 0;
  wt_cs : w_ph s = OTaken -> w_cs s = 1 -> cn g_main s + isrun (w_in s) + cn g_canc s <= 1;
  wt_com_ph : w_ph s <> OTaken -> w_ph s <> OGone -> cn f_com s = 0;
  wt_com_cs : w_ph s = OTaken -> 0 < w_cs s -> cn f_com s = 0 }.
Lemma wts s tr : BI s tr -> Wts s.
Proof.
  intros HI. pose proof (wi_v _ _ _ HI) as [W1 W2 W3]. pose proof (b2n_le (w_started s)).
  constructor; rewrite ?g_main_sum, ?g_canc_sum; destruct (w_ph s) eqn:Ep, (w_in s) eqn:Ei; cbn [isnone notdone isrun b2n] in *; decompose [and] W3; try discriminate; try congruence; try lia.
Qed.

(** Only one slot is in flight *)
Definition solo (s : wst) (t : nat) : Prop := (w_in s = IRun -> t = t_in) /\ forall k a, nth_error (w_acts s) k = Some a -> a <> WEnd -> t = t_act k.
Lemma solo_ka h t : Inv h -> solo (st h) t -> incl (rl h x_cs) (v_ h t) -> ka (lg h) (v_ h t).
Proof.
  intros HI [S1 S2] Hr x Hx. destruct (iv_all _ HI x Hx) as [[H1 H2]|[(k & a & H1 & H2 & H3)|H]]; [rewrite (S1 H1); exact H2|rewrite (S2 _ _ H1 H2); exact H3|auto].
Qed.
Lemma end_weight a : a <> WEnd -> 1 <= g_main a + g_canc a + f_com a.
Proof. destruct a as [| |[]|[]|[]| | |[]|]; simpl; intros; try congruence; lia. Qed.
Lemma solo_act s tr k a : BI s tr -> nth_error (w_acts s) k = Some a -> cn g_main s + isrun (w_in s) <= g_main a -> cn g_canc s <= g_canc a -> cn f_com s <= f_com a -> solo s (t_act k).
Proof.
  intros HI Hk H1 H2 H3. pose proof (wts _ _ HI) as W. split.
  - intros Hi. exfalso. pose proof (sum_map_le g_main _ _ (nth_error_In _ _ Hk)) as L. rewrite Hi in H1. cbn [isrun] in H1. unfold cn in H1. lia.
  - intros j b Hj Hb. destruct (Nat.eq_dec j k) as [->|Hn]; [reflexivity|]. exfalso. pose proof (end_weight _ Hb).
    pose proof (sum_two g_main _ _ _ _ _ Hn Hj Hk). pose proof (sum_two g_canc _ _ _ _ _ Hn Hj Hk). pose proof (sum_two f_com _ _ _ _ _ Hn Hj Hk). unfold cn in *. lia.
Qed.

Lemma solo_early s tr k a : BI s tr -> nth_error (w_acts s) k = Some a -> is_main a = true -> w_ph s <> OTaken -> w_ph s <> OGone -> solo s (t_act k).
Proof.
  intros HI Hk Hm Hp1 Hp2. pose proof (wts _ _ HI) as W. pose proof (is_main_g _ Hm). pose proof (wt_main _ W). pose proof (wt_canc_ph _ W Hp1). pose proof (wt_com_ph _ W Hp1 Hp2).
  apply (solo_act _ _ _ _ HI Hk); lia.
Qed.
Lemma solo_com s tr k c : BI s tr -> nth_error (w_acts s) k = Some (WCompl c) -> solo s (t_act k).
Proof.
  intros HI Hk. pose proof (wts _ _ HI) as W. pose proof (sum_map_le f_com _ _ (nth_error_In _ _ Hk)) as L. cbn [f_com] in L. pose proof (wt_com0 _ W ltac:(unfold cn; lia)). pose proof (wt_com _ W).
  apply (solo_act _ _ _ _ HI Hk); cbn [f_com]; lia.
Qed.
Lemma solo_last s tr k a : BI s tr -> nth_error (w_acts s) k = Some a -> g_main a + g_canc a >= 1 -> w_ph s = OTaken -> w_cs s = 1 -> solo s (t_act k).
Proof.
  intros HI Hk Hg Hp Hc. pose proof (wts _ _ HI) as W. pose proof (sum_map_le g_main _ _ (nth_error_In _ _ Hk)) as L1. pose proof (sum_map_le g_canc _ _ (nth_error_In _ _ Hk)) as L2.
  pose proof (wt_cs _ W Hp Hc). pose proof (wt_com_cs _ W Hp ltac:(lia)). unfold cn in *. apply (solo_act _ _ _ _ HI Hk); unfold cn; lia.
Qed.

Ltac tdiff := unfold t_in, t_act in *; lia.
Ltac tnot := let H := fresh in intros H; simpl in H; repeat (destruct H as [H|H]; [tdiff|]); destruct H.

(** A step of the k-th call *)
Lemma T_move dead started ph req cs val i ac mem view k a a' m' v' dead' ph' cs' val' :
  let h := MS (WS dead started ph req cs val i ac) mem view in
  let h' := MS (WS dead' started ph' req cs' val' i (set_nth ac k a')) m' (m_set view [t_act k] v') in
  nth_error ac k = Some a -> incl (mv_cur (view (t_act k))) (mv_cur v') -> incl (mm_rel mem x_cs) (mm_rel m' x_cs) ->
  (a' <> WEnd \/ incl (mv_cur v') (mm_rel m' x_cs)) ->
  (forall x, T h x -> T h' x) /\ (forall x, In x (mv_cur v') -> T h' x).
Proof.
  intros h h' Hk Hv Hr Ha. unfold T, h, h'. cbn [ms_base ms_mem ms_view w_in w_acts].
  assert (Hown : forall x, In x (mv_cur v') -> (exists j b, nth_error (set_nth ac k a') j = Some b /\ b <> WEnd /\ In x (mv_cur (m_set view [t_act k] v' (t_act j)))) \/ In x (mm_rel m' x_cs)).
  { intros x Hx. destruct Ha as [Ha|Ha]; [left|right; auto]. exists k, a'. rewrite (nth_error_set_nth_same _ _ _ _ Hk). rewrite set_in by (simpl; auto). auto. }
  split; [|intros x Hx; right; auto].
  intros x [[H1 H2]|[(j & b & H1 & H2 & H3)|H]]; [left| |auto].
  - split; [exact H1|]. rewrite set_out; [exact H2|]. tnot.
  - right. destruct (Nat.eq_dec j k) as [->|Hn]; [auto|]. left. exists j, b. rewrite nth_error_set_nth_other by auto. rewrite set_out by tnot. auto.
Qed.
Lemma inv_move dead started ph req cs val i ac mem view k a a' l v0 m' v' ph' cs' :
  Inv (MS (WS dead started ph req cs val i ac) mem view) -> nth_error ac k = Some a -> eff mem v0 l m' v' -> incl (mv_cur (view (t_act k))) (mv_cur v0) ->
  (a' <> WEnd \/ incl (mv_cur v') (mm_rel m' x_cs)) ->
  (ph' <> OTaken -> mm_rel m' x_cs = []) ->
  (is_main a' = true -> Mk (mm_log m') (mv_cur v')) -> (is_canc a' = true -> Ck (mm_log m') (mv_cur v')) -> (forall c, a' = WCompl c -> incl (mm_rel m' x_cs) (mv_cur v')) ->
  (is_main a = false -> Mfree l) -> (is_canc a = false -> ph = OTaken -> Cfree l) ->
  (i = IRun -> is_main a = false) -> (forall j b, j <> k -> nth_error ac j = Some b -> is_main b = true -> is_main a = false) ->
  (forall j b, j <> k -> nth_error ac j = Some b -> is_canc b = true -> is_canc a = false /\ ph = OTaken) ->
  (forall j c, j <> k -> nth_error ac j <> Some (WCompl c)) ->
  (ph' = OSet -> tok = true -> Ck (mm_log m') (mm_rel m' x_mtx)) ->
  Inv (MS (WS dead started ph' req cs' val i (set_nth ac k a')) m' (m_set view [t_act k] v')).
Proof.
  intros HI Hk Ef Hv0 HT Hr0 HM HC Hcm HMf HCf Ui Um Uc Ucm Hmx.
  assert (Hv : incl (mv_cur (view (t_act k))) (mv_cur v')) by (eapply incl_tran; [exact Hv0|exact (ef_cur _ _ _ _ _ Ef)]).
  destruct (T_move dead started ph req cs val i ac mem view k a a' m' v' dead ph' cs' val Hk Hv (ef_rel _ _ _ _ _ Ef x_cs) HT) as [T1 T2].
  destruct HI as [A B C D E F G]. cbn [ms_base ms_mem ms_view w_in w_acts w_ph] in *. constructor; cbn [ms_base ms_mem ms_view w_in w_acts w_ph].
  - intros x Hx. destruct (eff_new_in Ef x Hx) as [H|H]; auto.
  - exact Hr0.
  - intros Hi. rewrite set_out by tnot. apply (Mk_other Ef); auto.
  - intros j b Hj Hb. apply set_nth_cases in Hj. destruct Hj as [[-> ->]|[Hn Hj]]; [rewrite set_in by (simpl; auto); auto|]. rewrite set_out by tnot. apply (Mk_other Ef); eauto.
  - intros j b Hj Hb. apply set_nth_cases in Hj. destruct Hj as [[-> ->]|[Hn Hj]]; [rewrite set_in by (simpl; auto); auto|]. rewrite set_out by tnot.
    destruct (Uc j b Hn Hj Hb) as [U1 U2]. apply (Ck_other Ef); eauto.
  - exact Hmx.
  - intros j c Hj. apply set_nth_cases in Hj. destruct Hj as [[-> <-]|[Hn Hj]]; [rewrite set_in by (simpl; auto); eauto|]. destruct (Ucm j c Hn Hj).
Qed.
(** The premises about the other calls *)
Lemma others s tr k a : BI s tr -> nth_error (w_acts s) k = Some a -> (forall c, a <> WCompl c) -> a <> WEnd ->
  (w_in s = IRun -> is_main a = false) /\ (forall j b, j <> k -> nth_error (w_acts s) j = Some b -> is_main b = true -> is_main a = false) /\
  (forall j b, j <> k -> nth_error (w_acts s) j = Some b -> is_canc b = true -> is_canc a = false /\ w_ph s = OTaken) /\
  (forall j c, j <> k -> nth_error (w_acts s) j <> Some (WCompl c)).
Proof.
  intros HI Hk Hc He. pose proof (wts _ _ HI) as [W1 W2 W3 W4 W5 W6 W7 W8]. unfold cn in *. pose proof (sum_map_le g_main _ _ (nth_error_In _ _ Hk)) as L1. pose proof (end_weight _ He) as Hw.
  assert (f_com a = 0) by (destruct a; try reflexivity; destruct (Hc k0); reflexivity).
  split; [|split; [|split]].
  - intros Hi. rewrite Hi in *. cbn [isrun] in *. destruct (is_main a) eqn:Em; [|reflexivity]. apply is_main_g in Em. lia.
  - intros j b Hn Hj Hb. destruct (is_main a) eqn:Em; [|reflexivity]. apply is_main_g in Em, Hb. pose proof (sum_two g_main _ _ _ _ _ Hn Hj Hk). lia.
  - intros j b Hn Hj Hb. pose proof (sum_two g_canc _ _ _ _ _ Hn Hj Hk). apply is_canc_g in Hb. split.
    + destruct (is_canc a) eqn:Em; [|reflexivity]. apply is_canc_g in Em. lia.
    + destruct (w_ph s); try reflexivity; rewrite W3 in * by discriminate; lia.
  - intros j c Hn Hj. pose proof (sum_two f_com _ _ _ _ _ Hn Hj Hk). pose proof (sum_map_le g_canc _ _ (nth_error_In _ _ Hk)). cbn [f_com] in *. lia.
Qed.
Lemma act_alive s tr k a : BI s tr -> nth_error (w_acts s) k = Some a -> a <> WEnd -> w_started s = true /\ w_dead s = false.
Proof.
  intros HI Hk Ha. pose proof (sum_map_le g_main _ _ (nth_error_In _ _ Hk)) as L1. pose proof (sum_map_le g_canc _ _ (nth_error_In _ _ Hk)) as L2. pose proof (sum_map_le f_com _ _ (nth_error_In _ _ Hk)) as L3.
  pose proof (end_weight _ Ha) as Hw. split.
  - destruct (w_started s) eqn:Es; [reflexivity|]. exfalso. pose proof (wi_v _ _ _ HI) as [W1 W2 W3]. rewrite Es in *. cbn [b2n] in *.
    pose proof (g_main_sum s). pose proof (g_canc_sum s). unfold cn in *.
    destruct (w_ph s), (w_in s); cbn [isnone notdone] in *; decompose [and] W3; try discriminate; lia.
  - destruct (w_dead s) eqn:Ed; [|reflexivity]. exfalso. destruct (dead_counts _ _ _ HI Ed) as (H1 & H2 & H3 & H4 & H5 & H6). pose proof (wi_alive _ _ _ _ _ HI Hk) as H.
    destruct a; try (rewrite H in Ed by congruence; discriminate). pose proof (sum_map_le f_cb _ _ (nth_error_In _ _ Hk)) as L. cbn [f_cb] in L. unfold cn in H5. lia.
Qed.
Lemma act_inv h tr k a : BI (st h) tr -> WI h -> nth_error (w_acts (st h)) k = Some a -> a <> WEnd -> Inv h.
Proof. intros HA HI Hk Ha. destruct (act_alive _ _ _ _ HA Hk Ha) as [H1 H2]. unfold WI in HI. rewrite H1 in HI. auto. Qed.
Lemma in_inv h tr : BI (st h) tr -> WI h -> w_in (st h) = IRun -> w_dead (st h) = false -> Inv h.
Proof.
  intros HA HI Hi Hd. unfold WI in HI. pose proof (wi_v _ _ _ HA) as [W1 W2 W3]. rewrite Hi in *. cbn [isnone] in W1. destruct (w_started (st h)); [auto|]. cbn [b2n] in W1. lia.
Qed.
Lemma set_inv h tr : BI (st h) tr -> WI h -> w_ph (st h) = OSet -> w_dead (st h) = false -> Inv h.
Proof.
  intros HA HI Hp Hd. unfold WI in HI. pose proof (wi_v _ _ _ HA) as [W1 W2 W3]. rewrite Hp in *. destruct W3 as (W3 & _). destruct (w_started (st h)); [auto|discriminate].
Qed.
Lemma early_ka h tr k a : BI (st h) tr -> Inv h -> nth_error (w_acts (st h)) k = Some a -> is_main a = true -> w_ph (st h) <> OTaken -> w_ph (st h) <> OGone -> ka (lg h) (v_ h (t_act k)).
Proof. intros HA HI Hk Hm H1 H2. apply solo_ka; [exact HI|exact (solo_early _ _ _ _ HA Hk Hm H1 H2)|]. rewrite (iv_r0 _ HI H1). intros x []. Qed.
Lemma com_ka h tr k c : BI (st h) tr -> Inv h -> nth_error (w_acts (st h)) k = Some (WCompl c) -> ka (lg h) (v_ h (t_act k)).
Proof. intros HA HI Hk. apply solo_ka; [exact HI|exact (solo_com _ _ _ _ HA Hk)|]. exact (iv_cm _ HI _ _ Hk). Qed.
Lemma set_ph s tr k : BI s tr -> nth_error (w_acts s) k = Some WSet -> w_ph s = OUnset.
Proof.
  intros HA Hk. pose proof (wi_v _ _ _ HA) as [W1 W2 W3]. pose proof (sum_map_le f_set _ _ (nth_error_In _ _ Hk)) as L. cbn [f_set] in L. unfold cn in *.
  destruct (w_ph s); [reflexivity|..]; decompose [and] W3; lia.
Qed.
Lemma ka_exec (m : mmem) v l : ka (mm_log m) (mv_cur v) -> m_exec m v l <> None.
Proof. intros H. apply exec_ok; intros x _; [|apply kn_kw]; now apply ka_kn. Qed.

(** What a step touches is ordered. *)
Lemma WI_ok h tr l v : BI (st h) tr -> WI h -> forall s' es, w_step tok (st h) l = Next s' es -> m_exec (ms_mem h) (hv h l v) (acts (st h) l) <> None.
Proof.
  intros HA HI s' es Hs. destruct l as [| |x|k|k]; cbn [w_step] in Hs.
  - destruct (w_started (st h)) eqn:Es; [discriminate|]. unfold WI in HI. rewrite Es in HI. destruct HI as [HI _]. apply ka_exec. rewrite HI. apply ka_nil.
  - cbn zeta in Hs. cbn [wc_acts]. destruct (tok && match w_ph (st h) with OSet => true | _ => false end) eqn:El; [|simpl; discriminate].
    apply andb_true_iff in El. destruct El as [Et Ep]. assert (Hp : w_ph (st h) = OSet) by (destruct (w_ph (st h)); congruence). clear Ep.
    destruct (w_dead (st h)) eqn:Ed; [discriminate|]. pose proof (set_inv _ _ HA HI Hp Ed) as J. pose proof (iv_mx _ J Hp Et) as (M1 & _).
    apply lock_ok; intros x Hx; simpl in Hx; destruct Hx as [[= <-]|[[=]|[]]]. apply (kn_incl _ _ _ _ M1). apply incl_appr, incl_refl.
  - destruct (w_in (st h)) eqn:Ei; try discriminate. destruct (w_dead (st h)) eqn:Ed; [discriminate|]. pose proof (in_inv _ _ HA HI Ei Ed) as J. pose proof (iv_in _ J Ei) as (M1 & M2 & M3 & M4).
    assert (Hv : incl (v_ h t_in) (mv_cur (hv h (WLInner x) v))) by (apply in_hview; simpl; auto).
    apply exec_ok; intros y Hy; simpl in Hy; [destruct Hy as [[= <-]|[[= <-]|[]]]|intuition discriminate]; eapply kn_incl; eauto.
  - destruct (nth_error (w_acts (st h)) k) as [a|] eqn:Hk; [|discriminate]. destruct a as [| |c|c|c| | |c|]; try discriminate. pose proof (act_inv _ _ _ _ HA HI Hk ltac:(discriminate)) as J.
    pose proof (iv_cc _ J _ _ Hk eq_refl) as (C1 & C2 & C3). assert (Hv : incl (v_ h (t_act k)) (mv_cur (hv h (WLCbRet k) v))) by (apply in_hview; simpl; auto).
    apply exec_ok; intros y Hy; simpl in Hy; [destruct Hy as [[= <-]|[]]|intuition discriminate]; eapply kn_incl; eauto.
  - destruct (nth_error (w_acts (st h)) k) as [a|] eqn:Hk; [|discriminate]. destruct (eqb_wend a) as [->|Ha]; [discriminate|].
    pose proof (act_inv _ _ _ _ HA HI Hk Ha) as J. assert (Hv : incl (v_ h (t_act k)) (mv_cur (hv h (WLStep k) v))) by (apply in_hview; simpl; auto).
    cbn [wc_acts]. rewrite Hk. destruct a as [| |c|c|c| | |c|]; try discriminate.
    + pose proof (set_ph _ _ _ HA Hk) as Hp. apply ka_exec. apply (ka_incl _ _ _ (early_ka _ _ _ _ HA J Hk eq_refl ltac:(congruence) ltac:(congruence)) Hv).
    + pose proof (iv_mn _ J _ _ Hk eq_refl) as (M1 & M2 & M3 & M4). apply exec_ok; intros y Hy; simpl in Hy; [destruct Hy as [[= <-]|[]]|intuition discriminate]; eapply kn_incl; eauto.
    + pose proof (iv_cc _ J _ _ Hk eq_refl) as (C1 & C2 & C3). destruct c; (apply exec_ok; intros y Hy; simpl in Hy; [|intuition discriminate]).
      * destruct Hy as [[= <-]|[]]. eapply kn_incl; eauto.
      * destruct Hy as [[= <-]|[[= <-]|[]]]; eapply kn_incl; eauto.
    + pose proof (iv_cc _ J _ _ Hk eq_refl) as (C1 & C2 & C3). apply exec_ok; intros y Hy; simpl in Hy; [intuition discriminate|]. destruct Hy as [[= <-]|[[=]|[]]]. eapply kw_incl; eauto.
    + destruct (w_req (st h)) eqn:Er.
      * pose proof (iv_mn _ J _ _ Hk eq_refl) as (M1 & M2 & M3 & M4). apply exec_ok; intros y Hy; [exfalso|]; destruct (tok && _); simpl in Hy; try (intuition discriminate);
          destruct Hy as [[= <-]|Hy]; try (exfalso; intuition discriminate); apply kn_kw; eapply kn_incl; eauto.
      * apply ka_exec. apply (ka_incl _ (v_ h (t_act k))); [|exact Hv]. pose proof (wi_v _ _ _ HA) as [W1 W2 W3]. pose proof (sum_map_le f_rst _ _ (nth_error_In _ _ Hk)) as L. cbn [f_rst] in L. unfold cn in *.
        apply (early_ka _ _ _ _ HA J Hk eq_refl); intros E; rewrite E in W3; decompose [and] W3; try congruence; lia.
    + pose proof (iv_mn _ J _ _ Hk eq_refl) as (M1 & M2 & M3 & M4). apply exec_ok; intros y Hy; simpl in Hy; [intuition discriminate|]. destruct Hy as [[= <-]|[[=]|[]]]. eapply kw_incl; eauto.
    + apply ka_exec. apply (ka_incl _ _ _ (com_ka _ _ _ _ HA J Hk) Hv).
Qed.

Lemma snoc_cases {A} (l : list A) x j y : nth_error (l ++ [x]) j = Some y -> nth_error l j = Some y \/ (j = length l /\ y = x).
Proof. apply nth_snoc. Qed.
Lemma nth_lt {A} (l : list A) j y : nth_error l j = Some y -> j < length l.
Proof. intros H. apply nth_error_Some. congruence. Qed.
Lemma rmw_last h l v pre x m' v' : m_exec (ms_mem h) (hv h l v) (pre ++ [Rmw x true true]) = Some (m', v') -> forallb is_touch pre = true ->
  incl (mv_cur v') (mm_rel m' x) /\ incl (mm_rel m' x) (mv_cur v').
Proof.
  intros He Hp. destruct (exec_rmw _ _ _ _ _ _ _ _ Hp He) as (H1 & H2 & _). split; [auto|]. intros y Hy. apply (exec_rmw_rel _ _ _ _ _ _ _ _ Hp He) in Hy.
  apply in_app_or in Hy. destruct Hy; auto. now apply (H2 eq_refl).
Qed.

(** The shape of a step of a call *)
Lemma sub_next s k c s' es : w_sub s k c = Next s' es -> exists n, w_cs s = S n /\ es = [] /\
  s' = WS (w_dead s) (w_started s) (w_ph s) (w_req s) n (w_val s) (w_in s) (set_nth (w_acts s) k (if n =? 0 then WCompl c else wret c)).
Proof. unfold w_sub. destruct (w_cs s) as [|n]; [discriminate|]. intros [= <- <-]. exists n. auto. Qed.

Lemma T_step h tr l v s' es m' v' : BI (st h) tr -> w_step tok (st h) l = Next s' es -> m_exec (ms_mem h) (hv h l v) (acts (st h) l) = Some (m', v') -> w_dead s' = false ->
  let h' := MS s' m' (m_set (ms_view h) (wc_dst (st h) l) v') in
  (forall x, T h x -> T h' x) /\ (forall e x, In e es -> run_event e = true -> In x (mv_cur v') -> T h' x).
Proof.
  intros HA Hs He Hal. cbv zeta. pose proof (eff_exec _ _ _ _ _ He) as Ef. pose proof (ef_rel _ _ _ _ _ Ef x_cs) as Hrl.
  assert (Hvk : forall t, In t (wc_src (st h) l) -> incl (v_ h t) (mv_cur v')). { intros t Ht. eapply incl_tran; [|exact (ef_cur _ _ _ _ _ Ef)]. now apply in_hview. }
  destruct h as [s mem view]. cbn [ms_base ms_mem ms_view] in *. destruct s as [dead started ph req cs val i ac].
  assert (Hsnoc : forall a d st p r c vl i', (i' = IRun -> i = IRun) -> (i = IRun -> i' = IRun \/ (incl (mv_cur (view t_in)) (mv_cur v') /\ a <> WEnd)) ->
    (forall x, T (MS (WS dead started ph req cs val i ac) mem view) x -> T (MS (WS d st p r c vl i' (ac ++ [a])) m' (m_set view [t_act (length ac)] v')) x) /\
    (a <> WEnd -> forall x, In x (mv_cur v') -> T (MS (WS d st p r c vl i' (ac ++ [a])) m' (m_set view [t_act (length ac)] v')) x)).
  { intros a d s0 p r c vl i' Hi' Hi. unfold T. cbn [ms_base ms_mem ms_view w_in w_acts].
    assert (Hown : a <> WEnd -> forall x, In x (mv_cur v') -> exists j b, nth_error (ac ++ [a]) j = Some b /\ b <> WEnd /\ In x (mv_cur (m_set view [t_act (length ac)] v' (t_act j)))).
    { intros Ha x Hx. exists (length ac), a. rewrite nth_error_app2, Nat.sub_diag by lia. rewrite set_in by (simpl; auto). auto. }
    split; [|auto]. intros x [[H1 H2]|[(j & b & H1 & H2 & H3)|H]]; [| |auto].
    - destruct (Hi H1) as [H3|[H3 H4]]; [left|right; left; auto]. split; [exact H3|]. rewrite set_out; [exact H2|]. tnot.
    - right. left. exists j, b. pose proof (nth_lt _ _ _ H1). rewrite nth_error_app1 by auto. rewrite set_out by tnot. auto. }
  destruct l as [| |y|k|k]; cbn [w_step w_dead w_started w_ph w_req w_cs w_val w_in w_acts wc_dst] in *.
  - destruct started; [discriminate|]. injection Hs as <- <-. destruct (Hsnoc WSet dead true ph req cs val i) as [H1 H2]; auto. split; auto. intros e x _ _. apply H2. discriminate.
  - cbn zeta in Hs. destruct (dead && _); [discriminate|]. injection Hs as <- <-. split; [|intros e x [<-|[]]; discriminate].
    destruct (tok && match ph with OSet => true | _ => false end).
    + apply Hsnoc; auto.
    + intros x [[H1 H2]|[(j & b & H1 & H2 & H3)|H]]; unfold T; cbn [ms_base ms_mem ms_view w_in w_acts] in *; [left|right; left|auto].
      * split; [exact H1|]. rewrite set_out; [exact H2|]. tnot.
      * exists j, b. pose proof (nth_lt _ _ _ H1). rewrite set_out by tnot. auto.
  - destruct i; try discriminate. destruct dead; [discriminate|]. injection Hs as <- <-. destruct (Hsnoc WReset false started ph req cs (Some y) IDone) as [H1 H2].
    + discriminate.
    + intros _. right. split; [|discriminate]. apply Hvk. simpl. auto.
    + split; auto. intros e x _ _. apply H2. discriminate.
  - destruct (nth_error ac k) as [a|] eqn:Hk; [|discriminate]. destruct a as [| |c|c|c| | |c|]; try discriminate. injection Hs as <- <-.
    assert (Hv : incl (mv_cur (view (t_act k))) (mv_cur v')) by (apply Hvk; simpl; auto). assert (Ha : WSub c <> WEnd) by discriminate.
    destruct (T_move dead started ph req cs val i ac mem view k (WCb c) (WSub c) m' v' dead ph cs val Hk Hv Hrl (or_introl Ha)) as [H1 H2]. split; [exact H1|]. intros e x _ _. apply H2.
  - destruct (nth_error ac k) as [a|] eqn:Hk; [|discriminate]. assert (Hv : incl (mv_cur (view (t_act k))) (mv_cur v')) by (apply Hvk; simpl; auto).
    assert (Hmv : forall a' d p c vl, (a' <> WEnd \/ incl (mv_cur v') (mm_rel m' x_cs)) ->
      (forall x, T (MS (WS dead started ph req cs val i ac) mem view) x -> T (MS (WS d started p req c vl i (set_nth ac k a')) m' (m_set view [t_act k] v')) x) /\
      (forall e x, In e es -> run_event e = true -> In x (mv_cur v') -> T (MS (WS d started p req c vl i (set_nth ac k a')) m' (m_set view [t_act k] v')) x)).
    { intros a' d p c vl Ha. destruct (T_move dead started ph req cs val i ac mem view k a a' m' v' d p c vl Hk Hv Hrl Ha) as [H1 H2]. split; eauto. }
    unfold wact_step in Hs. cbn [w_dead w_started w_ph w_req w_cs w_val w_in w_acts w_with_act w_with_ph w_with_in] in Hs. cbn [wc_acts w_acts] in He. rewrite Hk in He.
    destruct a as [| |c|c|c| | |c|]; try discriminate; destruct dead; try discriminate.
    + destruct tok; [destruct ph; try discriminate; destruct req|]; injection Hs as <- <-; apply Hmv; left; discriminate.
    + injection Hs as <- <-. unfold T. cbn [ms_base ms_mem ms_view w_with_act w_with_in w_dead w_started w_ph w_req w_cs w_val w_in w_acts]. assert (Hown : forall x, In x (mv_cur v') -> In x (mv_cur (m_set view [t_act k; t_in] v' t_in))) by (intros x Hx; rewrite set_in by (simpl; auto); exact Hx).
      split; [|intros e x _ _ Hx; auto]. intros x [[H1 H2]|[(j & b & H1 & H2 & H3)|H]]; [| |auto].
      * exfalso. pose proof (wi_v _ _ _ HA) as [W1 W2 W3]. cbn [w_in w_started] in *. rewrite H1 in W1. pose proof (sum_map_le f_pre _ _ (nth_error_In _ _ Hk)) as L. unfold cn in W1. cbn [w_acts f_pre isnone] in *. pose proof (b2n_le started). lia.
      * destruct (Nat.eq_dec j k) as [->|Hn]; [auto|]. right. left. exists j, b. rewrite nth_error_set_nth_other by auto. rewrite set_out by tnot. auto.
    + injection Hs as <- <-. apply Hmv. left. discriminate.
    + apply sub_next in Hs. cbn [w_dead w_started w_ph w_req w_cs w_val w_in w_acts] in Hs. destruct Hs as (n & -> & -> & ->). apply Hmv. right. apply (rmw_last _ _ _ [Touch l_cs false] _ _ _ He eq_refl).
    + destruct ph, (negb tok), req; try discriminate; injection Hs as <- <-; apply Hmv; left; discriminate.
    + apply sub_next in Hs. cbn [w_dead w_started w_ph w_req w_cs w_val w_in w_acts] in Hs. destruct Hs as (n & -> & -> & ->). apply Hmv. right. apply (rmw_last _ _ _ [Touch l_cs false] _ _ _ He eq_refl).
    + destruct val; [|discriminate]. injection Hs as <- <-. discriminate.
Qed.

Ltac tfree := let H := fresh in intros ? ? H; simpl in H; repeat (destruct H as [H|H]; [solve [discriminate H|injection H as <- <-; unfold l_ev, l_op, l_val, l_cs, l_hook, l_cb; repeat split; try discriminate; auto]|]); destruct H.
Ltac norel := let H := fresh in intros ? ? H; simpl in H; repeat (destruct H as [H|H]; [discriminate H|]); destruct H.
Ltac proj := cbn [ms_base ms_mem ms_view w_dead w_started w_ph w_req w_cs w_val w_in w_acts w_with_act w_with_ph w_with_in] in *.
Lemma WI_step h tr l v s' es m' v' : BI (st h) tr -> BI s' (tr ++ es) -> WI h ->
  w_step tok (st h) l = Next s' es -> m_exec (ms_mem h) (hv h l v) (acts (st h) l) = Some (m', v') ->
  WI (MS s' m' (m_set (ms_view h) (wc_dst (st h) l) v')).
Proof.
  intros HA HA' HI Hs He. pose proof (eff_exec _ _ _ _ _ He) as Ef. pose proof (T_step _ _ _ _ _ _ _ _ HA Hs He) as HT. cbv zeta in HT.
  assert (Hal : w_dead s' = true -> w_started s' = true) by (intros H; apply (dead_counts _ _ _ HA' H)).
  assert (Hv0 : forall t, In t (wc_src (st h) l) -> incl (v_ h t) (mv_cur (hv h l v))) by (intros t Ht; now apply in_hview).
  destruct l as [| |y|k|k].
  - (* start() *)
    unfold WI in HI. cbn [w_step] in Hs. destruct (w_started (st h)) eqn:Es; [discriminate|]. destruct HI as [Hlg Hr0]. injection Hs as <- <-. unfold WI. proj. intros Hd. destruct (HT Hd) as [HT1 HT2].
    assert (Hka : ka (mm_log m') (mv_cur v')). { intros x Hx. destruct (eff_new_in Ef x Hx) as [H|H]; [rewrite Hlg in H; simpl in H; lia|exact H]. }
    assert (Hq : forall k a, nth_error (w_acts (st h)) k = Some a -> a = WEnd). { intros k a Hk. destruct (eqb_wend a) as [|Hn]; [assumption|]. destruct (act_alive _ _ _ _ HA Hk Hn). congruence. }
    assert (Hin : w_in (st h) = INone). { pose proof (wi_v _ _ _ HA) as [W1 _ _]. rewrite Es in W1. cbn [b2n] in W1. destruct (w_in (st h)); auto; cbn [isnone] in W1; lia. }
    assert (Hph : w_ph (st h) = OUnset). { pose proof (wi_v _ _ _ HA) as [_ _ W3]. rewrite Es in W3. cbn [b2n] in W3. destruct (w_ph (st h)); auto; decompose [and] W3; discriminate. }
    constructor; proj.
    + intros x Hx. apply (HT2 WEStart); simpl; auto.
    + intros _. rewrite <- Hr0. revert He. apply exec_rel_other. norel.
    + rewrite Hin. discriminate.
    + intros k a Hk Ha. apply snoc_cases in Hk. destruct Hk as [Hk|[-> ->]]; [rewrite (Hq _ _ Hk) in Ha; discriminate|]. rewrite set_in by (simpl; auto). now apply Mk_ka.
    + intros k a Hk Ha. apply snoc_cases in Hk. destruct Hk as [Hk|[-> ->]]; [rewrite (Hq _ _ Hk) in Ha; discriminate|]. discriminate.
    + rewrite Hph. discriminate.
    + intros k c Hk. apply snoc_cases in Hk. destruct Hk as [Hk|[_ Hk]]; [apply Hq in Hk|]; discriminate.
  - (* cancel() *)
    unfold WI in *. cbn [w_step] in Hs. cbn zeta in Hs. destruct (w_dead (st h) && _) eqn:Edl; [discriminate|].
    injection Hs as <- <-. proj. cbn [wc_acts] in He, Ef.
    assert (Hr0 : mm_rel m' x_cs = rl h x_cs). { revert He. apply exec_rel_other. destruct (tok && _); norel. }
    destruct (w_started (st h)) eqn:Es.
    2:{ destruct (tok && _) eqn:El; [exfalso; apply andb_true_iff in El; destruct El as [_ El]; pose proof (wi_v _ _ _ HA) as [_ _ W3]; rewrite Es in W3; cbn [b2n] in W3; destruct (w_ph (st h)); try discriminate; decompose [and] W3; discriminate|].
        rewrite Hr0. split; [|apply HI]. cbn in He. injection He as <- _. simpl. apply HI. }
    intros Hd. specialize (HI Hd). destruct (HT Hd) as [HT1 HT2]. cbn [wc_dst] in *. destruct (tok && match w_ph (st h) with OSet => true | _ => false end) eqn:El.
    + apply andb_true_iff in El. destruct El as [Et Ep]. assert (Hp : w_ph (st h) = OSet) by (destruct (w_ph (st h)); congruence). clear Ep. destruct HI as [A B C D E F G].
      specialize (F Hp Et).
      assert (HC : Ck (mm_log m') (mv_cur v')).
      { pose proof He as He1. change ([Lock x_mtx] ++ [Touch l_hook true] ++ [Unlock x_mtx]) with (Lock x_mtx :: [Touch l_hook true; Unlock x_mtx]) in He1. unfold Lock in He1. cbn [m_exec m_exec1] in He1. 
        pose proof (eff_exec [Touch l_hook true; Unlock x_mtx] (MM (lg h) (mm_rel (ms_mem h))) (MV (mv_cur (hv h WLCancel v) ++ rl h x_mtx) (mv_pend (hv h WLCancel v) ++ rl h x_mtx)) m' v' He1) as Ef1.
        apply (Ck_own Ef1). simpl. apply (Ck_incl _ _ _ F). apply incl_appr, incl_refl. }
      assert (Hmf : Mfree ([Lock x_mtx] ++ [Touch l_hook true] ++ [Unlock x_mtx])) by tfree.
      pose proof (wts _ _ HA) as W.
      constructor; proj.
      * intros x Hx. destruct (eff_new_in Ef x Hx) as [H|H]; [apply HT1, A, H|]. right. left. exists (length (w_acts (st h))), (WCall WRet). proj. rewrite nth_error_app2, Nat.sub_diag by lia. rewrite set_in by (simpl; auto).
        split; [reflexivity|]. split; [discriminate|exact H].
      * congruence.
      * intros Hi. rewrite set_out by tnot. apply (Mk_other Ef); auto.
      * intros k a Hk Ha. apply snoc_cases in Hk. destruct Hk as [Hk|[-> ->]]; [|discriminate]. pose proof (nth_lt _ _ _ Hk). rewrite set_out by tnot. apply (Mk_other Ef); eauto.
      * intros k a Hk Ha. apply snoc_cases in Hk. destruct Hk as [Hk|[-> ->]]; [|rewrite set_in by (simpl; auto); exact HC]. exfalso.
        pose proof (sum_map_le g_canc _ _ (nth_error_In _ _ Hk)). apply is_canc_g in Ha. pose proof (wt_canc_ph _ W ltac:(congruence)). unfold cn in *. lia.
      * discriminate.
      * intros k c Hk. apply snoc_cases in Hk. destruct Hk as [Hk|[_ Hk]]; [|discriminate]. rewrite Hr0. pose proof (nth_lt _ _ _ Hk). rewrite set_out by tnot. eauto.
    + assert (Hm : mm_log m' = lg h). { cbn in He. injection He as <- _. reflexivity. }
      assert (Hr1 : incl (rl h x_mtx) (mm_rel m' x_mtx)) by apply (ef_rel _ _ _ _ _ Ef).
      destruct HI as [A B C D E F G]. constructor; proj; rewrite ?Hm, ?Hr0.
      * intros x Hx. apply HT1, A, Hx.
      * exact B.
      * intros Hi. rewrite set_out by tnot. auto.
      * intros k a Hk Ha. pose proof (nth_lt _ _ _ Hk). rewrite set_out by tnot. eauto.
      * intros k a Hk Ha. pose proof (nth_lt _ _ _ Hk). rewrite set_out by tnot. eauto.
      * intros Hp Et. apply (Ck_incl _ (rl h x_mtx)); auto.
      * intros k c Hk. pose proof (nth_lt _ _ _ Hk). rewrite set_out by tnot. eauto.
  - (* the wrapped operation completes *)
    cbn [w_step] in Hs. destruct (w_in (st h)) eqn:Ei; try discriminate. destruct (w_dead (st h)) eqn:Ed; [discriminate|]. pose proof (in_inv _ _ HA HI Ei Ed) as [A B C D E F G]. injection Hs as <- <-.
    unfold WI. proj. assert (Es : w_started (st h) = true). { pose proof (wi_v _ _ _ HA) as [W1 _ _]. rewrite Ei in W1. cbn [isnone] in W1. destruct (w_started (st h)); [reflexivity|cbn [b2n] in W1; lia]. }
    rewrite Es. intros _. destruct (HT eq_refl) as [HT1 HT2]. cbn [wc_dst wc_acts] in *.
    assert (Hr0 : mm_rel m' = mm_rel (ms_mem h)) by (refine (proj1 (exec_touches _ _ _ _ _ _ He)); reflexivity).
    assert (Hcf : Cfree [Touch l_op true; Touch l_val true]) by tfree. pose proof (wts _ _ HA) as W.
    constructor; proj; rewrite ?Hr0.
    + intros x Hx. destruct (eff_new_in Ef x Hx) as [H|H]; [apply HT1, A, H|apply (HT2 (WEInner y)); simpl; auto].
    + exact B.
    + discriminate.
    + intros k a Hk Ha. apply snoc_cases in Hk. destruct Hk as [Hk|[-> ->]]; [|rewrite set_in by (simpl; auto); apply (Mk_own Ef), (Mk_incl _ _ _ (C Ei)); apply Hv0; simpl; auto]. exfalso.
      pose proof (sum_map_le g_main _ _ (nth_error_In _ _ Hk)). apply is_main_g in Ha. pose proof (wt_main _ W). rewrite Ei in *. cbn [isrun] in *. unfold cn in *. lia.
    + intros k a Hk Ha. apply snoc_cases in Hk. destruct Hk as [Hk|[-> ->]]; [|discriminate]. pose proof (nth_lt _ _ _ Hk). rewrite set_out by tnot. apply (Ck_other Ef); eauto.
    + intros Hp Et. apply (Ck_other Ef); auto.
    + intros k c Hk. apply snoc_cases in Hk. destruct Hk as [Hk|[_ Hk]]; [|discriminate]. pose proof (nth_lt _ _ _ Hk). rewrite set_out by tnot. eauto.
  - (* the callback returns *)
    cbn [w_step] in Hs. destruct (nth_error (w_acts (st h)) k) as [a|] eqn:Hk; [|discriminate]. destruct a as [| |c|c|c| | |c|]; try discriminate. pose proof (act_inv _ _ _ _ HA HI Hk ltac:(discriminate)) as J.
    destruct (act_alive _ _ _ _ HA Hk ltac:(discriminate)) as [Es Ed]. destruct (others _ _ _ _ HA Hk ltac:(discriminate) ltac:(discriminate)) as (U1 & U2 & U3 & U4). injection Hs as <- <-. unfold WI. proj. rewrite Es. intros _.
    cbn [wc_acts wc_dst wc_src] in *. assert (Hr : mm_rel m' = mm_rel (ms_mem h)) by (refine (proj1 (exec_touches _ _ _ _ _ _ He)); reflexivity).
    assert (Hph : w_ph (st h) = OTaken). { pose proof (wts _ _ HA) as W. destruct (w_ph (st h)) eqn:Ep; try reflexivity; pose proof (wt_canc_ph _ W ltac:(congruence)); pose proof (sum_map_le g_canc _ _ (nth_error_In _ _ Hk)) as L; unfold cn in *; cbn in L; lia. }
    destruct h as [[dead started ph req cs val i ac] mem view]. proj. apply (inv_move _ _ _ _ _ _ _ _ _ _ _ _ _ _ _ _ _ _ _ J Hk Ef (Hv0 _ (or_introl eq_refl))); auto.
    + left. discriminate.
    + intros Hn. destruct (Hn Hph).
    + intros Hm. apply (Mk_own Ef), (Mk_incl _ _ _ (iv_mn _ J _ _ Hk Hm)). apply Hv0. simpl. auto.
    + intros _. apply (Ck_own Ef), (Ck_incl _ _ _ (iv_cc _ J _ _ Hk eq_refl)). apply Hv0. simpl. auto.
    + discriminate.
    + intros _. tfree.
    + discriminate.
    + intros Hn. exfalso. rewrite Hph in Hn. discriminate.
  - (* a step of a call *)
    cbn [w_step] in Hs. destruct (nth_error (w_acts (st h)) k) as [a|] eqn:Hk; [|discriminate]. destruct (eqb_wend a) as [->|Ha]; [discriminate|].
    pose proof (act_inv _ _ _ _ HA HI Hk Ha) as J. destruct (act_alive _ _ _ _ HA Hk Ha) as [Es Ed]. pose proof (Hv0 _ (or_introl (eq_refl (t_act k)))) as Hv. pose proof (wts _ _ HA) as W.
    cbn [wc_acts] in He, Ef. rewrite Hk in He, Ef. unfold wact_step in Hs. rewrite Ed in Hs.
    assert (Hcm : forall c, a = WCompl c -> WI (MS s' m' (m_set (ms_view h) (wc_dst (st h) (WLStep k)) v'))).
    { intros c ->. destruct (w_val (st h)); [|discriminate]. injection Hs as <- <-. unfold WI. proj. rewrite Es. discriminate. }
    assert (Hnc : (exists c, a = WCompl c) \/ forall c, a <> WCompl c) by (destruct a; try (right; congruence); left; eauto).
    destruct Hnc as [[c Hnc]|Hnc]; [eauto|]. clear Hcm. destruct (others _ _ _ _ HA Hk Hnc Ha) as (U1 & U2 & U3 & U4).
    assert (Hr1 : incl (rl h x_mtx) (mm_rel m' x_mtx)) by apply (ef_rel _ _ _ _ _ Ef).
    assert (Hph : is_canc a = true -> w_ph (st h) = OTaken).
    { intros Hc. destruct (w_ph (st h)) eqn:Ep; try reflexivity; pose proof (wt_canc_ph _ W ltac:(congruence)); pose proof (sum_map_le g_canc _ _ (nth_error_In _ _ Hk)) as L; apply is_canc_g in Hc; unfold cn in *; lia. }
    assert (Hmk : is_main a = true -> Mk (mm_log m') (mv_cur v')) by (intros Hm; apply (Mk_own Ef), (Mk_incl _ _ _ (iv_mn _ J _ _ Hk Hm) Hv)).
    assert (Hck : is_canc a = true -> Ck (mm_log m') (mv_cur v')) by (intros Hm; apply (Ck_own Ef), (Ck_incl _ _ _ (iv_cc _ J _ _ Hk Hm) Hv)).
    assert (Hka : is_main a = true -> w_ph (st h) <> OTaken -> w_ph (st h) <> OGone -> ka (mm_log m') (mv_cur v')).
    { intros H1 H2 H3. apply (eff_ka Ef), (ka_incl _ _ _ (early_ka _ _ _ _ HA J Hk H1 H2 H3) Hv). }
    assert (Hset : a = WSet -> w_ph (st h) = OUnset) by (intros ->; apply (set_ph _ _ _ HA Hk)).
    assert (Hvs : a = WVSub -> w_ph (st h) = OTaken).
    { intros ->. pose proof (wi_v _ _ _ HA) as [W1 W2 W3]. pose proof (sum_map_le f_vs _ _ (nth_error_In _ _ Hk)) as L. cbn [f_vs] in L. unfold cn in *. destruct (w_ph (st h)); try reflexivity; decompose [and] W3; lia. }
    assert (Hrst : a = WReset -> w_ph (st h) <> OUnset /\ w_ph (st h) <> OGone).
    { intros ->. pose proof (wi_v _ _ _ HA) as [W1 W2 W3]. pose proof (sum_map_le f_rst _ _ (nth_error_In _ _ Hk)) as L. cbn [f_rst] in L. unfold cn in *. split; intros E; rewrite E in W3; decompose [and] W3; lia. }
    assert (Hlast : a = WVSub \/ (exists c, a = WSub c) -> w_ph (st h) = OTaken -> w_cs (st h) = 1 -> ka (lg h) (v_ h (t_act k) ++ rl h x_cs)).
    { intros H1 H2 H3. assert (So : solo (st h) (t_act k)) by (apply (solo_last _ _ _ a HA Hk); auto; destruct H1 as [->|[[] ->]]; cbn; lia).
      destruct So as [S1 S2]. intros x Hx. apply in_or_app. destruct (iv_all _ J x Hx) as [[H4 H5]|[(j & b & H4 & H5 & H6)|H4]]; [left; rewrite (S1 H4); exact H5|left; rewrite (S2 _ _ H4 H5); exact H6|auto]. }
    assert (Hdst : a <> WGo -> wc_dst (st h) (WLStep k) = [t_act k]) by (intros Hg; cbn [wc_dst]; rewrite Hk; destruct a; congruence).
    assert (Hdst2 : a = WGo -> wc_dst (st h) (WLStep k) = [t_act k; t_in]) by (intros ->; cbn [wc_dst]; rewrite Hk; reflexivity).
    pose proof (iv_r0 _ J) as Hr0. pose proof (iv_mx _ J) as Hmx.
    (** fetch_sub() *)
    assert (Hsub : forall c, (a = WVSub /\ c = WRet) \/ a = WSub c -> w_sub (st h) k c = Next s' es -> m_exec (ms_mem h) (hv h (WLStep k) v) [Touch l_cs false; Rmw x_cs true true] = Some (m', v') ->
      WI (MS s' m' (m_set (ms_view h) [t_act k] v'))).
    { intros c Hac Hs1 He1. destruct (rmw_last _ _ _ [Touch l_cs false] _ _ _ He1 eq_refl) as [R1 R2]. apply sub_next in Hs1. destruct Hs1 as (n & Hn & -> & ->).
      assert (Hpt : w_ph (st h) = OTaken) by (destruct Hac as [[-> _]| ->]; auto). unfold WI. proj. rewrite Es. intros _.
      pose proof (eff_exec _ _ _ _ _ He1) as Ef1.
      assert (Hrx : incl (mv_cur v' ++ rl h x_cs) (mv_cur v')) by (apply incl_app; [apply incl_refl|]; eapply incl_tran; [apply (ef_rel _ _ _ _ _ Ef1)|exact R2]).
      destruct h as [[dead started ph req cs val i ac] mem view]. proj. subst started. apply (inv_move _ _ _ _ _ _ _ _ _ _ _ _ _ _ _ _ _ _ _ J Hk Ef1 Hv); auto.
      - congruence.
      - destruct (n =? 0); [discriminate|]. destruct c; [|discriminate]. intros _. apply Hmk. destruct Hac as [[_ ?]| ->]; [discriminate|reflexivity].
      - destruct (n =? 0); [discriminate|]. destruct c; discriminate.
      - intros _. tfree.
      - intros _ _. tfree.
      - congruence. }
    destruct a as [| |c|c|c| | |c|]; try congruence; try (rewrite Hdst by discriminate).
    + specialize (Hset eq_refl). specialize (Hka eq_refl ltac:(congruence) ltac:(congruence)). specialize (Hr0 ltac:(congruence)).
      assert (Hr0' : mm_rel m' x_cs = []). { rewrite <- Hr0. revert He. apply exec_rel_other. destruct tok, (w_req (st h)); norel. }
      assert (Hmx' : tok = true -> Ck (mm_log m') (mm_rel m' x_mtx)).
      { intros Et. apply Ck_ka. apply (ka_incl _ _ _ Hka). rewrite Et in He. change ([Touch l_ev true; Lock x_mtx] ++ (if w_req (st h) then [] else [Touch l_hook true]) ++ [Unlock x_mtx]) with
          ([Touch l_ev true; Lock x_mtx] ++ (if w_req (st h) then [] else [Touch l_hook true]) ++ [Unlock x_mtx]) in He. rewrite app_assoc in He. exact (exec_unlock _ _ _ _ _ _ _ He). }
      destruct h as [[dead started ph req cs val i ac] mem view]. proj. subst ph dead started.
      assert (Hmv : forall a' p, a' = WGo \/ a' = WCall WStart -> WI (MS (WS false true p req cs val i (set_nth ac k a')) m' (m_set view [t_act k] v'))).
      { intros a' p Hp. unfold WI. proj. intros _. apply (inv_move _ _ _ _ _ _ _ _ _ _ _ _ _ _ _ _ _ _ _ J Hk Ef Hv); auto.
        - left. destruct Hp as [->| ->]; discriminate.
        - intros _. now apply Ck_ka.
        - destruct Hp as [->| ->]; discriminate.
        - discriminate.
        - intros _. discriminate. }
      destruct tok; [destruct req|]; injection Hs as <- <-; apply Hmv; auto.
    + rewrite (Hdst2 eq_refl) in *. specialize (Hmk eq_refl). injection Hs as <- <-. unfold WI. proj. rewrite Es. intros _. cbn [wc_acts] in *.
      assert (Hr : mm_rel m' = mm_rel (ms_mem h)) by (refine (proj1 (exec_touches _ _ _ _ _ _ He)); reflexivity).
      destruct J as [A B C D E F G]. destruct (HT Ed) as [HT1 HT2]. proj. constructor; proj; rewrite ?Hr.
      * intros x Hx. destruct (eff_new_in Ef x Hx) as [H|H]; [apply HT1, A, H|]. apply (HT2 WEInnerStart); simpl; auto.
      * exact B.
      * intros _. rewrite set_in by (simpl; auto). exact Hmk.
      * intros j b Hj Hb. apply set_nth_cases in Hj. destruct Hj as [[-> ->]|[Hn Hj]]; [discriminate|]. specialize (U2 _ _ Hn Hj Hb). discriminate.
      * intros j b Hj Hb. apply set_nth_cases in Hj. destruct Hj as [[-> ->]|[Hn Hj]]; [discriminate|]. rewrite set_out by tnot. apply (Ck_other Ef); eauto. tfree.
      * intros Hp Et. apply (Ck_other Ef); [auto|tfree].
      * intros j c Hj. apply set_nth_cases in Hj. destruct Hj as [[_ Hj]|[Hn Hj]]; [discriminate|]. destruct (U4 _ _ Hn Hj).
    + specialize (Hph eq_refl). injection Hs as <- <-. unfold WI. proj. rewrite Es. intros _. destruct h as [[dead started ph req cs val i ac] mem view]. proj. subst started.
      apply (inv_move _ _ _ _ _ _ _ _ _ _ _ _ _ _ _ _ _ _ _ J Hk Ef Hv); auto.
      * left. discriminate.
      * intros Hn. destruct (Hn Hph).
      * discriminate.
      * intros _. destruct c; tfree.
      * discriminate.
      * intros Hn. exfalso. proj. congruence.
    + apply (Hsub c); auto.
    + destruct (Hrst eq_refl) as [Hp1 Hp2]. specialize (Hmk eq_refl).
      assert (Hr0' : mm_rel m' x_cs = rl h x_cs). { revert He. apply exec_rel_other. destruct (tok && _), (w_req (st h)); norel. }
      destruct h as [[dead started ph req cs val i ac] mem view]. proj. subst dead started.
      assert (Hmv : forall a' p, (ph = OTaken /\ p = OTaken /\ a' = WVSub /\ req = true) \/ (ph = OSet /\ p = OGone /\ a' = WCompl WRet) -> WI (MS (WS false true p req cs val i (set_nth ac k a')) m' (m_set view [t_act k] v'))).
      { intros a' p Hp. unfold WI. proj. intros _. apply (inv_move _ _ _ _ _ _ _ _ _ _ _ _ _ _ _ _ _ _ _ J Hk Ef Hv); auto.
        - left. destruct Hp as [(_ & _ & -> & _)|(_ & _ & ->)]; discriminate.
        - intros Hn. rewrite Hr0'. destruct Hp as [(-> & -> & _)|(-> & -> & _)]; [congruence|]. apply Hr0. discriminate.
        - destruct Hp as [(_ & _ & -> & _)|(_ & _ & ->)]; discriminate.
        - intros c' Hc'. destruct Hp as [(_ & _ & -> & _)|(-> & _ & _)]; [discriminate|]. rewrite Hr0', Hr0 by discriminate. intros x [].
        - discriminate.
        - intros _ Hp0. destruct Hp as [(_ & _ & _ & ->)|(-> & _ & _)]; [|discriminate]. destruct (tok && _); tfree.
        - destruct Hp as [(_ & -> & _)|(_ & -> & _)]; discriminate. }
      pose proof (wi_v _ _ _ HA) as [W1 W2 W3]. proj. destruct ph; try congruence; cbn [negb] in Hs.
      * assert (Hs' : s' = w_with_act (w_with_ph (WS false true OSet req cs val i ac) OGone) k (WCompl WRet)).
        { destruct tok eqn:Et; cbn [negb] in Hs; [|congruence]. decompose [and] W3. assert (req = false) by auto. subst req. congruence. }
        rewrite Hs'. apply Hmv. auto.
      * decompose [and] W3. assert (tok = true) as Et by assumption. rewrite Et in Hs. subst req. injection Hs as <- <-. apply Hmv. auto.
    + apply (Hsub WRet); auto.
Qed.

Lemma WI_run ls h tr : run hstep wc_init ls = Running h tr -> WI h /\ BI (st h) (map fst tr).
Proof.
  intros Hr. split; [|apply (wi_run tok (map fst ls)); apply h_run in Hr; exact Hr]. revert Hr.
  intros Hr. apply (h_inv (w_step tok) wc_src wc_dst acts (fun _ => True) (fun h _ => WI h) w_init) with (ls := ls) (tr := tr); auto.
  - split; reflexivity.
  - clear ls h tr Hr. intros ls h tr l v s' es m' v' Hr HI Hs He _. apply h_run in Hr. pose proof (wi_run tok _ _ _ Hr) as HA.
    apply (WI_step h (map fst tr) l v s' es); auto. pose proof (wi_step tok _ _ l HA) as H. rewrite Hs in H. exact H.
Qed.

Theorem with_cancel_norace ls f tr : run hstep wc_init ls <> Failed f tr.
Proof.
  intros Hr. destruct (h_failed _ _ _ _ _ _ _ _ Hr) as [(ls0 & Hb)|(_ & ls1 & h & tr1 & l & v & s' & es & H1 & He & Hs & Ht)].
  - exact (w_safe tok _ _ _ Hb).
  - destruct (WI_run _ _ _ H1) as [HI HA]. revert He. exact (WI_ok h (map fst tr1) l v HA HI s' es Hs).
Qed.

(** ** Visibility *)
Lemma one_event s l s' es : w_step tok s l = Next s' es -> es = [] \/ exists e, es = [e].
Proof.
  destruct l as [| |x|k|k]; cbn [w_step]; intros Hs.
  - destruct (w_started s); try discriminate. injection Hs as _ <-. eauto.
  - cbn zeta in Hs. destruct (w_dead s && _); try discriminate. injection Hs as _ <-. eauto.
  - destruct (w_in s), (w_dead s); try discriminate. injection Hs as _ <-. eauto.
  - destruct (nth_error (w_acts s) k) as [[]|]; try discriminate. injection Hs as _ <-. eauto.
  - destruct (nth_error (w_acts s) k) as [a|]; try discriminate. unfold wact_step in Hs. destruct a as [| |c|c|c| | |c|]; try discriminate; destruct (w_dead s); try discriminate.
    + destruct tok; [destruct (w_ph s); try discriminate; destruct (w_req s)|]; injection Hs as _ <-; auto.
    + injection Hs as _ <-. eauto.
    + injection Hs as _ <-. eauto.
    + apply sub_next in Hs. destruct Hs as (n & _ & -> & _). auto.
    + destruct (w_ph s), (negb tok), (w_req s); try discriminate; injection Hs as _ <-; auto.
    + apply sub_next in Hs. destruct Hs as (n & _ & -> & _). auto.
    + destruct (w_val s); try discriminate. injection Hs as _ <-. eauto.
Qed.
Lemma done_event s l s' x : w_step tok s l = Next s' [WEDone x] -> exists k c, l = WLStep k /\ nth_error (w_acts s) k = Some (WCompl c).
Proof.
  destruct l as [| |y|k|k]; cbn [w_step]; intros Hs.
  - destruct (w_started s); discriminate.
  - cbn zeta in Hs. destruct (w_dead s && _); discriminate.
  - destruct (w_in s), (w_dead s); discriminate.
  - destruct (nth_error (w_acts s) k) as [[]|]; discriminate.
  - destruct (nth_error (w_acts s) k) as [a|] eqn:Hk; try discriminate. unfold wact_step in Hs. destruct a as [| |c|c|c| | |c|]; try discriminate; destruct (w_dead s); try discriminate.
    + destruct tok; [destruct (w_ph s); try discriminate; destruct (w_req s)|]; discriminate.
    + apply sub_next in Hs. destruct Hs as (n & _ & [=] & _).
    + destruct (w_ph s), (negb tok), (w_req s); discriminate.
    + apply sub_next in Hs. destruct Hs as (n & _ & [=] & _).
    + eauto.
Qed.
Lemma dead_stays s l s' es : w_step tok s l = Next s' es -> w_dead s' = false -> w_dead s = false.
Proof.
  destruct l as [| |y|k|k]; cbn [w_step]; intros Hs.
  - destruct (w_started s); try discriminate. injection Hs as <- <-. auto.
  - cbn zeta in Hs. destruct (w_dead s && _); try discriminate. injection Hs as <- <-. auto.
  - destruct (w_in s), (w_dead s); try discriminate. auto.
  - destruct (nth_error (w_acts s) k) as [[]|]; try discriminate. injection Hs as <- <-. auto.
  - destruct (nth_error (w_acts s) k) as [a|]; try discriminate. unfold wact_step in Hs. destruct a, (w_dead s); try discriminate; auto.
Qed.

Lemma VI_run ls h tr : run hstep wc_init ls = Running h tr ->
  (w_dead (st h) = false -> forall e u x, In (e, u) tr -> run_event e = true -> In x u -> T h x) /\ sees_all tr.
Proof.
  intros Hr. apply (h_inv (w_step tok) wc_src wc_dst acts (fun _ => True)
    (fun h tr => (w_dead (st h) = false -> forall e u x, In (e, u) tr -> run_event e = true -> In x u -> T h x) /\ sees_all tr) w_init) with (ls := ls); auto.
  { split; [intros _ ? ? ? []|]. intros [] ? ? ? [=]. }
  clear ls h tr Hr. intros ls h tr l v s' es m' v' Hr [V1 V2] Hs He _. destruct (WI_run ls h tr Hr) as [HI HA]. pose proof (eff_exec _ _ _ _ _ He) as Ef. proj. split.
  - intros Hd e u x Hin Hop Hx. destruct (T_step _ _ _ _ _ _ _ _ HA Hs He Hd) as [HT HTn]. apply in_app_or in Hin. destruct Hin as [Hin|Hin]; [apply HT; eapply V1; eauto using dead_stays|].
    apply in_map_iff in Hin. destruct Hin as (y & [= -> <-] & Hy). apply (HTn e); auto.
  - destruct (one_event _ _ _ _ Hs) as [->|[e ->]]; [simpl; rewrite app_nil_r; exact V2|]. simpl map. intros t1 x w t2 Ht. apply snoc_cons_inv in Ht.
    destruct Ht as [(-> & Hx & _)|(t2' & ->)]; [|now apply (V2 t1 x w t2')]. injection Hx as -> <-.
    intros e u Hin Hop y Hy. apply done_event in Hs. destruct Hs as (k & c & -> & Hk). pose proof (act_inv _ _ _ _ HA HI Hk ltac:(discriminate)) as J.
    destruct (act_alive _ _ _ _ HA Hk ltac:(discriminate)) as [_ Hd]. specialize (V1 Hd _ _ _ Hin Hop Hy). apply (ef_cur _ _ _ _ _ Ef). apply (in_hview wc_src h (WLStep k) v (t_act k)); [simpl; auto|].
    destruct (solo_com _ _ _ _ HA Hk) as [S1 S2]. destruct V1 as [[H1 H2]|[(j & b & H1 & H2 & H3)|H]]; [rewrite (S1 H1); exact H2|rewrite (S2 _ _ H1 H2); exact H3|exact (iv_cm _ J _ _ Hk _ H)].
Qed.
Theorem with_cancel_visible ls h tr : run hstep wc_init ls = Running h tr -> sees_all tr.
Proof. intros Hr. apply (VI_run ls h tr Hr). Qed.

(** *** The callback *)
Record CI (h : mst (S := wst)) (tr : list (wevent * hbs)) : Prop := CI_ {
  ci_rel : forall u, In (WECancel, u) tr -> incl u (rl h x_mtx);
  ci_set : forall k, nth_error (w_acts (st h)) k = Some WSet -> forall u, In (WEStart, u) tr -> incl u (v_ h (t_act k));
  ci_oset : w_ph (st h) = OSet -> tok = true -> forall u, In (WEStart, u) tr -> incl u (rl h x_mtx);
  ci_call : forall k c, nth_error (w_acts (st h)) k = Some (WCall c) -> sees_cancel tr (v_ h (t_act k)) }.
Lemma cb_event s l s' : w_step tok s l = Next s' [WECb] -> exists k c, l = WLStep k /\ nth_error (w_acts s) k = Some (WCall c).
Proof.
  destruct l as [| |y|k|k]; cbn [w_step]; intros Hs.
  - destruct (w_started s); discriminate.
  - cbn zeta in Hs. destruct (w_dead s && _); discriminate.
  - destruct (w_in s), (w_dead s); discriminate.
  - destruct (nth_error (w_acts s) k) as [[]|]; discriminate.
  - destruct (nth_error (w_acts s) k) as [a|] eqn:Hk; try discriminate. unfold wact_step in Hs. destruct a as [| |c|c|c| | |c|]; try discriminate; destruct (w_dead s); try discriminate.
    + destruct tok; [destruct (w_ph s); try discriminate; destruct (w_req s)|]; discriminate.
    + eauto.
    + apply sub_next in Hs. destruct Hs as (n & _ & [=] & _).
    + destruct (w_ph s), (negb tok), (w_req s); discriminate.
    + apply sub_next in Hs. destruct Hs as (n & _ & [=] & _).
    + destruct (w_val s); discriminate.
Qed.

Lemma act_step_shape s k a s' es : w_step tok s (WLStep k) = Next s' es -> nth_error (w_acts s) k = Some a ->
  exists a', w_acts s' = set_nth (w_acts s) k a' /\ (a' <> WSet) /\ (forall c, a' = WCall c -> a = WSet /\ tok = true /\ w_req s = true) /\
  (w_ph s' = OSet -> w_ph s = OSet \/ a = WSet) /\ forall e, In e es -> e <> WECancel /\ e <> WEStart.
Proof.
  intros Hs Hk. cbn [w_step] in Hs. rewrite Hk in Hs. unfold wact_step in Hs.
  assert (Hret : forall c, wret c <> WSet /\ forall c', wret c <> WCall c') by (intros []; split; discriminate).
  destruct a as [| |c|c|c| | |c|]; try discriminate; destruct (w_dead s); try discriminate.
  - destruct (bool_dec tok true) as [Et|Et]; [|apply not_true_is_false in Et]; rewrite Et in Hs; [destruct (w_ph s) eqn:Ep; try discriminate; destruct (w_req s) eqn:Er|]; injection Hs as <- <-; simpl; eexists; (split; [reflexivity|]); split; try discriminate;
      (split; [intros c [=]|]); auto; split; auto; try discriminate; intros e [].
  - injection Hs as <- <-. exists WEnd. simpl. split; [reflexivity|]. split; [discriminate|]. split; [discriminate|]. split; [auto|]. intros e [<-|[]]. split; discriminate.
  - injection Hs as <- <-. exists (WCb c). simpl. split; [reflexivity|]. split; [discriminate|]. split; [discriminate|]. split; [auto|]. intros e [<-|[]]. split; discriminate.
  - apply sub_next in Hs. destruct Hs as (n & _ & -> & ->). exists (if n =? 0 then WCompl c else wret c). simpl. destruct (Hret c) as [R1 R2]. split; [reflexivity|]. split; [destruct (n =? 0); [discriminate|auto]|].
    split; [intros c'; destruct (n =? 0); [discriminate|intros E; destruct (R2 _ E)]|]. split; [auto|intros e []].
  - assert (Hx : exists a', w_acts s' = set_nth (w_acts s) k a' /\ (a' = WCompl WRet \/ a' = WVSub) /\ es = [] /\ (w_ph s' = OSet -> w_ph s = OSet)).
    { destruct (w_ph s) eqn:Ep, (negb tok), (w_req s); try discriminate; injection Hs as <- <-; simpl; eexists; (split; [reflexivity|]); repeat split; auto; try congruence. }
    destruct Hx as (a' & H1 & H2 & -> & H3). exists a'. split; [exact H1|]. split; [destruct H2 as [->| ->]; discriminate|]. split; [destruct H2 as [->| ->]; discriminate|]. split; [auto|intros e []].
  - apply sub_next in Hs. destruct Hs as (n & _ & -> & ->). exists (if n =? 0 then WCompl WRet else wret WRet). simpl. destruct (Hret WRet) as [R1 R2]. split; [reflexivity|]. split; [destruct (n =? 0); [discriminate|auto]|].
    split; [intros c'; destruct (n =? 0); [discriminate|intros E; destruct (R2 _ E)]|]. split; [auto|intros e []].
  - destruct (w_val s); try discriminate. injection Hs as <- <-. destruct (Hret c) as [R1 R2]. exists (wret c). simpl. split; [reflexivity|]. split; auto. split; [intros c' E; destruct (R2 _ E)|]. split; [auto|]. intros e [<-|[]]. split; discriminate.
Qed.

Lemma in_map_ev (e : wevent) (u : hbs) (es : list wevent) (v : hbs) : In (e, u) (map (fun e => (e, v)) es) -> In e es /\ u = v.
Proof. intros H. apply in_map_iff in H. destruct H as (y & [= <- <-] & Hy). auto. Qed.
Lemma CI_step h tr l v s' es m' v' : BI (st h) (map fst tr) -> BI s' (map fst tr ++ es) -> CI h tr -> w_step tok (st h) l = Next s' es -> m_exec (ms_mem h) (hv h l v) (acts (st h) l) = Some (m', v') ->
  CI (MS s' m' (m_set (ms_view h) (wc_dst (st h) l) v')) (tr ++ map (fun e => (e, mv_cur v')) es).
Proof.
  intros HA HA' [A B C D] Hs He. pose proof (eff_exec _ _ _ _ _ He) as Ef. pose proof (ef_rel _ _ _ _ _ Ef x_mtx) as Hrl.
  assert (Hv0 : forall t, In t (wc_src (st h) l) -> incl (v_ h t) (mv_cur v')) by (intros t Ht; eapply incl_tran; [now apply (in_hview wc_src h l v)|exact (ef_cur _ _ _ _ _ Ef)]).
  assert (Hnt : w_started (st h) = false -> (forall k a, nth_error (w_acts (st h)) k = Some a -> a = WEnd) /\ w_ph (st h) = OUnset).
  { intros Es. split.
    - intros k a Hk. destruct (eqb_wend a) as [|Hn]; [assumption|]. destruct (act_alive _ _ _ _ HA Hk Hn). congruence.
    - pose proof (wi_v _ _ _ HA) as [_ _ W3]. rewrite Es in W3. cbn [b2n] in W3. destruct (w_ph (st h)); auto; decompose [and] W3; discriminate. }
  destruct l as [| |y|k|k].
  - cbn [w_step] in Hs. destruct (w_started (st h)) eqn:Es; [discriminate|]. injection Hs as <- <-. destruct (Hnt eq_refl) as [N1 N2].
    assert (Hns : forall u, ~ In (WEStart, u) tr). { intros u Hu. apply (in_map fst) in Hu. simpl in Hu. apply (wi_start _ _ _ HA) in Hu. congruence. }
    constructor; proj; simpl map.
    + intros u Hu. apply In_snoc in Hu. destruct Hu as [Hu|[=]]. eapply incl_tran; [exact (A _ Hu)|exact Hrl].
    + intros k Hk u Hu. apply In_snoc in Hu. destruct Hu as [Hu|[= ->]]; [destruct (Hns _ Hu)|]. apply snoc_cases in Hk. destruct Hk as [Hk|[-> _]]; [apply N1 in Hk; discriminate|]. rewrite set_in by (simpl; auto). apply incl_refl.
    + congruence.
    + intros k c Hk. apply snoc_cases in Hk. destruct Hk as [Hk|[_ [=]]]. apply N1 in Hk. discriminate.
  - cbn [w_step] in Hs. cbn zeta in Hs. destruct (w_dead (st h) && _) eqn:Edl; [discriminate|]. injection Hs as <- <-. cbn [wc_acts wc_dst] in *.
    assert (Hun : incl (mv_cur v') (mm_rel m' x_mtx)). { rewrite app_assoc in He. exact (exec_unlock _ _ _ _ _ _ _ He). }
    assert (Hlk : incl (rl h x_mtx) (mv_cur v')) by exact (exec_lock _ _ _ _ _ _ _ He).
    assert (Hst : forall u, In (WEStart, u) (tr ++ [(WECancel, mv_cur v')]) -> In (WEStart, u) tr) by (intros u Hu; apply In_snoc in Hu; destruct Hu as [Hu|[=]]; exact Hu).
    assert (Hold : forall k c, nth_error (w_acts (st h)) k = Some (WCall c) -> sees_cancel (tr ++ [(WECancel, mv_cur v')]) (mv_cur (m_set (ms_view h) [t_act (length (w_acts (st h)))] v' (t_act k)))).
    { intros k c Hk. pose proof (nth_lt _ _ _ Hk). rewrite set_out by tnot. destruct (D _ _ Hk) as [(u & H1 & H2) H3]. split; [exists u; rewrite In_snoc; auto|auto]. }
    assert (Hset : forall k, nth_error (w_acts (st h)) k = Some WSet -> forall u, In (WEStart, u) tr -> incl u (mv_cur (m_set (ms_view h) [t_act (length (w_acts (st h)))] v' (t_act k)))).
    { intros k Hk u Hu. pose proof (nth_lt _ _ _ Hk). rewrite set_out by tnot. eauto. }
    constructor; proj; simpl map.
    + intros u Hu. apply In_snoc in Hu. destruct Hu as [Hu|[= ->]]; [|exact Hun]. eapply incl_tran; [exact (A _ Hu)|exact Hrl].
    + intros k Hk u Hu. apply Hst in Hu. destruct (tok && _); [|eauto]. apply snoc_cases in Hk. destruct Hk as [Hk|[_ [=]]]. eauto.
    + intros Hp Et u Hu. apply Hst in Hu. destruct (tok && _) eqn:El; [discriminate|]. eapply incl_tran; [exact (C Hp Et _ Hu)|exact Hrl].
    + intros k c Hk. destruct (tok && match w_ph (st h) with OSet => true | _ => false end) eqn:El; [|eauto]. apply snoc_cases in Hk. destruct Hk as [Hk|[-> _]]; [eauto|]. rewrite set_in by (simpl; auto).
      apply andb_true_iff in El. destruct El as [Et Ep]. split; [exists (mv_cur v'); rewrite In_snoc; split; [auto|apply incl_refl]|]. intros u Hu. apply Hst in Hu.
      eapply incl_tran; [|exact Hlk]. apply C; auto. destruct (w_ph (st h)); congruence.
  - cbn [w_step] in Hs. destruct (w_in (st h)) eqn:Ei; try discriminate. destruct (w_dead (st h)) eqn:Ed; [discriminate|]. injection Hs as <- <-.
    assert (Hev : forall e u, e <> WEInner y -> In (e, u) (tr ++ map (fun e => (e, mv_cur v')) [WEInner y]) -> In (e, u) tr) by (intros e u Hn Hu; apply In_snoc in Hu; destruct Hu as [Hu|[= ? _]]; [exact Hu|congruence]).
    constructor; proj.
    + intros u Hu. apply Hev in Hu; [|discriminate]. eapply incl_tran; [exact (A _ Hu)|exact Hrl].
    + intros k Hk u Hu. apply Hev in Hu; [|discriminate]. apply snoc_cases in Hk. destruct Hk as [Hk|[_ [=]]]. pose proof (nth_lt _ _ _ Hk). cbn [wc_dst]. rewrite set_out by tnot. eauto.
    + intros Hp Et u Hu. apply Hev in Hu; [|discriminate]. eapply incl_tran; [exact (C Hp Et _ Hu)|exact Hrl].
    + intros k c Hk. apply snoc_cases in Hk. destruct Hk as [Hk|[_ [=]]]. pose proof (nth_lt _ _ _ Hk). cbn [wc_dst]. rewrite set_out by tnot. destruct (D _ _ Hk) as [(u & H1 & H2) H3].
      split; [exists u; rewrite in_app_iff; auto|]. intros w Hw. apply Hev in Hw; [auto|discriminate].
  - cbn [w_step] in Hs. destruct (nth_error (w_acts (st h)) k) as [a|] eqn:Hk; [|discriminate]. destruct a as [| |c|c|c| | |c|]; try discriminate. injection Hs as <- <-.
    assert (Hev : forall e u, e <> WECbRet -> In (e, u) (tr ++ map (fun e => (e, mv_cur v')) [WECbRet]) -> In (e, u) tr) by (intros e u Hn Hu; apply In_snoc in Hu; destruct Hu as [Hu|[= ? _]]; [exact Hu|congruence]).
    constructor; proj.
    + intros u Hu. apply Hev in Hu; [|discriminate]. eapply incl_tran; [exact (A _ Hu)|exact Hrl].
    + intros j Hj u Hu. apply Hev in Hu; [|discriminate]. apply set_nth_cases in Hj. destruct Hj as [[_ [=]]|[Hn Hj]]. cbn [wc_dst]. rewrite set_out by tnot. eauto.
    + intros Hp Et u Hu. apply Hev in Hu; [|discriminate]. eapply incl_tran; [exact (C Hp Et _ Hu)|exact Hrl].
    + intros j c' Hj. apply set_nth_cases in Hj. destruct Hj as [[_ [=]]|[Hn Hj]]. cbn [wc_dst]. rewrite set_out by tnot. destruct (D _ _ Hj) as [(u & H1 & H2) H3].
      split; [exists u; rewrite in_app_iff; auto|]. intros w Hw. apply Hev in Hw; [auto|discriminate].
  - assert (Hk' : exists a, nth_error (w_acts (st h)) k = Some a) by (cbn [w_step] in Hs; destruct (nth_error (w_acts (st h)) k); [eauto|discriminate]). destruct Hk' as [a Hk].
    destruct (act_step_shape _ _ _ _ _ Hs Hk) as (a' & Ha & N1 & N2 & N3 & N4).
    assert (Hev : forall e u, e = WECancel \/ e = WEStart -> In (e, u) (tr ++ map (fun e => (e, mv_cur v')) es) -> In (e, u) tr).
    { intros e u Hn Hu. apply in_app_or in Hu. destruct Hu as [Hu|Hu]; [exact Hu|]. apply in_map_ev in Hu. destruct Hu as [Hu _]. apply N4 in Hu. destruct Hu. destruct Hn; congruence. }
    assert (Hout : forall j, j <> k -> m_set (ms_view h) (wc_dst (st h) (WLStep k)) v' (t_act j) = ms_view h (t_act j)).
    { intros j Hn. apply set_out. cbn [wc_dst]. destruct (nth_error (w_acts (st h)) k) as [[]|]; tnot. }
    assert (Hin : m_set (ms_view h) (wc_dst (st h) (WLStep k)) v' (t_act k) = v') by (apply set_in; cbn [wc_dst]; destruct (nth_error (w_acts (st h)) k) as [[]|]; simpl; auto).
    cbn [wc_acts] in He. rewrite Hk in He.
    constructor; proj; rewrite ?Ha.
    + intros u Hu. apply Hev in Hu; [|auto]. eapply incl_tran; [exact (A _ Hu)|exact Hrl].
    + intros j Hj u Hu. apply Hev in Hu; [|auto]. apply set_nth_cases in Hj. destruct Hj as [[_ <-]|[Hn Hj]]; [congruence|]. rewrite Hout by auto. eauto.
    + intros Hp Et u Hu. apply Hev in Hu; [|auto]. destruct (N3 Hp) as [Hp0| ->]; [eapply incl_tran; [exact (C Hp0 Et _ Hu)|exact Hrl]|].
      rewrite Et in He. rewrite app_assoc in He. apply exec_unlock in He. eapply incl_tran; [|exact He]. eapply incl_tran; [exact (B _ Hk _ Hu)|]. apply Hv0. simpl. auto.
    + intros j c Hj. apply set_nth_cases in Hj. destruct Hj as [[-> Hj]|[Hn Hj]].
      * destruct (N2 c (eq_sym Hj)) as (-> & Et & Er). rewrite Hin. rewrite Et, Er in He. split.
        -- apply (wi_req _ _ _ HA) in Er. apply in_map_iff in Er. destruct Er as ([e u] & [= ->] & Hu). exists u. split; [rewrite in_app_iff; auto|]. eapply incl_tran; [exact (A _ Hu)|].
           cbn [app] in He. cbn [m_exec] in He. destruct (m_exec1 (ms_mem h) (hv h (WLStep k) v) (Touch l_ev true)) as [[m1 v1]|] eqn:H1; [|discriminate].
           assert (mm_rel m1 = mm_rel (ms_mem h)) as Hm1 by (simpl in H1; destruct (m_ordered _ _ _); [|discriminate]; injection H1 as <- <-; reflexivity).
           rewrite <- Hm1. exact (exec_lock m1 v1 [Unlock x_mtx] x_mtx false m' v' He).
        -- intros u Hu. apply Hev in Hu; [|auto]. eapply incl_tran; [exact (B _ Hk _ Hu)|]. apply Hv0. simpl. auto.
      * rewrite Hout by auto. destruct (D _ _ Hj) as [(u & H1 & H2) H3]. split; [exists u; rewrite in_app_iff; auto|]. intros w Hw. apply Hev in Hw; [auto|auto].
Qed.
Lemma CI_run ls h tr : run hstep wc_init ls = Running h tr -> CI h tr /\ (forall t1 v t2, tr = t1 ++ (WECb, v) :: t2 -> sees_cancel t1 v).
Proof.
  intros Hr. apply (h_inv (w_step tok) wc_src wc_dst acts (fun _ => True) (fun h tr => CI h tr /\ forall t1 v t2, tr = t1 ++ (WECb, v) :: t2 -> sees_cancel t1 v) w_init) with (ls := ls); auto.
  { split; [|intros [] ? ? [=]]. constructor; simpl; try (intros; contradiction); try (intros [] ? [=]); intros [] [=]. }
  clear ls h tr Hr. intros ls h tr l v s' es m' v' Hr [V1 V2] Hs He _. apply h_run in Hr. pose proof (wi_run tok _ _ _ Hr) as HA. pose proof (wi_step tok _ _ l HA) as HA'. rewrite Hs in HA'. cbn [wok] in HA'.
  split; [now apply CI_step with v|]. pose proof (eff_exec _ _ _ _ _ He) as Ef.
  destruct (one_event _ _ _ _ Hs) as [->|[e ->]]; [simpl; rewrite app_nil_r; exact V2|]. simpl map. intros t1 w t2 Ht. apply snoc_cons_inv in Ht.
  destruct Ht as [(-> & Hx & _)|(t2' & ->)]; [|now apply (V2 t1 w t2')]. injection Hx as -> <-. apply cb_event in Hs. destruct Hs as (k & c & -> & Hk).
  assert (Hv : incl (v_ h (t_act k)) (mv_cur v')). { eapply incl_tran; [|exact (ef_cur _ _ _ _ _ Ef)]. apply (in_hview wc_src h (WLStep k) v). simpl. auto. }
  destruct (ci_call _ _ V1 _ _ Hk) as [(u & H1 & H2) H3]. split; [exists u; split; [exact H1|eapply incl_tran; eauto]|]. intros u0 Hu. eapply incl_tran; eauto.
Qed.
End Tok.
