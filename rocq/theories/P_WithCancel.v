(** Invariant and properties of with_cancel_cb. *)
From Coq Require Import List Arith Bool Lia.
From Verif Require Import Lts ListFacts M_Suspend M_WithCancel S_WithCancel.
Import ListNotations.

Definition b2n (b : bool) : nat := if b then 1 else 0.

Lemma b2n_le b : b2n b <= 1.
Proof. destruct b; simpl; lia. Qed.

(** ** Kinds of calls *)
Definition f_set (a : wact) : nat := match a with WSet => 1 | _ => 0 end.
(** start() before the start of the wrapped operation *)
Definition f_pre (a : wact) : nat := match a with WSet | WGo | WCall WStart | WCb WStart | WSub WStart | WCompl WStart => 1 | _ => 0 end.
Definition f_call (a : wact) : nat := match a with WCall _ => 1 | _ => 0 end.
Definition f_cb (a : wact) : nat := match a with WCb _ => 1 | _ => 0 end.
Definition f_sub (a : wact) : nat := match a with WSub _ => 1 | _ => 0 end.
Definition f_rst (a : wact) : nat := match a with WReset => 1 | _ => 0 end.
Definition f_vs (a : wact) : nat := match a with WVSub => 1 | _ => 0 end.
Definition f_com (a : wact) : nat := match a with WCompl _ => 1 | _ => 0 end.
Definition cn (f : wact -> nat) (s : wst) : nat := sum (map f (w_acts s)).

Definition notdone (i : inner) : nat := match i with IDone => 0 | _ => 1 end.
Definition isnone (i : inner) : nat := match i with INone => 1 | _ => 0 end.
Definition istaken (p : ophase) : nat := match p with OTaken => 1 | _ => 0 end.

Lemma w_cbs_app a b : w_cbs (a ++ b) = w_cbs a + w_cbs b.
Proof. unfold w_cbs. now rewrite filter_app, app_length. Qed.
Lemma w_cbrets_app a b : w_cbrets (a ++ b) = w_cbrets a + w_cbrets b.
Proof. unfold w_cbrets. now rewrite filter_app, app_length. Qed.
Lemma w_starts_app a b : w_starts (a ++ b) = w_starts a + w_starts b.
Proof. unfold w_starts. now rewrite filter_app, app_length. Qed.
Lemma w_dones_app a b : w_dones (a ++ b) = w_dones a + w_dones b.
Proof. unfold w_dones. now rewrite filter_app, app_length. Qed.

Section Tok.
Variable tok : bool.
Notation w_step := (w_step tok).
Notation wrun := (run w_step w_init).

(** The invariant on the numbers of calls and the variables *)
Record WV (set pre call cb sub rst vs com : nat) (dead started : bool) (ph : ophase) (req : bool) (cs : nat) (i : inner) : Prop := {
  v_pre : pre + (1 - isnone i) = b2n started;
  v_set : set <= pre;
  v_ph : match ph with
         | OUnset => i = INone /\ set = pre /\ call + cb + sub + rst + vs + com + b2n dead = 0 /\ cs = 2
         | OSet => b2n started = 1 /\ set = 0 /\ call + cb + sub + vs + com + b2n dead = 0 /\ rst = 1 - notdone i /\ cs = 2 /\ (tok = true -> req = false)
         | OTaken => b2n started = 1 /\ set = 0 /\ cs = (call + cb + sub) + (notdone i + rst + vs) /\ call + cb + sub <= 1 /\ notdone i + rst + vs <= 1 /\
                     com + b2n dead = 1 - cs /\ tok = true /\ req = true
         | OGone => b2n started = 1 /\ set = 0 /\ i = IDone /\ call + cb + sub + rst + vs = 0 /\ com + b2n dead = 1
         end
}.
Definition view (s : wst) : Prop :=
  WV (cn f_set s) (cn f_pre s) (cn f_call s) (cn f_cb s) (cn f_sub s) (cn f_rst s) (cn f_vs s) (cn f_com s) (w_dead s) (w_started s) (w_ph s) (w_req s) (w_cs s) (w_in s).

Record WI (s : wst) (tr : list wevent) : Prop := {
  wi_v : view s;
  wi_val : match w_val s with Some v => w_in s = IDone /\ In (WEInner v) tr | None => w_in s <> IDone end;
  wi_inner : forall v, In (WEInner v) tr -> w_val s = Some v;
  wi_cbs : w_cbs tr + cn f_call s = istaken (w_ph s);
  wi_rets : w_cbs tr = w_cbrets tr + cn f_cb s;
  wi_starts : w_starts tr + isnone (w_in s) = 1;
  wi_dones : w_dones tr = b2n (w_dead s);
  wi_done : forall v, In (WEDone v) tr -> w_val s = Some v;
  wi_req : w_req s = true <-> In WECancel tr;
  wi_start : w_started s = true <-> In WEStart tr
}.

Lemma wi_init : WI w_init [].
Proof.
  constructor; simpl; auto; try (intros; contradiction); try discriminate; try (split; [discriminate|intros []]).
  constructor; unfold cn; simpl; auto.
Qed.

Definition wok (tr : list wevent) (r : outcome wst wevent) : Prop :=
  match r with Next s' es => WI s' (tr ++ es) | Disabled => True | Fail _ _ => False end.

Ltac sums Hk a' :=
  pose proof (sum_map_set_nth f_set _ _ a' _ Hk); pose proof (sum_map_set_nth f_pre _ _ a' _ Hk); pose proof (sum_map_set_nth f_call _ _ a' _ Hk);
  pose proof (sum_map_set_nth f_cb _ _ a' _ Hk); pose proof (sum_map_set_nth f_sub _ _ a' _ Hk); pose proof (sum_map_set_nth f_rst _ _ a' _ Hk);
  pose proof (sum_map_set_nth f_vs _ _ a' _ Hk); pose proof (sum_map_set_nth f_com _ _ a' _ Hk).
Ltac here Hk :=
  pose proof (sum_map_le f_set _ _ (nth_error_In _ _ Hk)); pose proof (sum_map_le f_pre _ _ (nth_error_In _ _ Hk)); pose proof (sum_map_le f_call _ _ (nth_error_In _ _ Hk));
  pose proof (sum_map_le f_cb _ _ (nth_error_In _ _ Hk)); pose proof (sum_map_le f_sub _ _ (nth_error_In _ _ Hk)); pose proof (sum_map_le f_rst _ _ (nth_error_In _ _ Hk));
  pose proof (sum_map_le f_vs _ _ (nth_error_In _ _ Hk)); pose proof (sum_map_le f_com _ _ (nth_error_In _ _ Hk)).

(** trace facts of one more event *)
Ltac tr1 := rewrite ?app_nil_r, ?w_cbs_app, ?w_cbrets_app, ?w_starts_app, ?w_dones_app, ?map_app, ?sum_app; cbn [map sum].

(** a step of call [k], from [a] to [a'], that emits the events [es] *)
Lemma wi_move dead started ph req cs val i acts tr k a a' dead' ph' cs' i' es :
  WI (WS dead started ph req cs val i acts) tr -> nth_error acts k = Some a ->
  (forall set pre call cb sub rst vs com, set <= pre ->
     WV (set + f_set a) (pre + f_pre a) (call + f_call a) (cb + f_cb a) (sub + f_sub a) (rst + f_rst a) (vs + f_vs a) (com + f_com a) dead started ph req cs i ->
     WV (set + f_set a') (pre + f_pre a') (call + f_call a') (cb + f_cb a') (sub + f_sub a') (rst + f_rst a') (vs + f_vs a') (com + f_com a') dead' started ph' req cs' i' /\
     w_starts es + isnone i' = isnone i) ->
  w_cbs es + f_call a' + istaken ph = istaken ph' + f_call a ->
  w_cbs es + f_cb a = w_cbrets es + f_cb a' ->
  w_dones es + b2n dead = b2n dead' ->
  (i' = IDone <-> i = IDone) ->
  (forall e, In e es -> e <> WECancel /\ e <> WEStart /\ (forall v, e <> WEInner v) /\ forall v, e = WEDone v -> val = Some v) ->
  WI (WS dead' started ph' req cs' val i' (set_nth acts k a')) (tr ++ es).
Proof.
  intros HI Hk HV Hcb Hret Hdone Hi Hes.
  assert (D : forall f : wact -> nat, exists r, (f WEnd = 0 -> r = sum (map f (set_nth acts k WEnd))) /\ sum (map f acts) = r + f a /\ sum (map f (set_nth acts k a')) = r + f a').
  { intros f. pose proof (sum_map_set_nth f _ _ a' _ Hk). pose proof (sum_map_set_nth f _ _ WEnd _ Hk). pose proof (sum_map_le f _ _ (nth_error_In _ _ Hk)). exists (sum (map f acts) - f a). lia. }
  destruct (D f_set) as (n1 & C1 & A1 & B1), (D f_pre) as (n2 & C2 & A2 & B2), (D f_call) as (n3 & C3 & A3 & B3), (D f_cb) as (n4 & C4 & A4 & B4),
           (D f_sub) as (n5 & C5 & A5 & B5), (D f_rst) as (n6 & C6 & A6 & B6), (D f_vs) as (n7 & C7 & A7 & B7), (D f_com) as (n8 & C8 & A8 & B8).
  assert (Hsp : n1 <= n2) by (rewrite C1, C2 by reflexivity; apply sum_map_mono; intros x _; destruct x; simpl; lia).
  destruct HI as [H1 H2 H3 H4 H5 H6 H7 H8 H9 H10]. unfold view, cn in *. cbn [w_acts w_dead w_started w_ph w_req w_cs w_val w_in] in *.
  rewrite A1, A2, A3, A4, A5, A6, A7, A8 in H1. destruct (HV _ _ _ _ _ _ _ _ Hsp H1) as [H1' Hst]. rewrite A3 in H4. rewrite A4 in H5.
  constructor; unfold view, cn; cbn [w_acts w_dead w_started w_ph w_req w_cs w_val w_in]; rewrite ?B1, ?B2, ?B3, ?B4, ?B5, ?B6, ?B7, ?B8; auto; tr1; try lia.
  - destruct val as [v|]; [|tauto]. destruct H2 as [E Hin]. split; [tauto|]. apply in_app_iff. auto.
  - intros v Hv. apply in_app_iff in Hv. destruct Hv as [Hv|Hv]; auto. destruct (Hes _ Hv) as (_ & _ & H & _). destruct (H v eq_refl).
  - intros v Hv. apply in_app_iff in Hv. destruct Hv as [Hv|Hv]; auto. destruct (Hes _ Hv) as (_ & _ & _ & H). auto.
  - rewrite H9, in_app_iff. split; auto. intros [H|H]; auto. destruct (Hes _ H) as (E & _). congruence.
  - rewrite H10, in_app_iff. split; auto. intros [H|H]; auto. destruct (Hes _ H) as (_ & E & _). congruence.
Qed.

Ltac wv := intros set pre call cb sub rst vs com Hsp [W1 W2 W3]; try match type of W1 with _ = b2n ?x => pose proof (b2n_le x) end; split; [constructor|]; cbn [f_set f_pre f_call f_cb f_sub f_rst f_vs f_com isnone notdone b2n] in *; try reflexivity; try lia.
Ltac phs ph W3 := destruct ph; decompose [and] W3; clear W3; repeat split; try lia; try assumption; try congruence; try reflexivity; try (exfalso; lia).
Lemma wi_alive s tr k a : WI s tr -> nth_error (w_acts s) k = Some a -> (forall c, a <> WCb c) -> a <> WEnd -> w_dead s = false.
Proof.
  intros HI Hk H1 H2. pose proof (wi_v _ _ HI) as [Hv1 Hv2 Hv3]. here Hk. unfold cn in *. destruct (w_dead s); auto. exfalso. cbn [b2n] in *.
  destruct a; try congruence; cbn [f_set f_pre f_call f_cb f_sub f_rst f_vs f_com] in *; destruct (w_ph s), (w_in s), (w_started s); cbn [isnone notdone b2n] in *; try lia; try (destruct Hv3 as (? & ? & ? & ?); discriminate).
Qed.

Lemma nop : forall (P : wevent -> Prop) e, In e [] -> P e.
Proof. intros P e []. Qed.

Lemma wi_act s tr k a : WI s tr -> nth_error (w_acts s) k = Some a -> wok tr (wact_step tok s k a).
Proof.
  intros HI Hk. unfold wact_step. destruct a as [| |c|c|c| | |c|]; try exact I; rewrite (wi_alive _ _ _ _ HI Hk) by congruence.
  all: pose proof (wi_alive _ _ _ _ HI Hk ltac:(congruence) ltac:(congruence)) as Hd; pose proof (wi_v _ _ HI) as [Hv1 Hv2 Hv3]; here Hk; unfold cn in *.
  all: destruct s as [dead started ph req cs val i acts]; cbn [w_acts w_dead w_started w_ph w_req w_cs w_val w_in f_set f_pre f_call f_cb f_sub f_rst f_vs f_com] in *; subst dead.
  - (* WSet *)
    assert (ph = OUnset) by (destruct ph; auto; lia). subst ph.
    assert (HS : (tok = true -> req = false) -> wok tr (Next (w_with_act (w_with_ph (WS false started OUnset req cs val i acts) OSet) k WGo) [])).
    { intros Hr. unfold wok, w_with_act, w_with_ph. cbn. eapply wi_move; eauto; try reflexivity; try apply nop.
      wv. destruct W3 as (-> & ? & ? & ?). cbn [isnone notdone b2n] in *. repeat split; auto; lia. }
    destruct (bool_dec tok true) as [Et|Et]; [|apply not_true_is_false in Et]; rewrite Et; [|apply HS; congruence]. destruct req; [|apply HS; auto].
    unfold wok, w_with_act, w_with_ph. cbn. eapply wi_move; eauto; try reflexivity; try apply nop.
    wv. destruct W3 as (-> & ? & ? & ?). cbn [isnone notdone b2n] in *. repeat split; auto; lia.
  - (* WGo *)
    assert (i = INone) by (destruct started, i; cbn [isnone b2n] in *; auto; lia). subst i.
    unfold wok, w_with_act, w_with_in. cbn. eapply wi_move; eauto; try reflexivity; try (split; discriminate).
    + wv. phs ph W3.
    + intros e [<-|[]]. repeat split; discriminate.
  - (* WCall *)
    unfold wok, w_with_act. cbn. eapply wi_move; eauto; try reflexivity; try tauto; try (cbn; lia).
    + destruct c; wv; phs ph W3.
    + intros e [<-|[]]. repeat split; discriminate.
  - (* WSub *)
    assert (ph = OTaken) by (destruct ph; decompose [and] Hv3; auto; lia). subst ph. decompose [and] Hv3. clear Hv3. unfold w_sub. cbn [w_cs w_dead w_started w_ph w_req w_val w_in w_acts]. destruct cs as [|n]; [lia|].
    unfold wok. eapply wi_move; eauto; try (destruct (n =? 0); [reflexivity|destruct c; reflexivity]); try tauto; try apply nop.
    destruct (Nat.eqb_spec n 0) as [->|Hn]; destruct c; cbn [wret]; wv; decompose [and] W3; repeat split; try lia; auto.
  - (* WReset *)
    assert (Hdone : notdone i = 0).
    { destruct ph; decompose [and] Hv3; subst; try lia; cbn [notdone]; auto. }
    assert (i = IDone) by (destruct i; auto; discriminate). subst i. cbn [notdone isnone] in *.
    assert (HS : ph = OSet -> wok tr (Next (w_with_act (w_with_ph (WS false started ph req cs val IDone acts) OGone) k (WCompl WRet)) [])).
    { intros ->. unfold wok, w_with_act, w_with_ph. cbn. eapply wi_move; eauto; try reflexivity; try apply nop. wv. decompose [and] W3. repeat split; lia. }
    destruct ph.
    + exfalso. decompose [and] Hv3. lia.
    + destruct (bool_dec tok true) as [Et|Et]; [|apply not_true_is_false in Et]; rewrite Et; [|apply HS; auto]. cbn [negb].
      decompose [and] Hv3. destruct req; [exfalso; assert (true = false) by auto; discriminate|]. apply HS. reflexivity.
    + decompose [and] Hv3. subst req. replace tok with true by auto. cbn [negb]. unfold wok, w_with_act. cbn. eapply wi_move; eauto; try reflexivity; try apply nop.
      wv. decompose [and] W3. repeat split; try lia; auto.
    + exfalso. decompose [and] Hv3. lia.
  - (* WVSub *)
    assert (ph = OTaken) by (destruct ph; decompose [and] Hv3; auto; lia). subst ph. decompose [and] Hv3. clear Hv3. unfold w_sub. cbn [w_cs w_dead w_started w_ph w_req w_val w_in w_acts]. destruct cs as [|n]; [lia|].
    unfold wok. eapply wi_move; eauto; try (destruct (n =? 0); reflexivity); try tauto; try apply nop.
    destruct (Nat.eqb_spec n 0) as [->|Hn]; cbn [wret]; wv; decompose [and] W3; repeat split; try lia; auto.
  - (* WCompl *)
    assert (i = IDone).
    { destruct ph; decompose [and] Hv3; auto; try lia. destruct i; auto; cbn [notdone] in *; lia. }
    subst i. pose proof (wi_val _ _ HI) as Hval. cbn [w_val w_in] in Hval. destruct val as [v|]; [|congruence].
    unfold wok, w_with_act. cbn. eapply wi_move; eauto; try reflexivity; try (destruct c; cbn; lia).
    + destruct c; cbn [wret]; wv; phs ph W3.
    + intros e [<-|[]]. repeat split; try discriminate. now intros w [= <-].
Qed.

Lemma cn_snoc (f : wact -> nat) acts a : sum (map f (acts ++ [a])) = sum (map f acts) + f a.
Proof. rewrite map_app, sum_app. simpl. lia. Qed.

Ltac unf := unfold view, cn in *; cbn [w_acts w_dead w_started w_ph w_req w_cs w_val w_in] in *.
Lemma wi_step s tr l : WI s tr -> wok tr (w_step s l).
Proof.
  intros HI. destruct l as [| |v|k|k]; cbn [M_WithCancel.w_step].
  - destruct s as [dead started ph req cs val i acts]. cbn [w_started w_dead w_ph w_req w_cs w_val w_in w_acts]. destruct started; [exact I|].
    destruct HI as [[W1 W2 W3] H2 H3 H4 H5 H6 H7 H8 H9 H10]. unf. cbn [b2n] in *.
    assert (i = INone) by (destruct i; auto; cbn [isnone] in *; lia). subst i. cbn [isnone notdone] in *.
    assert (ph = OUnset) by (destruct ph; auto; decompose [and] W3; discriminate). subst ph.
    constructor; unf; rewrite ?cn_snoc; tr1; cbn [f_set f_pre f_call f_cb f_sub f_rst f_vs f_com]; cbn [istaken] in *; try (cbn; lia); auto.
    + constructor; cbn [b2n isnone notdone]; try lia. decompose [and] W3. repeat split; auto; lia.
    + destruct val; [destruct H2; discriminate|auto].
    + intros v Hv. apply In_snoc in Hv. destruct Hv as [Hv|Hv]; [auto|discriminate].
    + intros v Hv. apply In_snoc in Hv. destruct Hv as [Hv|Hv]; [auto|discriminate].
    + rewrite In_snoc, H9. intuition discriminate.
    + rewrite In_snoc. tauto.
  - destruct s as [dead started ph req cs val i acts]. cbn [w_started w_dead w_ph w_req w_cs w_val w_in w_acts]. cbn zeta.
    destruct HI as [[W1 W2 W3] H2 H3 H4 H5 H6 H7 H8 H9 H10]. unf.
    assert (HN : (tok = true -> ph <> OSet) -> WI (WS dead started ph true cs val i acts) (tr ++ [WECancel])).
    { intros Hn. constructor; unf; tr1; cbn [f_set f_pre f_call f_cb f_sub f_rst f_vs f_com]; try (cbn; lia); auto.
      + constructor; auto. destruct ph; auto; decompose [and] W3; repeat split; auto. intros Ht. destruct (Hn Ht); auto.
      + destruct val; auto. rewrite In_snoc. tauto.
      + intros v Hv. apply In_snoc in Hv. destruct Hv as [Hv|Hv]; [auto|discriminate].
      + intros v Hv. apply In_snoc in Hv. destruct Hv as [Hv|Hv]; [auto|discriminate].
      + rewrite In_snoc. tauto.
      + rewrite In_snoc, H10. intuition discriminate. }
    destruct (bool_dec tok true) as [Et|Et]; [|apply not_true_is_false in Et]; rewrite Et; cbn [andb]; [|rewrite andb_false_r; apply HN; congruence].
    destruct ph; try (rewrite andb_false_r; apply HN; congruence). decompose [and] W3. assert (dead = false) by (destruct dead; auto; cbn [b2n] in *; lia). subst dead. cbn [andb wok].
    constructor; unf; rewrite ?cn_snoc; tr1; cbn [f_set f_pre f_call f_cb f_sub f_rst f_vs f_com istaken] in *; try (cbn; lia); auto.
    + constructor; try lia. cbn [b2n] in *. destruct i; cbn [notdone] in *; repeat split; auto; lia.
    + destruct val; auto. rewrite In_snoc. tauto.
    + intros v Hv. apply In_snoc in Hv. destruct Hv as [Hv|Hv]; [auto|discriminate].
    + intros v Hv. apply In_snoc in Hv. destruct Hv as [Hv|Hv]; [auto|discriminate].
    + rewrite In_snoc. tauto.
    + rewrite In_snoc, H10. intuition discriminate.
  - destruct s as [dead started ph req cs val i acts]. cbn [w_started w_dead w_ph w_req w_cs w_val w_in w_acts]. destruct i; try exact I.
    destruct HI as [[W1 W2 W3] H2 H3 H4 H5 H6 H7 H8 H9 H10]. unf. cbn [isnone notdone] in *.
    assert (dead = false) by (destruct dead; auto; exfalso; cbn [b2n] in *; destruct ph; decompose [and] W3; try discriminate; lia). subst dead. cbn [wok].
    assert (val = None) by (destruct val; auto; destruct H2; discriminate). subst val.
    constructor; unf; rewrite ?cn_snoc; tr1; cbn [f_set f_pre f_call f_cb f_sub f_rst f_vs f_com isnone]; cbn [b2n] in *; try (cbn; lia); auto.
    + constructor; cbn [isnone notdone b2n] in *; try lia. destruct ph; decompose [and] W3; try discriminate; repeat split; auto; lia.
    + split; auto. rewrite In_snoc. auto.
    + intros w Hv. apply In_snoc in Hv. destruct Hv as [Hv|Hv]; [apply H3 in Hv; discriminate|congruence].
    + intros w Hv. apply In_snoc in Hv. destruct Hv as [Hv|Hv]; [apply H8 in Hv; discriminate|discriminate].
    + rewrite In_snoc, H9. intuition discriminate.
    + rewrite In_snoc, H10. intuition discriminate.
  - destruct (nth_error (w_acts s) k) as [a|] eqn:Hk; [|exact I]. destruct a as [| |c|c|c| | |c|]; try exact I.
    destruct s as [dead started ph req cs val i acts]. cbn [w_acts] in Hk. unfold wok, w_with_act. cbn [w_acts w_dead w_started w_ph w_req w_cs w_val w_in]. eapply wi_move; eauto; try (cbn; lia); try tauto.
    + destruct c; wv; phs ph W3.
    + intros e [<-|[]]. repeat split; discriminate.
  - destruct (nth_error (w_acts s) k) as [a|] eqn:Hk; [|exact I]. now apply wi_act.
Qed.

Lemma wi_run ls s tr : wrun ls = Running s tr -> WI s tr.
Proof.
  apply (run_inv w_step WI); [apply wi_init|]. intros s0 tr0 l s' es HI Hs. pose proof (wi_step _ _ l HI) as H. rewrite Hs in H. exact H.
Qed.

(** ** The properties *)
Lemma w_safe ls f tr : wrun ls <> Failed f tr.
Proof.
  apply (run_safe w_step WI); [apply wi_init| |].
  - intros s0 tr0 l s' es HI Hs. pose proof (wi_step _ _ l HI) as H. rewrite Hs in H. exact H.
  - intros s0 tr0 l f0 es HI Hs. pose proof (wi_step _ _ l HI) as H. rewrite Hs in H. exact H.
Qed.
Lemma w_once ls s tr : wrun ls = Running s tr -> w_dones tr <= 1 /\ w_cbs tr <= 1 /\ w_starts tr <= 1.
Proof.
  intros H. pose proof (wi_run _ _ _ H) as HI. pose proof (wi_dones _ _ HI). pose proof (wi_cbs _ _ HI). pose proof (wi_starts _ _ HI). pose proof (b2n_le (w_dead s)).
  destruct (w_ph s); cbn [istaken] in *; lia.
Qed.

(** after the notification nothing happens any more, except for further calls of cancel() *)
Lemma dead_counts s tr : WI s tr -> w_dead s = true ->
  w_started s = true /\ w_in s = IDone /\ w_ph s <> OSet /\ w_ph s <> OUnset /\ cn f_cb s = 0 /\ cn f_call s = 0.
Proof.
  intros HI Hd. pose proof (wi_v _ _ HI) as [W1 W2 W3]. rewrite Hd in *. cbn [b2n] in *.
  assert (b2n (w_started s) = 1 -> w_started s = true) by (destruct (w_started s); auto; discriminate).
  destruct (w_ph s); decompose [and] W3; repeat split; auto; try congruence; try lia. destruct (w_in s); auto; cbn [notdone] in *; lia.
Qed.
Lemma dead_step s tr l s' es : WI s tr -> w_dead s = true -> w_step s l = Next s' es -> es = [WECancel] /\ w_dead s' = true.
Proof.
  intros HI Hd Hs. destruct (dead_counts _ _ HI Hd) as (H1 & H2 & H3 & H4 & H5 & H6). destruct l as [| |v|k|k]; cbn [M_WithCancel.w_step] in Hs.
  - rewrite H1 in Hs. discriminate.
  - cbn zeta in Hs. replace (match w_ph s with OSet => true | _ => false end) with false in Hs by (destruct (w_ph s); congruence). rewrite !andb_false_r in Hs. injection Hs as <- <-. auto.
  - rewrite H2 in Hs. discriminate.
  - destruct (nth_error (w_acts s) k) as [a|] eqn:Hk; [|discriminate]. destruct a; try discriminate. pose proof (sum_map_le f_cb _ _ (nth_error_In _ _ Hk)). unfold cn in *. cbn [f_cb] in *. lia.
  - destruct (nth_error (w_acts s) k) as [a|] eqn:Hk; [|discriminate]. unfold wact_step in Hs. rewrite Hd in Hs. destruct a; discriminate.
Qed.
Lemma dead_run ls : forall s tr s' tr', WI s tr -> w_dead s = true -> run_from w_step s tr ls = Running s' tr' -> exists es, tr' = tr ++ es /\ forall e, In e es -> e = WECancel.
Proof.
  induction ls as [|l ls IH]; intros s tr s' tr' HI Hd Hr; simpl in Hr.
  - injection Hr as <- <-. exists []. rewrite app_nil_r. split; auto. intros e [].
  - destruct (w_step s l) as [s1 es| |] eqn:Hs; try discriminate. destruct (dead_step _ _ _ _ _ HI Hd Hs) as [-> Hd1]. pose proof (wi_step _ _ l HI) as Hok. rewrite Hs in Hok.
    destruct (IH _ _ _ _ Hok Hd1 Hr) as (es & -> & He). exists (WECancel :: es). rewrite <- app_assoc. split; auto. intros e [<-|H]; auto.
Qed.

Lemma w_final ls s t1 v t2 : wrun ls = Running s (t1 ++ WEDone v :: t2) ->
  In (WEInner v) t1 /\ w_cbs t1 = w_cbrets t1 /\ forall e, In e t2 -> e = WECancel.
Proof.
  intros Hrun. destruct (run_split_event w_step _ _ _ _ _ _ Hrun) as (ls1 & l & ls2 & s1 & s2 & tr1 & e1 & e2 & -> & Hr1 & Hst & -> & Hr2).
  pose proof (wi_run _ _ _ Hr1) as HI. pose proof (wi_step _ _ l HI) as Hok. rewrite Hst in Hok. cbn [wok] in Hok.
  assert (Hd : w_dead s2 = true). { pose proof (wi_dones _ _ Hok) as H. rewrite !w_dones_app in H. unfold w_dones at 3 in H. simpl in H. destruct (w_dead s2); auto. cbn [b2n] in H. lia. }
  destruct (dead_run _ _ _ _ _ Hok Hd Hr2) as (es & E & He). rewrite <- !app_assoc in E. apply app_inv_head, app_inv_head in E. injection E as E.
  pose proof (wi_done _ _ Hok v) as Hv. specialize (Hv ltac:(rewrite !in_app_iff; right; right; now left)).
  pose proof (wi_val _ _ Hok) as Hv2. rewrite Hv in Hv2. destruct Hv2 as [_ Hv2].
  pose proof (wi_rets _ _ Hok) as Hrets. destruct (dead_counts _ _ Hok Hd) as (_ & _ & _ & _ & Hcb & _). rewrite Hcb in Hrets.
  assert (Hes : e1 = [] /\ e2 = []).
  { destruct l as [| |w|k|k]; cbn [M_WithCancel.w_step] in Hst.
    - destruct (w_started s1); try discriminate. injection Hst as _ X. destruct e1 as [|? [|]]; discriminate.
    - cbn zeta in Hst. destruct (w_dead s1 && _); try discriminate. injection Hst as _ X. destruct e1 as [|? [|]]; discriminate.
    - destruct (w_in s1), (w_dead s1); try discriminate. injection Hst as _ X. destruct e1 as [|? [|]]; discriminate.
    - destruct (nth_error (w_acts s1) k) as [[]|]; try discriminate. injection Hst as _ X. destruct e1 as [|? [|]]; discriminate.
    - destruct (nth_error (w_acts s1) k) as [a|]; try discriminate. unfold wact_step in Hst. destruct a as [| |c|c|c| | |c|]; try discriminate; destruct (w_dead s1); try discriminate.
      + destruct tok; [destruct (w_ph s1); try discriminate; destruct (w_req s1)|]; injection Hst as _ X; destruct e1 as [|? [|]]; discriminate.
      + injection Hst as _ X. destruct e1 as [|? [|]]; discriminate.
      + injection Hst as _ X. destruct e1 as [|? [|]]; discriminate.
      + unfold w_sub in Hst. destruct (w_cs s1); try discriminate. injection Hst as _ X. destruct e1 as [|? [|]]; discriminate.
      + destruct (w_ph s1), (negb tok), (w_req s1); try discriminate; injection Hst as _ X; destruct e1 as [|? [|]]; discriminate.
      + unfold w_sub in Hst. destruct (w_cs s1); try discriminate. injection Hst as _ X. destruct e1 as [|? [|]]; discriminate.
      + destruct (w_val s1); try discriminate. injection Hst as _ X. destruct e1 as [|? [|]]; try discriminate. injection X as _ <-. auto. }
  destruct Hes as [-> ->]. simpl app in *. rewrite app_nil_r. repeat split.
  - apply In_snoc in Hv2. destruct Hv2 as [H|H]; [exact H|discriminate].
  - rewrite w_cbs_app, w_cbrets_app in Hrets. unfold w_cbs at 2 in Hrets. unfold w_cbrets at 2 in Hrets. simpl in Hrets. lia.
  - subst t2. exact He.
Qed.

Lemma w_cause ls s t1 t2 : wrun ls = Running s (t1 ++ WECb :: t2) -> tok = true /\ In WECancel t1.
Proof.
  intros Hrun. destruct (run_split_event w_step _ _ _ _ _ _ Hrun) as (ls1 & l & ls2 & s1 & s2 & tr1 & e1 & e2 & -> & Hr1 & Hst & -> & Hr2).
  pose proof (wi_run _ _ _ Hr1) as HI. pose proof (wi_cbs _ _ HI) as H. pose proof (wi_v _ _ HI) as [W1 W2 W3].
  enough (X : cn f_call s1 > 0).
  { destruct (w_ph s1); cbn [istaken] in H; try lia. decompose [and] W3. split; auto. apply in_app_iff. left. now apply (wi_req _ _ HI). }
  destruct l as [| |w|k|k]; cbn [M_WithCancel.w_step] in Hst.
  - destruct (w_started s1); try discriminate. injection Hst as _ X. destruct e1 as [|? [|]]; discriminate.
  - cbn zeta in Hst. destruct (w_dead s1 && _); try discriminate. injection Hst as _ X. destruct e1 as [|? [|]]; discriminate.
  - destruct (w_in s1), (w_dead s1); try discriminate. injection Hst as _ X. destruct e1 as [|? [|]]; discriminate.
  - destruct (nth_error (w_acts s1) k) as [[]|]; try discriminate. injection Hst as _ X. destruct e1 as [|? [|]]; discriminate.
  - destruct (nth_error (w_acts s1) k) as [a|] eqn:Hk; try discriminate. unfold wact_step in Hst. destruct a as [| |c|c|c| | |c|]; try discriminate; destruct (w_dead s1); try discriminate.
    + destruct tok; [destruct (w_ph s1); try discriminate; destruct (w_req s1)|]; injection Hst as _ X; destruct e1 as [|? [|]]; discriminate.
    + injection Hst as _ X. destruct e1 as [|? [|]]; discriminate.
    + pose proof (sum_map_le f_call _ _ (nth_error_In _ _ Hk)) as L. unfold cn. cbn [f_call] in L. lia.
    + unfold w_sub in Hst. destruct (w_cs s1); try discriminate. injection Hst as _ X. destruct e1 as [|? [|]]; discriminate.
    + destruct (w_ph s1), (negb tok), (w_req s1); try discriminate; injection Hst as _ X; destruct e1 as [|? [|]]; discriminate.
    + unfold w_sub in Hst. destruct (w_cs s1); try discriminate. injection Hst as _ X. destruct e1 as [|? [|]]; discriminate.
    + destruct (w_val s1); try discriminate. injection Hst as _ X. destruct e1 as [|? [|]]; discriminate.
Qed.

Lemma quiet_0 s f : w_quiet s -> f WEnd = 0 -> cn f s = 0.
Proof. intros Hq Hf. apply sum_map_0. intros a Ha. now rewrite (Hq a Ha). Qed.

Lemma In_inner_start tr : w_starts tr = 1 -> In WEInnerStart tr.
Proof. intros H. induction tr as [|x tr IH]; [discriminate|]. destruct x; try (right; apply IH; exact H). now left. Qed.
Lemma w_complete ls s tr : wrun ls = Running s tr -> w_quiet s ->
  (In WEStart tr -> In WEInnerStart tr) /\ forall v, In (WEInner v) tr -> In (WEDone v) tr.
Proof.
  intros Hrun Hq. pose proof (wi_run _ _ _ Hrun) as HI. pose proof (wi_v _ _ HI) as [W1 W2 W3]. rewrite !(quiet_0 s _ Hq eq_refl) in *. split.
  - intros Hs. apply (wi_start _ _ HI) in Hs. rewrite Hs in *. cbn [b2n] in W1. pose proof (wi_starts _ _ HI) as H. apply In_inner_start. destruct (w_in s); cbn [isnone] in *; lia.
  - intros v Hv. pose proof (wi_inner _ _ HI v Hv) as Ev. pose proof (wi_val _ _ HI) as H. rewrite Ev in H. destruct H as [Ei _]. rewrite Ei in *. cbn [isnone notdone] in *.
    assert (Hd : b2n (w_dead s) = 1).
    { destruct (w_ph s); decompose [and] W3; try discriminate; lia. }
    pose proof (wi_dones _ _ HI) as Hn. rewrite Hd in Hn.
    assert (Hex : exists w, In (WEDone w) tr). { clear - Hn. induction tr as [|x tr IH]; [discriminate|]. destruct x; try (destruct (IH Hn) as [w Hw]; exists w; now right). exists v. now left. }
    destruct Hex as [w Hw]. pose proof (wi_done _ _ HI w Hw). replace v with w by congruence. exact Hw.
Qed.

Lemma w_called ls s tr : wrun ls = Running s tr -> w_quiet s -> tok = true -> In WECancel tr -> In WEStart tr -> (forall v, ~ In (WEInner v) tr) -> w_cbs tr = 1.
Proof.
  intros Hrun Hq Ht Hc Hs Hn. pose proof (wi_run _ _ _ Hrun) as HI. pose proof (wi_v _ _ HI) as [W1 W2 W3]. pose proof (wi_cbs _ _ HI) as Hcb. rewrite !(quiet_0 s _ Hq eq_refl) in *.
  apply (wi_req _ _ HI) in Hc. apply (wi_start _ _ HI) in Hs. rewrite Hs in *. pose proof (wi_val _ _ HI) as Hv. cbn [b2n] in *.
  assert (w_in s <> IDone) by (destruct (w_val s) as [v|]; auto; destruct Hv as [_ Hv]; destruct (Hn _ Hv)).
  destruct (w_ph s); cbn [istaken] in *; decompose [and] W3; try lia.
  - rewrite H0 in W1. cbn [isnone] in W1. lia.
  - assert (w_req s = false) by auto. congruence.
  - congruence.
Qed.

Lemma w_progress s : (forall l, w_internal l -> w_step s l = Disabled) -> w_quiet s.
Proof.
  intros H a Ha. apply In_nth_error in Ha. destruct Ha as [k Hk]. pose proof (H (WLStep k) I) as H1. pose proof (H (WLCbRet k) I) as H2. cbn [M_WithCancel.w_step] in H1, H2. rewrite Hk in H1, H2.
  destruct a as [| |c|c|c| | |c|]; auto; exfalso; try discriminate; unfold wact_step in H1; destruct (w_dead s); try discriminate.
  - destruct tok; try discriminate. destruct (w_ph s); try discriminate. destruct (w_req s); discriminate.
  - unfold w_sub in H1. destruct (w_cs s); discriminate.
  - destruct (w_ph s), (negb tok), (w_req s); discriminate.
  - unfold w_sub in H1. destruct (w_cs s); discriminate.
  - destruct (w_val s); discriminate.
Qed.

Definition wwk (k : wcont) : nat := match k with WStart => 1 | WRet => 0 end.
Definition wwt (a : wact) : nat :=
  match a with WSet => 6 | WGo => 1 | WCall k => 4 + wwk k | WCb k => 3 + wwk k | WSub k => 2 + wwk k | WReset => 3 | WVSub => 2 | WCompl k => 1 + wwk k | WEnd => 0 end.
Lemma wwt_ret k : wwt (wret k) = wwk k.
Proof. destruct k; reflexivity. Qed.
Lemma w_decr s l s' es : w_internal l -> w_step s l = Next s' es -> cn wwt s' < cn wwt s.
Proof.
  intros Hl Hs. unfold cn. destruct l as [| |v|k|k]; try contradiction; cbn [M_WithCancel.w_step] in Hs; destruct (nth_error (w_acts s) k) as [a|] eqn:Hk; try discriminate.
  - destruct a; try discriminate. injection Hs as <- _. simpl. pose proof (sum_map_set_nth wwt _ _ (WSub k0) _ Hk) as E. cbn [wwt] in E. lia.
  - assert (K : forall a', wwt a' < wwt a -> sum (map wwt (set_nth (w_acts s) k a')) < sum (map wwt (w_acts s))) by (intros a' Hlt; pose proof (sum_map_set_nth wwt _ _ a' _ Hk); lia).
    unfold wact_step in Hs. destruct a as [| |c|c|c| | |c|]; try discriminate; destruct (w_dead s); try discriminate.
    + destruct tok; [destruct (w_ph s); try discriminate; destruct (w_req s)|]; injection Hs as <- _; apply K; simpl; lia.
    + injection Hs as <- _; apply K; simpl; lia.
    + injection Hs as <- _; apply K; simpl; lia.
    + unfold w_sub in Hs. destruct (w_cs s) as [|n]; try discriminate. injection Hs as <- _. apply K. destruct (n =? 0); rewrite ?wwt_ret; simpl; lia.
    + destruct (w_ph s), (negb tok), (w_req s); try discriminate; injection Hs as <- _; apply K; simpl; lia.
    + unfold w_sub in Hs. destruct (w_cs s) as [|n]; try discriminate. injection Hs as <- _. apply K. destruct (n =? 0); simpl; lia.
    + destruct (w_val s); try discriminate. injection Hs as <- _. apply K. rewrite wwt_ret. simpl. lia.
Qed.
Lemma w_finishes s : exists n, forall ls tr s' tr', Forall w_internal ls -> run_from w_step s tr ls = Running s' tr' -> length ls <= n.
Proof.
  exists (cn wwt s). intros ls. revert s. induction ls as [|l ls IH]; intros s tr s' tr' Hf Hr; simpl; [lia|].
  inversion Hf as [|? ? Hl Hf']; subst. simpl in Hr. destruct (w_step s l) as [s1 es| |] eqn:Hs; try discriminate. pose proof (w_decr _ _ _ _ Hl Hs). specialize (IH _ _ _ _ Hf' Hr). lia.
Qed.
End Tok.
