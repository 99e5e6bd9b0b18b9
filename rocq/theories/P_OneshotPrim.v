(** Invariant and properties of oneshot_primitive. *)
From Coq Require Import List Arith Bool Lia.
From Verif Require Import Lts ListFacts M_Mutex M_OneshotPrim S_OneshotPrim P_Mutex.
Import ListNotations.

Notation drun := (run d_step d_init).

(** ** Facts about the vocabulary *)
Lemma d_started_app a b : d_started (a ++ b) = d_started a ++ d_started b.
Proof. apply flat_map_app. Qed.
Lemma d_done_app a b : d_done (a ++ b) = d_done a ++ d_done b.
Proof. apply flat_map_app. Qed.
Lemma d_raises_app a b : d_raises (a ++ b) = d_raises a + d_raises b.
Proof. unfold d_raises. now rewrite filter_app, app_length. Qed.
Lemma d_rule_prefix tr es : d_rule (tr ++ es) -> d_rule tr.
Proof.
  intros [H1 H2]. split; [rewrite d_raises_app in H1; lia|]. intros t1 t2 ->. rewrite <- app_assoc in H2. simpl in H2. destruct (H2 _ _ eq_refl) as (A & B & C).
  split; [exact A|]. split; [exact B|]. intros e He. apply C, in_app_iff. auto.
Qed.
Lemma dval_eqb_eq a b : dval_eqb a b = true <-> a = b.
Proof.
  destruct a as [[x|]|], b as [[y|]|]; simpl; split; intros H; try discriminate; auto; [apply Nat.eqb_eq in H; now subst|]. injection H as ->. apply Nat.eqb_refl.
Qed.
Lemma dval_eqb_refl a : dval_eqb a a = true.
Proof. now apply dval_eqb_eq. Qed.

(** ** The invariant *)
(** the list that starts at [p] is [l] *)
Fixpoint chain (nx : nat -> option nat) (p : option nat) (l : list nat) : Prop :=
  match l with [] => p = None | o :: l' => p = Some o /\ chain nx (nx o) l' end.
Lemma chain_upd nx o q l p : ~ In o l -> chain nx p l -> chain (upd nx o q) p l.
Proof.
  revert p. induction l as [|x l IH]; intros p Hn H; [exact H|]. simpl in *. destruct H as [-> H]. split; auto. rewrite upd_other by intuition. apply IH; tauto.
Qed.
Lemma chain_none nx l : chain nx None l -> l = [].
Proof. destruct l; auto. intros [H _]. discriminate. Qed.
Lemma chain_some nx o l : chain nx (Some o) l -> exists l', l = o :: l' /\ chain nx (nx o) l'.
Proof. destruct l as [|x l]; simpl; [discriminate|]. intros [[= ->] H]. eauto. Qed.

Definition fired (s : dst) : nat := match d_st s with DFired => 1 | _ => 0 end.
Definition rr (a : dact) : nat := match a with DRead _ | DCompl _ _ => 1 | _ => 0 end.
Definition xr (a : dact) : nat := match a with DRaise => 1 | _ => 0 end.
Definition acc (a : dact) : nat := match a with DRaise | DLoad _ | DLoop _ _ => 1 | _ => 0 end.
Definition dops (a : dact) : list nat := match a with DLoad o | DLoop o _ => [o] | _ => [] end.
Definition lrest (nx : nat -> option nat) (lr : list nat) (a : dact) : Prop :=
  match a with DRead p => chain nx p lr | DCompl o p => exists l', lr = o :: l' /\ chain nx p l' | _ => True end.

(** [l]: the nodes that are linked; [lr]: the nodes that raise() has still to complete *)
Record DI (s : dst) (tr : list devent) (l lr : list nat) : Prop := {
  di_start : forall o, In o (d_started tr) <-> d_op s o <> OIdle;
  di_done : NoDup (d_done tr) /\ forall o, In o (d_done tr) <-> d_op s o = ODone;
  di_l : match d_st s with DPtr p => chain (d_next s) p l | DFired => l = [] end;
  di_lr : forall a, In a (d_act s) -> lrest (d_next s) lr a;
  di_rr : lr <> [] -> sum (map rr (d_act s)) = 1;
  di_r1 : sum (map rr (d_act s)) <= fired s;
  di_raise : d_raises tr = sum (map xr (d_act s)) + fired s;
  di_place : forall o, cnt o l + cnt o lr + cnt o (flat_map dops (d_act s)) = match d_op s o with OStarted => 1 | _ => 0 end;
  di_loop : forall o, In (DLoop o DFired) (d_act s) -> d_st s = DFired;
  di_fired : d_done tr <> [] -> d_st s = DFired;
  di_dead : d_dead s = true -> In VDestroy tr /\ sum (map acc (d_act s)) = 0
}.

Lemma di_init : DI d_init [] [] [].
Proof. constructor; simpl; try tauto; try lia; try (intros; congruence); try (split; [constructor|]; intros; split; intros H; [destruct H|discriminate]); try (intros; split; [intros []|congruence]). Qed.

Section Step.
Variables (s : dst) (tr : list devent) (l lr : list nat).
Hypothesis HI : DI s tr l lr.

Lemma di_here a o : In a (d_act s) -> In o (dops a) -> d_op s o = OStarted /\ ~ In o l /\ ~ In o lr /\ cnt o (flat_map dops (d_act s)) = 1.
Proof.
  intros Ha Ho. pose proof (di_place _ _ _ _ HI o) as H. pose proof (cnt_flat_in dops o _ _ Ha). apply cnt_pos in Ho. destruct (d_op s o); try lia.
  repeat split; auto; try (apply cnt_zero; lia). lia.
Qed.
Lemma di_linked o : In o l \/ In o lr -> d_op s o = OStarted.
Proof. intros H. pose proof (di_place _ _ _ _ HI o) as Hp. destruct H as [H|H]; apply cnt_pos in H; destruct (d_op s o); auto; lia. Qed.
Lemma di_not_dead k a : nth_error (d_act s) k = Some a -> acc a = 1 -> d_dead s = false.
Proof. intros Hk Ha. destruct (d_dead s) eqn:E; auto. destruct (di_dead _ _ _ _ HI E) as [_ H]. pose proof (sum_map_le acc _ _ (nth_error_In _ _ Hk)). lia. Qed.
Lemma di_rr_in a : In a (d_act s) -> rr a = 1 -> sum (map rr (d_act s)) = 1 /\ d_st s = DFired.
Proof.
  intros Ha Hr. pose proof (sum_map_le rr _ _ Ha). pose proof (di_r1 _ _ _ _ HI). unfold fired in *. destruct (d_st s); split; auto; lia.
Qed.
(** no started operation is left *)
Lemma di_all_done o : incl (d_started tr) (d_done tr) -> d_op s o <> OStarted.
Proof. intros H E. assert (Ho : In o (d_started tr)) by (apply (di_start _ _ _ _ HI); congruence). apply H in Ho. apply (proj2 (di_done _ _ _ _ HI)) in Ho. congruence. Qed.

Lemma di_quiet_dead e : d_dead s = true -> d_rule (tr ++ [e]) -> exists o, e = VDone o.
Proof.
  intros Hd [_ H]. destruct (di_dead _ _ _ _ HI Hd) as [Hi _]. apply in_split in Hi. destruct Hi as (t1 & t2 & ->). rewrite <- app_assoc in H. simpl in H.
  destruct (H _ _ eq_refl) as (_ & _ & H'). apply H', in_app_iff. right. now left.
Qed.

Lemma alive_started o : d_op s o = OStarted -> alive (d_op s) o = true.
Proof. unfold alive. now intros ->. Qed.

Definition dok (r : outcome dst devent) : Prop :=
  match r with
  | Next s' es => d_rule (tr ++ es) -> exists l' lr', DI s' (tr ++ es) l' lr'
  | Disabled => True
  | Fail _ es => ~ d_rule (tr ++ es)
  end.

(** notification of [o] by call [k], which goes on with [a'] *)
Lemma dok_notify k a o a' lr' : nth_error (d_act s) k = Some a -> d_op s o = OStarted -> d_st s = DFired ->
  (forall x, cnt x lr' + cnt x (dops a') + (if Nat.eq_dec o x then 1 else 0) = cnt x lr + cnt x (dops a)) ->
  lrest (d_next s) lr' a' -> (lr' <> [] -> lr <> []) -> rr a' = rr a -> xr a' = xr a -> acc a' <= acc a -> (forall x, a' <> DLoop x DFired) ->
  (forall j b, j <> k -> nth_error (d_act s) j = Some b -> lrest (d_next s) lr' b) ->
  dok (d_notify s k o a').
Proof.
  intros Hk Ho Hst Hp Hl Hr Hrr Hxr Hacc Hnl Hoth. unfold d_notify. rewrite (alive_started o Ho). simpl. intros _. exists l, lr'.
  pose proof (sum_map_set_nth rr _ k a' a Hk) as Srr. pose proof (sum_map_set_nth xr _ k a' a Hk) as Sxr. pose proof (sum_map_set_nth acc _ k a' a Hk) as Sacc.
  assert (Hnd : ~ In o (d_done tr)) by (intros H; apply (proj2 (di_done _ _ _ _ HI)) in H; congruence).
  constructor; unfold d_with_act, d_with_op, fired; cbn [d_st d_next d_op d_dead d_act].
  - intros x. rewrite d_started_app. simpl. rewrite app_nil_r, (di_start _ _ _ _ HI). unfold upd. destruct (Nat.eqb_spec x o) as [->|]; [|tauto]. rewrite Ho. split; congruence.
  - rewrite d_done_app. simpl. split; [apply NoDup_snoc; [apply HI|auto]|]. intros x. rewrite In_snoc, (proj2 (di_done _ _ _ _ HI)). unfold upd. destruct (Nat.eqb_spec x o) as [->|]; [tauto|].
    split; [intros [H|H]; congruence|auto].
  - apply (di_l _ _ _ _ HI).
  - intros b Hb. apply In_nth_error in Hb. destruct Hb as [j Hj]. destruct (Nat.eq_dec j k) as [->|Hne].
    + rewrite (nth_error_set_nth_same _ _ _ _ Hk) in Hj. injection Hj as <-. exact Hl.
    + rewrite nth_error_set_nth_other in Hj by auto. exact (Hoth _ _ Hne Hj).
  - intros H. pose proof (di_rr _ _ _ _ HI (Hr H)). lia.
  - pose proof (di_r1 _ _ _ _ HI). unfold fired in *. lia.
  - rewrite d_raises_app. simpl. rewrite (di_raise _ _ _ _ HI). unfold d_raises, fired. simpl. lia.
  - intros x. pose proof (di_place _ _ _ _ HI x) as H. pose proof (cnt_flat_set dops x _ k a' a Hk) as Hf. specialize (Hp x). unfold upd. destruct (Nat.eqb_spec x o) as [->|Hne].
    + rewrite Ho in H. destruct (Nat.eq_dec o o); [lia|congruence].
    + destruct (Nat.eq_dec o x); [congruence|]. lia.
  - intros x Hx. apply In_set_nth in Hx. destruct Hx as [E|E]; [destruct (Hnl x); auto|]. now apply (di_loop _ _ _ _ HI x).
  - auto.
  - intros Hd. destruct (di_dead _ _ _ _ HI Hd) as [H1 H2]. split; [apply in_app_iff; auto|lia].
Qed.

(** a move of call [k] from [a] to [a'] without effect on the rest *)
Lemma di_move k a a' : nth_error (d_act s) k = Some a -> rr a' = rr a -> xr a' = xr a -> acc a' <= acc a -> dops a' = dops a ->
  lrest (d_next s) lr a' -> (forall x, a' = DLoop x DFired -> d_st s = DFired) -> DI (d_with_act s k a') tr l lr.
Proof.
  intros Hk Hrr Hxr Hacc Hops Hl Hloop.
  pose proof (sum_map_set_nth rr _ k a' a Hk) as Srr. pose proof (sum_map_set_nth xr _ k a' a Hk) as Sxr. pose proof (sum_map_set_nth acc _ k a' a Hk) as Sacc.
  constructor; unfold d_with_act, fired; cbn [d_st d_next d_op d_dead d_act]; try apply HI.
  - intros b Hb. apply In_set_nth in Hb. destruct Hb as [->|Hb]; [exact Hl|]. now apply (di_lr _ _ _ _ HI).
  - intros H. pose proof (di_rr _ _ _ _ HI H). lia.
  - pose proof (di_r1 _ _ _ _ HI). unfold fired in *. lia.
  - rewrite (di_raise _ _ _ _ HI). unfold fired. lia.
  - intros x. rewrite (flat_map_set_same dops _ k a' a Hk Hops). apply (di_place _ _ _ _ HI).
  - intros x Hx. apply In_set_nth in Hx. destruct Hx as [E|E]; [eauto|]. now apply (di_loop _ _ _ _ HI x).
  - intros Hd. destruct (di_dead _ _ _ _ HI Hd) as [H1 H2]. split; [auto|lia].
Qed.
Lemma dok_move k a a' : nth_error (d_act s) k = Some a -> rr a' = rr a -> xr a' = xr a -> acc a' <= acc a -> dops a' = dops a ->
  lrest (d_next s) lr a' -> (forall x, a' = DLoop x DFired -> d_st s = DFired) -> dok (Next (d_with_act s k a') []).
Proof. intros. simpl. intros _. rewrite app_nil_r. exists l, lr. eapply di_move; eauto. Qed.

Lemma di_next_upd o p a : In a (d_act s) -> In o (dops a) -> DI (d_with_next s o p) tr l lr.
Proof.
  intros Ha Ho. destruct (di_here _ _ Ha Ho) as (Hs & H1 & H2 & H3). constructor; unfold d_with_next, fired; cbn [d_st d_next d_op d_dead d_act]; try apply HI.
  - pose proof (di_l _ _ _ _ HI) as H. destruct (d_st s); auto. now apply chain_upd.
  - intros b Hb. pose proof (di_lr _ _ _ _ HI b Hb) as H. destruct b as [| | |q|x q|]; simpl in *; auto; [now apply chain_upd|].
    destruct H as (l' & -> & H). exists l'. split; auto. apply chain_upd; auto. simpl in H2. tauto.
Qed.
End Step.

Lemma di_step s tr l lr lb : DI s tr l lr -> dok tr (d_step s lb).
Proof.
  intros HI. destruct lb as [o| | |k spur]; simpl.
  - destruct (d_op s o) eqn:Ho; simpl; auto. intros Hc. exists l, lr. assert (Hns : ~ In o (d_started tr)) by (rewrite (di_start _ _ _ _ HI); congruence).
    constructor; unfold fired; cbn [d_st d_next d_op d_dead d_act].
    + intros x. rewrite d_started_app, in_app_iff, (di_start _ _ _ _ HI). simpl. unfold upd. destruct (Nat.eqb_spec x o) as [->|]; split; try (intuition congruence).
    + rewrite d_done_app. simpl. rewrite app_nil_r. split; [apply HI|]. intros x. rewrite (proj2 (di_done _ _ _ _ HI)). unfold upd. destruct (Nat.eqb_spec x o) as [->|]; [|tauto]. rewrite Ho. split; discriminate.
    + apply (di_l _ _ _ _ HI).
    + intros b Hb. apply In_snoc in Hb. destruct Hb as [Hb| ->]; [now apply (di_lr _ _ _ _ HI)|exact I].
    + rewrite sum_snoc. simpl. intros H. pose proof (di_rr _ _ _ _ HI H). lia.
    + rewrite sum_snoc. simpl. pose proof (di_r1 _ _ _ _ HI). unfold fired in *. lia.
    + rewrite sum_snoc, d_raises_app, (di_raise _ _ _ _ HI). unfold fired, d_raises. simpl. lia.
    + intros x. rewrite flat_map_app, cnt_app. simpl. rewrite cnt_cons, cnt_nil. pose proof (di_place _ _ _ _ HI x) as H. unfold upd. destruct (Nat.eqb_spec x o) as [->|Hne].
      * rewrite Ho in H. destruct (Nat.eq_dec o o); [lia|congruence].
      * destruct (Nat.eq_dec o x); [congruence|]. lia.
    + intros x Hx. apply In_snoc in Hx. destruct Hx as [Hx|E]; [|discriminate]. now apply (di_loop _ _ _ _ HI x).
    + rewrite d_done_app. simpl. rewrite app_nil_r. apply HI.
    + intros Hd. destruct (di_quiet_dead _ _ _ _ HI _ Hd Hc) as [? E]. discriminate.
  - intros Hc. exists l, lr. constructor; unfold fired; cbn [d_st d_next d_op d_dead d_act].
    + intros x. rewrite d_started_app. simpl. rewrite app_nil_r. apply HI.
    + rewrite d_done_app. simpl. rewrite app_nil_r. apply HI.
    + apply (di_l _ _ _ _ HI).
    + intros b Hb. apply In_snoc in Hb. destruct Hb as [Hb| ->]; [now apply (di_lr _ _ _ _ HI)|exact I].
    + rewrite sum_snoc. simpl. intros H. pose proof (di_rr _ _ _ _ HI H). lia.
    + rewrite sum_snoc. simpl. pose proof (di_r1 _ _ _ _ HI). unfold fired in *. lia.
    + rewrite sum_snoc, d_raises_app, (di_raise _ _ _ _ HI). unfold fired, d_raises. simpl. lia.
    + intros x. rewrite flat_map_snoc_nil by reflexivity. apply HI.
    + intros x Hx. apply In_snoc in Hx. destruct Hx as [Hx|E]; [|discriminate]. now apply (di_loop _ _ _ _ HI x).
    + rewrite d_done_app. simpl. rewrite app_nil_r. apply HI.
    + intros Hd. destruct (di_quiet_dead _ _ _ _ HI _ Hd Hc) as [? E]. discriminate.
  - intros Hc. destruct (proj2 Hc tr [] eq_refl) as (Hd & Hi & _). exists l, lr.
    assert (E1 : d_started (tr ++ [VDestroy]) = d_started tr) by (rewrite d_started_app; apply app_nil_r).
    assert (E2 : d_done (tr ++ [VDestroy]) = d_done tr) by (rewrite d_done_app; apply app_nil_r).
    constructor; unfold fired; cbn [d_st d_next d_op d_dead d_act]; rewrite ?E1, ?E2; try apply HI.
    + rewrite d_raises_app, (di_raise _ _ _ _ HI). unfold fired, d_raises. simpl. lia.
    + intros _. split; [apply In_snoc; auto|]. apply sum_map_0. intros a Ha.
      assert (Hf : d_st s = DFired) by (now apply (di_fired _ _ _ _ HI)).
      destruct a as [o|o v| |p|o p|]; auto; exfalso.
      * destruct (di_here _ _ _ _ HI _ o Ha) as [H _]; [now left|]. now apply (di_all_done _ _ _ _ HI o Hi).
      * destruct (di_here _ _ _ _ HI _ o Ha) as [H _]; [now left|]. now apply (di_all_done _ _ _ _ HI o Hi).
      * pose proof (di_raise _ _ _ _ HI) as H. pose proof (sum_map_le xr _ _ Ha) as H1. simpl in H1. unfold fired in H. rewrite Hf in H. pose proof (proj1 Hc) as H2. rewrite d_raises_app in H2. lia.
  - destruct (nth_error (d_act s) k) as [a|] eqn:Hk; [|exact I]. pose proof (nth_error_In _ _ Hk) as Ha.
    destruct a as [o|o [p|]| |[o|]|o p|]; cbn [dact_step]; try exact I.
    + rewrite (di_not_dead _ _ _ _ HI k _ Hk eq_refl). eapply dok_move; eauto; simpl; auto. now intros x [= _ ->].
    + destruct (di_here _ _ _ _ HI _ o Ha ltac:(now left)) as (Ho & Hl & Hlr & Hcnt). rewrite (alive_started _ _ Ho), (di_not_dead _ _ _ _ HI k _ Hk eq_refl). simpl negb. cbn iota.
      pose proof (di_next_upd _ _ _ _ HI o p _ Ha ltac:(now left)) as HI2.
      destruct (negb spur && dval_eqb (d_st s) (DPtr p)) eqn:Hb.
      * apply andb_true_iff in Hb. destruct Hb as [_ Hb]. apply dval_eqb_eq in Hb. simpl. intros _. rewrite app_nil_r. exists (o :: l), lr.
        pose proof (di_l _ _ _ _ HI2) as Hch. unfold d_with_next in Hch. cbn [d_st d_next] in Hch. rewrite Hb in Hch.
        set (a := DLoop o (DPtr p)) in *.
        pose proof (sum_map_set_nth rr _ k DEnd a Hk) as Srr. pose proof (sum_map_set_nth xr _ k DEnd a Hk) as Sxr. pose proof (sum_map_set_nth acc _ k DEnd a Hk) as Sacc. simpl in Srr, Sxr, Sacc.
        constructor; unfold d_with_act, d_with_st, d_with_next, fired; cbn [d_st d_next d_op d_dead d_act]; try apply HI.
        -- simpl. split; auto. now rewrite upd_same.
        -- intros b Hin. apply In_set_nth in Hin. destruct Hin as [->|Hin]; [exact I|]. now apply (di_lr _ _ _ _ HI2).
        -- intros H. pose proof (di_rr _ _ _ _ HI H). lia.
        -- pose proof (di_r1 _ _ _ _ HI) as H. unfold fired in H. rewrite Hb in H. lia.
        -- rewrite (di_raise _ _ _ _ HI). unfold fired. rewrite Hb. lia.
        -- intros x. pose proof (di_place _ _ _ _ HI x) as H. pose proof (cnt_flat_set dops x _ k DEnd a Hk) as Hf. simpl in Hf. rewrite cnt_cons in *. rewrite cnt_nil in Hf. lia.
        -- intros x Hx. apply In_set_nth in Hx. destruct Hx as [E|E]; [discriminate|]. pose proof (di_loop _ _ _ _ HI x E). congruence.
        -- intros H. pose proof (di_fired _ _ _ _ HI H). congruence.
        -- intros Hd. destruct (di_dead _ _ _ _ HI Hd). split; auto. lia.
      * simpl. intros _. rewrite app_nil_r. exists l, lr. apply (di_move (d_with_next s o p) tr l lr HI2 k (DLoop o (DPtr p))); simpl; auto. now intros x [= _ ->].
    + destruct (di_here _ _ _ _ HI _ o Ha ltac:(now left)) as (Ho & Hl & Hlr & Hcnt). pose proof (di_loop _ _ _ _ HI _ Ha) as Hf.
      apply (dok_notify s tr l lr HI k (DLoop o DFired) o DEnd lr); simpl; auto; try discriminate.
      * intros j b _ Hj. apply (di_lr _ _ _ _ HI). eapply nth_error_In; eauto.
    + rewrite (di_not_dead _ _ _ _ HI k _ Hk eq_refl). pose proof (di_raise _ _ _ _ HI) as Hr. pose proof (sum_map_le xr _ _ Ha) as Hx. simpl in Hx. unfold fired in Hr.
      pose proof (di_l _ _ _ _ HI) as Hl. pose proof (di_r1 _ _ _ _ HI) as H1. unfold fired in H1.
      destruct (d_st s) as [p|] eqn:Hst; simpl; [|intros [H _]; rewrite app_nil_r in H; lia]. intros _. rewrite app_nil_r.
      assert (Hz : sum (map rr (d_act s)) = 0) by lia. assert (Elr : lr = []) by (destruct lr; auto; pose proof (di_rr _ _ _ _ HI ltac:(discriminate)); lia). exists [], l.
      pose proof (sum_map_set_nth rr _ k (DRead p) DRaise Hk) as Srr. pose proof (sum_map_set_nth xr _ k (DRead p) DRaise Hk) as Sxr. pose proof (sum_map_set_nth acc _ k (DRead p) DRaise Hk) as Sacc. simpl in Srr, Sxr, Sacc.
      constructor; unfold d_with_act, d_with_st, fired; cbn [d_st d_next d_op d_dead d_act]; try apply HI; auto; try lia.
      * intros b Hb. apply In_nth_error in Hb. destruct Hb as [j Hj]. destruct (Nat.eq_dec j k) as [->|Hne].
        -- rewrite (nth_error_set_nth_same _ _ _ _ Hk) in Hj. injection Hj as <-. exact Hl.
        -- rewrite nth_error_set_nth_other in Hj by auto. pose proof (sum_map_le rr _ _ (nth_error_In _ _ Hj)). destruct b; simpl in *; auto; lia.
      * intros x. rewrite (flat_map_set_same dops _ k (DRead p) DRaise Hk eq_refl). pose proof (di_place _ _ _ _ HI x) as H. rewrite Elr in H. rewrite cnt_nil in *. lia.
      * intros Hd. pose proof (di_not_dead _ _ _ _ HI k _ Hk eq_refl). congruence.
    + pose proof (di_lr _ _ _ _ HI _ Ha) as H. simpl in H. apply chain_some in H. destruct H as (lr' & -> & H).
      rewrite (alive_started _ _ (di_linked _ _ _ _ HI o ltac:(right; now left))). eapply dok_move; eauto; simpl; eauto. discriminate.
    + pose proof (di_lr _ _ _ _ HI _ Ha) as H. simpl in H. apply chain_none in H. subst lr.
      simpl. intros _. rewrite app_nil_r. exists l, [].
      pose proof (sum_map_set_nth rr _ k DEnd (DRead None) Hk) as Srr. pose proof (sum_map_set_nth xr _ k DEnd (DRead None) Hk) as Sxr. pose proof (sum_map_set_nth acc _ k DEnd (DRead None) Hk) as Sacc. simpl in Srr, Sxr, Sacc.
      constructor; unfold d_with_act, fired; cbn [d_st d_next d_op d_dead d_act]; try apply HI.
      * intros b Hb. apply In_set_nth in Hb. destruct Hb as [->|Hb]; [exact I|]. now apply (di_lr _ _ _ _ HI).
      * congruence.
      * pose proof (di_r1 _ _ _ _ HI) as H. unfold fired in H. lia.
      * rewrite (di_raise _ _ _ _ HI). unfold fired. lia.
      * intros x. rewrite (flat_map_set_same dops _ k DEnd (DRead None) Hk eq_refl). apply HI.
      * intros x Hx. apply In_set_nth in Hx. destruct Hx as [E|E]; [discriminate|]. now apply (di_loop _ _ _ _ HI x).
      * intros Hd. destruct (di_dead _ _ _ _ HI Hd). split; auto. lia.
    + pose proof (di_lr _ _ _ _ HI _ Ha) as H. simpl in H. destruct H as (lr' & -> & H). destruct (di_rr_in _ _ _ _ HI _ Ha eq_refl) as [H1 Hf].
      apply (dok_notify s tr l (o :: lr') HI k (DCompl o p) o (DRead p) lr'); simpl; auto; try discriminate.
      * apply (di_linked _ _ _ _ HI). right. now left.
      * intros x. rewrite cnt_cons. lia.
      * intros j b Hne Hj. pose proof (sum_others rr (d_act s) k _ Hk H1 j b Hne Hj). destruct b; simpl in *; auto; discriminate.
Qed.

(** ** Properties *)
Lemma d_inv ls s tr : drun ls = Running s tr -> d_rule tr -> exists l lr, DI s tr l lr.
Proof.
  intros Hr Hc. set (J := fun s tr => exists l lr, DI s tr l lr). refine (run_inv_client d_step d_rule J d_init d_rule_prefix _ _ ls s tr Hr Hc).
  - exists [], []. exact di_init.
  - intros s0 tr0 lb s' es (l & lr & HI) E Hc0. pose proof (di_step s0 tr0 l lr lb HI) as H. rewrite E in H. now apply H.
Qed.
Lemma d_safe ls f tr : drun ls = Failed f tr -> ~ d_rule tr.
Proof.
  set (J := fun s tr => exists l lr, DI s tr l lr). refine (run_safe_client d_step d_rule J d_init d_rule_prefix _ _ _ ls f tr).
  - exists [], []. exact di_init.
  - intros s0 tr0 lb s' es (l & lr & HI) E Hc0. pose proof (di_step s0 tr0 l lr lb HI) as H. rewrite E in H. now apply H.
  - intros s0 tr0 lb f0 es (l & lr & HI) Hc0 E. pose proof (di_step s0 tr0 l lr lb HI) as H. rewrite E in H. exact (H Hc0).
Qed.

Lemma d_es s lb s' es e : d_step s lb = Next s' es -> In e es -> es = [e].
Proof.
  assert (H1 : forall (e0 : devent), In e [e0] -> [e0] = [e]) by (intros e0 [->|[]]; auto).
  destruct lb as [o| | |k spur]; simpl.
  - destruct (d_op s o); intros E; try discriminate; injection E as _ <-; apply H1.
  - intros E; injection E as _ <-; apply H1.
  - intros E; injection E as _ <-; apply H1.
  - destruct (nth_error (d_act s) k) as [a|]; [|discriminate]. unfold dact_step, d_notify.
    repeat match goal with |- context [match ?c with _ => _ end] => destruct c end; intros E; try discriminate; injection E as _ <-; try apply H1; intros [].
Qed.
Lemma d_after ls s t1 o t2 : drun ls = Running s (t1 ++ VDone o :: t2) -> d_rule (t1 ++ VDone o :: t2) -> In VRaise t1 /\ In (VStart o) t1.
Proof.
  intros Hr Hc. destruct (run_split_event _ _ _ _ _ _ _ Hr) as (ls1 & l & ls2 & s1 & s2 & tr1 & e1 & e2 & -> & H1 & H2 & -> & H3).
  pose proof (d_es _ _ _ _ (VDone o) H2 ltac:(apply in_elt)) as E. destruct e1 as [|x e1]; [|destruct e1; discriminate]. simpl in *. injection E as ->. rewrite app_nil_r in *.
  assert (Hc1 : d_rule (tr1 ++ [VDone o])) by (apply (d_rule_prefix _ t2); rewrite <- app_assoc; exact Hc).
  destruct (d_inv _ _ _ H1 (d_rule_prefix _ _ Hc1)) as (l0 & lr & HI). pose proof (di_step _ _ _ _ l HI) as Hok. rewrite H2 in Hok. destruct (Hok Hc1) as (l' & lr' & HI').
  assert (Hd : d_done (tr1 ++ [VDone o]) <> []) by (rewrite d_done_app; simpl; intros E; destruct (d_done tr1); discriminate).
  pose proof (di_fired _ _ _ _ HI' Hd) as Hf. split.
  - pose proof (di_raise _ _ _ _ HI') as Hra. rewrite d_raises_app in Hra. unfold fired in Hra. rewrite Hf in Hra. unfold d_raises in Hra at 2. simpl in Hra.
    unfold d_raises in Hra. destruct (filter _ tr1) as [|e f] eqn:Ef; [simpl in Hra; lia|]. assert (He : In e (filter (fun e => match e with VRaise => true | _ => false end) tr1)) by (rewrite Ef; now left).
    apply filter_In in He. destruct He as [He Hb]. destruct e; try discriminate. exact He.
  - assert (Hs : In o (d_started (tr1 ++ [VDone o]))).
    { apply (di_start _ _ _ _ HI'). assert (E : d_op s2 o = ODone) by (apply (proj2 (di_done _ _ _ _ HI')); rewrite d_done_app, in_app_iff; right; now left). congruence. }
    rewrite d_started_app in Hs. simpl in Hs. rewrite app_nil_r in Hs. apply in_flat_map in Hs. destruct Hs as (e & He & Hb). destruct e as [x| | |]; simpl in Hb; try contradiction. destruct Hb as [<-|[]]. exact He.
Qed.
Lemma d_once ls s tr : drun ls = Running s tr -> d_rule tr -> NoDup (d_done tr).
Proof. intros Hr Hc. destruct (d_inv _ _ _ Hr Hc) as (l & lr & HI). apply HI. Qed.
Lemma d_complete ls s tr : drun ls = Running s tr -> d_rule tr -> d_quiet s -> In VRaise tr -> incl (d_started tr) (d_done tr).
Proof.
  intros Hr Hc Hq Hra o Ho. destruct (d_inv _ _ _ Hr Hc) as (l & lr & HI). apply (proj2 (di_done _ _ _ _ HI)). apply (di_start _ _ _ _ HI) in Ho.
  assert (Hs : forall f, f DEnd = 0 -> sum (map f (d_act s)) = 0) by (intros f Hf; apply sum_map_0; intros a Ha; now rewrite (Hq a Ha)).
  pose proof (di_raise _ _ _ _ HI) as H. rewrite Hs in H by reflexivity.
  assert (Hp : 0 < d_raises tr). { unfold d_raises. assert (In VRaise (filter (fun e => match e with VRaise => true | _ => false end) tr)) by (now apply filter_In). destruct (filter _ tr); [contradiction|simpl; lia]. }
  assert (Hl : l = []). { pose proof (di_l _ _ _ _ HI) as Hl. unfold fired in H. destruct (d_st s); [lia|auto]. }
  assert (Hlr : lr = []). { destruct lr; auto. pose proof (di_rr _ _ _ _ HI ltac:(discriminate)) as H1. rewrite Hs in H1 by reflexivity. discriminate. }
  pose proof (di_place _ _ _ _ HI o) as Hpl. rewrite Hl, Hlr, flat_map_nil in Hpl by (intros a Ha; now rewrite (Hq a Ha)). rewrite !cnt_nil in Hpl. destruct (d_op s o); congruence || lia || auto.
Qed.
Lemma d_progress s : (forall k, d_step s (DStep k false) = Disabled) -> d_quiet s.
Proof.
  intros Hd a Ha. apply In_nth_error in Ha. destruct Ha as [k Hk]. specialize (Hd k). revert Hd. simpl. rewrite Hk. unfold dact_step, d_notify.
  destruct a as [o|o [p|]| |[o|]|o p|]; auto; repeat match goal with |- context [match ?c with _ => _ end] => destruct c end; discriminate.
Qed.

(** ** The calls return *)
Definition drank (a : dact) : nat := match a with DLoad _ => 3 | DLoop _ _ => 2 | DRaise => 3 | DRead _ => 1 | DCompl _ _ => 0 | DEnd => 0 end.
Definition dlst (v0 : dval) (a : dact) : nat := match a with DLoop _ v => if dval_eqb v v0 then 0 else 1 | _ => 0 end.
(** notifications that are still to come *)
Definition todo (tr : list devent) : nat := length (d_started tr) - length (d_done tr).
Definition dm (s : dst) (tr : list devent) : nat := (length (d_act s) + 1) * (sum (map drank (d_act s)) + 2 * todo tr) + sum (map (dlst (d_st s)) (d_act s)).

Lemma dlst_sum v l : sum (map (dlst v) l) <= length l.
Proof. induction l as [|a l IH]; simpl; auto. assert (dlst v a <= 1) by (destruct a; simpl; auto; destruct (dval_eqb _ _); lia). lia. Qed.

Lemma todo_done s tr l lr o : DI s tr l lr -> ~ In o (d_done tr) -> In o (d_started tr) -> todo tr = S (todo (tr ++ [VDone o])).
Proof.
  intros HI Hn Hs. unfold todo. rewrite d_started_app, d_done_app, !app_length. simpl.
  assert (length (o :: d_done tr) <= length (d_started tr)); [|simpl in *; lia]. apply NoDup_incl_length; [constructor; [auto|apply HI]|].
  intros x [<-|Hx]; auto. apply (di_start _ _ _ _ HI). apply (proj2 (di_done _ _ _ _ HI)) in Hx. congruence.
Qed.

Lemma dm_step s tr l lr k spur s' es : DI s tr l lr -> d_step s (DStep k spur) = Next s' es -> dm s' (tr ++ es) + 1 <= dm s tr + (if spur then 1 else 0).
Proof.
  intros HI E. simpl in E. destruct (nth_error (d_act s) k) as [a|] eqn:Hk; [|discriminate]. pose proof (nth_error_In _ _ Hk) as Ha.
  assert (Hbig : forall a', d_act s' = set_nth (d_act s) k a' -> drank a' + 2 * todo (tr ++ es) + 1 <= drank a + 2 * todo tr -> dm s' (tr ++ es) + 1 <= dm s tr + (if spur then 1 else 0)).
  { intros a' Ea Hlt. unfold dm. rewrite Ea, set_nth_length. pose proof (sum_map_set_nth drank _ k a' a Hk). pose proof (dlst_sum (d_st s') (set_nth (d_act s) k a')) as Hs. rewrite set_nth_length in Hs.
    set (N := length (d_act s)) in *. set (R' := sum (map drank (set_nth (d_act s) k a')) + 2 * todo (tr ++ es)). set (R := sum (map drank (d_act s)) + 2 * todo tr).
    assert (HR : R' + 1 <= R) by (unfold R', R; lia). assert ((N + 1) * (R' + 1) <= (N + 1) * R) by (apply Nat.mul_le_mono_l; exact HR). lia. }
  assert (Hdone : forall o, d_op s o = OStarted -> es = [VDone o] -> todo tr = S (todo (tr ++ es))).
  { intros o Ho ->. eapply todo_done; eauto; [intros H; apply (proj2 (di_done _ _ _ _ HI)) in H; congruence|apply (di_start _ _ _ _ HI); congruence]. }
  assert (Hnil : es = [] -> todo (tr ++ es) = todo tr) by (intros ->; now rewrite app_nil_r).
  destruct a as [o|o [p|]| |[o|]|o p|]; cbn [dact_step] in E; try discriminate.
  - destruct (d_dead s); [discriminate|]. injection E as <- <-. rewrite Hnil in * by auto. eapply Hbig; [reflexivity|simpl; lia].
  - destruct (negb (alive (d_op s) o)); [discriminate|]. destruct (d_dead s); [discriminate|]. destruct (negb spur && dval_eqb (d_st s) (DPtr p)) eqn:Hb; injection E as <- <-; rewrite Hnil in * by auto.
    + eapply Hbig; [reflexivity|simpl; lia].
    + rewrite app_nil_r. unfold dm. unfold d_with_act, d_with_next. cbn [d_act d_st]. rewrite set_nth_length. pose proof (sum_map_set_nth drank _ k (DLoop o (d_st s)) _ Hk) as Hr. pose proof (sum_map_set_nth (dlst (d_st s)) _ k (DLoop o (d_st s)) _ Hk) as Hs. simpl in Hr.
      assert (Hr' : sum (map drank (set_nth (d_act s) k (DLoop o (d_st s)))) = sum (map drank (d_act s))) by lia. rewrite Hr'.
      cbn [dlst] in Hs. rewrite dval_eqb_refl in Hs. destruct spur; [lia|]. simpl in Hb.
      assert (Hsym : dval_eqb (DPtr p) (d_st s) = false) by (destruct (dval_eqb (DPtr p) (d_st s)) eqn:Hx; auto; apply dval_eqb_eq in Hx; rewrite <- Hx, dval_eqb_refl in Hb; discriminate).
      rewrite Hsym in Hs. lia.
  - destruct (di_here _ _ _ _ HI _ o Ha ltac:(now left)) as (Ho & _). unfold d_notify in E. rewrite (alive_started _ _ Ho) in E. injection E as <- <-. eapply Hbig; [reflexivity|]. rewrite (Hdone o Ho eq_refl). simpl. lia.
  - destruct (d_dead s); [discriminate|]. destruct (d_st s); [|discriminate]. injection E as <- <-. rewrite Hnil in * by auto. eapply Hbig; [reflexivity|simpl; lia].
  - destruct (alive (d_op s) o); [|discriminate]. injection E as <- <-. rewrite Hnil in * by auto. eapply Hbig; [reflexivity|simpl; lia].
  - injection E as <- <-. rewrite Hnil in * by auto. eapply Hbig; [reflexivity|simpl; lia].
  - pose proof (di_lr _ _ _ _ HI _ Ha) as H. simpl in H. destruct H as (lr' & -> & H). assert (Ho : d_op s o = OStarted) by (apply (di_linked _ _ _ _ HI); right; now left).
    unfold d_notify in E. rewrite (alive_started _ _ Ho) in E. injection E as <- <-. eapply Hbig; [reflexivity|]. rewrite (Hdone o Ho eq_refl). simpl. lia.
Qed.

Lemma d_internal_rule tr es : d_rule tr -> (forall e, In e es -> exists o, e = VDone o) -> d_rule (tr ++ es).
Proof.
  intros [H1 H2] He. split.
  - rewrite d_raises_app. assert (E : d_raises es = 0); [|lia]. clear - He. unfold d_raises. induction es as [|e es IH]; auto. destruct (He e (or_introl eq_refl)) as [o ->]. simpl. apply IH. intros; apply He; now right.
  - intros t1 t2 E. assert (Hin : ~ In VDestroy es) by (intros H; destruct (He _ H); discriminate).
    assert (Hs : exists t2', tr = t1 ++ VDestroy :: t2' /\ t2 = t2' ++ es).
    { clear - E Hin. revert t2 E. induction es as [|e es IH] using rev_ind; intros t2 E; [rewrite app_nil_r in E; exists t2; split; [exact E|now rewrite app_nil_r]|].
      destruct t2 as [|y t2 _] using rev_ind; [apply app_inj_tail_iff in E || (rewrite app_assoc in E; apply app_inj_tail in E; destruct E as [_ E]; exfalso; apply Hin; rewrite E; apply in_app_iff; right; now left)|].
      rewrite app_assoc in E. replace (t1 ++ VDestroy :: t2 ++ [y]) with ((t1 ++ VDestroy :: t2) ++ [y]) in E by (rewrite <- app_assoc; reflexivity). apply app_inj_tail in E. destruct E as [E ->].
      destruct (IH ltac:(intros H; apply Hin, in_app_iff; auto) _ E) as (t2' & -> & ->). exists t2'. split; auto. now rewrite app_assoc. }
    destruct Hs as (t2' & -> & ->). destruct (H2 _ _ eq_refl) as (A & B & C). split; [exact A|]. split; [exact B|]. intros e Hx. apply in_app_iff in Hx. destruct Hx; auto.
Qed.
Lemma d_step_events s k spur s' es e : d_step s (DStep k spur) = Next s' es -> In e es -> exists o, e = VDone o.
Proof.
  simpl. destruct (nth_error (d_act s) k) as [a|]; [|discriminate]. unfold dact_step, d_notify.
  repeat match goal with |- context [match ?c with _ => _ end] => destruct c end; intros E; try discriminate; injection E as _ <-; intros H; simpl in H; destruct H as [<-|[]] || destruct H; eauto.
Qed.
Lemma d_finishes ls s tr : drun ls = Running s tr -> d_rule tr ->
  exists n, forall ls' s' tr', Forall d_internal ls' -> run_from d_step s tr ls' = Running s' tr' -> length ls' <= n + d_nspur ls'.
Proof.
  intros Hr Hc. destruct (d_inv _ _ _ Hr Hc) as (l & lr & HI). clear Hr. exists (dm s tr). intros ls'. revert s tr l lr Hc HI. induction ls' as [|lb ls' IH]; intros s tr l lr Hc HI s' tr' Hf Hr; [simpl; lia|].
  inversion Hf as [|? ? Hl Hf']; subst. destruct lb as [o| | |k spur]; try destruct Hl. cbn [run_from] in Hr. destruct (d_step s (DStep k spur)) as [s1 es| |f es] eqn:E; try discriminate.
  pose proof (dm_step _ _ _ _ _ _ _ _ HI E) as Hm. pose proof (di_step _ _ _ _ (DStep k spur) HI) as Hok. rewrite E in Hok.
  assert (Hc1 : d_rule (tr ++ es)) by (apply d_internal_rule; auto; intros e He; eapply d_step_events; eauto). destruct (Hok Hc1) as (l1 & lr1 & HI1).
  specialize (IH _ _ _ _ Hc1 HI1 _ _ Hf' Hr). unfold d_nspur in *. simpl. destruct spur; simpl in *; lia.
Qed.
