(** Invariant of cancellation_event: cancel(), reset(), and each step. *)
From Coq Require Import List Arith Bool Lia.
From Verif Require Import Lts ListFacts M_Cancel S_Cancel P_Cancel P_CancelInv P_CancelMark.
Import ListNotations.

Lemma set_nth_app {A} (l1 : list A) x y l2 : set_nth (l1 ++ x :: l2) (length l1) y = l1 ++ y :: l2.
Proof. induction l1; simpl; auto. now rewrite IHl1. Qed.
Lemma NoDup_app_intro {A} (l1 l2 : list A) : NoDup l1 -> NoDup l2 -> (forall x, In x l1 -> ~ In x l2) -> NoDup (l1 ++ l2).
Proof. intros H1 H2 H. induction l1; simpl; auto. inversion_clear H1. constructor; [rewrite in_app_iff; intros [X|X]; [auto|now apply (H a (or_introl eq_refl))]|]. apply IHl1; auto. intros x X. apply H. now right. Qed.
Lemma reqd_other e tr ev : (forall e', ev <> KCancel e' /\ ev <> KResetEv e') -> reqd e (tr ++ [ev]) = reqd e tr.
Proof. intros H. rewrite reqd_app. destruct ev; simpl; auto; destruct (H e0); congruence. Qed.
Lemma canc_snoc_cancel e tr e' : canc e' (tr ++ [KCancel e]) = canc e' tr || (e =? e').
Proof. unfold canc. rewrite existsb_app. simpl. now rewrite orb_false_r. Qed.
Lemma uniq_other c tr ev : (match ev with KNew _ _ | KSet _ _ _ | KForce _ _ => False | _ => True end) -> uniq c tr -> uniq c (tr ++ [ev]).
Proof. intros H. apply uniq_keep. intros e [->|[[b ->]| ->]]; contradiction. Qed.

Lemma nvstep_cancel c v e : nvstep c v (KCancel e) = nvstep 0 v (KCancel e). Proof. reflexivity. Qed.

Lemma ki_cancel s tr e : KI s tr -> let x := c_ev s e in
  KI (c_with_loops (c_with_ev s e (CE true [] (e_lock x) (e_alive x))) (c_loops s ++ [CL (e_cbs x) None])) (tr ++ [KCancel e]).
Proof.
  intros HI x. set (s' := c_with_loops _ _).
  assert (Hr : rests s' = rests s ++ e_cbs x). { unfold rests, s'. simpl. rewrite flat_map_app. simpl. now rewrite app_nil_r. }
  assert (Hev : forall e', c_ev s' e' = if e' =? e then CE true [] (e_lock x) (e_alive x) else c_ev s e'). { intros e'. reflexivity. }
  constructor.
  - intros c. destruct (is_tok (n_tok (c_nd s c)) e) eqn:Ht.
    + destruct (n_tok (c_nd s c)) as [e'|] eqn:Et; [|discriminate]. simpl in Ht. apply Nat.eqb_eq in Ht. subst e'.
      pose proof (k_ok _ _ HI c) as H. pose proof (k_tok _ _ HI c) as Hv. rewrite Et in Hv.
      unfold vOK in H |- *. rewrite Et in H. cbn [some] in H. apply (fun X => ok_cancel _ _ _ _ _ _ _ _ e X Hv) in H.
      rewrite nvw_app. cbn [fold_left]. rewrite nvstep_cancel. replace (inc s' c) with false by (unfold inc; simpl; rewrite Et, upd_same'; reflexivity).
      replace (memb c (rests s')) with (memb c (rests s) || inc s c) by (rewrite Hr, memb_app; unfold inc; now rewrite Et). replace (rq s' c) with true by (unfold rq; simpl; rewrite Et, upd_same'; reflexivity).
      replace (cn s' (tr ++ [KCancel e]) c) with true by (unfold cn; simpl; rewrite Et, canc_snoc_cancel, Nat.eqb_refl, orb_true_r; reflexivity). simpl. rewrite Et. exact H.
    + assert (Hn : n_tok (c_nd s c) <> Some e). { intros E. rewrite E in Ht. simpl in Ht. now rewrite Nat.eqb_refl in Ht. }
      apply (vOK_same s s' tr _ c); auto.
      * rewrite Hr, memb_app, (not_memb c (e_cbs x)), orb_false_r; auto. intros Hi. now apply (k_in _ _ HI) in Hi.
      * rewrite nvw_app. simpl. rewrite (k_tok _ _ HI), Ht. reflexivity.
      * intros e' E. rewrite Hev. destruct (Nat.eqb_spec e' e) as [->|Hne]; [congruence|]. rewrite canc_snoc_cancel. destruct (Nat.eqb_spec e e'); [congruence|]. now rewrite orb_false_r.
      * apply HI.
  - intros c. rewrite nvw_app. simpl. destruct (is_tok (v_t (nvw c tr)) e); apply HI.
  - intros c. apply uniq_other; simpl; auto. apply HI.
  - intros e'. rewrite Hev, reqd_app. simpl. rewrite (Nat.eqb_sym e e'). destruct (Nat.eqb_spec e' e); [reflexivity|apply HI].
  - intros e'. rewrite Hev, canc_snoc_cancel, (Nat.eqb_sym e e'). destruct (Nat.eqb_spec e' e); [rewrite orb_true_r; auto|]. rewrite orb_false_r. apply HI.
  - intros e' c. rewrite Hev. destruct (Nat.eqb_spec e' e); [intros []|apply HI].
  - intros e'. rewrite Hev. destruct (Nat.eqb_spec e' e); [constructor|apply HI].
  - rewrite Hr. apply NoDup_app_intro; [apply HI|apply HI|]. intros c H1 H2. pose proof (k_in _ _ HI _ _ H2) as Et. pose proof (o_in _ _ _ _ _ _ _ _ _ (k_ok _ _ HI c)) as H. unfold inc in H. rewrite Et in H.
    apply memb_In in H1, H2. fold x in H. rewrite H1, H2 in H. simpl in H. tauto.
  - rewrite runs_app. simpl. rewrite app_nil_r. apply HI.
  - intros c e' h H. destruct (k_fn _ _ HI _ _ _ H) as (A & B & C). rewrite runs_app. simpl. rewrite app_nil_r. split; auto. split; auto. intros E. apply in_app_iff. auto.
  - intros e'. rewrite Hev. simpl. rewrite (k_lock _ _ HI). destruct (Nat.eqb_spec e' e) as [->|]; reflexivity.
  - intros c e' H1 H2. rewrite Hev. pose proof (k_alive _ _ HI c e' H1 H2). destruct (Nat.eqb_spec e' e) as [->|]; auto.
  - intros l k H. simpl in H. apply in_app_iff in H. destruct H as [H|[<-|[]]]; [|discriminate]. apply (k_cur _ _ HI); auto.
Qed.

Lemma ki_reset s tr e : KI s tr -> (reqd e tr = false \/ forall c, uses c e tr -> In (KDel c) tr) -> let x := c_ev s e in
  KI (c_with_ev s e (CE false (e_cbs x) (e_lock x) (e_alive x))) (tr ++ [KResetEv e]).
Proof.
  intros HI Hrule x. set (s' := c_with_ev _ _ _).
  assert (Hev : forall e', c_ev s' e' = if e' =? e then CE false (e_cbs x) (e_lock x) (e_alive x) else c_ev s e') by reflexivity.
  assert (Hnv : forall c, nvw c (tr ++ [KResetEv e]) = nvw c tr) by (intros; now rewrite nvw_app).
  assert (Hcn : forall e', canc e' (tr ++ [KResetEv e]) = canc e' tr). { intros e'. unfold canc. rewrite existsb_app. simpl. now rewrite !orb_false_r. }
  assert (Hcb : forall e', e_cbs (c_ev s' e') = e_cbs (c_ev s e')). { intros e'. rewrite Hev. destruct (Nat.eqb_spec e' e) as [->|]; auto. }
  constructor.
  - intros c. destruct (is_tok (n_tok (c_nd s c)) e) eqn:Ht.
    + destruct (n_tok (c_nd s c)) as [e'|] eqn:Et; [|discriminate]. simpl in Ht. apply Nat.eqb_eq in Ht. subst e'.
      pose proof (k_ok _ _ HI c) as H. unfold vOK in H |- *. rewrite Et in H. cbn [some] in H. apply ok_reset in H.
      * rewrite Hnv. replace (inc s' c) with (inc s c) by (unfold inc; change (c_nd s' c) with (c_nd s c); rewrite Et, Hcb; reflexivity). replace (rq s' c) with false by (unfold rq; simpl; rewrite Et, upd_same'; reflexivity).
        replace (cn s' (tr ++ [KResetEv e]) c) with (cn s tr c) by (unfold cn; simpl; rewrite Et, Hcn; reflexivity). simpl. rewrite Et. exact H.
      * destruct Hrule as [Hr|Hr]; [left; unfold rq; rewrite Et, (k_req _ _ HI); auto|right]. apply It. apply v_d_iff. apply Hr. now apply (k_uses _ _ HI).
    + assert (Hn : n_tok (c_nd s c) <> Some e). { intros E. rewrite E in Ht. simpl in Ht. now rewrite Nat.eqb_refl in Ht. }
      apply (vOK_same s s' tr _ c); auto; [|apply HI]. intros e' E. rewrite Hev. destruct (Nat.eqb_spec e' e) as [->|Hne]; [congruence|]. auto.
  - intros c. rewrite Hnv. apply HI.
  - intros c. apply uniq_other; simpl; auto. apply HI.
  - intros e'. rewrite Hev, reqd_app. simpl. rewrite (Nat.eqb_sym e e'). destruct (Nat.eqb_spec e' e); [reflexivity|apply HI].
  - intros e'. rewrite Hev, Hcn. destruct (Nat.eqb_spec e' e); [discriminate|apply HI].
  - intros e' c. rewrite Hcb. apply HI.
  - intros e'. rewrite Hcb. apply HI.
  - apply HI.
  - rewrite runs_app. simpl. rewrite app_nil_r. apply HI.
  - intros c e' h H. destruct (k_fn _ _ HI _ _ _ H) as (A & B & C). rewrite runs_app. simpl. rewrite app_nil_r. split; auto. split; auto. intros E. apply in_app_iff. auto.
  - intros e'. rewrite Hev. simpl. rewrite (k_lock _ _ HI). destruct (Nat.eqb_spec e' e) as [->|]; reflexivity.
  - intros c e' H1 H2. rewrite Hev. pose proof (k_alive _ _ HI c e' H1 H2). destruct (Nat.eqb_spec e' e) as [->|]; auto.
  - apply HI.
Qed.

Lemma ki_loop s tr i c rest e : KI s tr -> nth_error (c_loops s) i = Some (CL (c :: rest) None) -> n_tok (c_nd s c) = Some e ->
  KI (c_with_fns (c_with_loops s (set_nth (c_loops s) i (CL rest (Some (length (c_fns s)))))) (c_fns s ++ [FRun c e HCancel])) (tr ++ [KRun c HCancel]).
Proof.
  intros HI Hi Ht. set (s' := c_with_fns _ _). destruct (nth_error_split _ _ Hi) as (l1 & l2 & El & <-).
  assert (Elo : c_loops s' = l1 ++ CL rest (Some (length (c_fns s))) :: l2). { unfold s'. simpl. rewrite El. apply set_nth_app. }
  assert (Er : rests s = flat_map l_rest l1 ++ c :: rest ++ flat_map l_rest l2). { unfold rests. rewrite El, flat_map_app. reflexivity. }
  assert (Er' : rests s' = flat_map l_rest l1 ++ rest ++ flat_map l_rest l2). { unfold rests. rewrite Elo, flat_map_app. reflexivity. }
  pose proof (k_ndr _ _ HI) as Hnd. rewrite Er in Hnd. destruct (NoDup_remove _ _ _ Hnd) as [Hnd1 Hnd2]. rewrite <- Er' in Hnd1, Hnd2.
  assert (Hrst : memb c (rests s) = true). { apply memb_In. rewrite Er. apply in_app_iff. right. now left. }
  assert (Hx : ~ In c (runs tr)). { rewrite v_x_iff, <- It. apply (o_rst _ _ _ _ _ _ _ _ _ (k_ok _ _ HI c)). now apply It. }
  assert (Hcn : forall e', canc e' (tr ++ [KRun c HCancel]) = canc e' tr). { intros e'. unfold canc. rewrite existsb_app. simpl. now rewrite !orb_false_r. }
  constructor; try apply HI.
  - intros c'. destruct (Nat.eq_dec c' c) as [->|Hn].
    + pose proof (k_ok _ _ HI c) as H. unfold vOK in H |- *. rewrite Hrst in H. apply (ok_run _ _ _ _ _ _ _ _ c HCancel) in H; [|discriminate].
      rewrite nvw_app, (not_memb _ _ Hnd2). replace (cn s' (tr ++ [KRun c HCancel]) c) with (cn s tr c) by (unfold cn; simpl; rewrite Ht, Hcn; reflexivity). exact H.
    + apply (vOK_same s s' tr _ c'); auto; [| |apply HI].
      * destruct (memb c' (rests s)) eqn:E; [apply memb_In in E; apply memb_In|apply memb_not_In in E; apply memb_not_In; intros X; apply E; clear E];
        rewrite Er' in *; rewrite Er in *; rewrite in_app_iff in *; simpl in *; intuition congruence.
      * rewrite nvw_app. simpl. destruct (Nat.eqb_spec c c'); congruence.
  - intros c'. rewrite nvw_app. simpl. destruct (c =? c'); apply HI.
  - intros c'. apply uniq_other; simpl; auto. apply HI.
  - intros e'. rewrite reqd_other; [apply HI|intros; split; discriminate].
  - intros e'. rewrite Hcn. apply HI.
  - exact Hnd1.
  - rewrite runs_app. simpl. apply NoDup_snoc; auto. apply HI.
  - intros c' e' h H. simpl in H. apply in_app_iff in H. rewrite runs_app, !in_app_iff. destruct H as [H|[[= <- <- <-]|[]]].
    + destruct (k_fn _ _ HI _ _ _ H) as (A & B & C). auto.
    + split; auto. split; [right; now left|discriminate].
  - intros e'. simpl. rewrite map_app, sum_app, (k_lock _ _ HI). simpl. now rewrite !Nat.add_0_r.
  - intros l k H. rewrite Elo in H. simpl. rewrite app_length. simpl. assert (X : In l (c_loops s) \/ l = CL rest (Some (length (c_fns s)))). { rewrite El. rewrite in_app_iff in H |- *. simpl in *. intuition. }
    destruct X as [X| ->]; [intros E; pose proof (k_cur _ _ HI _ _ X E); lia|intros [= <-]; lia].
Qed.

Lemma ki_next s tr i rest k : KI s tr -> nth_error (c_loops s) i = Some (CL rest (Some k)) -> KI (c_with_loops s (set_nth (c_loops s) i (CL rest None))) tr.
Proof.
  intros HI Hi. rewrite <- (app_nil_r tr). apply (ki_silent s tr); auto; try apply HI.
  - unfold rests. simpl. destruct (nth_error_split _ _ Hi) as (l1 & l2 & El & <-). rewrite El, set_nth_app, !flat_map_app. reflexivity.
  - intros l k' H. simpl in *. apply In_set_nth in H. destruct H as [->|H]; [discriminate|]. now apply (k_cur _ _ HI).
Qed.

Lemma ki_ret s tr k c e h x : KI s tr -> nth_error (c_fns s) k = Some (FRun c e h) -> x = c_ev s e ->
  KI (match h with HCtor => c_with_ev (c_with_fns s (set_nth (c_fns s) k FEnd)) e (CE (e_req x) (e_cbs x) false (e_alive x)) | _ => c_with_fns s (set_nth (c_fns s) k FEnd) end) (tr ++ [KRet c]).
Proof.
  intros HI Hk ->. pose proof (fun e' => sum_map_set_nth (lk e') _ k FEnd _ Hk) as Hs.
  assert (Hf : forall c' e' h', In (FRun c' e' h') (set_nth (c_fns s) k FEnd) -> In (FRun c' e' h') (c_fns s)). { intros c' e' h' H. apply In_set_nth in H. destruct H; [discriminate|auto]. }
  destruct h.
  - apply (ki_silent s tr); auto.
    + right. exists (KRet c). auto.
    + simpl. updev e.
    + intros e'. pose proof (Hs e') as Hs'. rewrite (k_lock _ _ HI) in Hs'. simpl in Hs'. simpl. unfold upd. rewrite (Nat.eqb_sym e' e). destruct (Nat.eqb_spec e e') as [E|]; [subst e'|]; simpl.
      * pose proof (k_lock _ _ HI e). destruct (e_lock (c_ev s e)); lia.
      * lia.
    + intros c' e' H1 H2. pose proof (k_alive _ _ HI _ _ H1 H2). simpl. unfold upd. destruct (Nat.eqb_spec e' e) as [->|]; auto.
    + simpl. rewrite set_nth_length. apply HI.
  - apply (ki_silent s tr); auto; try apply HI.
    + right. exists (KRet c). auto.
    + intros e'. simpl. specialize (Hs e'). rewrite (k_lock _ _ HI) in Hs. simpl in Hs. lia.
    + simpl. rewrite set_nth_length. apply HI.
  - apply (ki_silent s tr); auto; try apply HI.
    + right. exists (KRet c). auto.
    + intros e'. simpl. specialize (Hs e'). rewrite (k_lock _ _ HI) in Hs. simpl in Hs. lia.
    + simpl. rewrite set_nth_length. apply HI.
Qed.

Lemma ev_new_live s tr c e ob : KI s tr -> forallb (nlive (c_with_nd s c (CN LLive ob (Some e)))) (e_cbs (c_ev s e)) = true.
Proof.
  intros HI. pose proof (k_cbs_live _ _ HI e) as H. rewrite forallb_forall in *. intros c' Hc. specialize (H c' Hc). unfold nlive in *. simpl. unfold upd. destruct (c' =? c); auto.
Qed.

Lemma cok_erase s tr e c es f g : KI s tr -> nlive s c = true -> n_tok (c_nd s c) = Some e ->
  (e_req (c_ev s e) = true -> cok tr (g s)) ->
  (e_req (c_ev s e) = false -> In c (e_cbs (c_ev s e)) -> cok tr (f (let x := c_ev s e in c_with_ev s e (CE (e_req x) (remove1 c (e_cbs x)) (e_lock x) (e_alive x))))) ->
  (e_req (c_ev s e) = false -> ~ In c (e_cbs (c_ev s e)) -> ~ k_rule (tr ++ es)) -> cok tr (c_erase s e c es f g).
Proof.
  intros HI Hl Ht Hg Hf Hb. unfold c_erase. rewrite (k_alive _ _ HI _ _ Hl Ht). simpl negb. cbv iota. destruct (e_lock (c_ev s e)) eqn:El; [exact I|]. destruct (e_req (c_ev s e)) eqn:Er; [auto|]. cbv zeta in Hf. rewrite ?El, ?Er, ?(k_alive _ _ HI _ _ Hl Ht) in Hf.
  rewrite (k_cbs_live _ _ HI). simpl negb. cbv iota. destruct (memb c (e_cbs (c_ev s e))) eqn:Em; [apply Hf; auto; now apply memb_In|]. apply Hb; auto. now apply memb_not_In.
Qed.

(** a node not in _cbs, with cancellation not requested, was detached *)
Lemma not_in_detached s tr e c : KI s tr -> nlive s c = true -> n_tok (c_nd s c) = Some e -> e_req (c_ev s e) = false -> ~ In c (e_cbs (c_ev s e)) -> In (KUnbind c) tr \/ In (KReset c true) tr.
Proof.
  intros HI Hl Ht Hr Hin. pose proof (k_ok _ _ HI c) as H. pose proof (o_free _ _ _ _ _ _ _ _ _ H) as Hf. unfold inc, rq in Hf. rewrite Ht, Hr, Hl, (not_memb _ _ Hin) in Hf. simpl in Hf.
  destruct (Hf I I (fun x => x)) as [[]|[X|X]]; [left; apply v_u_iff|right; apply v_r_iff]; now apply It.
Qed.
Lemma obs_not_unbound s tr c : KI s tr -> n_obs (c_nd s c) = true -> ~ In (KUnbind c) tr.
Proof. intros HI Ho. rewrite v_u_iff, <- It. apply (o_ob _ _ _ _ _ _ _ _ _ (k_ok _ _ HI c)). now apply It. Qed.
Lemma cb_not_reset s tr c : KI s tr -> n_obs (c_nd s c) = false -> ~ In (KReset c true) tr.
Proof. intros HI Ho. rewrite v_r_iff, <- It. apply (o_cb _ _ _ _ _ _ _ _ _ (k_ok _ _ HI c)). rewrite Ho. auto. Qed.

Lemma rq_eq s c e : n_tok (c_nd s c) = Some e -> rq s c = e_req (c_ev s e).
Proof. intros H. unfold rq. now rewrite H. Qed.

Lemma del_rule s tr c : KI s tr -> k_rule1 tr (KDel c) -> (!(v_c (nvw c tr)) -> !(v_x (nvw c tr))) /\ (!(v_ao (nvw c tr)) -> !(v_r (nvw c tr)) \/ !(v_x (nvw c tr))).
Proof.
  intros HI (_ & R1 & R2). rewrite !It. split.
  - intros Hc. apply v_x_iff. destruct (v_t (nvw c tr)) as [e|] eqn:Et.
    + apply (R1 e). apply (v_c_iff _ _ _ (k_uniq _ _ HI c)). auto.
    + exfalso. rewrite (k_tok _ _ HI) in Et. pose proof (k_ok _ _ HI c) as H. pose proof (o_c _ _ _ _ _ _ _ _ _ H) as H1. pose proof (o_x _ _ _ _ _ _ _ _ _ H) as H2. pose proof (o_rst _ _ _ _ _ _ _ _ _ H) as H3. rewrite Et in H2, H3. simpl in H2, H3. rewrite It in H1. tauto.
  - intros Ha. apply v_ao_iff in Ha. destruct Ha as [e Ha]. rewrite <- v_r_iff, <- v_x_iff. now apply (R2 e).
Qed.

Lemma c_step_ok s tr l : KI s tr -> cok tr (c_step s l).
Proof.
  intros HI. destruct l as [c tok|c|c tok force|c|c|e|e|e|e|i|k|k]; cbn [c_step].
  - (* LNew *) destruct (n_life (c_nd s c)) eqn:Hl; [|exact I|exact I]. destruct tok as [e|].
    + destruct (ev_ok s e) eqn:Hok; [|exact I]. simpl negb. cbv iota. destruct (e_req (c_ev s e)) eqn:Hr.
      * simpl. intros _. apply (ki_new_run s tr c e HCtor (KNew c (Some e))); auto; simpl.
        -- updev e. rewrite Hr. repeat split; auto. apply andb_true_iff in Hok. symmetry. tauto.
        -- updev e.
      * unfold c_push. cbn [c_ev c_with_nd]. rewrite (ev_new_live s tr c e false HI). simpl cok. intros _. apply (ki_new_push s tr c e false (KNew c (Some e))); auto.
    + simpl. intros _. apply (ki_new_idle s tr c false None (KNew c None)); auto; discriminate.
  - (* LUnbind *) destruct (nlive s c) eqn:Hl; [|exact I]. destruct (n_obs (c_nd s c)) eqn:Ho; [exact I|]. simpl andb. cbv iota. destruct (n_tok (c_nd s c)) as [e|] eqn:Ht.
    + apply (cok_erase s tr e c); auto.
      * intros Hr. simpl. intros _. apply (ki_mark s tr c (KUnbind c) false HI Hl). left. repeat split; auto. intros _. now rewrite (rq_eq _ _ _ Ht).
      * intros Hr Hin. simpl. intros _. apply (ki_erase s tr c e (KUnbind c) false HI Hl Ht Hr Hin). left. auto.
      * intros Hr Hin Hk. apply k_rule_at in Hk. simpl in Hk. destruct (not_in_detached _ _ _ _ HI Hl Ht Hr Hin) as [H|H]; [|now apply (cb_not_reset _ _ _ HI Ho) in H].
        specialize (Hk H e). rewrite (k_uses _ _ HI) in Hk. rewrite <- (k_req _ _ HI) in Hk. rewrite Hk in Hr; [discriminate|auto].
    + simpl. intros _. apply (ki_mark s tr c (KUnbind c) false HI Hl). left. repeat split; auto; congruence.
  - (* LSet *) destruct (n_life (c_nd s c)) eqn:Hl.
    + destruct tok as [e|].
      * destruct (ev_ok s e) eqn:Hok; [|exact I]. simpl negb. cbv iota. destruct (e_req (c_ev s e)) eqn:Hr; simpl negb; cbv iota.
        -- destruct force; simpl; intros _.
           ++ apply (ki_new_run s tr c e HForce (KForce c (Some e))); auto.
           ++ apply (ki_new_idle s tr c true (Some e)); auto. intros e' [= <-]. auto.
        -- unfold c_push. cbn [c_ev c_with_nd]. rewrite (ev_new_live s tr c e true HI). simpl cok. intros _. destruct force.
           ++ apply (ki_new_push s tr c e true (KForce c (Some e))); auto.
           ++ apply (ki_new_push s tr c e true (KSet c (Some e) true)); auto.
      * simpl. intros _. destruct force.
        -- apply (ki_new_idle s tr c true None (KForce c None)); auto. discriminate.
        -- apply (ki_new_idle s tr c true None (KSet c None true)); auto. discriminate.
    + destruct (n_obs (c_nd s c)); [|exact I]. destruct (n_tok (c_nd s c)) as [e|] eqn:Ht; [|exact I]. simpl. intros Hk. assert (Hu : uses c e tr) by now apply (k_uses _ _ HI).
      destruct force; apply k_rule_at in Hk; simpl in Hk; now apply (Hk e).
    + exact I.
  - (* LReset *) destruct (nlive s c) eqn:Hl; [|exact I]. destruct (n_obs (c_nd s c)) eqn:Ho; [|exact I]. simpl andb. cbv iota. destruct (n_tok (c_nd s c)) as [e|] eqn:Ht.
    + apply (cok_erase s tr e c); auto.
      * intros Hr. simpl. intros Hk. apply (ki_mark s tr c (KReset c false) false HI Hl). right. right. left. rewrite (rq_eq _ _ _ Ht). repeat split; auto. rewrite It, <- v_r_iff. apply k_rule_at in Hk. exact Hk.
      * intros Hr Hin. simpl. intros _. apply (ki_erase s tr c e (KReset c true) false HI Hl Ht Hr Hin). auto.
      * intros Hr Hin Hk. apply k_rule_at in Hk. simpl in Hk. destruct (not_in_detached _ _ _ _ HI Hl Ht Hr Hin) as [H|H]; [now apply (obs_not_unbound _ _ _ HI Ho) in H|auto].
    + simpl. intros _. apply (ki_mark s tr c (KReset c true) false HI Hl). right. left. auto.
  - (* LDel *) destruct (nlive s c) eqn:Hl; [|exact I]. simpl negb. cbv iota. destruct (n_obs (c_nd s c)) eqn:Ho.
    + simpl. intros Hk. apply k_rule_at in Hk. destruct (del_rule _ _ _ HI Hk) as [D1 D2]. apply (ki_mark s tr c (KDel c) true HI Hl). right. right. right. repeat split; auto; congruence.
    + destruct (existsb _ (c_fns s)); [exact I|]. destruct (n_tok (c_nd s c)) as [e|] eqn:Ht.
      * apply (cok_erase s tr e c); auto.
        -- intros Hr. simpl. intros Hk. apply k_rule_at in Hk. destruct (del_rule _ _ _ HI Hk) as [D1 D2]. apply (ki_mark s tr c (KDel c) true HI Hl). right. right. right. repeat split; auto. intros _ _. now rewrite (rq_eq _ _ _ Ht).
        -- intros Hr Hin. simpl. intros _. apply (ki_erase s tr c e (KDel c) true HI Hl Ht Hr Hin). auto.
        -- intros Hr Hin Hk. apply k_rule_at in Hk. destruct Hk as [Hk _]. destruct (not_in_detached _ _ _ _ HI Hl Ht Hr Hin) as [H|H]; [|now apply (cb_not_reset _ _ _ HI Ho) in H].
           specialize (Hk H e). rewrite (k_uses _ _ HI) in Hk. rewrite <- (k_req _ _ HI) in Hk. rewrite Hk in Hr; [discriminate|auto].
      * simpl. intros Hk. apply k_rule_at in Hk. destruct (del_rule _ _ _ HI Hk) as [D1 D2]. apply (ki_mark s tr c (KDel c) true HI Hl). right. right. right. repeat split; auto; congruence.
  - (* LCancel *) destruct (ev_ok s e); [|exact I]. simpl negb. cbv iota. rewrite (k_cbs_live _ _ HI). simpl. intros _. now apply ki_cancel.
  - (* LResetEv *) destruct (ev_ok s e); [|exact I]. simpl. intros Hk. apply k_rule_at in Hk. now apply ki_reset.
  - (* LDelEv *) destruct (ev_ok s e); [|exact I]. simpl negb. cbv iota.
    assert (Hd : k_rule1 tr (KDelEv e) -> forall c, n_tok (c_nd s c) = Some e -> nlive s c = false).
    { intros Hk c Ht. assert (Hx : In (KDel c) tr) by (apply Hk, (k_uses _ _ HI); auto). now apply (k_dead _ _ HI) in Hx. }
    destruct (e_cbs (c_ev s e)) as [|c cs] eqn:Ec.
    + simpl. intros Hk. apply k_rule_at in Hk. apply (ki_silent s tr); auto; try apply HI.
      * right. exists (KDelEv e). auto.
      * simpl. updev e.
      * intros e'. simpl. rewrite (k_lock _ _ HI). unfold upd. destruct (Nat.eqb_spec e' e) as [E|]; [subst e'|]; auto.
      * intros c e' H1 H2. simpl. unfold upd. destruct (Nat.eqb_spec e' e) as [E|]; [subst e'|now apply (k_alive _ _ HI c)]. rewrite (Hd Hk c H2) in H1. discriminate.
    + simpl. intros Hk. apply k_rule_at in Hk. assert (Hin : In c (e_cbs (c_ev s e))) by (rewrite Ec; now left). pose proof (k_cbs_live _ _ HI e) as Hlv. rewrite forallb_forall in Hlv. specialize (Hlv c Hin).
      rewrite (Hd Hk c) in Hlv; [discriminate|]. now apply (k_in _ _ HI).
  - (* LQuery *) destruct (ev_ok s e); [|exact I]. apply (cok_silent s tr); auto; try apply HI. right. eauto.
  - (* LLoop *) destruct (nth_error (c_loops s) i) as [[rest [k|]]|] eqn:Hi; try exact I.
    + destruct rest; destruct (nth_error (c_fns s) k) as [[|]|]; try exact I; simpl; intros _; rewrite app_nil_r; eapply ki_next; eauto.
    + destruct rest as [|c rest]; [exact I|]. destruct (n_tok (c_nd s c)) as [e|] eqn:Ht; [|exact I].
      assert (Hlv : forallb (nlive s) (c :: rest) = true). { apply forallb_forall. intros c' Hc. apply (k_rest_live _ _ HI). unfold rests. apply in_flat_map. exists (CL (c :: rest) None). split; auto. now apply nth_error_In in Hi. }
      rewrite Hlv. simpl. intros _. now apply ki_loop.
  - (* LRet *) destruct (nth_error (c_fns s) k) as [[c e h|]|] eqn:Hk; try exact I. pose proof (ki_ret s tr k c e h _ HI Hk eq_refl) as H. destruct h; simpl; auto.
  - (* LFQuery *) destruct (nth_error (c_fns s) k) as [[c e h|]|] eqn:Hk; try exact I. destruct (k_fn _ _ HI _ _ _ (nth_error_In _ _ Hk)) as (Ht & Hx & Hc).
    destruct h; [simpl; intros Hr; apply k_rule_at in Hr; simpl in Hr; auto| |].
    all: destruct (nlive s c) eqn:Hl; [|exact I]; simpl negb; cbv iota; rewrite (k_alive _ _ HI _ _ Hl Ht); simpl negb; cbv iota; destruct (e_lock (c_ev s e)); [exact I|].
    all: apply (cok_silent s tr); auto; try apply HI; right; eauto.
Qed.
