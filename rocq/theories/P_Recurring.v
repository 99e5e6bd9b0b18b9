(** Proofs about async::recurring_event, with arbitrary code around it. *)
From Coq Require Import List Arith Bool Lia.
From Verif Require Import Lts ListFacts M_Wait S_Wait P_Wait M_Recurring S_Recurring.
Import ListNotations.

Section Proofs.
Variable U : ruser.
Notation P := (recurring_prim U).

Definition r_inv (s : rstate U) : Prop := NoDup (r_q s) /\ forall o, In o (r_q s) <-> r_st s o = RSubmitted.


Definition recurring_laws : laws P.
Proof.
  refine (Laws P (fun (s : PS P) o => In o (r_q s)) r_inv _ _ _ _ _ _).
  - simpl. split; [|auto]. split; [constructor|]. simpl. intros o. split; [tauto|discriminate].
  - intros s o a s' es (H1 & H2) Hn. simpl. unfold r_start.
    destruct (r_st s o) eqn:Hst; try discriminate. destruct (u_cond U (r_g s) a) as [[|]|]; try discriminate.
    intros [= <- <-]. simpl. split; [|intros o'; apply In_snoc]. split; simpl; [now apply NoDup_snoc|].
    intros o'. rewrite In_snoc, H2. unfold upd. destruct (Nat.eqb_spec o' o); [subst; tauto|]. tauto.
  - intros s o a s' v es (H1 & H2) Hn. simpl. unfold r_start.
    destruct (r_st s o) eqn:Hst; try discriminate. destruct (u_cond U (r_g s) a) as [[|]|]; try discriminate.
    intros [= <- <- <-]. simpl. split; [|tauto]. split; simpl; auto.
    intros o'. rewrite H2. unfold upd. destruct (Nat.eqb_spec o' o); [subst; split; congruence|]. tauto.
  - intros s l s' taken es (H1 & H2). simpl. unfold r_step. destruct l as [|l].
    + destruct (u_raise U (r_g s)) as [g|]; try discriminate.
      destruct (forallb (fun o => match r_st s o with RSubmitted => true | _ => false end) (r_q s)) eqn:Hf; try discriminate.
      intros [= <- <- <-]. simpl. split; [|split; [auto|split; [auto|intros o; tauto]]].
      split; simpl; [constructor|]. intros o. split; [tauto|]. destruct (memb o (r_q s)) eqn:Hm; [discriminate|].
      rewrite <- H2. apply memb_not_In in Hm. tauto.
    + destruct (u_step U (r_g s) l) as [g ges| |f ges]; try discriminate. intros [= <- <- <-]. simpl.
      split; [split; auto|]. split; [constructor|]. split; [tauto|]. intros o; tauto.
  - intros s o (H1 & H2) Hin. simpl in Hin. simpl. unfold r_try.
    rewrite (proj1 (H2 o) Hin), (proj2 (memb_In _ _) Hin). eexists. split; [reflexivity|]. simpl. split.
    + split; simpl; [now apply NoDup_remove1|]. intros o'. rewrite In_remove1_NoDup by auto. rewrite H2. unfold upd.
      destruct (Nat.eqb_spec o' o); [subst; split; [tauto|discriminate]|]. tauto.
    + intros o'. now apply In_remove1_NoDup.
  - intros s o s' v HI Hn. simpl. unfold r_resume. intros [= <- <-]. split; [exact HI|tauto].
Defined.

Definition recurring_tlaws : tlaws P recurring_laws.
Proof.
  refine (TLaws P recurring_laws (fun (s : PS P) o => r_st s o = RPending) _ _ _ _ _ _ _); simpl.
  - intros s l s' taken es o HI Hs Hin. unfold r_step in Hs. destruct l as [|l].
    + destruct (u_raise U (r_g s)) as [g|]; try discriminate. destruct (forallb _ (r_q s)); try discriminate.
      injection Hs as <- <- <-. simpl. now rewrite (proj2 (memb_In _ _) Hin).
    + destruct (u_step U (r_g s) l) as [g ges| |f ges]; try discriminate. injection Hs as <- <- <-. destruct Hin.
  - intros s l s' taken es o HI Hv Hs. unfold r_step in Hs. destruct l as [|l].
    + destruct (u_raise U (r_g s)) as [g|]; try discriminate. destruct (forallb _ (r_q s)); try discriminate.
      injection Hs as <- <- <-. simpl. destruct (memb o (r_q s)); auto.
    + destruct (u_step U (r_g s) l) as [g ges| |f ges]; try discriminate. injection Hs as <- <- <-. exact Hv.
  - intros s o a s' es o' HI Hv Hne Hs. unfold r_start in Hs. destruct (r_st s o); try discriminate.
    destruct (u_cond U (r_g s) a) as [[|]|]; try discriminate. injection Hs as <- <-. simpl. now rewrite upd_other.
  - intros s o a s' v es o' HI Hv Hne Hs. unfold r_start in Hs. destruct (r_st s o); try discriminate.
    destruct (u_cond U (r_g s) a) as [[|]|]; try discriminate. injection Hs as <- <- <-. simpl. now rewrite upd_other.
  - intros s o s' b o' HI Hv Hne Hs. unfold r_try in Hs. destruct (r_st s o); try (injection Hs as <- <-; exact Hv).
    destruct (memb o (r_q s)); try discriminate. injection Hs as <- <-. simpl. now rewrite upd_other.
  - intros s o s' v o' HI Hv Hs. unfold r_resume in Hs. injection Hs as <- <-. exact Hv.
  - intros s o s' b HI Hv. unfold r_try. rewrite Hv. intros H. injection H as <- <-. auto.
Defined.

Section Runs.
Variable eager : bool.
Notation cst := (cst P).
Notation step := (step P eager).
Notation trace := (list (event P)).
Notation JT := (JT P recurring_laws eager recurring_tlaws).

Definition RInv (s : cst) (tr : trace) : Prop :=
  JT s tr /\
  (forall o, ~ In o (starts tr) -> r_st (c_prim s) o = RNone) /\
  (forall o, o_node (c_op s o) = NCancelled -> r_st (c_prim s) o = RCancelled) /\
  (forall o, o_node (c_op s o) = NTaken -> event_after is_raise o tr = true) /\
  (forall o, In o (r_q (c_prim s)) -> event_after is_raise o tr = false).

(** Steps that do not change the wait list: everything in the wait list was started before, and is not raised after. *)
Lemma queued_started s tr o : JT s tr -> In o (r_q (c_prim s)) -> In o (starts tr) /\ o_node (c_op s o) = NQueued.
Proof.
  intros [[HG (_ & HS & _)] _] Hin. pose proof HG as (_ & _ & (_ & HQ) & _).
  assert (Hn : o_node (c_op s o) = NQueued) by (now apply HQ). split; auto.
  apply HS. intros Hl. destruct (fresh_facts _ _ _ s o HG Hl) as (Hn' & _). congruence.
Qed.

Lemma node_started s tr o : JT s tr -> o_node (c_op s o) <> NFresh -> In o (starts tr).
Proof.
  intros [[HG (_ & HS & _)] _] Hn. apply HS. intros Hl. destruct (fresh_facts _ _ _ s o HG Hl) as (Hn' & _). congruence.
Qed.

Lemma existsb_eusers (es : list (UE U)) : existsb is_raise (map (@EPrim P) (map EUser es)) = false.
Proof. induction es; simpl; auto. Qed.

Lemma RInv_step s tr l s' es : RInv s tr -> step s l = Next s' es -> RInv s' (tr ++ es).
Proof.
  intros (HJT & HN & HC & HA & HQA) Hs.
  pose proof (JT_step _ _ _ _ _ _ _ _ _ HJT Hs) as HJT'.
  pose proof (JT_reliable _ _ _ _ _ _ HJT) as HR. pose proof HJT as [[HG HTI] HTK].
  split; [exact HJT'|].
  pose proof (step_effect _ _ _ _ _ _ _ HG HR Hs) as He.
  pose proof HG as (_ & _ & ((HI1 & HI2) & HQ) & _). simpl in HQ.
  destruct He as [s' o tok a pes Hl Hn Hd Hst Hss|s' o tok a v pes Hl Hn Hd Hst Hss|s' o es Hp|s' es Hcp Hss Hes|s' pl taken pes Hp Htk Hss].
  - simpl in Hst. unfold r_start in Hst. destruct (r_st (c_prim s) o) eqn:Hso; try discriminate.
    destruct (u_cond U (r_g (c_prim s)) a) as [[|]|]; try discriminate. injection Hst as Hcp <-. rewrite <- Hcp. simpl.
    assert (Hnew : ~ In o (starts tr)) by (destruct HTI as (_ & HS & _); rewrite <- HS; tauto).
    split; [|split; [|split]].
    + intros o'. rewrite starts_app, in_app_iff. simpl. intros Hni. rewrite upd_other by intuition. apply HN. tauto.
    + intros o' Hn'. specialize (Hss o'). destruct (Nat.eqb_spec o' o) as [E|E].
      * apply stat_inv in Hss. destruct Hss as (_ & _ & H & _). congruence.
      * apply stat_eq in Hss. destruct Hss as (_ & _ & H & _). rewrite upd_other by auto. apply HC. congruence.
    + intros o' Hn'. specialize (Hss o'). destruct (Nat.eqb_spec o' o) as [E|E].
      * apply stat_inv in Hss. destruct Hss as (_ & _ & H & _). congruence.
      * apply stat_eq in Hss. destruct Hss as (_ & _ & H & _). apply event_after_mono. apply HA. congruence.
    + intros o' Hin. apply In_snoc in Hin. destruct Hin as [Hin|E].
      * destruct (queued_started s tr o' HJT Hin). rewrite event_after_snoc by auto. rewrite (HQA o' Hin). reflexivity.
      * subst o'. now rewrite event_after_new.
  - simpl in Hst. unfold r_start in Hst. destruct (r_st (c_prim s) o) eqn:Hso; try discriminate.
    destruct (u_cond U (r_g (c_prim s)) a) as [[|]|]; try discriminate. injection Hst as Hcp Hv <-. rewrite <- Hcp. simpl.
    split; [|split; [|split]].
    + intros o'. rewrite starts_app, in_app_iff. simpl. intros Hni. rewrite upd_other by intuition. apply HN. tauto.
    + intros o' Hn'. specialize (Hss o'). destruct (Nat.eqb_spec o' o) as [E|E].
      * apply stat_inv in Hss. destruct Hss as (_ & _ & H & _). congruence.
      * apply stat_eq in Hss. destruct Hss as (_ & _ & H & _). rewrite upd_other by auto. apply HC. congruence.
    + intros o' Hn'. specialize (Hss o'). destruct (Nat.eqb_spec o' o) as [E|E].
      * apply stat_inv in Hss. destruct Hss as (_ & _ & H & _). congruence.
      * apply stat_eq in Hss. destruct Hss as (_ & _ & H & _). apply event_after_mono. apply HA. congruence.
    + intros o' Hin. destruct (queued_started s tr o' HJT Hin). rewrite event_after_snoc by auto. rewrite (HQA o' Hin). reflexivity.
  - assert (Hkeep : starts es = [] /\ existsb is_raise es = false) by (destruct Hp; auto).
    destruct Hkeep as [Hk1 Hk2].
    assert (HNs : forall o', ~ In o' (starts (tr ++ es)) -> r_st (c_prim s) o' = RNone).
    { intros o'. rewrite starts_app, Hk1, app_nil_r. apply HN. }
    assert (HQA' : forall o', In o' (r_q (c_prim s)) -> event_after is_raise o' (tr ++ es) = false).
    { intros o' Hin. destruct (queued_started s tr o' HJT Hin). rewrite event_after_snoc by auto. now rewrite (HQA o' Hin), Hk2. }
    destruct Hp as [s' Hcp Hss|s' e Hn Ht Hr Htry Hss|s' v Hf Hn Hd Hcp Hss|s' v Hn Hd Hr Hss].
    + rewrite Hcp. split; [exact HNs|split; [|split; [|exact HQA']]]; intros o' Hn'; specialize (Hss o'); apply stat_eq in Hss; destruct Hss as (_ & _ & H & _).
      * apply HC. congruence.
      * apply event_after_mono. apply HA. congruence.
    + pose proof (proj2 (HQ o) Hn) as Hin. simpl in Htry. unfold r_try in Htry.
      rewrite (proj1 (HI2 o) Hin), (proj2 (memb_In _ _) Hin) in Htry. injection Htry as Hcp. rewrite <- Hcp. simpl.
      split; [|split; [|split]].
      * intros o' Hni. unfold upd. destruct (Nat.eqb_spec o' o) as [E|E]; [|now apply HNs].
        subst o'. destruct Hni. rewrite starts_app, in_app_iff. left. now apply (queued_started s).
      * intros o' Hn'. unfold upd. specialize (Hss o'). destruct (Nat.eqb_spec o' o) as [E|E]; auto.
        apply stat_eq in Hss. destruct Hss as (_ & _ & H & _). apply HC. congruence.
      * intros o' Hn'. specialize (Hss o'). destruct (Nat.eqb_spec o' o) as [E|E]; apply stat_eq in Hss; destruct Hss as (_ & _ & H & _).
        -- simpl in H. congruence.
        -- apply event_after_mono. apply HA. congruence.
      * intros o' Ho'. apply HQA'. now apply In_remove1 in Ho'.
    + rewrite Hcp. split; [exact HNs|split; [|split; [|exact HQA']]]; intros o' Hn'; specialize (Hss o');
        destruct (Nat.eqb_spec o' o) as [E|E]; apply stat_eq in Hss; destruct Hss as (_ & _ & H & _); simpl in H; subst;
        try (apply event_after_mono; apply HA; congruence); apply HC; congruence.
    + simpl in Hr. unfold r_resume in Hr. injection Hr as Hcp Hv. rewrite <- Hcp.
      split; [exact HNs|split; [|split; [|exact HQA']]]; intros o' Hn'; specialize (Hss o');
        destruct (Nat.eqb_spec o' o) as [E|E]; apply stat_eq in Hss; destruct Hss as (_ & _ & H & _); simpl in H; subst;
        try (apply event_after_mono; apply HA; congruence); apply HC; congruence.
  - rewrite Hcp. assert (Hkeep : starts es = [] /\ existsb is_raise es = false).
    { destruct Hes as [->|[[o ->]|[e ->]]]; auto. }
    destruct Hkeep as [Hk1 Hk2]. split; [|split; [|split]].
    + intros o'. rewrite starts_app, Hk1, app_nil_r. apply HN.
    + intros o' Hn'. specialize (Hss o'). apply stat_eq in Hss. destruct Hss as (_ & _ & H & _). apply HC. congruence.
    + intros o' Hn'. specialize (Hss o'). apply stat_eq in Hss. destruct Hss as (_ & _ & H & _). apply event_after_mono. apply HA. congruence.
    + intros o' Hin. destruct (queued_started s tr o' HJT Hin). rewrite event_after_snoc by auto. now rewrite (HQA o' Hin), Hk2.
  - simpl in Hp. unfold r_step in Hp. destruct pl as [|gl].
    + destruct (u_raise U (r_g (c_prim s))) as [g|]; try discriminate. destruct (forallb _ (r_q (c_prim s))); try discriminate.
      injection Hp as Hcp <- <-. rewrite <- Hcp. simpl. split; [|split; [|split]].
      * intros o'. rewrite starts_app. simpl. rewrite app_nil_r. intros Hni.
        destruct (memb o' (r_q (c_prim s))) eqn:Hm; [|now apply HN].
        apply memb_In in Hm. destruct Hni. now apply (queued_started s).
      * intros o' Hn'. specialize (Hss o'). destruct (memb o' (r_q (c_prim s))) eqn:Hm; apply stat_eq in Hss; destruct Hss as (_ & _ & H & _); simpl in H.
        -- congruence.
        -- apply HC. congruence.
      * intros o' Hn'. specialize (Hss o'). destruct (memb o' (r_q (c_prim s))) eqn:Hm; apply stat_eq in Hss; destruct Hss as (_ & _ & H & _); simpl in H.
        -- apply memb_In in Hm. rewrite event_after_snoc by (now apply (queued_started s)). simpl. apply orb_true_r.
        -- apply event_after_mono. apply HA. congruence.
      * tauto.
    + destruct (u_step U (r_g (c_prim s)) gl) as [g ges| |f ges]; try discriminate. injection Hp as Hcp <- <-. rewrite <- Hcp. cbn [r_q r_st r_g].
      assert (Hss' : forall o', stat P (c_op s' o') = stat P (c_op s o')) by (intros o'; exact (Hss o')).
      clear Hss. rename Hss' into Hss.
      split; [|split; [|split]].
      * intros o'. rewrite starts_app, starts_prim, app_nil_r. apply HN.
      * intros o' Hn'. specialize (Hss o'). apply stat_eq in Hss. destruct Hss as (_ & _ & H & _). apply HC. congruence.
      * intros o' Hn'. specialize (Hss o'). apply stat_eq in Hss. destruct Hss as (_ & _ & H & _). apply event_after_mono. apply HA. congruence.
      * intros o' Hin. destruct (queued_started s tr o' HJT Hin). rewrite event_after_snoc by auto. now rewrite (HQA o' Hin), existsb_eusers.
Qed.

Lemma RInv_init : RInv (c_init P) [].
Proof. split; [apply JT_init|]. simpl. repeat split; auto; try discriminate; tauto. Qed.

Lemma recurring_inv ls s tr : run step (c_init P) ls = Running s tr -> RInv s tr.
Proof. exact (run_inv step RInv (c_init P) RInv_init RInv_step ls s tr). Qed.

(** ** C09 *)
Lemma r_woken ls s tr o : run step (c_init P) ls = Running s tr -> all_returned s ->
  event_after is_raise o tr = true -> notified o tr = 1.
Proof.
  intros Hr Hret He. pose proof (recurring_inv ls s tr Hr) as (HJT & _ & _ & _ & HQA).
  pose proof HJT as [[HG (HD & HS & _)] _].
  assert (Hst : In o (starts tr)).
  { destruct (in_dec Nat.eq_dec o (starts tr)) as [H|H]; auto. rewrite event_after_unstarted in He by auto. discriminate. }
  destruct (quiescent _ _ _ s o HG Hret (proj2 (HS o) Hst)) as [Hd|(Hq & _)].
  - now rewrite HD, Hd.
  - pose proof HG as (_ & _ & (_ & HQ) & _). apply HQ in Hq. simpl in Hq. rewrite (HQA o Hq) in He. discriminate.
Qed.

(** pending at quiescence *)
Lemma r_pending ls s tr o : run step (c_init P) ls = Running s tr -> all_returned s -> started o tr ->
  notified o tr = 1 \/ (In o (r_q (c_prim s)) /\ event_after is_raise o tr = false /\ ~ cancel_requested o tr).
Proof.
  intros Hr Hret Hst. pose proof (recurring_inv ls s tr Hr) as (HJT & _ & _ & _ & HQA).
  pose proof HJT as [[HG HTI] _]. pose proof HTI as (HD & HS & _).
  destruct (quiescent _ _ _ s o HG Hret (proj2 (HS o) Hst)) as [Hd|(Hq & _ & Hnr)].
  - left. now rewrite HD, Hd.
  - right. pose proof HG as (_ & _ & (_ & HQ) & _). apply HQ in Hq. simpl in Hq. split; [auto|split; [auto|]].
    intros Hcr. destruct (requested_iff _ _ _ _ _ _ (conj HG HTI) Hcr) as (e & He1 & He2). rewrite (Hnr e He1) in He2. discriminate.
Qed.

(** ** What a receiver is told *)
Lemma r_report ls s tr1 o v tr2 : run step (c_init P) ls = Running s (tr1 ++ EDone (P:=P) o v :: tr2) ->
  exists ls1 s1, run step (c_init P) ls1 = Running s1 tr1 /\ RInv s1 tr1 /\
   ((v = u_out U (r_g (c_prim s1)) Awaited /\ event_after is_raise o tr1 = true /\ o_node (c_op s1 o) = NTaken) \/
    (v = u_out U (r_g (c_prim s1)) Cancelled /\ cancel_requested o tr1 /\ o_node (c_op s1 o) = NCancelled) \/
    (v = u_out U (r_g (c_prim s1)) CondFailed /\ exists w, o_fast (c_op s1 o) = Some w)).
Proof.
  intros Hr. destruct (run_split_done _ _ _ _ _ _ _ _ Hr) as (ls1 & l & ls2 & s1 & s2 & -> & Hr1 & Hs).
  exists ls1, s1. split; [exact Hr1|].
  pose proof (recurring_inv ls1 s1 tr1 Hr1) as HI. split; [exact HI|].
  destruct HI as (HJT & HN & HC & HA & HQA). pose proof (JT_reliable _ _ _ _ _ _ HJT) as HR.
  pose proof HJT as [HJ HTK]. pose proof HJ as [HG HTI].
  pose proof (step_effect _ _ _ _ _ _ _ HG HR Hs) as He.
  remember [EDone (P:=P) o v] as es eqn:Hes.
  destruct He as [s' o' tok a pes Hl Hn Hd Hst Hss|s' o' tok a v' pes Hl Hn Hd Hst Hss|s' o' es Hp|s' es Hcp Hss Hes'|s' pl taken pes Hp Htk Hss]; try discriminate.
  - destruct Hp as [s' Hcp Hss|s' e Hn Ht Hr' Htry Hss|s' v' Hf Hn Hd Hcp Hss|s' v' Hn Hd Hr' Hss]; try discriminate.
    + injection Hes as -> <-. right; right. split; [reflexivity|eauto].
    + injection Hes as -> ->. simpl in Hr'. unfold r_resume in Hr'. injection Hr' as Hcp Hv.
      destruct Hn as [Hn|Hn].
      * left. pose proof (HTK _ Hn) as Hpend. simpl in Hpend. rewrite Hpend in Hv. auto.
      * right; left. rewrite (HC _ Hn) in Hv. split; [auto|]. split; [|exact Hn].
        destruct (cancelled_requested _ _ _ s1 o HG Hn) as (e & He1 & He2).
        eapply requested_of; eauto. apply (node_started s1 tr1 o HJT). congruence.
  - exfalso. destruct Hes' as [->|[[o' ->]|[e ->]]]; discriminate.
  - destruct pes as [|? [|? ?]]; discriminate.
Qed.

(** The complete story of an operation that reported something. *)
Lemma r_result ls s t1 o tok a t2 v t3 :
  run step (c_init P) ls = Running s (t1 ++ EStart (P:=P) o tok a :: t2 ++ EDone (P:=P) o v :: t3) ->
  exists ls0 s0 ls1 s1, run step (c_init P) ls0 = Running s0 t1 /\
    run step (c_init P) ls1 = Running s1 (t1 ++ EStart (P:=P) o tok a :: t2) /\
   ((v = u_out U (r_g (c_prim s1)) Awaited /\ existsb is_raise t2 = true /\ u_cond U (r_g (c_prim s0)) a = Some true) \/
    (v = u_out U (r_g (c_prim s1)) Cancelled /\ cancel_requested o (t1 ++ EStart (P:=P) o tok a :: t2) /\ u_cond U (r_g (c_prim s0)) a = Some true) \/
    (v = u_out U (r_g (c_prim s1)) CondFailed /\ u_cond U (r_g (c_prim s0)) a = Some false)).
Proof.
  intros Hr.
  assert (Hr' : run step (c_init P) ls = Running s ((t1 ++ EStart (P:=P) o tok a :: t2) ++ EDone (P:=P) o v :: t3)) by (rewrite <- app_assoc; exact Hr).
  destruct (r_report _ _ _ _ _ _ Hr') as (ls1 & s1 & Hr1 & HI & Hcase).
  destruct (t_start_event _ _ _ recurring_tlaws _ _ _ _ _ _ _ Hr1) as (ls0 & s0 & Hr0 & _ & Hni & Hk).
  exists ls0, s0, ls1, s1. split; [exact Hr0|]. split; [exact Hr1|].
  destruct HI as (HJT & _). pose proof HJT as [[HG _] _]. simpl in Hk. unfold r_start in Hk.
  assert (Hq : u_cond U (r_g (c_prim s0)) a = Some true /\ o_node (c_op s1 o) <> NFresh \/
               u_cond U (r_g (c_prim s0)) a = Some false /\ exists w, o_fast (c_op s1 o) = Some w).
  { destruct Hk as [(ps & es & Hst & Hk)|(ps & w & es & Hst & Hk)];
    destruct (r_st (c_prim s0) o); try discriminate; destruct (u_cond U (r_g (c_prim s0)) a) as [[|]|]; try discriminate.
    - left. auto.
    - right. split; auto. exists w. exact Hk. }
  destruct Hcase as [(Hv & Hea & Hn)|[(Hv & Hcr & Hn)|(Hv & w & Hf)]].
  - left. rewrite event_after_new in Hea by auto. split; [exact Hv|split; [exact Hea|]].
    destruct Hq as [[H _]|[_ [w Hf]]]; [exact H|]. apply (fast_node _ _ _ s1 o w HG) in Hf. congruence.
  - right; left. split; [exact Hv|split; [exact Hcr|]].
    destruct Hq as [[H _]|[_ [w Hf]]]; [exact H|]. apply (fast_node _ _ _ s1 o w HG) in Hf. congruence.
  - right; right. split; [exact Hv|]. destruct Hq as [[_ H]|[H _]]; [|exact H].
    apply (fast_node _ _ _ s1 o w HG) in Hf. congruence.
Qed.

(** ** How the state of the code around changes *)
Definition is_prim (e : event P) : bool := match e with EPrim _ => true | _ => false end.

Inductive ueff (s s' : cst) (es : trace) : Prop :=
| ue_none : r_g (c_prim s') = r_g (c_prim s) -> existsb is_prim es = false ->
    (forall o, In o (r_q (c_prim s')) -> In o (r_q (c_prim s)) \/
       exists tok a, es = [EStart o tok a] /\ u_cond U (r_g (c_prim s)) a = Some true) -> ueff s s' es
| ue_raise : u_raise U (r_g (c_prim s)) = Some (r_g (c_prim s')) -> es = [EPrim (ERaise : PE P)] -> r_q (c_prim s') = [] -> ueff s s' es
| ue_user gl ges : u_step U (r_g (c_prim s)) gl = GOk (r_g (c_prim s')) ges -> es = map EPrim (map EUser ges : list (PE P)) ->
    r_q (c_prim s') = r_q (c_prim s) -> ueff s s' es.

Lemma r_ueff s tr l s' es : RInv s tr -> step s l = Next s' es -> ueff s s' es.
Proof.
  intros (HJT & HN & HC & HA & HQA) Hs. pose proof (JT_reliable _ _ _ _ _ _ HJT) as HR. pose proof HJT as [[HG HTI] HTK].
  pose proof (step_effect _ _ _ _ _ _ _ HG HR Hs) as He.
  pose proof HG as (_ & _ & ((HI1 & HI2) & HQ) & _). simpl in HQ.
  destruct He as [s' o tok a pes Hl Hn Hd Hst Hss|s' o tok a v pes Hl Hn Hd Hst Hss|s' o es Hp|s' es Hcp Hss Hes|s' pl taken pes Hp Htk Hss].
  - simpl in Hst. unfold r_start in Hst. destruct (r_st (c_prim s) o) eqn:Hso; try discriminate.
    destruct (u_cond U (r_g (c_prim s)) a) as [[|]|] eqn:Hc; try discriminate. injection Hst as Hcp <-.
    apply ue_none; rewrite <- ?Hcp; auto. cbn [r_q]. intros o' Ho'. apply In_snoc in Ho'. destruct Ho' as [H|H]; auto.
    subst o'. right. exists tok, a. auto.
  - simpl in Hst. unfold r_start in Hst. destruct (r_st (c_prim s) o) eqn:Hso; try discriminate.
    destruct (u_cond U (r_g (c_prim s)) a) as [[|]|] eqn:Hc; try discriminate. injection Hst as Hcp Hv <-.
    apply ue_none; rewrite <- ?Hcp; auto.
  - destruct Hp as [s' Hcp Hss|s' e Hn Ht Hr Htry Hss|s' v Hf Hn Hd Hcp Hss|s' v Hn Hd Hr Hss].
    + apply ue_none; rewrite ?Hcp; auto.
    + pose proof (proj2 (HQ o) Hn) as Hin. simpl in Htry. unfold r_try in Htry.
      rewrite (proj1 (HI2 o) Hin), (proj2 (memb_In _ _) Hin) in Htry. injection Htry as Hcp.
      apply ue_none; rewrite <- ?Hcp; auto. cbn [r_q]. intros o' Ho'. left. now apply In_remove1 in Ho'.
    + apply ue_none; rewrite ?Hcp; auto.
    + simpl in Hr. unfold r_resume in Hr. injection Hr as Hcp Hv. apply ue_none; rewrite <- ?Hcp; auto.
  - apply ue_none; rewrite ?Hcp; auto. destruct Hes as [->|[[o ->]|[e ->]]]; auto.
  - simpl in Hp. unfold r_step in Hp. destruct pl as [|gl].
    + destruct (u_raise U (r_g (c_prim s))) as [g|] eqn:Hu; try discriminate. destruct (forallb _ (r_q (c_prim s))); try discriminate.
      injection Hp as Hcp <- <-. apply ue_raise; rewrite <- ?Hcp; auto.
    + destruct (u_step U (r_g (c_prim s)) gl) as [g ges| |f ges] eqn:Hu; try discriminate. injection Hp as Hcp <- <-.
      apply ue_user with (gl := gl) (ges := ges); rewrite <- ?Hcp; auto.
Qed.

(** raise() never blocks or fails. *)
Lemma r_raise_enabled ls s tr g : run step (c_init P) ls = Running s tr -> u_raise U (r_g (c_prim s)) = Some g ->
  exists s', step s (LPrim (RRaise : PL P)) = Next s' [EPrim (ERaise : PE P)].
Proof.
  intros Hr Hu. pose proof (recurring_inv ls s tr Hr) as (HJT & _). pose proof HJT as [[HG _] _].
  pose proof HG as (_ & _ & ((HI1 & HI2) & HQ) & _). simpl. unfold r_step. rewrite Hu.
  assert (Hf : forallb (fun o => match r_st (c_prim s) o with RSubmitted => true | _ => false end) (r_q (c_prim s)) = true).
  { apply forallb_forall. intros o Ho. now rewrite (proj1 (HI2 o) Ho). }
  simpl. rewrite Hf. eexists. reflexivity.
Qed.

Lemma r_done_started ls s t1 o v t2 : run step (c_init P) ls = Running s (t1 ++ EDone (P:=P) o v :: t2) -> started o t1.
Proof. exact (t_done_started P recurring_laws eager recurring_tlaws ls s t1 o v t2). Qed.

Lemma r_woken_split ls s t1 o tok a t2 : run step (c_init P) ls = Running s (t1 ++ EStart (P:=P) o tok a :: t2) ->
  all_returned s -> In (EPrim (ERaise : PE P)) t2 -> notified o (t1 ++ EStart (P:=P) o tok a :: t2) = 1.
Proof.
  intros Hr Hret Hin. destruct (t_start_event _ _ _ recurring_tlaws _ _ _ _ _ _ _ Hr) as (ls0 & s0 & Hr0 & _ & Hni & _).
  apply (r_woken ls s _ o Hr Hret). rewrite event_after_new by auto. apply existsb_exists. eexists; split; [exact Hin|reflexivity].
Qed.

(** ** Failures *)
Lemma r_fail ls f tr : run step (c_init P) ls = Failed f tr ->
  (exists ls1 s tr1 o tok a, run step (c_init P) ls1 = Running s tr1 /\ f = AssertFailed /\ tr = tr1 ++ [EStart (P:=P) o tok a] /\ u_cond U (r_g (c_prim s)) a = None) \/
  (exists ls1 s tr1 gl es, run step (c_init P) ls1 = Running s tr1 /\ u_step U (r_g (c_prim s)) gl = GFail f es /\ tr = tr1 ++ map EPrim (map EUser es : list (PE P))) \/
  (eager = true /\ f = UseAfterFree /\ exists o, In (EDestroy o) tr /\ notified o tr = 1 /\ cancel_requested o tr).
Proof.
  intros Hr. pose proof (t_fail _ _ eager recurring_tlaws ls f tr Hr) as Hf.
  destruct Hf as [_|H]; [|auto].
  destruct (run_from_failed _ ls _ _ _ _ Hr) as (ls1 & l & s & tr1 & es & H1 & H2 & Htr).
  pose proof (recurring_inv ls1 s tr1 H1) as HI. pose proof HI as (HJT & HN & _). pose proof HJT as [[HG HTI] HTK].
  pose proof HTI as (HD & HS & _).
  pose proof HG as (_ & _ & ((HI1 & HI2) & HQ) & _).
  destruct (step_fail _ _ _ _ _ _ _ HG (JT_reliable _ _ _ _ _ _ HJT) H2) as [(o & tok & a & -> & Hl & Hst & He)|[(pl & pes & -> & Hp & He)|[(o & x & -> & Hp & Hres & He)|[(o & x & -> & Hp & Hnd & Htry & He)|(He & -> & o & x & -> & Hp & Hd & Ha)]]]].
  - left. exists ls1, s, tr1, o, tok, a. simpl in Hst. unfold r_start in Hst.
    rewrite HN in Hst by (rewrite <- HS; tauto). subst es.
    destruct (u_cond U (r_g (c_prim s)) a) as [[|]|] eqn:Hc; try discriminate. injection Hst as <-. auto.
  - right; left. simpl in Hp. unfold r_step in Hp. destruct pl as [|gl].
    + exfalso. destruct (u_raise U (r_g (c_prim s))) as [g|]; try discriminate.
      destruct (forallb (fun o => match r_st (c_prim s) o with RSubmitted => true | _ => false end) (r_q (c_prim s))) eqn:Hf; try discriminate.
      assert (Hf' : forallb (fun o => match r_st (c_prim s) o with RSubmitted => true | _ => false end) (r_q (c_prim s)) = true).
      { apply forallb_forall. intros o Ho. now rewrite (proj1 (HI2 o) Ho). }
      congruence.
    + destruct (u_step U (r_g (c_prim s)) gl) as [g ges| |f' ges] eqn:Hg; try discriminate. injection Hp as <- <-.
      exists ls1, s, tr1, gl, ges. subst es. auto.
  - discriminate.
  - exfalso. specialize (HTK o Hnd). simpl in HTK, Htry. unfold r_try in Htry. rewrite HTK in Htry. discriminate.
  - right; right. destruct (t_fail _ _ eager recurring_tlaws ls UseAfterFree tr Hr) as [(s0 & tr0 & l0 & es0 & HJ0 & Ht0 & Hs0 & Hpf)|H]; [|auto].
    split; auto. split; auto. simpl in H2. unfold path_step in H2. rewrite Hp, Ha in H2. simpl in H2. injection H2 as <-.
    exists o. rewrite Htr, app_nil_r. split; [apply (ainv _ eager ls1 s tr1 H1 o Ha)|]. split; [now rewrite HD, Hd|].
    destruct (unreg_requested _ _ _ s o x HG Hp Hd) as (e & Ht & Hreq).
    eapply requested_of; eauto. split; eauto. apply HS. intros Hl. destruct (fresh_facts _ _ _ s o HG Hl) as (_ & _ & _ & _ & Hd' & _). congruence.
Qed.

End Runs.
End Proofs.

(** ** A bare recurring_event *)
Section Plain.
Notation P := recurring.
Notation U := plain_user.

Lemma plain_awaited eager ls s t1 o tok b t2 t3 :
  run (step P eager) (c_init P) ls = Running s (t1 ++ EStart (P := P) o tok b :: t2 ++ EDone (P := P) o Awaited :: t3) ->
  b = true /\ existsb is_raise t2 = true.
Proof.
  intros Hr. destruct (r_result U eager _ _ _ _ _ _ _ _ _ Hr) as (_ & _ & _ & _ & _ & _ & [(_ & He & [= ->])|[([=] & _)|([=] & _)]]). auto.
Qed.

Lemma plain_condition eager ls s t1 o tok b t2 t3 :
  run (step P eager) (c_init P) ls = Running s (t1 ++ EStart (P := P) o tok b :: t2 ++ EDone (P := P) o CondFailed :: t3) ->
  b = false.
Proof.
  intros Hr. destruct (r_result U eager _ _ _ _ _ _ _ _ _ Hr) as (_ & _ & _ & _ & _ & _ & [([=] & _)|[([=] & _)|(_ & [= ->])]]). auto.
Qed.

Lemma plain_cancelled eager ls s t1 o tok b t2 t3 :
  run (step P eager) (c_init P) ls = Running s (t1 ++ EStart (P := P) o tok b :: t2 ++ EDone (P := P) o Cancelled :: t3) ->
  b = true /\ cancel_requested o (t1 ++ EStart (P := P) o tok b :: t2).
Proof.
  intros Hr. destruct (r_result U eager _ _ _ _ _ _ _ _ _ Hr) as (_ & _ & _ & _ & _ & _ & [([=] & _)|[(_ & He & [= ->])|([=] & _)]]). auto.
Qed.

Lemma plain_cancelled_requested eager ls s t1 o t2 :
  run (step P eager) (c_init P) ls = Running s (t1 ++ EDone (P := P) o Cancelled :: t2) -> cancel_requested o t1.
Proof.
  intros Hr. destruct (r_report U eager _ _ _ _ _ _ Hr) as (_ & _ & _ & _ & [([=] & _)|[(_ & He & _)|([=] & _)]]). auto.
Qed.

Lemma plain_awaited_raised eager ls s t1 o t2 :
  run (step P eager) (c_init P) ls = Running s (t1 ++ EDone (P := P) o Awaited :: t2) -> event_after is_raise o t1 = true.
Proof.
  intros Hr. destruct (r_report U eager _ _ _ _ _ _ Hr) as (_ & _ & _ & _ & [(_ & He & _)|[([=] & _)|([=] & _)]]). auto.
Qed.

Lemma cancel_requested_app {Q : prim} o (t1 t2 : list (event Q)) : cancel_requested o t1 -> cancel_requested o (t1 ++ t2).
Proof. intros (e & (a & Ha) & He). exists e. split; [exists a|]; apply in_app_iff; auto. Qed.

Lemma plain_default_token eager ls s tr o b v : run (step P eager) (c_init P) ls = Running s tr ->
  In (EStart (P := P) o None b) tr -> In (EDone (P := P) o v) tr -> v <> Cancelled.
Proof.
  intros Hr Hst Hd ->. apply in_split in Hd. destruct Hd as (t1 & t2 & ->).
  apply (t_default_token _ _ eager (recurring_tlaws U) ls s _ o b Hr Hst). apply cancel_requested_app.
  exact (plain_cancelled_requested eager ls s t1 o t2 Hr).
Qed.

Lemma plain_eager_fail ls f tr : run (step P true) (c_init P) ls = Failed f tr ->
  f = UseAfterFree /\ exists o, In (EDestroy o) tr /\ notified o tr = 1 /\ cancel_requested o tr.
Proof.
  intros Hr. destruct (r_fail U true ls f tr Hr) as [(? & ? & ? & ? & ? & ? & _ & _ & _ & [=])|[(? & ? & ? & [] & _)|(_ & H)]]. exact H.
Qed.

Lemma plain_safe ls f tr : run (step P false) (c_init P) ls <> Failed f tr.
Proof.
  intros Hr. destruct (r_fail U false ls f tr Hr) as [(? & ? & ? & ? & ? & ? & _ & _ & _ & [=])|[(? & ? & ? & [] & _)|([=] & _)]].
Qed.

Lemma plain_no_assert eager ls tr : run (step P eager) (c_init P) ls <> Failed AssertFailed tr.
Proof.
  intros Hr. destruct eager; [|now apply plain_safe in Hr]. apply plain_eager_fail in Hr. destruct Hr. discriminate.
Qed.

(** The run behind C04_recurring_refuted. *)
Lemma r_uaf : exists ls tr, run (step P true) (c_init P) ls = Failed UseAfterFree tr.
Proof.
  exists [LStart (P := P) 0 (Some 0) true; LPath 0 PathL; LPath 0 PathL; LPrim (RRaise : PL P); LWakeNext 0; LPath 0 PathP;
          LCancel 0; LCanNext 0; LPath 0 PathC; LPath 0 PathC; LPath 0 PathC; LDestroy 0; LPath 0 PathP].
  witness.
Qed.
End Plain.
