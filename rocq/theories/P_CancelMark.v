(** Invariant of cancellation_event: calls for one node. *)
From Coq Require Import List Arith Bool Lia.
From Verif Require Import Lts ListFacts M_Cancel S_Cancel P_Cancel P_CancelInv.
Import ListNotations.

Ltac crunch := repeat match goal with
  | H : True -> _ |- _ => specialize (H I)
  | H : ~ False -> _ |- _ => specialize (H (fun x => x))
  | H : ~ False |- _ => clear H
  | H : ~ True |- _ => destruct (H I)
  | H : ~ ~ True |- _ => clear H
  | H : True |- _ => clear H
  | H : False |- _ => destruct H
  | H : False -> _ |- _ => clear H
  | H : ~ True -> _ |- _ => clear H
  | H : _ -> True |- _ => clear H
  | H : False \/ _ |- _ => destruct H as [[]|H]
  | H : _ \/ False |- _ => destruct H as [H|[]]
  | H : _ /\ _ |- _ => destruct H
  | H : _ <-> _ |- _ => destruct H
  | H : ~ Is_true ?b |- _ => is_var b; destruct b; [destruct (H I)|clear H; cbn in *]
  | H : Is_true ?b |- _ => is_var b; destruct b; [clear H; cbn in *|destruct H]
  end.
Ltac okt H := destruct H; cbn in *; crunch; constructor; cbn; intros; crunch; repeat split; intros; crunch; try tauto.

(** detaching node [c] from _cbs, with event [ev], and with its end if [kill] *)
Lemma ki_erase s tr c e ev kill : KI s tr -> nlive s c = true -> n_tok (c_nd s c) = Some e -> e_req (c_ev s e) = false -> In c (e_cbs (c_ev s e)) ->
  (ev = KUnbind c /\ n_obs (c_nd s c) = false /\ kill = false \/ ev = KReset c true /\ n_obs (c_nd s c) = true /\ kill = false \/ ev = KDel c /\ n_obs (c_nd s c) = false /\ kill = true) ->
  let x := c_ev s e in let s1 := c_with_ev s e (CE (e_req x) (remove1 c (e_cbs x)) (e_lock x) (e_alive x)) in
  KI (if kill then c_kill s1 c else s1) (tr ++ [ev]).
Proof.
  intros HI Hl Ht Hrq Hin Hev x s1. set (s' := if kill then c_kill s1 c else s1).
  assert (Hnd : c_nd s' c = CN (if kill then LDead else LLive) (n_obs (c_nd s c)) (Some e)).
  { unfold s'. apply nlive_life in Hl. destruct kill; simpl; [now rewrite upd_same', Ht|]. destruct (c_nd s c); simpl in *; congruence. }
  assert (Hnd' : forall c', c' <> c -> c_nd s' c' = c_nd s c'). { intros c' Hn. unfold s'. destruct kill; simpl; auto. now rewrite upd_other'. }
  assert (Hevs : c_ev s' = c_ev s1) by (unfold s'; destruct kill; reflexivity).
  assert (Hfn : c_fns s' = c_fns s /\ c_loops s' = c_loops s) by (unfold s'; destruct kill; split; reflexivity). destruct Hfn as [Hfn Hlo].
  assert (Hab : forallb (about c) [ev] = true). { destruct Hev as [[-> _]|[[-> _]|[-> _]]]; simpl; now rewrite !Nat.eqb_refl. }
  destruct (about_facts_l tr c _ Hab) as (_ & _ & _ & Hcn).
  assert (He1 : forall e', e_req (c_ev s1 e') = e_req (c_ev s e') /\ e_alive (c_ev s1 e') = e_alive (c_ev s e') /\ e_lock (c_ev s1 e') = e_lock (c_ev s e') /\
    e_cbs (c_ev s1 e') = if e' =? e then remove1 c (e_cbs (c_ev s e)) else e_cbs (c_ev s e')).
  { unfold s1, x. simpl. updev e. }
  apply (ki_node s tr _ _ c HI Hab).
  - exact Hnd'.
  - intros e'. rewrite Hevs. destruct (He1 e') as (-> & -> & _). auto.
  - intros e' c' Hn. rewrite Hevs. destruct (He1 e') as (_ & _ & _ & ->). destruct (Nat.eqb_spec e' e) as [->|]; [|tauto]. rewrite <- !memb_In. now rewrite memb_remove1_other.
  - intros e'. rewrite Hevs. destruct (He1 e') as (_ & _ & _ & ->). destruct (Nat.eqb_spec e' e) as [->|Hn]; [intros _; now rewrite Hnd|]. intros H. apply (k_in _ _ HI) in H. congruence.
  - intros e'. rewrite Hevs. destruct (He1 e') as (_ & _ & _ & ->). destruct (Nat.eqb_spec e' e); [apply NoDup_remove1|]; apply HI.
  - unfold rests. now rewrite Hlo.
  - pose proof (k_ok _ _ HI c) as H. revert H. unfold vOK, fresh, nlive, inc, rq, cn, rests. rewrite Hnd, Hlo, Hevs, Ht. cbn [n_life n_obs n_tok some]. destruct (He1 e) as (-> & _ & _ & ->). rewrite Nat.eqb_refl.
    rewrite (memb_remove1_same c _ (k_nd _ _ HI e)), Hrq, Hcn. assert (Hm : memb c (e_cbs (c_ev s e)) = true) by now apply memb_In. rewrite Hm.
    apply nlive_life in Hl. rewrite Hl. rewrite nvw_app. cbn [fold_left]. fold (rests s). generalize (memb c (rests s)) (canc e tr).
    destruct (nvw c tr) as [t an ao u r f d xx xc cc ss]. intros rst can H. destruct Hev as [(-> & Ho & ->)|[(-> & Ho & ->)|(-> & Ho & ->)]]; rewrite Ho in *; cbn in H |- *; rewrite ?Nat.eqb_refl; rewrite ?orb_true_r, ?orb_false_r.
    all: clear - H; okt H.
  - rewrite nvw_app, Hnd. cbn [fold_left n_tok]. pose proof (k_tok _ _ HI c) as H. rewrite Ht in H. destruct Hev as [(-> & _)|[(-> & _)|(-> & _)]]; cbn; now rewrite Nat.eqb_refl.
  - apply uniq_keep; [|apply HI]. intros e'. destruct Hev as [(-> & _)|[(-> & _)|(-> & _)]]; intros [?|[[? ?]|?]]; discriminate.
  - right. now rewrite Hnd.
  - rewrite Hnd. intros _ e' [= <-]. now apply (k_alive _ _ HI c).
  - rewrite runs_app. replace (runs [ev]) with (@nil nat) by (destruct Hev as [[-> _]|[[-> _]|[-> _]]]; reflexivity). rewrite app_nil_r. apply HI.
  - rewrite Hfn. auto.
  - intros e'. rewrite Hfn, Hevs, (k_lock _ _ HI). destruct (He1 e') as (_ & _ & -> & _). reflexivity.
  - rewrite Hfn, Hlo. apply HI.
Qed.

(** calls for node [c] without effect on the lists *)
Lemma ki_mark s tr c ev kill : KI s tr -> nlive s c = true ->
  (ev = KUnbind c /\ n_obs (c_nd s c) = false /\ kill = false /\ (n_tok (c_nd s c) <> None -> rq s c = true) \/
   ev = KReset c true /\ n_obs (c_nd s c) = true /\ kill = false /\ n_tok (c_nd s c) = None \/
   ev = KReset c false /\ n_obs (c_nd s c) = true /\ kill = false /\ rq s c = true /\ ~ !(v_r (nvw c tr)) \/
   ev = KDel c /\ kill = true /\ (n_obs (c_nd s c) = false -> n_tok (c_nd s c) <> None -> rq s c = true) /\ (!(v_c (nvw c tr)) -> !(v_x (nvw c tr))) /\ (!(v_ao (nvw c tr)) -> !(v_r (nvw c tr)) \/ !(v_x (nvw c tr)))) ->
  KI (if kill then c_kill s c else s) (tr ++ [ev]).
Proof.
  intros HI Hl Hev. set (s' := if kill then c_kill s c else s).
  assert (Hnd : c_nd s' c = CN (if kill then LDead else LLive) (n_obs (c_nd s c)) (n_tok (c_nd s c))).
  { unfold s'. apply nlive_life in Hl. destruct kill; simpl; [now rewrite upd_same'|]. destruct (c_nd s c); simpl in *; congruence. }
  assert (Hnd' : forall c', c' <> c -> c_nd s' c' = c_nd s c'). { intros c' Hn. unfold s'. destruct kill; simpl; auto. now rewrite upd_other'. }
  assert (Hevs : c_ev s' = c_ev s) by (unfold s'; destruct kill; reflexivity).
  assert (Hfn : c_fns s' = c_fns s /\ c_loops s' = c_loops s) by (unfold s'; destruct kill; split; reflexivity). destruct Hfn as [Hfn Hlo].
  assert (Hab : forallb (about c) [ev] = true). { destruct Hev as [[-> _]|[[-> _]|[[-> _]|[-> _]]]]; simpl; now rewrite !Nat.eqb_refl. }
  destruct (about_facts_l tr c _ Hab) as (_ & _ & _ & Hcn).
  apply (ki_node s tr _ _ c HI Hab).
  - exact Hnd'.
  - intros e'. rewrite Hevs. auto.
  - intros e' c' Hn. rewrite Hevs. tauto.
  - intros e'. rewrite Hevs, Hnd. apply HI.
  - intros e'. rewrite Hevs. apply HI.
  - unfold rests. now rewrite Hlo.
  - pose proof (k_ok _ _ HI c) as H. revert H. unfold vOK. replace (inc s' c) with (inc s c) by (unfold inc; rewrite Hnd, Hevs; reflexivity).
    replace (rq s' c) with (rq s c) by (unfold rq; rewrite Hnd, Hevs; reflexivity). replace (cn s' (tr ++ [ev]) c) with (cn s tr c) by (unfold cn; rewrite Hnd; cbn [n_tok]; destruct (n_tok (c_nd s c)); auto).
    replace (rests s') with (rests s) by (unfold rests; now rewrite Hlo). assert (Hn : forall e, n_tok (c_nd s c) = Some e -> n_tok (c_nd s c) <> None) by congruence. unfold fresh, nlive. rewrite Hnd. cbn [n_life n_obs n_tok].
    apply nlive_life in Hl. rewrite Hl. rewrite nvw_app. cbn [fold_left].
    assert (Hh : forall P : Prop, (n_tok (c_nd s c) <> None -> rq s c = true) -> (~ !(some (n_tok (c_nd s c))) \/ rq s c = true)). { intros _ X. destruct (n_tok (c_nd s c)); simpl; [right; apply X; congruence|auto]. }
    assert (Hh2 : n_tok (c_nd s c) = None -> ~ !(some (n_tok (c_nd s c)))) by (intros ->; auto).
    revert Hev Hh Hh2. generalize (memb c (rests s)) (cn s tr c) (rq s c) (inc s c) (n_obs (c_nd s c)) (n_tok (c_nd s c)). clear. destruct (nvw c tr) as [t an ao u r f d xx xc cc ss]. intros rst can rq inc ob tok. generalize (some tok). intros has Hev Hh Hh2 H.
    destruct Hev as [(-> & -> & -> & E)|[(-> & -> & -> & E)|[(-> & -> & -> & -> & E)|(-> & -> & E & E1 & E2)]]]; cbn in H |- *; rewrite ?Nat.eqb_refl; rewrite ?orb_true_r, ?orb_false_r.
    + apply (Hh True) in E. clear Hh Hh2. destruct has; [destruct E as [[]| ->]; [exact I|]|]; okt H.
    + apply Hh2 in E. clear Hh Hh2. apply Ifl in E. subst has. okt H.
    + clear Hh Hh2. cbn in E. okt H.
    + clear Hh2. cbn in E1, E2. assert (E' : ob = false -> ~ !has \/ rq = true) by (intros X; exact (Hh True (E X))). clear Hh E. destruct ob; [clear E'|specialize (E' eq_refl); destruct has; [destruct E' as [[]| ->]; [exact I|]|clear E']]; okt H.
  - rewrite nvw_app, Hnd. cbn [fold_left n_tok]. pose proof (k_tok _ _ HI c) as H. destruct Hev as [[-> _]|[[-> _]|[[-> _]|[-> _]]]]; cbn; now rewrite Nat.eqb_refl.
  - apply uniq_keep; [|apply HI]. intros e'. destruct Hev as [[-> _]|[[-> _]|[[-> _]|[-> _]]]]; intros [?|[[? ?]|?]]; discriminate.
  - right. now rewrite Hnd.
  - rewrite Hnd. intros _ e' H. now apply (k_alive _ _ HI c).
  - rewrite runs_app. replace (runs [ev]) with (@nil nat) by (destruct Hev as [[-> _]|[[-> _]|[[-> _]|[-> _]]]]; reflexivity). rewrite app_nil_r. apply HI.
  - rewrite Hfn. auto.
  - intros e'. rewrite Hfn, Hevs. apply HI.
  - rewrite Hfn, Hlo. apply HI.
Qed.

Lemma ok_cancel fr lv ob inc rst rq cn v e : OK fr lv ob true inc rst rq cn v -> v_t v = Some e -> OK fr lv ob true false (rst || inc) true true (nvstep 0 v (KCancel e)).
Proof.
  intros H Ht. destruct v as [t an ao u r f d x xc c s]. cbn in *. rewrite Ht. cbn. rewrite Nat.eqb_refl. clear Ht.
  destruct inc.
  - rewrite orb_true_r. destruct H; cbn in *; crunch. assert (E : d = false) by (apply Ifl; tauto). subst d. destruct (an || ao) eqn:E; [|destruct an, ao; cbn in *; try discriminate; tauto].
    cbn. rewrite orb_true_r. constructor; cbn; tauto.
  - rewrite orb_false_r. destruct ((an || ao) && negb (u || r || d)) eqn:E.
    + rewrite orb_true_r. apply andb_true_iff in E. destruct E as [E1 E2]. apply negb_true_iff in E2. apply orb_false_iff in E2. destruct E2 as [E2 ->]. apply orb_false_iff in E2. destruct E2 as [-> ->].
      assert (Ha : !an \/ !ao) by (destruct an, ao; cbn; auto; discriminate). okt H.
    + rewrite orb_false_r. clear E. okt H.
Qed.
Lemma ok_reset fr lv ob inc rst rq cn v : OK fr lv ob true inc rst rq cn v -> rq = false \/ !(v_d v) -> OK fr lv ob true inc rst false cn v.
Proof. intros H [->|Hd]; auto. destruct v as [t an ao u r f d x xc c s]. cbn in *. okt H. Qed.
Lemma ok_run fr lv ob has inc rq cn v c h : OK fr lv ob has inc true rq cn v -> h <> HCtor -> OK fr lv ob has inc false rq cn (nvstep c v (KRun c h)).
Proof.
  intros H Hh. destruct v as [t an ao u r f d x xc cc s]. cbn in *. rewrite Nat.eqb_refl. cbn. replace (match h with HCtor => true | _ => false end) with false by (destruct h; congruence). rewrite orb_false_r. okt H.
Qed.
