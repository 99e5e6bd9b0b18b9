(** Proofs about M_WaitLife. *)
From Coq Require Import List Arith Bool Lia.
From Verif Require Import Lts ListFacts M_Wait S_Wait M_Recurring M_WaitGroup S_WaitGroup P_WaitView P_Wait P_WaitGroup M_WaitLife S_WaitLife.
Import ListNotations.

Section Proofs.
Variable P : prim.
Variable W : laws P.
Variable eager : bool.
Variable T : tlaws P W.
Variable L : lifeof P.
Variable early : bool.
Notation cst := (cst P).
Notation JT := (JT P W eager T).
Notation GInv := (GInv P W eager).
Notation view_of := (view_of P).
Notation brun := (run (step P eager) (c_init P)).
Notation frun := (run (life_step P L eager early) (f_init P)).

Lemma waits_app (t1 t2 : list (fevent P)) : waits_of (t1 ++ t2) = waits_of t1 ++ waits_of t2.
Proof. induction t1 as [|x t1 IH]; simpl; auto. destruct x; simpl; auto. now rewrite IH. Qed.
Lemma waits_map (es : list (event P)) : waits_of (map FE es) = es.
Proof. induction es as [|x es IH]; simpl; auto. now rewrite IH. Qed.
Lemma steps_app (l1 l2 : list (flabel P)) : steps_of (l1 ++ l2) = steps_of l1 ++ steps_of l2.
Proof. induction l1 as [|x l1 IH]; simpl; auto. destruct x; simpl; auto. now rewrite IH. Qed.

(** ** The run without the destructions *)
Lemma sim_from ls : forall h tr h' tr', run_from (life_step P L eager early) h tr ls = Running h' tr' ->
  run_from (step P eager) (f_base h) (waits_of tr) (steps_of ls) = Running (f_base h') (waits_of tr').
Proof.
  induction ls as [|l ls IH]; intros h tr h' tr' Hr; simpl in Hr.
  - injection Hr as <- <-. reflexivity.
  - destruct (life_step P L eager early h l) as [h1 es| |f es] eqn:Hs; try discriminate. specialize (IH _ _ _ _ Hr).
    rewrite waits_app in IH. destruct l as [l|e|]; simpl in *.
    + destruct (bad_call P L h l); try discriminate. destruct (step P eager (f_base h) l) as [s1 es1| |f es1]; try discriminate.
      destruct (bad_use P L h l); try discriminate. injection Hs as <- <-. simpl in IH. rewrite waits_map in IH. exact IH.
    + destruct (negb (f_ev h e) && _); try discriminate. destruct (e_cbs (c_ev (f_base h) e)); try discriminate.
      injection Hs as <- <-. simpl in IH. now rewrite app_nil_r in IH.
    + destruct (negb (f_pr h) && _ && _); try discriminate. injection Hs as <- <-. simpl in IH. now rewrite app_nil_r in IH.
Qed.

Lemma sim_run ls h tr : frun ls = Running h tr -> brun (steps_of ls) = Running (f_base h) (waits_of tr).
Proof. exact (sim_from ls (f_init P) [] h tr). Qed.

(** ** Facts about single operations *)
Definition over (v : view) : bool := v_done v && (early || (ended (v_l v) && ended (v_p v))).

Lemma over_stays s l s' es o : GInv s -> reliable P s -> step P eager s l = Next s' es -> over (view_of s o) = true -> over (view_of s' o) = true.
Proof.
  intros HG HR Hs Ho. pose proof (step_sim _ _ _ _ _ _ _ HG HR Hs o) as Hv. destruct HG as [HV _]. specialize (HV o).
  destruct Hv as [[-> _]|(vl & Hl & Hv)]; auto.
  pose (Q := fun v => negb (over v) || forallb (fun l => match vstep eager v l with Next v' _ => over v' | _ => true end) vlabels).
  assert (HQ : forallb Q (R eager) = true) by (unfold Q, over; destruct eager, early; vm_compute; reflexivity).
  pose proof (R_check Q eager HQ _ HV) as H. unfold Q in H. rewrite Ho in H. cbn [negb orb] in H. rewrite forallb_forall in H.
  specialize (H vl Hl). rewrite Hv in H. exact H.
Qed.

Lemma done_stays s l s' es o : GInv s -> reliable P s -> step P eager s l = Next s' es -> o_done (c_op s o) = true -> o_done (c_op s' o) = true.
Proof.
  intros HG HR Hs Ho. pose proof (step_sim _ _ _ _ _ _ _ HG HR Hs o) as Hv. destruct HG as [HV _]. specialize (HV o).
  change (v_done (view_of s o) = true) in Ho. change (v_done (view_of s' o) = true).
  destruct Hv as [[-> _]|(vl & Hl & Hv)]; auto.
  pose (Q := fun v => negb (v_done v) || forallb (fun l => match vstep eager v l with Next v' _ => v_done v' | _ => true end) vlabels).
  assert (HQ : forallb Q (R eager) = true) by (destruct eager; vm_compute; reflexivity).
  pose proof (R_check Q eager HQ _ HV) as H. unfold Q in H. rewrite Ho in H. cbn [negb orb] in H. rewrite forallb_forall in H.
  specialize (H vl Hl). rewrite Hv in H. exact H.
Qed.

Lemma start_event s l s' es o tok a : step P eager s l = Next s' es -> In (EStart o tok a) es -> l = LStart o tok a.
Proof.
  intros Hs Hin. destruct l as [o' tok' a'|o' x|e|k|k|pl|o']; simpl in Hs.
  - destruct (o_l (c_op s o')); try discriminate.
    destruct (p_start P (c_prim s) o' a'); try discriminate; injection Hs as <- <-;
      (destruct Hin as [Hin|Hin]; [congruence|exfalso; eapply In_prim_start; eauto]).
  - unfold path_step in Hs.
    repeat match type of Hs with context [match ?x with _ => _ end] => destruct x eqn:?; try discriminate end;
    injection Hs as <- <-; simpl in Hin; intuition discriminate.
  - injection Hs as <- <-. simpl in Hin. intuition discriminate.
  - repeat match type of Hs with context [match ?x with _ => _ end] => destruct x eqn:?; try discriminate end;
    injection Hs as <- <-; destruct Hin.
  - repeat match type of Hs with context [match ?x with _ => _ end] => destruct x eqn:?; try discriminate end;
    injection Hs as <- <-; destruct Hin.
  - destruct (p_step P (c_prim s) pl); try discriminate. injection Hs as <- <-. exfalso; eapply In_prim_start; eauto.
  - destruct (_ && _); try discriminate. injection Hs as <- <-. simpl in Hin. intuition discriminate.
Qed.

(** An activity that accesses the primitive belongs to a wait that was started and not notified. *)
Lemma prim_pc s o x : GInv s -> (get_pc x (c_op s o) = PTry \/ get_pc x (c_op s o) = PResume \/ get_pc x (c_op s o) = PFast) ->
  o_done (c_op s o) = false /\ o_l (c_op s o) <> PIdle.
Proof.
  intros [HV _] Hp. specialize (HV o).
  pose (Q := fun v => match v_pc x v with PTry | PResume | PFast => negb (v_done v) && match v_l v with PIdle => false | _ => true end | _ => true end).
  assert (HQ : forallb Q (R eager) = true) by (destruct eager, x; vm_compute; reflexivity).
  pose proof (R_check Q eager HQ _ HV) as H. unfold Q in H. rewrite v_pc_view in H.
  assert (H' : negb (o_done (c_op s o)) && match o_l (c_op s o) with PIdle => false | _ => true end = true)
    by (destruct Hp as [Hp|[Hp|Hp]]; rewrite Hp in H; exact H).
  apply andb_prop in H'. destruct H' as [H1 H2]. split; [now apply negb_true_iff|]. intros Hl. rewrite Hl in H2. discriminate.
Qed.

(** So does one that accesses the event, unless complete() or listen() find that cancel() was called. *)
Lemma event_pc s o x : GInv s -> (get_pc x (c_op s o) = PListen \/ get_pc x (c_op s o) = PUnreg) ->
  o_l (c_op s o) <> PIdle /\ ended_lp P (c_op s o) = false /\ (o_done (c_op s o) = true -> get_pc x (c_op s o) = PUnreg).
Proof.
  intros [HV _] Hp. specialize (HV o).
  pose (Q := fun v => match v_pc x v with
    | PListen => negb (v_done v) && negb (ended (v_l v) && ended (v_p v)) && match v_l v with PIdle => false | _ => true end
    | PUnreg => negb (ended (v_l v) && ended (v_p v)) && match v_l v with PIdle => false | _ => true end
    | _ => true end).
  assert (HQ : forallb Q (R eager) = true) by (destruct eager, x; vm_compute; reflexivity).
  pose proof (R_check Q eager HQ _ HV) as H. unfold Q in H. rewrite v_pc_view in H. unfold ended_lp. destruct Hp as [Hp|Hp]; rewrite Hp in *; simpl in H.
  - apply andb_prop in H. destruct H as [H H3]. apply andb_prop in H. destruct H as [H1 H2]. apply negb_true_iff in H1, H2.
    split; [intros Hl; rewrite Hl in H3; discriminate|]. split; [exact H2|]. congruence.
  - apply andb_prop in H. destruct H as [H2 H3]. apply negb_true_iff in H2.
    split; [intros Hl; rewrite Hl in H3; discriminate|]. split; [exact H2|]. auto.
Qed.

(** ** The invariant *)
Variable C : list (event P) -> Prop.                (* a rule for the clients *)
Hypothesis Cpre : forall tr es, C (tr ++ es) -> C tr.
Variable D : PS P -> Prop.                          (* the primitive when it was destroyed *)
Hypothesis Hmay : forall ls s tr, brun ls = Running s tr -> C tr -> lf_may L (c_prim s) = true -> D (c_prim s).
Hypothesis Hnone : forall ps pl ps' taken es, D ps -> lf_acc L ps pl = ANone -> p_step P ps pl = POk ps' taken es -> D ps'.
Hypothesis Huse : forall ls s tr pl, brun ls = Running s tr -> D (c_prim s) -> lf_acc L (c_prim s) pl = AUse ->
  match p_step P (c_prim s) pl with POk _ _ es => ~ C (tr ++ map EPrim es) | PNo => True | PFail _ es => ~ C (tr ++ map EPrim es) end.

Definition FInv (h : life P) (tr : list (fevent P)) : Prop :=
  (exists ls, brun ls = Running (f_base h) (waits_of tr)) /\
  (forall o, In o (f_ops h) <-> In o (starts (waits_of tr))) /\
  (forall e, f_ev h e = true -> In (EDelEv e) tr /\
     forall o a, In (EStart o (Some e) a) (waits_of tr) -> over (view_of (f_base h) o) = true) /\
  (f_pr h = true -> (forall o, In o (starts (waits_of tr)) -> o_done (c_op (f_base h) o) = true) /\ D (c_prim (f_base h))).

Lemma FInv_init : FInv (f_init P) [].
Proof. split; [exists []; reflexivity|]. split; [simpl; tauto|]. split; simpl; discriminate. Qed.

(** after the destruction of the primitive its state only changes by steps that do not access it *)
Lemma dead_prim h tr l s' es : FInv h tr -> f_pr h = true -> bad_call P L h l = false -> bad_use P L h l = false ->
  step P eager (f_base h) l = Next s' es -> D (c_prim s').
Proof.
  intros (_ & _ & _ & HP) Hd Hc Hu Hs. destruct (HP Hd) as [Hdone HD].
  destruct l as [o tok a|o x|e|k|k|pl|o]; simpl in *.
  - now rewrite Hd in Hc.
  - unfold path_step in Hs. rewrite Hd in Hu.
    repeat match type of Hs with context [match ?x with _ => _ end] => destruct x eqn:?; try discriminate end;
    injection Hs as <- <-; simpl; auto.
  - injection Hs as <- <-. exact HD.
  - repeat match type of Hs with context [match ?x with _ => _ end] => destruct x eqn:?; try discriminate end;
    injection Hs as <- <-; simpl; auto.
  - repeat match type of Hs with context [match ?x with _ => _ end] => destruct x eqn:?; try discriminate end;
    injection Hs as <- <-; simpl; auto.
  - rewrite Hd in Hc, Hu. simpl in Hc, Hu. destruct (p_step P (c_prim (f_base h)) pl) as [ps taken es0| |] eqn:Hp; try discriminate.
    injection Hs as <- <-. simpl. destruct (lf_acc L (c_prim (f_base h)) pl) eqn:Ha; try discriminate. eapply Hnone; eauto.
  - destruct (_ && _); try discriminate. injection Hs as <- <-. exact HD.
Qed.

Lemma FInv_step h tr l h' es : FInv h tr -> life_step P L eager early h l = Next h' es -> C (waits_of (tr ++ es)) -> FInv h' (tr ++ es).
Proof.
  intros HF Hs HC. pose proof HF as ((ls & Hls) & HO & HE & HP).
  pose proof (jt_inv _ _ _ T _ _ _ Hls) as HJ. pose proof (JT_reliable _ _ _ _ _ _ HJ) as HR. pose proof HJ as [[HG HT] _].
  rewrite waits_app in HC.
  destruct l as [l|e|]; simpl in Hs.
  - destruct (bad_call P L h l) eqn:Hc; try discriminate.
    destruct (step P eager (f_base h) l) as [s1 es1| |f es1] eqn:Hst; try discriminate.
    destruct (bad_use P L h l) eqn:Hu; try discriminate. injection Hs as <- <-. rewrite waits_map in HC.
    assert (Hstart : forall o, f_pr h = true -> In o (starts (waits_of (tr ++ map FE es1))) -> In o (starts (waits_of tr))).
    { intros o Hd Hin. rewrite waits_app, waits_map, starts_app, in_app_iff in Hin. destruct Hin as [|Hin]; auto.
      apply starts_In in Hin. destruct Hin as (tok & a & Hin). rewrite (start_event _ _ _ _ _ _ _ Hst Hin) in Hc. simpl in Hc.
      rewrite Hd in Hc. discriminate. }
    split; [|split; [|split]].
    + exists (ls ++ [l]). unfold run in *. rewrite run_from_app, Hls. simpl. rewrite Hst, waits_app, waits_map. reflexivity.
    + intros o. simpl. rewrite waits_app, waits_map, starts_app, in_app_iff, <- HO.
      assert (Heq : In o (note_start P l (f_ops h)) <-> In o (f_ops h) \/ In o (starts es1)).
      { split.
        - destruct l as [o' tok a| | | | | |]; simpl; auto. intros [->|Hin]; auto. right. simpl in Hst.
          destruct (o_l (c_op (f_base h) o)); try discriminate.
          destruct (p_start P (c_prim (f_base h)) o a); try discriminate; injection Hst as <- <-; simpl; auto.
        - intros [Hin|Hin]; [destruct l; simpl; auto|]. apply starts_In in Hin. destruct Hin as (tok & a & Hin).
          rewrite (start_event _ _ _ _ _ _ _ Hst Hin). simpl. auto. }
      exact Heq.
    + simpl. intros e He. destruct (HE e He) as [H1 H2]. split; [apply in_app_iff; auto|]. intros o a Hin.
      rewrite waits_app, waits_map, in_app_iff in Hin. destruct Hin as [Hin|Hin].
      * eapply over_stays; eauto.
      * rewrite (start_event _ _ _ _ _ _ _ Hst Hin) in Hc. simpl in Hc. rewrite He, orb_true_r in Hc. discriminate.
    + simpl. intros Hd. destruct (HP Hd) as [H1 H2]. split.
      * intros o Hin. eapply done_stays; eauto.
      * eapply dead_prim; eauto.
  - destruct (negb (f_ev h e) && _) eqn:Hb; try discriminate. destruct (e_cbs (c_ev (f_base h) e)); try discriminate.
    injection Hs as <- <-. apply andb_prop in Hb. destruct Hb as [_ Hb]. rewrite forallb_forall in Hb.
    unfold FInv. simpl. rewrite waits_app. simpl. rewrite app_nil_r.
    split; [eauto|]. split; [exact HO|]. split; [|exact HP]. intros e' He'. unfold upd in He'. destruct (Nat.eqb_spec e' e) as [E|Hne]; [subst e'|].
    + split; [apply in_app_iff; right; now left|]. intros o a Hin.
      assert (Hst : In o (starts (waits_of tr))) by (apply starts_In; eauto). apply HO in Hst. specialize (Hb _ Hst). simpl in Hb.
      destruct HT as (_ & _ & _ & Htok & _). unfold uses_tok in Hb.
      rewrite (Htok _ _ _ Hin), Nat.eqb_refl in Hb. exact Hb.
    + destruct (HE e' He') as [H1 H2]. split; [apply in_app_iff; auto|exact H2].
  - destruct (negb (f_pr h) && _ && _) eqn:Hb; try discriminate. injection Hs as <- <-.
    apply andb_prop in Hb. destruct Hb as [Hb Hdone]. apply andb_prop in Hb. destruct Hb as [_ Hm]. rewrite forallb_forall in Hdone.
    unfold FInv. simpl. rewrite waits_app. simpl. rewrite app_nil_r. simpl in HC. rewrite app_nil_r in HC.
    split; [eauto|]. split; [exact HO|]. split.
    + intros e He. destruct (HE e He) as [H1 H2]. split; [apply in_app_iff; auto|exact H2].
    + intros _. split; [|eapply Hmay; eauto]. intros o Hin. apply Hdone. now apply HO.
Qed.

Lemma life_inv ls h tr : frun ls = Running h tr -> C (waits_of tr) -> FInv h tr.
Proof.
  intros Hr HC. refine (run_inv_client _ (fun tr => C (waits_of tr)) FInv _ _ FInv_init _ ls h tr Hr HC).
  - intros t1 t2 H. rewrite waits_app in H. eauto.
  - intros. eapply FInv_step; eauto.
Qed.

(** ** Failures *)
Lemma life_fail ls f tr : frun ls = Failed f tr -> C (waits_of tr) ->
  brun (steps_of ls) = Failed f (waits_of tr) \/
  (early = true /\ f = UseAfterFree /\ exists o e a, In (EDelEv e) tr /\ In (EStart o (Some e) a) (waits_of tr) /\
     In (ECancel e) (waits_of tr) /\ notified o (waits_of tr) = 1).
Proof.
  intros Hr HC.
  assert (Hsplit : exists ls1 l ls2 h tr1 es, ls = ls1 ++ l :: ls2 /\ frun ls1 = Running h tr1 /\ life_step P L eager early h l = Fail f es /\ tr = tr1 ++ es).
  { clear HC. unfold run in *. revert Hr. generalize (f_init P) as h0. generalize (@nil (fevent P)) as t0.
    induction ls as [|l ls IH]; intros t0 h0 Hr; simpl in Hr; [discriminate|].
    destruct (life_step P L eager early h0 l) as [h1 es| |f1 es] eqn:Hs; try discriminate.
    - destruct (IH _ _ Hr) as (ls1 & l1 & ls2 & h & tr1 & es1 & -> & H1 & H2 & H3).
      exists (l :: ls1), l1, ls2, h, tr1, es1. split; [reflexivity|]. split; [simpl; rewrite Hs; exact H1|]. auto.
    - injection Hr as <- <-. exists [], l, ls, h0, t0, es. auto. }
  destruct Hsplit as (ls1 & l & ls2 & h & tr1 & es & -> & Hr1 & Hs & ->).
  rewrite waits_app in HC |- *. pose proof (sim_run _ _ _ Hr1) as Hb.
  pose proof (life_inv _ _ _ Hr1 (Cpre _ _ HC)) as HF. pose proof HF as (_ & HO & HE & HP).
  pose proof (jt_inv _ _ _ T _ _ _ Hb) as HJ. pose proof HJ as [HJ0 _]. pose proof HJ0 as [HG HT].
  pose proof HT as (HTd & HTs & _ & HTt & HTc).
  destruct l as [l|e|]; simpl in Hs.
  - assert (Hbase : forall s', step P eager (f_base h) l = Fail f s' -> es = map FE s' ->
      brun (steps_of (ls1 ++ FStep l :: ls2)) = Failed f (waits_of tr1 ++ waits_of es)).
    { intros es0 Hst ->. rewrite steps_app, waits_map. simpl. unfold run in *. rewrite run_from_app, Hb. simpl. now rewrite Hst. }
    destruct (bad_call P L h l) eqn:Hc; try discriminate.
    destruct (bad_use P L h l) eqn:Hu.
    + right. assert (Hes : f = UseAfterFree /\ ((exists s' es0, step P eager (f_base h) l = Next s' es0 /\ es = map FE es0) \/
                                              (exists f' es0, step P eager (f_base h) l = Fail f' es0 /\ es = map FE es0))).
      { destruct (step P eager (f_base h) l); try discriminate; injection Hs as <- <-; eauto 8. }
      destruct Hes as [-> Hes].
      destruct l as [o tok a|o x|e|k|k|pl|o]; simpl in Hu; try discriminate.
      * destruct (get_pc x (c_op (f_base h) o)) eqn:Hpc; try discriminate.
        -- exfalso. destruct (prim_pc _ o x HG) as [H1 H2]; [auto|]. destruct (HP Hu) as [H3 _]. rewrite H3 in H1; [discriminate|]. now apply HTs.
        -- exfalso. destruct (event_pc _ o x HG) as (H1 & H2 & H3); [auto|]. apply HTs in H1. apply starts_In in H1. destruct H1 as (tok & a & Hin).
           rewrite (HTt _ _ _ Hin) in Hu. destruct tok as [e|]; [|discriminate]. simpl in Hu. destruct (HE e Hu) as [_ H4].
           specialize (H4 _ _ Hin). unfold over in H4. apply andb_prop in H4. destruct H4 as [H4 _]. simpl in H4. specialize (H3 H4). congruence.
        -- exfalso. destruct (prim_pc _ o x HG) as [H1 H2]; [auto|]. destruct (HP Hu) as [H3 _]. rewrite H3 in H1; [discriminate|]. now apply HTs.
        -- destruct (event_pc _ o x HG) as (H1 & H2 & H3); [auto|]. apply HTs in H1. apply starts_In in H1. destruct H1 as (tok & a & Hin).
           pose proof (HTt _ _ _ Hin) as Htok. rewrite Htok in Hu. destruct tok as [e|]; [|discriminate]. simpl in Hu. destruct (HE e Hu) as [Hdel H4].
           specialize (H4 _ _ Hin). unfold over in H4. apply andb_prop in H4. destruct H4 as [H4 H5]. simpl in H4, H5.
           unfold ended_lp in H2. rewrite H2, orb_false_r in H5. split; [exact H5|]. split; [reflexivity|].
           destruct (unreg_requested _ _ _ _ _ _ HG Hpc H4) as (e' & He' & Hreq). rewrite Htok in He'. injection He' as <-.
           apply HTc in Hreq. exists o, e, a. rewrite !in_app_iff. split; [auto|]. split; [auto|]. split; [auto|].
           rewrite ndone_app, HTd, H4.
           assert (Hz : waits_of es = []).
           { destruct Hes as [(s' & es0 & Hst & ->)|(f' & es0 & Hst & ->)]; rewrite waits_map; simpl in Hst; unfold path_step in Hst; rewrite Hpc in Hst;
             repeat match type of Hst with context [match ?x with _ => _ end] => destruct x; try discriminate end; injection Hst; auto. }
           rewrite Hz. reflexivity.
        -- exfalso. destruct (prim_pc _ o x HG) as [H1 H2]; [auto|]. destruct (HP Hu) as [H3 _]. rewrite H3 in H1; [discriminate|]. now apply HTs.
      * exfalso. apply andb_prop in Hu. destruct Hu as [Hd Ha]. destruct (lf_acc L (c_prim (f_base h)) pl) eqn:Hacc; try discriminate.
        destruct (HP Hd) as [_ HD]. pose proof (Huse _ _ _ pl Hb HD Hacc) as Hx.
        destruct Hes as [(s' & es0 & Hst & ->)|(f' & es0 & Hst & ->)]; rewrite waits_map in HC; simpl in Hst;
        destruct (p_step P (c_prim (f_base h)) pl); try discriminate; injection Hst as <- <-; auto.
    + left. destruct (step P eager (f_base h) l) as [s' es0| |f' es0] eqn:Hst; try discriminate. injection Hs as <- <-. eapply Hbase; eauto.
  - exfalso. destruct (negb (f_ev h e) && _) eqn:Hg; try discriminate. destruct (e_cbs (c_ev (f_base h) e)) as [|o q] eqn:Hq; try discriminate.
    apply andb_prop in Hg. destruct Hg as [_ Hg]. rewrite forallb_forall in Hg.
    assert (Hin : In o (e_cbs (c_ev (f_base h) e))) by (rewrite Hq; now left).
    pose proof HG as (_ & Htok & _). pose proof (Htok _ _ Hin) as Ht.
    assert (Hl : o_l (c_op (f_base h) o) <> PIdle).
    { intros Hl. destruct (fresh_facts _ _ _ _ o HG Hl) as (_ & Hn & _). congruence. }
    apply HTs in Hl. apply HO in Hl. specialize (Hg _ Hl). simpl in Hg. unfold uses_tok in Hg. rewrite Ht, Nat.eqb_refl in Hg. simpl in Hg.
    apply andb_prop in Hg. destruct Hg as [Hd _]. exact (done_unregistered _ _ _ _ _ e HG Hd Hin).
  - destruct (negb (f_pr h) && _ && _); discriminate.
Qed.

(** Destroying events late enough changes nothing. *)
Lemma life_same ls : frun ls <> Stuck -> C (waits_of (events_of (frun ls))) -> early = false -> undeleted (frun ls) = brun (steps_of ls).
Proof.
  intros HS HC He. destruct (frun ls) as [h tr| |f tr] eqn:Hr; simpl in *; [|congruence|].
  - symmetry. now apply sim_run.
  - destruct (life_fail _ _ _ Hr HC) as [H|[H _]]; [auto|congruence].
Qed.

End Proofs.

(** * The primitives *)
Section WaitGroup.
Variable V : Type.
Variable n0 : nat.
Variable eager : bool.
Notation P := (wait_group V n0).

Lemma wg_rule_pre (tr es : list (event P)) : wg_rule (tr ++ es) -> wg_rule tr.
Proof. intros H t1 t2 ->. apply (H t1 (t2 ++ es)). now rewrite app_assoc. Qed.

Definition wg_gone (s : PS P) : Prop := w_ctr s = 0 /\ forall k w d, nth_error (w_dn s) k = Some (w, d) -> d = DOut \/ d = DEnd.

Lemma wg_may ls s tr : run (step P eager) (c_init P) ls = Running s tr -> wg_rule tr -> lf_may (wait_group_life V n0) (c_prim s) = true -> wg_gone (c_prim s).
Proof.
  intros Hr HC Hm. simpl in Hm. apply Nat.eqb_eq in Hm. split; [exact Hm|].
  destruct (wg_inv_run _ _ _ _ _ _ Hr) as (_ & (HA & _) & _). pose proof (HC tr [] (eq_sym (app_nil_r tr))) as Hd.
  assert (Hp : pending V (c_prim s) = 0) by lia. intros k w d Hk.
  pose proof (sum_set_nth_eq (pend V) _ _ (w, DEnd) _ Hk) as Hx. unfold pending in Hp. rewrite Hp in Hx. unfold pend at 2 3 in Hx. simpl in Hx.
  destruct d; auto; lia.
Qed.

Lemma wg_none ps pl ps' taken es : wg_gone ps -> lf_acc (wait_group_life V n0) ps pl = ANone -> p_step P ps pl = POk ps' taken es -> wg_gone ps'.
Proof.
  intros [H1 H2] Ha Hs. destruct pl as [n| |k|i|i v]; simpl in Ha; try discriminate.
  destruct (nth_error (w_dn ps) k) as [[w d]|] eqn:Hk; try discriminate. destruct d; try discriminate.
  simpl in Hs. unfold done_step in Hs. rewrite Hk in Hs. destruct w as [[i v]|]; try discriminate. injection Hs as <- <- <-.
  split; [exact H1|]. simpl. intros k' w' d' Hk'. destruct (Nat.eq_dec k' k) as [E|E].
  - subst k'. rewrite (nth_error_set_nth_same _ _ _ _ Hk) in Hk'. injection Hk' as _ <-. auto.
  - rewrite nth_error_set_nth_other in Hk' by auto. eauto.
Qed.

Lemma wg_use ls s tr pl : run (step P eager) (c_init P) ls = Running s tr -> wg_gone (c_prim s) -> lf_acc (wait_group_life V n0) (c_prim s) pl = AUse ->
  match p_step P (c_prim s) pl with POk _ _ es => ~ wg_rule (tr ++ map EPrim es) | PNo => True | PFail _ es => ~ wg_rule (tr ++ map EPrim es) end.
Proof.
  intros Hr [H1 H2] Ha. destruct pl as [n| |k|i|i v]; simpl in Ha; try discriminate.
  - simpl. unfold done_step. destruct (nth_error (w_dn (c_prim s)) k) as [[w d]|] eqn:Hk; auto.
    destruct (H2 _ _ _ Hk) as [->| ->]; auto. discriminate.
  - simpl. destruct (w_in (c_prim s) i); auto. intros HC.
    destruct (wg_inv_run _ _ _ _ _ _ Hr) as (_ & (HA & _) & _). pose proof (HC _ [] (eq_sym (app_nil_r _))) as Hd.
    unfold dones, units in *. rewrite !total_app in Hd. unfold total at 2 4 in Hd. simpl in Hd. lia.
Qed.
End WaitGroup.

Definition seq_gone (s : PS sequenced) : Prop := sq_pend (r_g s) = 0.
Lemma seq_may (s : PS sequenced) : lf_may (sequenced_life true) s = true -> seq_gone s.
Proof. simpl. apply Nat.eqb_eq. Qed.
Lemma seq_none (ps : PS sequenced) pl ps' taken es : seq_gone ps -> lf_acc (sequenced_life true) ps pl = ANone -> p_step sequenced ps pl = POk ps' taken es -> seq_gone ps'.
Proof. intros _ Ha. destruct pl; discriminate. Qed.
Lemma seq_use (ps : PS sequenced) (tr : list (event sequenced)) pl : seq_gone ps -> lf_acc (sequenced_life true) ps pl = AUse ->
  match p_step sequenced ps pl with POk _ _ es => ~ True | PNo => True | PFail _ es => ~ True end.
Proof. intros Hg Ha. destruct pl; try discriminate. simpl. unfold seq_gone in Hg. simpl in Hg. now rewrite Hg. Qed.

Section Barrier.
Variable e0 : BinNums.Z.
Definition bar_gone (s : PS (barrier e0)) : Prop := b_pend (r_g s) = 0.
Lemma bar_may (s : PS (barrier e0)) : lf_may (barrier_life e0 true) s = true -> bar_gone s.
Proof. simpl. apply Nat.eqb_eq. Qed.
Lemma bar_none (ps : PS (barrier e0)) pl ps' taken es : bar_gone ps -> lf_acc (barrier_life e0 true) ps pl = ANone -> p_step (barrier e0) ps pl = POk ps' taken es -> bar_gone ps'.
Proof. intros _ Ha. destruct pl; discriminate. Qed.
Lemma bar_use (ps : PS (barrier e0)) (tr : list (event (barrier e0))) pl : bar_gone ps -> lf_acc (barrier_life e0 true) ps pl = AUse ->
  match p_step (barrier e0) ps pl with POk _ _ es => ~ True | PNo => True | PFail _ es => ~ True end.
Proof. intros Hg Ha. destruct pl; try discriminate. simpl. unfold bar_gone in Hg. simpl in Hg. now rewrite Hg. Qed.
End Barrier.
