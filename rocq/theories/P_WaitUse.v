(** The race freedom and visibility of M_WaitHB for the primitives of the library. *)
From Coq Require Import List Arith Bool Lia.
From Verif Require Import Lts ListFacts M_Wait S_Wait P_Wait M_WaitHB S_WaitHB P_WaitHB P_WaitVis M_WaitLocks.
From Verif Require Import M_Queue S_Queue P_Queue M_Recurring S_Recurring P_Recurring M_Future S_Future P_Future M_PostAck P_PostAck.
Import ListNotations.

(** ** Base runs do not fail with a data race *)
Section Base.
Variable P : prim. Variable W : laws P. Variable eager : bool. Variable T : tlaws P W.
Hypothesis no_start : forall s o a, p_start P s o a <> SFail DataRace.
Hypothesis no_step : forall s l es, p_step P s l <> PFail DataRace es.
Hypothesis no_try : forall s o, p_try P s o <> TFail DataRace.
Hypothesis no_resume : forall s o, p_resume P s o <> RFail DataRace.
Lemma base_norace ls tr : run (step P eager) (c_init P) ls <> Failed DataRace tr.
Proof.
  intros Hr. destruct (t_failure W eager T _ _ _ Hr) as [(ls1 & s & tr1 & l & es & _ & _ & _ & Hc)|(_ & [=] & _)].
  destruct Hc as [(o & tok & a & _ & _ & H & _)|[(pl & pes & _ & H & _)|[(o & x & _ & _ & H & _)|(o & x & _ & _ & _ & H & _)]]];
    [now apply no_start in H|now apply no_step in H|now apply no_resume in H|now apply no_try in H].
Qed.
End Base.

Lemma h_norace P (W : laws P) (T : tlaws P W) lk (Hlk : forall ps l ps' tk es, lk ps l = false -> p_step P ps l = POk ps' tk es -> tk = [])
  (Hb : forall eager ls tr, run (step P eager) (c_init P) ls <> Failed DataRace tr) ls tr : run (hstep P false lk true true) (h_init P) ls <> Failed DataRace tr.
Proof. intros Hr. destruct (h_race P W false T lk Hlk ls tr Hr (Hb false)) as [H _]. discriminate. Qed.

Lemma h_vis_calls P (W : laws P) eager (T : tlaws P W) lk (Hlk : forall ps l ps' tk es, lk ps l = false -> p_step P ps l = POk ps' tk es -> tk = []) ls h tr :
  run (hstep P eager lk true true) (h_init P) ls = Running h tr -> calls_visible tr.
Proof. intros Hr t1 o x v t2 -> . exact (proj1 (h_visible P W eager T lk Hlk _ _ _ _ _ _ _ Hr)). Qed.

Lemma h_vis_earlier P (W : laws P) eager (T : tlaws P W) lk (Hlk : forall ps l ps' tk es, lk ps l = false -> p_step P ps l = POk ps' tk es -> tk = []) ls h tr :
  run (hstep P eager lk true true) (h_init P) ls = Running h tr -> earlier_visible tr.
Proof.
  intros Hr ta o t a w tb x v t2 -> d Hd. rewrite app_comm_cons, app_assoc in Hr.
  destruct (h_visible P W eager T lk Hlk _ _ _ _ _ _ _ Hr) as (_ & _ & H). eauto.
Qed.

Ltac nofail := intros; cbn; repeat (match goal with |- context [match ?x with _ => _ end] => destruct x end); discriminate.

Section Q.
Variable T : Type.
Lemma queue_norace eager ls tr : run (step (queue_prim T) eager) (c_init _) ls <> Failed DataRace tr.
Proof. apply (base_norace _ (queue_laws T) eager (queue_tlaws T)); unfold queue_prim, p_start, p_step, p_try, p_resume, q_start, q_step, q_try, q_resume; nofail. Qed.
Lemma queue_lk_taken ps l ps' tk es : queue_lk T ps l = false -> p_step (queue_prim T) ps l = POk ps' tk es -> tk = [].
Proof. discriminate. Qed.
Lemma future_norace eager ls tr : run (step (future_prim T) eager) (c_init _) ls <> Failed DataRace tr.
Proof. apply (base_norace _ (future_laws T) eager (future_tlaws T)); unfold future_prim, p_start, p_step, p_try, p_resume, f_start, f_step, f_try, f_resume; nofail. Qed.
Lemma future_lk_taken ps l ps' tk es : future_lk T ps l = false -> p_step (future_prim T) ps l = POk ps' tk es -> tk = [].
Proof. discriminate. Qed.
Lemma recurring_norace eager ls tr : run (step recurring eager) (c_init _) ls <> Failed DataRace tr.
Proof.
  apply (base_norace _ (recurring_laws plain_user) eager (recurring_tlaws plain_user)); unfold recurring_prim, p_start, p_step, p_try, p_resume, r_start, r_step, r_try, r_resume; try solve [nofail].
  intros s [|[]] es. nofail.
Qed.
Lemma recurring_lk_taken ps l ps' tk es : recurring_lk plain_user ps l = false -> p_step recurring ps l = POk ps' tk es -> tk = [].
Proof. destruct l as [|[]]. discriminate. Qed.
Lemma det_next_norace (s : kst T) a r es es' : det_next s a r es <> PFail DataRace es'.
Proof. unfold det_next. nofail. Qed.
Lemma retire_norace (s : kst T) a r es es' : retire_one s a r es <> PFail DataRace es'.
Proof.
  unfold retire_one. destruct (negb (q_live s)); [discriminate|]. destruct (find_seq s _); [|discriminate]. destruct (k_nd s n) as [nd|]; [|discriminate].
  destruct (n_acks nd) as [|[|k]]; try discriminate. apply det_next_norace.
Qed.
Lemma post_ack_norace eager ls tr : run (step (post_ack T) eager) (c_init _) ls <> Failed DataRace tr.
Proof.
  apply (base_norace _ (post_ack_laws T) eager (post_ack_tlaws T)).
  - unfold post_ack, p_start, k_start. nofail.
  - intros s l es. change (p_step (post_ack T) s l) with (k_step s l). destruct l as [a|a|a|p x|o|o|o]; simpl.
    + destruct (g_mech _); discriminate.
    + destruct (negb _); [discriminate|]. destruct (g_det _); [discriminate|]. destruct (k_active s); [discriminate|]. destruct (_ <? _); [apply retire_norace|discriminate].
    + destruct (g_det _) as [[r [p|]]|]; [|apply retire_norace|discriminate]. destruct (post_complete s p); [apply det_next_norace|discriminate].
    + destruct (k_nd s p); [discriminate|]. destruct (k_active s); [destruct (k_pq s); discriminate|]. destruct (negb _); [discriminate|]. destruct (existsb _ _); discriminate.
    + destruct (k_hd s o); try discriminate. destruct (k_nd s p) as [nd|]; [|discriminate]. destruct (n_done nd); [discriminate|]. destruct (n_acks nd); discriminate.
    + destruct (k_hd s o); try discriminate.
      * destruct (negb _); [discriminate|]. destruct (memb _ _); discriminate.
      * destruct (post_complete s p); discriminate.
    + destruct (k_hd s o); try discriminate; (destruct (k_nd s p) as [nd|]; [destruct (n_done nd)|]; discriminate).
  - unfold post_ack, p_try, k_try. nofail.
  - unfold post_ack, p_resume, k_resume. nofail.
Qed.
Lemma post_ack_lk_taken ps l ps' tk es : post_ack_lk T ps l = false -> p_step (post_ack T) ps l = POk ps' tk es -> tk = [].
Proof.
  change (p_step (post_ack T) ps l) with (k_step ps l). destruct l as [a|a|a|p x|o|o|o]; simpl; try discriminate.
  - destruct (g_det _) as [[r [p|]]|]; try discriminate. intros _. destruct (post_complete ps p); [|discriminate]. unfold det_next. destruct (_ =? _); congruence.
  - intros _. destruct (k_hd ps o); try discriminate. destruct (k_nd ps p) as [nd|]; [|discriminate]. destruct (n_done nd); [discriminate|]. destruct (n_acks nd); [discriminate|]. congruence.
  - intros _. destruct (k_hd ps o); try discriminate.
    + destruct (negb _); [discriminate|]. destruct (memb _ _); [|discriminate]. congruence.
    + destruct (post_complete ps p); [|discriminate]. congruence.
  - intros _. destruct (k_hd ps o); try discriminate; (destruct (k_nd ps p) as [nd|]; [destruct (n_done nd)|]; congruence).
Qed.
End Q.

(** ** Queue *)
Section QueueVis.
Variable T : Type. Variable eager : bool.
Notation P := (queue_prim T).
Notation hrun := (run (hstep P eager (queue_lk T) true true) (h_init P)).

Lemma val_put (s : cst P) tr o x : QInv T eager s tr -> In o (starts tr) -> q_val (c_prim s) o = Some x -> In x (puts tr).
Proof.
  intros (_ & _ & _ & _ & (pre & post & H1 & H2 & H3 & _)) Hst Hv. rewrite H2. apply in_or_app. left.
  assert (Hc : In (Getter o) (pre ++ post)) by (rewrite <- H1; apply getters_In; rewrite getters_consumers; exact Hst).
  assert (Hx : In x (handed (q_val (c_prim s)) (Getter o))) by (simpl; rewrite Hv; now left).
  apply in_app_or in Hc. destruct Hc as [Hc|Hc]; [apply in_flat_map; eauto|].
  exfalso. assert (Hf : In x (flat T (q_val (c_prim s)) post)) by (apply in_flat_map; eauto). rewrite H3 in Hf. destruct Hf.
Qed.

Lemma q_visible ls h ta d os x w tb o v t2 :
  hrun ls = Running h (ta ++ HCall KLocked d os :: HE (EPrim (EPut x : PE P)) w :: tb ++ HE (EDone (P := P) o (Some x)) v :: t2) -> ~ In x (puts (api ta)) -> In d v.
Proof.
  intros Hr Hx. destruct (h_visible_settled P (queue_laws T) eager (queue_tlaws T) (queue_lk T) (queue_lk_taken T) _ _ _ _ _ (HE (EPrim (EPut x : PE P)) w :: tb) _ _ _ _ Hr)
    as [H|(bs1 & bs2 & s1 & s3 & H1 & H3 & (y & s' & Hs) & Hor)]; auto. exfalso.
  pose proof (queue_inv T eager _ _ _ H1) as I1.
  destruct Hor as [Hset|(Hn & ps & Hres)].
  - assert (Hst : In o (starts (api ta))).
    { destruct I1 as (HT & _). destruct Hset as [Hn|(z & Hf)].
      - apply (t_node_started _ _ _ _ _ _ HT). congruence.
      - pose proof HT as [[HG (_ & HS & _)] _]. apply HS. intros Hl. pose proof (fast_idle _ _ _ _ _ HG Hl). congruence. }
    assert (Hv : exists z, q_val (c_prim s1) o = Some z).
    { destruct I1 as ([_ HTK] & HF & _). destruct Hset as [Hn|(z & Hf)].
      - specialize (HTK _ Hn). simpl in HTK. destruct (q_val (c_prim s1) o); [eauto|congruence].
      - destruct (HF _ _ Hf) as [-> Hz]. destruct (q_val (c_prim s1) o); [eauto|congruence]. }
    destruct Hv as (z & Hv). pose proof (val_put _ _ _ _ I1 Hst Hv) as Hz.
    assert (Hr' : run_from (step P eager) s1 (api ta) (bs2 ++ [LPath o y]) = Running s' (api (ta ++ HE (EPrim (EPut x : PE P)) w :: tb) ++ [EDone (P := P) o (Some x)])).
    { rewrite run_from_app, H3. cbn [run_from]. now rewrite Hs. }
    destruct (val_stable T eager _ _ _ _ _ _ _ I1 Hv Hst Hr') as [Hv' (_ & _ & HD & _)].
    destruct (HD o (Some x)) as [_ E]; [apply in_or_app; right; now left|]. congruence.
  - assert (H3' : run (step P eager) (c_init P) (bs1 ++ bs2) = Running s3 (api (ta ++ HE (EPrim (EPut x : PE P)) w :: tb))).
    { unfold run in *. now rewrite run_from_app, H1. }
    pose proof (queue_inv T eager _ _ _ H3') as (_ & _ & _ & HN & _). apply HN in Hn. simpl in Hres. unfold q_resume in Hres. congruence.
Qed.
End QueueVis.

(** ** Future *)
Section FutureVis.
Variable T : Type. Variable eager : bool.
Notation P := (future_prim T).
Notation hrun := (run (hstep P eager (future_lk T) true true) (h_init P)).

Lemma fast_set (ls : list (label P)) s tr o w : run (step P eager) (c_init P) ls = Running s tr -> o_fast (c_op s o) = Some w -> sets tr <> [].
Proof.
  intros Hr. pose (Q := fun (s : cst P) (tr : list (event P)) => FInv T eager s tr /\ (forall o w, o_fast (c_op s o) = Some w -> sets tr <> [])).
  assert (HQ : Q s tr); [|exact (proj2 HQ o w)]. revert Hr. apply run_inv; unfold Q.
  - split; [apply FInv_init|]. discriminate.
  - clear. intros s tr l s' es [HI HF] Hs. split; [eapply FInv_step; eauto|]. intros o w Hf. rewrite sets_app.
    destruct (o_fast (c_op s o)) as [w0|] eqn:Hf0; [specialize (HF _ _ Hf0); destruct (sets tr); [congruence|discriminate]|].
    destruct HI as (HT & HV & _). pose proof (proj1 (proj1 HT)) as HG. pose proof (step_effect _ _ _ _ _ _ _ HG (JT_reliable _ _ _ _ _ _ HT) Hs) as He.
    destruct He as [s' o1 tok a pes Hl Hn Hd Hst Hss|s' o1 tok a v pes Hl Hn Hd Hst Hss|s' o1 es Hp|s' es Hcp Hss Hes|s' pl tk pes Hp Htk Hss].
    + specialize (Hss o). destruct (Nat.eqb_spec o o1) as [E|E]; [apply stat_inv in Hss|apply stat_eq in Hss]; destruct Hss as (_ & H & _); congruence.
    + specialize (Hss o). simpl in Hst. unfold f_start in Hst. destruct (f_val (c_prim s)) eqn:Hv; [|discriminate]. rewrite HV. discriminate.
    + destruct Hp as [s' Hcp Hss|s' e Hn Ht Hr Htry Hss|s' v Hf' Hn Hd Hcp Hss|s' v Hn Hd Hr Hss]; specialize (Hss o);
        try destruct (Nat.eqb_spec o o1) as [E|E]; apply stat_eq in Hss; destruct Hss as (_ & H & _); simpl in H; congruence.
    + specialize (Hss o). apply stat_eq in Hss. destruct Hss as (_ & H & _). congruence.
    + specialize (Hss o). destruct (memb o tk); apply stat_eq in Hss; destruct Hss as (_ & H & _); simpl in H; congruence.
Qed.

Lemma f_visible ls h ta d os x w tb o y v t2 :
  hrun ls = Running h (ta ++ HCall KLocked d os :: HE (EPrim (ESet x : PE P)) w :: tb ++ HE (EDone (P := P) o (Some y)) v :: t2) -> In d v.
Proof.
  intros Hr. destruct (h_visible_settled P (future_laws T) eager (future_tlaws T) (future_lk T) (future_lk_taken T) _ _ _ _ _ (HE (EPrim (ESet x : PE P)) w :: tb) _ _ _ _ Hr)
    as [H|(bs1 & bs2 & s1 & s3 & H1 & H3 & _ & Hor)]; auto. exfalso.
  assert (H3' : run (step P eager) (c_init P) (bs1 ++ bs2) = Running s3 (api (ta ++ HE (EPrim (ESet x : PE P)) w :: tb))).
  { unfold run in *. now rewrite run_from_app, H1. }
  pose proof (f_inv_run T eager _ _ _ H1) as (HT1 & HV1 & _). pose proof (f_inv_run T eager _ _ _ H3') as (HT3 & HV3 & HC3 & _).
  rewrite api_app, sets_app in HV3. simpl in HV3.
  destruct Hor as [[Hn|(z & Hf)]|(Hn & ps & Hres)].
  - destruct HT1 as [_ HTK]. specialize (HTK _ Hn). simpl in HTK. destruct (f_val (c_prim s1)); [|congruence]. rewrite HV1 in HV3. simpl in HV3. destruct (f_val (c_prim s3)); discriminate.
  - pose proof (fast_set _ _ _ _ _ H1 Hf) as Hs. destruct (sets (api ta)); [congruence|]. destruct l; simpl in HV3; destruct (f_val (c_prim s3)); discriminate.
  - apply HC3 in Hn. simpl in Hres. unfold f_resume in Hres. rewrite Hn in Hres. discriminate.
Qed.
End FutureVis.

(** ** Recurring event *)
Section RecurringVis.
Variable eager : bool.
Notation P := recurring.
Notation hrun := (run (hstep P eager (recurring_lk plain_user) true true) (h_init P)).

Lemma r_visible ls h t1 o v t2 : hrun ls = Running h (t1 ++ HE (EDone (P := P) o (Awaited : PV P)) v :: t2) ->
  exists d os, In (HCall KLocked d os) t1 /\ In o os /\ In d v.
Proof.
  intros Hr. pose proof (recurring_lk_taken) as Hlk.
  destruct (done_cut P eager (recurring_lk plain_user) _ _ _ _ _ _ _ Hr) as (ls1 & h1 & y & s' & m' & Hr1 & Hs & _).
  pose proof (hrun_base _ _ _ _ _ _ _ _ _ _ Hr1) as B1.
  change (run (step P eager) (c_init P) (map base ls1) = Running (h_s h1) (api t1)) in B1.
  assert (B2 : run (step P eager) (c_init P) (map base ls1 ++ [LPath o y]) = Running s' (api t1 ++ EDone (P := P) o (Awaited : PV P) :: [])).
  { unfold run in *. rewrite run_from_app, B1. cbn [run_from]. now rewrite Hs. }
  destruct (h_visible P (recurring_laws plain_user) eager (recurring_tlaws plain_user) (recurring_lk plain_user) Hlk _ _ _ _ _ _ _ Hr) as (Hvis & _).
  assert (Hn : o_node (c_op (h_s h1) o) = NTaken).
  { pose proof (recurring_inv plain_user eager _ _ _ B1) as HI. destruct HI as (HJT & _ & HC & _). pose proof (proj1 (proj1 HJT)) as HG.
    pose proof (step_effect _ _ _ _ _ _ _ HG (JT_reliable _ _ _ _ _ _ HJT) Hs) as He. remember [EDone (P:=P) o (Awaited : PV P)] as es eqn:Hes.
    destruct He as [s' o' tok a pes Hl Hn Hd Hst Hss|s' o' tok a v' pes Hl Hn Hd Hst Hss|s' o' es Hp|s' es Hcp Hss Hes'|s' pl taken pes Hp Htk Hss]; try discriminate.
    - destruct Hp as [s' Hcp Hss|s' e Hn Ht Hr1' Htry Hss|s' v' Hf Hn Hd Hcp Hss|s' v' Hn Hd Hr0 Hss]; try discriminate; injection Hes as -> Hv; try discriminate Hv.
      destruct Hn as [Hn|Hn]; auto. exfalso. simpl in Hr0. unfold r_resume in Hr0. rewrite (HC _ Hn) in Hr0. simpl in Hr0. congruence.
    - exfalso. destruct Hes' as [->|[[o' ->]|[e ->]]]; discriminate.
    - destruct pes as [|? [|? ?]]; discriminate. }
  destruct (h_taken_call P (recurring_laws plain_user) eager (recurring_tlaws plain_user) (recurring_lk plain_user) Hlk _ _ _ _ Hr1 Hn) as (d & os & Hin & Ho).
  exists d, os. eauto.
Qed.
End RecurringVis.

(** ** Post and acknowledge *)
Section PostAckVis.
Variable T : Type. Variable eager : bool.
Notation P := (post_ack T).
Notation hrun := (run (hstep P eager (post_ack_lk T) true true) (h_init P)).
Notation JT := (JT P (post_ack_laws T) eager (post_ack_tlaws T)).

Lemma det_next_nd (s : kst T) a r es s' tk es' q : det_next s a r es = POk s' tk es' -> k_nd s' q <> None -> k_nd s q <> None.
Proof. unfold det_next. destruct (_ =? _); intros [= <- _ _]; auto. Qed.
Lemma retire_nd (s : kst T) a r es s' tk es' q : retire_one s a r es = POk s' tk es' -> k_nd s' q <> None -> k_nd s q <> None.
Proof.
  unfold retire_one. destruct (negb (q_live s)); [discriminate|]. destruct (find_seq s _) as [n|]; [|discriminate]. destruct (k_nd s n) as [nd|] eqn:E; [|discriminate].
  destruct (n_acks nd) as [|[|k]]; try discriminate.
  - intros [= <- _ _]. simpl. unfold upd. destruct (Nat.eqb_spec q n) as [->|]; auto. congruence.
  - intros Hd Hq. apply (det_next_nd _ _ _ _ _ _ _ q Hd) in Hq. simpl in Hq. unfold upd in Hq. destruct (Nat.eqb_spec q n) as [->|]; auto. congruence.
Qed.
Lemma complete_nd (s s' : kst T) p q : post_complete s p = Some s' -> k_nd s' q <> None -> k_nd s q <> None.
Proof.
  unfold post_complete. destruct (k_nd s p) as [nd|] eqn:E; [|discriminate]. destruct (n_done nd); [discriminate|]. intros [= <-]. simpl. unfold upd.
  destruct (Nat.eqb_spec q p) as [->|]; auto. congruence.
Qed.

Lemma nd_step (s s' : kst T) l tk es q : k_step s l = POk s' tk es -> k_nd s' q <> None -> k_nd s q <> None \/ exists x, In (EPost q x) es.
Proof.
  destruct l as [a|a|a|p x|o|o|o]; simpl.
  - destruct (g_mech (k_ag s a)); [discriminate|]. intros [= <- _ _]. auto.
  - destruct (negb _); [discriminate|]. destruct (g_det _); [discriminate|]. destruct (k_active s); [discriminate|]. destruct (_ <? _).
    + intros H Hq. left. exact (retire_nd _ _ _ _ _ _ _ q H Hq).
    + intros [= <- _ _]. auto.
  - destruct (g_det _) as [[r [p|]]|]; [| |discriminate].
    + destruct (post_complete s p) as [s1|] eqn:E; [|discriminate]. intros H Hq. left. apply (complete_nd _ _ _ q E). exact (det_next_nd _ _ _ _ _ _ _ q H Hq).
    + intros H Hq. left. exact (retire_nd _ _ _ _ _ _ _ q H Hq).
  - destruct (k_nd s p); [discriminate|]. destruct (k_active s).
    + destruct (k_pq s); [|discriminate]. intros [= <- _ <-]. simpl. unfold upd. destruct (Nat.eqb_spec q p) as [->|]; eauto.
    + destruct (negb _); [discriminate|]. destruct (existsb _ _); [discriminate|]. intros [= <- _ <-]. simpl. unfold upd. destruct (Nat.eqb_spec q p) as [->|]; eauto.
  - destruct (k_hd s o) as [|p|p|p|p]; try discriminate. destruct (k_nd s p) as [nd|] eqn:E; [|discriminate]. destruct (n_done nd); [discriminate|].
    destruct (n_acks nd); [discriminate|]. intros [= <- _ _]. simpl. unfold upd. destruct (Nat.eqb_spec q p) as [->|]; auto. left. congruence.
  - destruct (k_hd s o) as [|p|p|p|p]; try discriminate.
    + destruct (negb _); [discriminate|]. destruct (memb _ _); [|discriminate]. intros [= <- _ _]. auto.
    + destruct (post_complete s p) as [s1|] eqn:E; [|discriminate]. intros [= <- _ _] Hq. left. exact (complete_nd _ _ _ q E Hq).
  - destruct (k_hd s o) as [|p|p|p|p]; try discriminate; (destruct (k_nd s p) as [nd|]; [|discriminate]); (destruct (n_done nd); [discriminate|]);
      intros [= <- _ _]; auto.
Qed.

Lemma pnd_step (s s' : kst T) l tk es : k_step s l = POk s' tk es ->
  (k_pnd s' = k_pnd s /\ tk = []) \/ exists p x, In (EPost p x) es /\ tk = k_pq s /\ k_pnd s' = (fun o => if memb o (k_pq s) then Some p else k_pnd s o).
Proof.
  intros H. destruct (step_pq T _ _ _ _ _ H) as [(_ & _ & E & E')|(q & E1 & -> & E3 & E4)]; [auto|]. revert H.
  destruct l as [a|a|a|p x|o|o|o]; simpl.
  - destruct (g_mech (k_ag s a)); [discriminate|]. intros [= <- <- _]. auto.
  - destruct (negb (g_mech (k_ag s a))); [discriminate|]. destruct (g_det (k_ag s a)); [discriminate|].
    destruct (k_active s); [discriminate|]. destruct (Nat.ltb (g_seq (k_ag s a)) (k_seq s)).
    + intros H. apply retire_pq in H. simpl in H. tauto.
    + intros [= <- <- _]. auto.
  - destruct (g_det (k_ag s a)) as [[r [p|]]|]; [| |discriminate].
    + destruct (post_complete s p) as [s1|] eqn:E; [|discriminate]. apply complete_pq in E. destruct E as (_ & _ & E).
      intros H. apply det_next_pq in H. rewrite E in H. tauto.
    + intros H. apply retire_pq in H. tauto.
  - destruct (k_nd s p); [discriminate|]. destruct (k_active s).
    + destruct (k_pq s) eqn:E; [|discriminate]. intros [= <- _]. left. auto.
    + destruct (negb (q_live s)); [discriminate|]. destruct (existsb _ (k_pq s)); [discriminate|]. intros [= <- <-]. right. exists p, x. simpl. auto.
  - destruct (k_hd s o) as [|p|p|p|p]; try discriminate. destruct (k_nd s p) as [nd|]; [|discriminate]. destruct (n_done nd); [discriminate|].
    destruct (n_acks nd); [discriminate|]. intros [= <- <- _]. auto.
  - destruct (k_hd s o) as [|p|p|p|p]; try discriminate.
    + destruct (negb (q_live s)); [discriminate|]. destruct (memb p (k_q s)); [|discriminate]. intros [= <- <- _]. auto.
    + destruct (post_complete s p) as [s1|] eqn:E; [|discriminate]. apply complete_pq in E. destruct E as (_ & _ & E). intros [= <- <- _]. auto.
  - destruct (k_hd s o) as [|p|p|p|p]; try discriminate; (destruct (k_nd s p) as [nd|]; [|discriminate]); (destruct (n_done nd); [discriminate|]);
      intros [= <- <- _]; auto.
Qed.

Record PI (s : cst P) (tr : list (event P)) : Prop := {
  pi_jt : JT s tr;
  pi_nd : forall q, k_nd (c_prim s) q <> None -> posted q tr;
  pi_pnd : forall o q, k_pnd (c_prim s) o = Some q -> posted q tr;
  pi_fast : forall o (v : PV P), o_fast (c_op s o) = Some v -> v = k_pnd (c_prim s) o;
  pi_can : forall o, o_node (c_op s o) = NCancelled -> k_pnd (c_prim s) o = None }.

Lemma posted_app p (t1 t2 : list (event P)) : posted p t1 -> posted p (t1 ++ t2).
Proof. intros (x & H). exists x. apply in_or_app. auto. Qed.

Lemma find_nd (s : kst T) i p : find_seq s i = Some p -> k_nd s p <> None.
Proof. intros H. apply find_some in H. destruct H as [_ H]. unfold has_seq in H. destruct (k_nd s p); congruence. Qed.

(** what a poll operation was handed does not change any more *)
Lemma pi_stays s tr l s' es o : JT s tr -> step P eager s l = Next s' es -> o_l (c_op s o) <> PIdle -> o_node (c_op s o) <> NQueued -> k_pnd (c_prim s') o = k_pnd (c_prim s) o.
Proof.
  intros HT Hs Hl0 Hq. pose proof HT as [[HG (_ & HS & _)] _].
  pose proof (step_effect _ _ _ _ _ _ _ HG (JT_reliable _ _ _ _ _ _ HT) Hs) as He.
  destruct He as [s' o1 tok a pes Hl Hn Hd Hst Hss|s' o1 tok a v pes Hl Hn Hd Hst Hss|s' o1 es Hp|s' es Hcp Hss Hes|s' pl tk pes Hp Htk Hss].
  - assert (Hne : o <> o1) by congruence. simpl in Hst. unfold k_start in Hst. destruct (negb _); [discriminate|]. destruct (_ <? _).
    + destruct (negb _); [discriminate|]. destruct (find_seq _ _); discriminate.
    + injection Hst as Hst _. rewrite <- Hst. simpl. now rewrite upd_other.
  - assert (Hne : o <> o1) by congruence. simpl in Hst. unfold k_start in Hst. destruct (negb _); [discriminate|]. destruct (_ <? _); [|discriminate].
    destruct (negb _); [discriminate|]. destruct (find_seq _ _); [|discriminate]. injection Hst as Hst _ _. rewrite <- Hst. simpl. now rewrite upd_other.
  - destruct Hp as [s' Hcp Hss|s' e Hn Ht Hr Htry Hss|s' v Hf' Hn Hd Hcp Hss|s' v Hn Hd Hr Hss]; try congruence.
    + simpl in Htry. unfold k_try in Htry. destruct (k_pend (c_prim s) o1); [congruence|]. destruct (k_pnd (c_prim s) o1); [discriminate|].
      destruct (memb o1 (k_pq (c_prim s))); [|discriminate]. injection Htry as Htry. now rewrite <- Htry.
    + simpl in Hr. unfold k_resume in Hr. destruct (k_pnd (c_prim s) o1); injection Hr as Hr _; now rewrite <- Hr.
  - congruence.
  - destruct (pnd_step _ _ _ _ _ Hp) as [[-> _]|(p & x & _ & _ & ->)]; auto.
    destruct (memb o (k_pq (c_prim s))) eqn:Hm; auto. apply memb_In in Hm. exfalso. apply Hq. pose proof HG as (_ & _ & (_ & HQ) & _). now apply HQ.
Qed.

Lemma pi_settled s tr l s' es o : PI s tr -> step P eager s l = Next s' es -> settled P s o -> k_pnd (c_prim s') o = k_pnd (c_prim s) o.
Proof.
  intros [HT _ _ _ _] Hs Hset. pose proof HT as [[HG _] _]. apply (pi_stays _ _ _ _ _ _ HT Hs).
  - intros Hl. destruct Hset as [Hn|(w & Hf)]; [destruct (fresh_facts _ _ _ _ _ HG Hl); congruence|pose proof (fast_idle _ _ _ _ _ HG Hl); congruence].
  - destruct Hset as [Hn|(w & Hf)]; [congruence|pose proof (fast_node _ _ _ _ _ _ HG Hf); congruence].
Qed.

Lemma pi_step s tr l s' es : PI s tr -> step P eager s l = Next s' es -> PI s' (tr ++ es).
Proof.
  intros HI Hs. pose proof HI as [HT HN HP HF HX]. pose proof (proj1 (proj1 HT)) as HG.
  pose proof (step_effect _ _ _ _ _ _ _ HG (JT_reliable _ _ _ _ _ _ HT) Hs) as He.
  assert (Hold : forall o v, o_fast (c_op s o) = Some v -> v = k_pnd (c_prim s') o).
  { intros o v Hf. rewrite (pi_settled _ _ _ _ _ _ HI Hs (or_intror (ex_intro _ v Hf))). now apply HF. }
  split; [eapply JT_step; eauto| | | |].
  - intros q Hq. destruct He as [s' o1 tok a pes Hl Hn Hd Hst Hss|s' o1 tok a v pes Hl Hn Hd Hst Hss|s' o1 es Hp|s' es Hcp Hss Hes|s' pl tk pes Hp Htk Hss].
    + apply posted_app, HN. revert Hq. simpl in Hst. unfold k_start in Hst. destruct (negb _); [discriminate|]. destruct (_ <? _).
      * destruct (negb _); [discriminate|]. destruct (find_seq _ _); discriminate.
      * injection Hst as Hst _. now rewrite <- Hst.
    + apply posted_app, HN. revert Hq. simpl in Hst. unfold k_start in Hst. destruct (negb _); [discriminate|]. destruct (_ <? _); [|discriminate].
      destruct (negb _); [discriminate|]. destruct (find_seq _ _); [|discriminate]. injection Hst as Hst _ _. now rewrite <- Hst.
    + apply posted_app, HN. revert Hq. destruct Hp as [s' Hcp Hss|s' e Hn Ht Hr Htry Hss|s' v Hf' Hn Hd Hcp Hss|s' v Hn Hd Hr Hss]; try now rewrite Hcp.
      * simpl in Htry. unfold k_try in Htry. destruct (k_pend (c_prim s) o1); [congruence|]. destruct (k_pnd (c_prim s) o1); [discriminate|].
        destruct (memb o1 (k_pq (c_prim s))); [|discriminate]. injection Htry as Htry. now rewrite <- Htry.
      * simpl in Hr. unfold k_resume in Hr. destruct (k_pnd (c_prim s) o1); injection Hr as Hr _; now rewrite <- Hr.
    + apply posted_app, HN. now rewrite <- Hcp.
    + destruct (nd_step _ _ _ _ _ q Hp Hq) as [H|(x & H)]; [now apply posted_app, HN|]. exists x. apply in_or_app. right. apply in_map_iff. eauto.
  - intros o q. destruct He as [s' o1 tok a pes Hl Hn Hd Hst Hss|s' o1 tok a v pes Hl Hn Hd Hst Hss|s' o1 es Hp|s' es Hcp Hss Hes|s' pl tk pes Hp Htk Hss].
    + simpl in Hst. unfold k_start in Hst. destruct (negb _); [discriminate|]. destruct (_ <? _).
      * destruct (negb _); [discriminate|]. destruct (find_seq _ _); discriminate.
      * injection Hst as Hst _. rewrite <- Hst. simpl. unfold upd. destruct (o =? o1); [discriminate|]. intros H. now apply posted_app, (HP o).
    + simpl in Hst. unfold k_start in Hst. destruct (negb _); [discriminate|]. destruct (_ <? _); [|discriminate].
      destruct (negb _); [discriminate|]. destruct (find_seq _ _) as [p|] eqn:Hfs; [|discriminate]. injection Hst as Hst _ _. rewrite <- Hst. simpl. unfold upd.
      destruct (o =? o1); intros H; [|now apply posted_app, (HP o)]. injection H as <-. apply posted_app, HN. eapply find_nd; eauto.
    + intros H. apply posted_app, (HP o). revert H. destruct Hp as [s' Hcp Hss|s' e Hn Ht Hr Htry Hss|s' v Hf' Hn Hd Hcp Hss|s' v Hn Hd Hr Hss]; try now rewrite Hcp.
      * simpl in Htry. unfold k_try in Htry. destruct (k_pend (c_prim s) o1); [congruence|]. destruct (k_pnd (c_prim s) o1); [discriminate|].
        destruct (memb o1 (k_pq (c_prim s))); [|discriminate]. injection Htry as Htry. now rewrite <- Htry.
      * simpl in Hr. unfold k_resume in Hr. destruct (k_pnd (c_prim s) o1); injection Hr as Hr _; now rewrite <- Hr.
    + intros H. apply posted_app, (HP o). now rewrite <- Hcp.
    + intros H. destruct (pnd_step _ _ _ _ _ Hp) as [[E _]|(p & x & Hin & _ & E)]; rewrite E in H; [now apply posted_app, (HP o)|].
      destruct (memb o (k_pq (c_prim s))); [|now apply posted_app, (HP o)]. injection H as <-. exists x. apply in_or_app. right. apply in_map_iff. eauto.
  - intros o v Hf. destruct (o_fast (c_op s o)) as [w|] eqn:Hf0.
    { destruct (settled_step _ _ _ _ _ _ _ _ _ o HT (or_intror (ex_intro _ w Hf0)) Hs) as [_ H]. specialize (H _ Hf0). rewrite Hf in H. injection H as ->. auto. }
    destruct He as [s' o1 tok a pes Hl Hn Hd Hst Hss|s' o1 tok a w pes Hl Hn Hd Hst Hss|s' o1 es Hp|s' es Hcp Hss Hes|s' pl tk pes Hp Htk Hss].
    + specialize (Hss o). destruct (Nat.eqb_spec o o1) as [E|E]; [apply stat_inv in Hss|apply stat_eq in Hss]; destruct Hss as (_ & H & _); congruence.
    + specialize (Hss o). destruct (Nat.eqb_spec o o1) as [E|E]; [subst o1; apply stat_inv in Hss|apply stat_eq in Hss]; destruct Hss as (_ & H & _); [|congruence].
      simpl in Hst. unfold k_start in Hst. destruct (negb _); [discriminate|]. destruct (_ <? _); [|discriminate].
      destruct (negb _); [discriminate|]. destruct (find_seq _ _) as [p|] eqn:Hfs; [|discriminate]. injection Hst as Hst Hw _. rewrite <- Hst. simpl. rewrite upd_same. congruence.
    + destruct Hp as [s' Hcp Hss|s' e Hn Ht Hr Htry Hss|s' w Hf' Hn Hd Hcp Hss|s' w Hn Hd Hr Hss]; specialize (Hss o);
        try destruct (Nat.eqb_spec o o1) as [E|E]; apply stat_eq in Hss; destruct Hss as (_ & H & _); simpl in H; congruence.
    + specialize (Hss o). apply stat_eq in Hss. destruct Hss as (_ & H & _). congruence.
    + specialize (Hss o). destruct (memb o tk); apply stat_eq in Hss; destruct Hss as (_ & H & _); simpl in H; congruence.
  - intros o Hn. destruct (cancelled_new _ _ _ _ He Hn) as [Hn0|[Hn0 Htry]].
    + rewrite (pi_stays _ _ _ _ _ o HT Hs); [auto| |congruence]. intros Hl. destruct (fresh_facts _ _ _ _ _ HG Hl); congruence.
    + simpl in Htry. unfold k_try in Htry. destruct (k_pend (c_prim s) o); [congruence|]. destruct (k_pnd (c_prim s) o) eqn:Hpn; [discriminate|].
      destruct (memb o (k_pq (c_prim s))); [|discriminate]. injection Htry as Htry. now rewrite <- Htry.
Qed.

Lemma pi_init : PI (c_init P) [].
Proof. split; [apply JT_init|simpl; congruence|simpl; discriminate|simpl; discriminate|simpl; discriminate]. Qed.

Lemma pi_run ls s tr : run (step P eager) (c_init P) ls = Running s tr -> PI s tr.
Proof. exact (run_inv (step P eager) PI (c_init P) pi_init pi_step ls s tr). Qed.

Lemma pi_stable ls : forall s tr s' tr' o, PI s tr -> settled P s o -> run_from (step P eager) s tr ls = Running s' tr' -> k_pnd (c_prim s') o = k_pnd (c_prim s) o.
Proof.
  induction ls as [|l ls IH]; intros s tr s' tr' o HI Hset Hr; cbn [run_from] in Hr; [now injection Hr as <- <-|].
  destruct (step P eager s l) as [s1 es| |f es] eqn:Hs; try discriminate. rewrite <- (pi_settled _ _ _ _ _ _ HI Hs Hset).
  apply (IH s1 (tr ++ es) s' tr' o); auto; [eapply pi_step; eauto|]. exact (proj1 (settled_step _ _ _ _ _ _ _ _ _ o (pi_jt _ _ HI) Hset Hs)).
Qed.

Lemma k_visible ls h ta d os p x w tb o v t2 :
  hrun ls = Running h (ta ++ HCall KLocked d os :: HE (EPrim (EPost p x : PE P)) w :: tb ++ HE (EDone (P := P) o (Some p)) v :: t2) -> ~ posted p (api ta) -> In d v.
Proof.
  intros Hr Hx. destruct (h_visible_settled P (post_ack_laws T) eager (post_ack_tlaws T) (post_ack_lk T) (post_ack_lk_taken T) _ _ _ _ _ (HE (EPrim (EPost p x : PE P)) w :: tb) _ _ _ _ Hr)
    as [H|(bs1 & bs2 & s1 & s3 & H1 & H3 & (y & s' & Hs) & Hor)]; auto. exfalso.
  pose proof (pi_run _ _ _ H1) as I1.
  assert (H3' : run (step P eager) (c_init P) (bs1 ++ bs2) = Running s3 (api (ta ++ HE (EPrim (EPost p x : PE P)) w :: tb))).
  { unfold run in *. now rewrite run_from_app, H1. }
  pose proof (pi_run _ _ _ H3') as I3. pose proof I3 as [HT HN HP HF HX]. pose proof (proj1 (proj1 HT)) as HG.
  assert (Hv : k_pnd (c_prim s3) o = Some p).
  { pose proof (step_effect _ _ _ _ _ _ _ HG (JT_reliable _ _ _ _ _ _ HT) Hs) as He. remember [EDone (P:=P) o (Some p : PV P)] as es eqn:Hes.
    destruct He as [s' o' tok a pes Hl Hn Hd Hst Hss|s' o' tok a v' pes Hl Hn Hd Hst Hss|s' o' es Hp|s' es Hcp Hss Hes'|s' pl taken pes Hp Htk Hss]; try discriminate.
    - destruct Hp as [s' Hcp Hss|s' e Hn Ht Hr1' Htry Hss|s' v' Hf Hn Hd Hcp Hss|s' v' Hn Hd Hr0 Hss]; try discriminate; injection Hes as -> Hv.
      + simpl in Hv. subst v'. symmetry. exact (HF _ _ Hf).
      + subst v'. simpl in Hr0. unfold k_resume in Hr0. destruct (k_pnd (c_prim s3) o); injection Hr0 as _ <-; auto; discriminate.
    - exfalso. destruct Hes' as [->|[[o' ->]|[e ->]]]; discriminate.
    - destruct pes as [|? [|? ?]]; discriminate. }
  destruct Hor as [Hset|(Hn & ps & Hres)].
  - rewrite (pi_stable _ _ _ _ _ _ I1 Hset H3) in Hv. apply Hx. eapply pi_pnd; eauto.
  - rewrite (HX _ Hn) in Hv. discriminate.
Qed.
End PostAckVis.
