(** Race freedom and visibility for when_all. *)
From Coq Require Import List Arith Bool Lia.
From Verif Require Import Lts ListFacts M_WhenAll S_WhenAll P_WhenAll P_Result M_HB P_HB M_WhenAllHB S_WhenAllHB.
Import ListNotations.

Section N.
Variable n : nat.
Variable dbg s_acq : bool.
Hypothesis Hn : 0 < n.
Notation hstep := (wh_step n true true s_acq true dbg).
Notation acts := (wh_acts n true true s_acq true).
Notation v_ h t := (mv_cur (ms_view h t)).
Notation lg h := (mm_log (ms_mem h)).
Notation rl h := (mm_rel (ms_mem h) 0).
Notation st h := (ms_base h).
Notation hv := (hview wh_src).

(** Operation j was started and is not yet completed *)
Definition open (s : ast) (j : nat) : Prop := j < a_idx s /\ ~ In j (a_comp s).

Record started_inv (h : mst (S := ast)) : Prop := SI {
  si_all : 0 < a_ctr (st h) -> forall i, i < length (lg h) -> (a_main (st h) = AStarting /\ In i (v_ h t_start)) \/ (exists j, open (st h) j /\ In i (v_ h (t_op j))) \/ In i (rl h);
  si_start : a_main (st h) = AStarting -> kw (lg h) (v_ h t_start) l_ctr /\ forall j, a_idx (st h) <= j -> kn (lg h) (v_ h t_start) (l_op j);
  si_op : forall j, open (st h) j -> kw (lg h) (v_ h (t_op j)) l_ctr /\ kn (lg h) (v_ h (t_op j)) (l_op j);
  si_pend : 0 < a_pend (st h) -> ka (lg h) (v_ h t_pend);
  si_fin : a_ctr (st h) = 0 -> a_pend (st h) = 0 -> ka (lg h) (v_ h t_fin) }.
Definition WI (h : mst (S := ast)) : Prop :=
  a_dead (st h) = false -> match a_main (st h) with AIdle => lg h = [] | _ => started_inv h end.

Lemma locs_ka (m : mmem) v : ka (mm_log m) (mv_cur v) -> m_exec m v (map (fun x => Touch x true) (w_locs n)) <> None.
Proof. intros H. apply exec_ok; intros x _; [|apply kn_kw]; now apply ka_kn. Qed.

(** What a step touches is ordered. *)
Lemma WI_ok h tr l v : AI n (st h) tr -> WI h -> a_rule n tr -> (l = ALDestroy -> In AEDone tr) ->
  forall s' es, a_step n dbg (st h) l = Next s' es -> m_exec (ms_mem h) (hv h l v) (acts (st h) l) <> None.
Proof.
  intros HA HI HR Hd s' es Hs. unfold WI in HI.
  destruct l; simpl in Hs.
  - destruct (a_main (st h)) eqn:Em; try discriminate. destruct (a_dead (st h)); [discriminate|]. specialize (HI eq_refl).
    apply locs_ka. rewrite HI. apply ka_nil.
  - destruct (a_main (st h)) eqn:Em; try discriminate.
    + destruct (a_dead (st h)); [discriminate|]. specialize (HI eq_refl). destruct HI as [A B O P F]. destruct (B Em) as [B1 B2].
      assert (Hv : incl (v_ h t_start) (mv_cur (hv h ALStep v))) by (apply in_hview; simpl; auto).
      simpl. rewrite Em. destruct (a_idx (st h) <? n) eqn:El; apply exec_ok; intros x Hx; simpl in Hx.
      * destruct Hx as [[= <-]|[]]. apply (kn_incl _ _ _ _ (B2 _ (le_n _)) Hv).
      * destruct Hx as [[=]|[]].
      * destruct Hx as [[=]|[[=]|[]]].
      * destruct Hx as [[= <-]|[[=]|[]]]. apply (kw_incl _ _ _ _ B1 Hv).
    + pose proof (ai_main _ _ _ HA) as H. rewrite Em in H. contradiction.
  - destruct (i <? a_idx (st h)) eqn:El; [|discriminate]. destruct (memb i (a_comp (st h))) eqn:Ec; [discriminate|]. simpl in Hs.
    destruct (a_dead (st h)); [discriminate|]. specialize (HI eq_refl). apply Nat.ltb_lt in El. apply memb_not_In in Ec.
    assert (HS : started_inv h). { pose proof (ai_main _ _ _ HA) as H. destruct (a_main (st h)) eqn:Em; auto. lia. }
    destruct HS as [A B O P F]. destruct (O i (conj El Ec)) as [O1 O2].
    assert (Hv : incl (v_ h (t_op i)) (mv_cur (hv h (ALComp i) v))) by (apply in_hview; simpl; auto).
    apply exec_ok; intros x Hx; simpl in Hx.
    + destruct Hx as [[= <-]|[[=]|[[=]|[]]]]. apply (kn_incl _ _ _ _ O2 Hv).
    + destruct Hx as [[=]|[[= <-]|[[=]|[]]]]. apply (kw_incl _ _ _ _ O1 Hv).
  - destruct (a_pend (st h)) eqn:Ep; [discriminate|]. destruct (a_dead (st h)); [discriminate|]. specialize (HI eq_refl).
    assert (HS : started_inv h). { pose proof (ai_pend _ _ _ HA) as H. rewrite Ep in H. destruct (a_ctr (st h)) eqn:E; simpl in H; [|lia].
      pose proof (ai_rule _ _ _ HA HR E) as Em. rewrite Em in HI. exact HI. }
    destruct HS as [A B O P F]. assert (Hka : ka (lg h) (mv_cur (hv h ALNotify v))).
    { apply (ka_incl _ (v_ h t_pend)); [apply P; lia|]. apply in_hview. simpl. auto. }
    apply exec_ok; intros x _; [|apply kn_kw]; now apply ka_kn.
  - destruct (a_dead (st h)); [discriminate|]. specialize (HI eq_refl). specialize (Hd eq_refl). apply a_dones_In in Hd.
    pose proof (ai_pend _ _ _ HA) as H. destruct (a_ctr (st h)) eqn:E; simpl in H; [|lia].
    pose proof (ai_rule _ _ _ HA HR E) as Em. rewrite Em in HI. destruct HI as [A B O P F]. apply locs_ka.
    apply (ka_incl _ (v_ h t_fin)); [apply F; lia|]. apply in_hview. simpl. rewrite Em. simpl. auto.
Qed.

Ltac noloc := intros Hq; simpl in Hq; repeat (destruct Hq as [Hq|Hq]; [solve [discriminate Hq|unfold l_op in Hq; injection Hq; lia]|]); destruct Hq.
Lemma t_op_inj i j : t_op i = t_op j -> i = j. Proof. unfold t_op. lia. Qed.

Lemma WI_step h tr l v s' es m' v' : AI n (st h) tr -> AI n s' (tr ++ es) -> WI h -> a_rule n (tr ++ es) ->
  a_step n dbg (st h) l = Next s' es -> m_exec (ms_mem h) (hv h l v) (acts (st h) l) = Some (m', v') ->
  WI (MS s' m' (m_set (ms_view h) (wh_dst n (st h) l) v')).
Proof.
  intros HA HA' HI HR' Hs He. pose proof (a_rule_prefix _ _ _ HR') as HR. pose proof (eff_exec _ _ _ _ _ He) as Ef. unfold WI in HI |- *. cbn [ms_base ms_mem ms_view]. intros Hal.
  assert (Hnew : forall i, i < length (mm_log m') -> i < length (lg h) \/ In i (mv_cur v')).
  { intros i Hi. destruct (nth_error (mm_log m') i) as [[a p]|] eqn:Hni; [|apply nth_error_None in Hni; lia]. destruct (eff_cases Ef _ _ _ Hni) as [[H _]|(_ & H & _)]; auto. }
  assert (Hz : a_ctr (st h) = 0 -> a_main (st h) = AEnd) by (exact (ai_rule _ _ _ HA HR)).
  assert (Hp0 : 0 < a_pend (st h) -> a_ctr (st h) = 0). { intros Hp. pose proof (ai_pend _ _ _ HA) as H. destruct (a_ctr (st h)); [reflexivity|simpl in H; lia]. }
  destruct (st h) as [dead idx main ctr comp pend] eqn:Hb. cbn [a_dead a_idx a_main a_ctr a_comp a_pend] in *.
  destruct l; cbn [a_step a_dead a_idx a_main a_ctr a_comp a_pend] in Hs.
  - destruct main; try discriminate. destruct dead; [discriminate|]. injection Hs as <- <-. cbn [a_main] in *. specialize (HI eq_refl).
    assert (Hka : ka (mm_log m') (mv_cur v')). { intros i Hi. destruct (Hnew i Hi) as [H|H]; [rewrite HI in H; simpl in H; lia|exact H]. }
    pose proof (ai_main _ _ _ HA) as Hm. simpl in Hm. subst idx. constructor; cbn [ms_base ms_mem ms_view a_dead a_idx a_main a_ctr a_comp a_pend].
    + intros _ i Hi. left. split; [reflexivity|]. rewrite set_in by (simpl; auto). auto.
    + intros _. rewrite set_in by (simpl; auto). split; [apply kn_kw|intros j _]; now apply ka_kn.
    + intros j [Hj _]. simpl in Hj. lia.
    + intros Hp. specialize (Hz (Hp0 Hp)). discriminate.
    + intros Hc. specialize (Hz Hc). discriminate.
  - destruct main; try discriminate; [|pose proof (ai_main _ _ _ HA) as H; destruct H]. destruct dead; [discriminate|]. specialize (HI eq_refl).
    assert (Hc0 : 0 < ctr) by (destruct ctr; [specialize (Hz eq_refl); discriminate|lia]).
    assert (Hv : incl (v_ h t_start) (mv_cur v')). { eapply incl_tran; [|exact (ef_cur _ _ _ _ _ Ef)]. apply in_hview. rewrite Hb. simpl. auto. }
    destruct HI as [A B O P F]. rewrite Hb in *. cbn [a_dead a_idx a_main a_ctr a_comp a_pend] in *. destruct (B eq_refl) as [B1 B2]. specialize (A Hc0).
    assert (B1' : kw (lg h) (mv_cur (hv h ALStep v)) l_ctr). { apply (kw_incl _ _ _ _ B1). apply in_hview. rewrite Hb. simpl. auto. }
    assert (B2' : forall j, idx <= j -> kn (lg h) (mv_cur (hv h ALStep v)) (l_op j)). { intros j Hj. apply (kn_incl _ _ _ _ (B2 j Hj)). apply in_hview. rewrite Hb. simpl. auto. }
    cbn [wh_acts wh_dst a_dead a_idx a_main a_ctr a_comp a_pend] in He, Ef |- *. destruct (idx <? n) eqn:El.
    + injection Hs as <- <-. cbn [a_main]. constructor; cbn [ms_base ms_mem ms_view a_dead a_idx a_main a_ctr a_comp a_pend].
      * intros _ i Hi. destruct (Hnew i Hi) as [Ho|Hi']; [|left; split; [reflexivity|]; rewrite set_in by (simpl; auto); exact Hi'].
        destruct (A i Ho) as [[_ H]|[(j & [Hj Hjc] & H)|H]].
        -- left. split; [reflexivity|]. rewrite set_in by (simpl; auto). auto.
        -- right. left. simpl in Hj, Hjc. exists j. split; [split; simpl; [lia|exact Hjc]|]. rewrite set_out; [exact H|]. intros [H1|[H1|[]]]; [discriminate|]. apply t_op_inj in H1. lia.
        -- right. right. apply (ef_rel _ _ _ _ _ Ef). exact H.
      * intros _. rewrite set_in by (simpl; auto). split; [now apply (eff_kw Ef)|]. intros j Hj. apply (eff_kn Ef). apply B2'. lia.
      * intros j [Hj Hjc]. simpl in Hj, Hjc. destruct (Nat.eq_dec j idx) as [->|Hne].
        -- rewrite set_in by (simpl; auto). split; [now apply (eff_kw Ef)|apply (eff_kn Ef), B2'; lia].
        -- rewrite set_out by (intros [H1|[H1|[]]]; [discriminate|apply t_op_inj in H1; lia]).
           destruct (O j) as [O1 O2]; [split; simpl; [lia|exact Hjc]|]. split; [apply (eff_kw_other Ef); auto; noloc|apply (eff_kn_other Ef); auto; intros w; noloc].
           
      * intros Hp. specialize (Hp0 Hp). lia.
      * lia.
    + destruct ctr as [|c]; [lia|]. injection Hs as <- <-. cbn [a_main].
      destruct (exec_rmw (ms_mem h) _ [Touch l_ctr false] 0 s_acq true m' v' eq_refl He) as (Hrel & _). specialize (Hrel eq_refl).
      constructor; cbn [ms_base ms_mem ms_view a_dead a_idx a_main a_ctr a_comp a_pend].
      * intros _ i Hi. destruct (Hnew i Hi) as [Ho|Hi']; [|right; right; auto].
        destruct (A i Ho) as [[_ H]|[(j & Hj & H)|H]]; [right; right; auto| |right; right; apply (ef_rel _ _ _ _ _ Ef); exact H].
        right. left. exists j. split; [exact Hj|]. rewrite set_out; [exact H|]. intros [H1|[]]. discriminate.
      * discriminate.
      * intros j Hj. rewrite set_out by (intros [H1|[]]; discriminate). destruct (O j Hj) as [O1 O2].
        split; [apply (eff_kw_other Ef); auto; noloc|apply (eff_kn_other Ef); auto; intros w; noloc].
      * intros Hp. specialize (Hp0 Hp). lia.
      * lia.
  - destruct (i <? idx) eqn:El; [|discriminate]. destruct (memb i comp) eqn:Ec; [discriminate|]. simpl in Hs. destruct dead; [discriminate|].
    destruct ctr as [|c]; [discriminate|]. injection Hs as <- <-. specialize (HI eq_refl). apply Nat.ltb_lt in El. apply memb_not_In in Ec. cbn [a_main].
    assert (Hm : main <> AIdle). { intros ->. pose proof (ai_main _ _ _ HA) as H. simpl in H. lia. }
    assert (HS : started_inv h) by (destruct main; auto; congruence). clear HI. destruct HS as [A B O P F]. rewrite Hb in *. cbn [a_dead a_idx a_main a_ctr a_comp a_pend] in *.
    specialize (A ltac:(lia)). assert (Hpz : pend = 0) by (destruct pend; [reflexivity|]; specialize (Hp0 ltac:(lia)); lia). subst pend.
    assert (Hv : incl (v_ h (t_op i)) (mv_cur v')). { eapply incl_tran; [|exact (ef_cur _ _ _ _ _ Ef)]. apply in_hview. simpl. auto. }
    destruct (exec_rmw (ms_mem h) _ [Touch (l_op i) true; Touch l_ctr false] 0 true true m' v' eq_refl He) as (Hrel & Hacq & _). specialize (Hrel eq_refl). specialize (Hacq eq_refl).
    cbn [wh_dst a_ctr]. set (d := if S c =? 1 then [t_op i; t_pend] else [t_op i]).
    assert (Hd : forall t, t <> t_op i -> t <> t_pend -> ~ In t d). { intros t H1 H2. unfold d. destruct (S c =? 1); simpl; intuition. }
    enough (started_inv (MS (AS false idx main c (comp ++ [i]) (0 + (if c =? 0 then 1 else 0))) m' (m_set (ms_view h) d v'))) by (destruct main; auto; congruence).
    constructor; cbn [ms_base ms_mem ms_view a_dead a_idx a_main a_ctr a_comp a_pend].
    + intros _ k Hk. destruct (Hnew k Hk) as [Ho|Hi']; [|right; right; auto]. destruct (A k Ho) as [[Hms H]|[(j & [Hj Hjc] & H)|H]].
      * left. split; [exact Hms|]. rewrite set_out; [exact H|apply Hd; discriminate].
      * simpl in Hj, Hjc. destruct (Nat.eq_dec j i) as [->|Hne]; [right; right; auto|]. right. left. exists j. split; [split; simpl; auto|].
        -- intros Hin. apply In_snoc in Hin. intuition.
        -- rewrite set_out; [exact H|]. apply Hd; [intros H1; apply t_op_inj in H1; lia|discriminate].
      * right. right. apply (ef_rel _ _ _ _ _ Ef). exact H.
    + intros Hms. destruct (B Hms) as [B1 B2]. rewrite set_out by (apply Hd; discriminate). split; [apply (eff_kw_other Ef); auto; noloc|].
      intros j Hj. apply (eff_kn_other Ef); auto. intros w. noloc. 
    + intros j [Hj Hjc]. simpl in Hj, Hjc. assert (Hne : j <> i) by (intros ->; apply Hjc, In_snoc; auto).
      rewrite set_out by (apply Hd; [intros H1; apply t_op_inj in H1; lia|discriminate]). destruct (O j) as [O1 O2]; [split; simpl; auto; intros H1; apply Hjc, In_snoc; auto|].
      split; [apply (eff_kw_other Ef); auto; noloc|apply (eff_kn_other Ef); auto; intros w; noloc]. 
    + intros Hp. destruct c as [|c]; [|simpl in Hp; lia]. unfold d. simpl (1 =? 1). rewrite set_in by (simpl; auto).
      intros k Hk. destruct (Hnew k Hk) as [Ho|Hi']; [|exact Hi']. destruct (A k Ho) as [[Hms H]|[(j & [Hj Hjc] & H)|H]].
      * pose proof (ai_rule _ _ _ HA' HR' eq_refl) as H1. simpl in H1. congruence.
      * simpl in Hj, Hjc. destruct (ai_full n Hn _ _ HA' eq_refl) as [_ Hf]. pose proof (ai_idx _ _ _ HA) as Hix. simpl in Hix, Hf.
        specialize (Hf j ltac:(lia)). apply In_snoc in Hf. destruct Hf as [Hf|Hf]; [contradiction|]. subst j. auto.
      * auto.
    + intros -> Hp. simpl in Hp. lia.
  - destruct pend as [|p]; [discriminate|]. destruct dead; [discriminate|]. injection Hs as <- <-. specialize (HI eq_refl). specialize (Hp0 ltac:(lia)). subst ctr.
    specialize (Hz eq_refl). subst main. cbn [a_main]. destruct HI as [A B O P F]. rewrite Hb in *. cbn [a_dead a_idx a_main a_ctr a_comp a_pend] in *.
    specialize (P ltac:(lia)). pose proof (ai_pend _ _ _ HA) as Hpe. simpl in Hpe. assert (p = 0) by lia. subst p.
    constructor; cbn [ms_base ms_mem ms_view a_dead a_idx a_main a_ctr a_comp a_pend]; try lia; try discriminate.
    + intros j [Hj Hjc]. simpl in Hj, Hjc. destruct (ai_full n Hn _ _ HA eq_refl) as [Hf1 Hf]. simpl in Hf1, Hf. exfalso. apply Hjc, Hf. lia.
    + intros _ _. rewrite set_in by (simpl; auto). apply (eff_ka Ef). apply (ka_incl _ _ _ P). apply in_hview. simpl. auto.
  - destruct dead; [discriminate|]. injection Hs as <- <-. discriminate.
Qed.

Lemma WI_run ls h tr : run hstep (wh_init n) ls = Running h tr -> a_rule n (map fst tr) -> WI h /\ AI n (st h) (map fst tr).
Proof.
  intros Hr HC. split; [|apply (ai_run n dbg Hn (map fst ls)); [apply h_run in Hr; exact Hr|right; exact HC]]. revert ls h tr Hr HC.
  apply (h_inv (a_step n dbg) wh_src (wh_dst n) acts (a_rule n) (fun h _ => WI h) (a_init n) (a_rule_prefix n)).
  - intros _. reflexivity.
  - intros ls h tr l v s' es m' v' Hr HI Hs He HC. apply h_run in Hr.
    assert (HA : AI n (st h) (map fst tr)) by (apply (ai_run n dbg Hn _ _ _ Hr); right; exact (a_rule_prefix _ _ _ HC)).
    apply (WI_step h (map fst tr) l v s' es); auto. apply (ai_step n dbg Hn _ _ _ _ _ HA Hs). right. exact HC.
Qed.

Theorem when_all_norace ls tr : run hstep (wh_init n) ls = Failed DataRace tr -> ~ a_rule n (map fst tr).
Proof.
  intros Hr HC. destruct (h_failed _ _ _ _ _ _ _ _ Hr) as [(ls0 & Hb)|(_ & ls1 & h & tr1 & l & v & s' & es & H1 & He & Hs & Ht)].
  - exact (a_safe n dbg Hn _ _ _ Hb HC).
  - rewrite Ht in HC. pose proof (a_rule_prefix _ _ _ HC) as HC1. destruct (WI_run _ _ _ H1 HC1) as [HI HA]. revert He.
    apply (WI_ok h (map fst tr1) l v HA HI HC1) with s' es; [|exact Hs]. intros ->. simpl in Hs. destruct (a_dead _); [discriminate|]. injection Hs as <- <-.
    exact (a_rule_last _ _ _ HC).
Qed.

(** ** Visibility *)
Lemma sees_app tr es v : sees_senders tr -> (In AEDone es -> es = [AEDone] /\ forall e u, In (e, u) tr -> incl u v) ->
  sees_senders (tr ++ map (fun e => (e, v)) es).
Proof.
  intros H Hd t1 w t2 Ht. destruct (in_dec (fun a b : aevent => ltac:(decide equality; apply Nat.eq_dec) : {a = b} + {a <> b}) AEDone es) as [Hin|Hni].
  - destruct (Hd Hin) as [-> Hv]. simpl in Ht. apply snoc_cons_inv in Ht. destruct Ht as [(-> & [= ->] & _)|(t2' & ->)]; [exact Hv|]. now apply (H t1 w t2').
  - clear Hd. revert t1 t2 Ht. induction es as [|e es IH] using rev_ind; intros t1 t2 Ht.
    + simpl in Ht. rewrite app_nil_r in Ht. now apply (H t1 w t2).
    + rewrite map_app, app_assoc in Ht. simpl in Ht. apply snoc_cons_inv in Ht. destruct Ht as [(_ & [= Hx _] & _)|(t2' & Ht)].
      * exfalso. apply Hni. apply in_or_app. right. left. congruence.
      * apply IH with t2'; [|exact Ht]. intros Hy. apply Hni, in_or_app. auto.
Qed.
Theorem when_all_visible ls h tr : run hstep (wh_init n) ls = Running h tr -> a_rule n (map fst tr) -> sees_senders tr.
Proof.
  revert ls h tr. apply (h_inv (a_step n dbg) wh_src (wh_dst n) acts (a_rule n) (fun _ tr => sees_senders tr) (a_init n) (a_rule_prefix n)).
  { intros [] ? ? [=]. }
  intros ls h tr l v s' es m' v' Hr HV Hs He HC. apply sees_app; [exact HV|]. intros Hin.
  pose proof (a_rule_prefix _ _ _ HC) as HC1. destruct (WI_run ls h tr Hr HC1) as [HI HA]. pose proof (hb_bounded _ _ _ _ _ _ _ _ Hr) as HB.
  pose proof (eff_exec _ _ _ _ _ He) as Ef.
  destruct l; simpl in Hs.
  - destruct (a_main _); try discriminate. destruct (a_dead _); [discriminate|]. injection Hs as _ <-. simpl in Hin. intuition discriminate.
  - destruct (a_main (st h)) eqn:Em; try discriminate; [|pose proof (ai_main _ _ _ HA) as H; rewrite Em in H; destruct H]. destruct (a_dead _); [discriminate|].
    destruct (_ <? _); [injection Hs as _ <-; simpl in Hin; intuition discriminate|]. destruct (a_ctr (st h)) eqn:Ec.
    + pose proof (ai_rule _ _ _ HA HC1 Ec). congruence.
    + injection Hs as _ <-. simpl in Hin. intuition discriminate.
  - destruct (_ && _); [|discriminate]. destruct (a_dead _); [discriminate|]. destruct (a_ctr _); [discriminate|]. injection Hs as _ <-. simpl in Hin. intuition discriminate.
  - destruct (a_pend (st h)) eqn:Ep; [discriminate|]. destruct (a_dead (st h)) eqn:Ed; [discriminate|]. injection Hs as _ <-. split; [reflexivity|].
    specialize (HI Ed). assert (HS : started_inv h).
    { pose proof (ai_pend _ _ _ HA) as H. rewrite Ep in H. destruct (a_ctr (st h)) eqn:E; simpl in H; [|lia]. pose proof (ai_rule _ _ _ HA HC1 E) as Em. rewrite Em in HI. exact HI. }
    intros e u Hu i Hi. apply (hb_tr _ _ HB _ _ Hu) in Hi. apply (ef_cur _ _ _ _ _ Ef). apply (in_hview wh_src h ALNotify v t_pend); [simpl; auto|].
    apply (si_pend _ HS); [lia|exact Hi].
  - destruct (a_dead _); [discriminate|]. injection Hs as _ <-. simpl in Hin. intuition discriminate.
Qed.
End N.
