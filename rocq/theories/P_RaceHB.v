(** Race freedom and visibility for race_and_cancel. *)
From Coq Require Import List Arith Bool Lia.
From Verif Require Import Lts ListFacts M_Race S_Race P_Race P_Result M_HB P_HB M_RaceHB S_RaceHB.
Import ListNotations.

Section N.
Variable n : nat.
Hypothesis Hn : 0 < n.
Notation hstep := (ch_step n true true).
Notation acts := (ch_acts n true true).
Notation v_ h t := (mv_cur (ms_view h t)).
Notation lg h := (mm_log (ms_mem h)).
Notation rl h := (mm_rel (ms_mem h) 0).
Notation st h := (ms_base h).
Notation hv := (hview ch_src).
Notation done s := (P_Race.done n (r_acts s)).
Notation full s := (length (r_comp s) = n).

(** Operation j was started and is not yet completed *)
Definition open (s : rst) (j : nat) : Prop := j < r_idx s /\ ~ In j (r_comp s).
(** What the last completion call gets to know *)
Definition T (h : mst (S := rst)) (i : nat) : Prop :=
  (r_main (st h) = RStarting /\ r_idx (st h) < n /\ In i (v_ h t_start)) \/ (exists j, open (st h) j /\ In i (v_ h (t_op j))) \/ In i (rl h).

Record started_inv (h : mst (S := rst)) : Prop := SI {
  si_all : done (st h) = 0 -> forall i, i < length (lg h) -> T h i \/ (r_acts (st h) <> [] /\ In i (v_ h (t_act 0)));
  si_kw : forall x, (forall i, x <> l_op i) -> kw (lg h) (v_ h t_start) x /\ (forall j, open (st h) j -> kw (lg h) (v_ h (t_op j)) x) /\
            (forall k, k < length (r_acts (st h)) -> kw (lg h) (v_ h (t_act k)) x);
  si_start : forall j, r_idx (st h) <= j -> kn (lg h) (v_ h t_start) (l_op j);
  si_op : forall j, open (st h) j -> kn (lg h) (v_ h (t_op j)) (l_op j);
  si_last : full (st h) -> incl (rl h) (v_ h (t_act (n - 1)));
  si_fin : done (st h) = 1 -> forall i, i < length (lg h) -> In i (v_ h t_fin) \/ In i (v_ h (t_act 0)) }.
Definition WI (h : mst (S := rst)) : Prop :=
  r_dead (st h) = false -> match r_main (st h) with RIdle => lg h = [] | _ => started_inv h end.

Lemma locs_ka (m : mmem) v : ka (mm_log m) (mv_cur v) -> m_exec m v (map (fun x => Touch x true) (c_locs n)) <> None.
Proof. intros H. apply exec_ok; intros x _; [|apply kn_kw]; now apply ka_kn. Qed.
Lemma started_of h tr : RI n (st h) tr -> WI h -> r_dead (st h) = false -> 0 < r_idx (st h) -> started_inv h.
Proof. intros HA HI Hd Hi. specialize (HI Hd). pose proof (ri_main _ _ _ HA) as H. destruct (r_main (st h)); auto. lia. Qed.
Lemma act_started s tr k a : RI n s tr -> nth_error (r_acts s) k = Some a -> 0 < r_idx s.
Proof.
  intros HA Hk. pose proof (ri_acts _ _ _ HA _ _ Hk) as H. assert (exists i, nth_error (r_comp s) k = Some i) as [i Hi] by (destruct a; simpl in H; [destruct H|]; eauto).
  apply nth_error_In in Hi. apply (ri_lt _ _ _ HA) in Hi. lia.
Qed.
Lemma done_full s tr : RI n s tr -> done s = 1 -> full s.
Proof.
  intros HA H. unfold P_Race.done in H. destruct (nth_error (r_acts s) (n - 1)) as [a|] eqn:E; [|discriminate]. assert (n - 1 < length (r_acts s)) by (apply nth_error_Some; congruence).
  rewrite (ri_len _ _ _ HA) in H0. pose proof (comp_le n Hn _ _ HA). lia.
Qed.
Lemma full_closed s tr j : RI n s tr -> full s -> ~ open s j.
Proof. intros HA Hf [H1 H2]. destruct (ri_full n Hn _ _ HA Hf) as [_ H]. apply H2, H. pose proof (ri_idx _ _ _ HA). lia. Qed.
Lemma done01 s : done s = 0 \/ done s = 1.
Proof. unfold P_Race.done. destruct (nth_error _ _) as [[]|]; auto. Qed.

(** What a step touches is ordered. *)
Lemma WI_ok h tr l v : RI n (st h) tr -> WI h -> (l = RLDestroy -> In REDone tr) ->
  forall s' es, r_step n (st h) l = Next s' es -> m_exec (ms_mem h) (hv h l v) (acts (st h) l) <> None.
Proof.
  intros HA HI Hd s' es Hs. destruct l; cbn [r_step] in Hs.
  - destruct (r_main (st h)) eqn:Em; try discriminate. destruct (r_dead (st h)) eqn:Ed; [discriminate|]. specialize (HI Ed). rewrite Em in HI.
    apply locs_ka. rewrite HI. apply ka_nil.
  - destruct (r_main (st h)) eqn:Em; try discriminate. simpl. destruct (r_idx (st h) <? n) eqn:El; [|simpl; discriminate].
    destruct (r_dead (st h)) eqn:Ed; [discriminate|]. specialize (HI Ed). rewrite Em in HI. apply exec_ok; intros x Hx; destruct Hx as [[= <-]|[]].
    apply (kn_incl _ _ _ _ (si_start _ HI _ (le_n _))). apply in_hview. simpl. auto.
  - destruct (i <? r_idx (st h)) eqn:El; [|discriminate]. destruct (memb i (r_comp (st h))) eqn:Ec; [discriminate|]. cbn [andb negb] in Hs.
    destruct (r_dead (st h)) eqn:Ed; [discriminate|]. apply Nat.ltb_lt in El. apply memb_not_In in Ec. pose proof (started_of _ _ HA HI Ed ltac:(lia)) as [A B C O P F].
    assert (Hv : incl (v_ h (t_op i)) (mv_cur (hv h (RLComp i) v))) by (apply in_hview; simpl; auto).
    apply exec_ok; intros x Hx; simpl in Hx.
    + destruct Hx as [[= <-]|[[=]|[[=]|[]]]]. apply (kn_incl _ _ _ _ (O i (conj El Ec)) Hv).
    + destruct Hx as [[=]|[[= <-]|[[=]|[]]]]. apply (kw_incl _ _ _ _ (proj1 (proj2 (B l_n ltac:(unfold l_n, l_op; lia))) i (conj El Ec)) Hv).
  - destruct (nth_error (r_acts (st h)) k) as [[i j m|]|] eqn:Hk; try discriminate. unfold ch_acts. rewrite Hk.
    assert (Hkw : r_dead (st h) = false -> forall x, (forall i, x <> l_op i) -> kw (lg h) (mv_cur (hv h (RLAct k) v)) x).
    { intros Ed x Hx. pose proof (started_of _ _ HA HI Ed (act_started _ _ _ _ HA Hk)) as [A B C O P F]. apply (kw_incl _ (v_ h (t_act k))); [|apply in_hview; simpl; auto].
      apply (B x Hx). apply nth_error_Some. congruence. }
    destruct (j <? n).
    + destruct (j =? i); [simpl; discriminate|]. destruct (r_dead (st h)); [discriminate|]. apply exec_ok; intros x [[= <-]|[]]. apply Hkw; [reflexivity|]. intros y. unfold l_cs, l_op. lia.
    + destruct (m + 1 =? n); [|simpl; discriminate]. destruct (r_dead (st h)); [discriminate|]. apply exec_ok; intros x [[= <-]|[]]. apply Hkw; [reflexivity|]. intros y. unfold l_r, l_op. lia.
  - destruct (r_dead (st h)) eqn:Ed; [discriminate|]. specialize (Hd eq_refl). apply r_dones_In in Hd. rewrite (ri_done _ _ _ HA) in Hd.
    assert (Hdo : done (st h) = 1) by (destruct (done01 (st h)); lia).
    assert (Hi : 0 < r_idx (st h)) by (pose proof (done_full _ _ HA Hdo) as Hf; destruct (ri_full n Hn _ _ HA Hf); lia).
    pose proof (started_of _ _ HA HI Ed Hi) as [A B C O P F].
    assert (Hsrc : ch_src (st h) RLDestroy = [t_fin; t_act 0]) by (simpl; pose proof (ri_main _ _ _ HA) as Hm; destruct (r_main (st h)); auto; lia).
    apply locs_ka. intros i Hix. destruct (F Hdo i Hix) as [H|H]; [apply (in_hview ch_src h RLDestroy v t_fin)|apply (in_hview ch_src h RLDestroy v (t_act 0))]; auto; rewrite Hsrc; simpl; auto.
Qed.

Ltac tdiff := unfold t_op, t_act, t_start, t_fin in *; lia.
Ltac tnot := let H := fresh in intros H; simpl in H; repeat (destruct H as [H|H]; [tdiff|]); destruct H.
Ltac noloc := intros Hq; simpl in Hq; repeat (destruct Hq as [Hq|Hq]; [solve [discriminate Hq|unfold l_op, l_cs, l_r, l_n in Hq; injection Hq; lia]|]); destruct Hq.

(** T is preserved, and holds for what happens before start and completion of operations. *)
Lemma T_step h tr l v s' es m' v' : RI n (st h) tr -> r_step n (st h) l = Next s' es -> m_exec (ms_mem h) (hv h l v) (acts (st h) l) = Some (m', v') ->
  let h' := MS s' m' (m_set (ms_view h) (ch_dst n (st h) l) v') in
  (forall i, T h i -> T h' i) /\ (forall e i, In e es -> op_event e = true -> In i (mv_cur v') -> T h' i).
Proof.
  intros HA Hs He. cbv zeta. pose proof (eff_exec _ _ _ _ _ He) as Ef. unfold T.
  assert (Hrl : forall i, In i (rl h) -> In i (mm_rel m' 0)) by (intros i; apply (ef_rel _ _ _ _ _ Ef)).
  destruct (st h) as [dead idx main c comp ac] eqn:Hb. cbn [ms_base ms_mem ms_view].
  destruct l; cbn [r_step r_dead r_idx r_main r_n r_comp r_acts] in Hs.
  - destruct main; try discriminate. destruct dead; [discriminate|]. injection Hs as <- <-. pose proof (ri_main _ _ _ HA) as Hm. simpl in Hm. subst idx.
    cbn [r_dead r_idx r_main r_n r_comp r_acts]. split.
    + intros i [(H & _)|[(j & [Hj _] & _)|H]]; [discriminate|simpl in Hj; lia|auto].
    + intros e i _ _ Hi. left. split; [reflexivity|]. split; [exact Hn|]. rewrite set_in; [exact Hi|simpl; auto].
  - destruct main; try discriminate. assert (Hv : incl (v_ h t_start) (mv_cur v')). { eapply incl_tran; [|exact (ef_cur _ _ _ _ _ Ef)]. apply in_hview. simpl. auto. }
    cbn [ch_dst r_idx]. destruct (idx <? n) eqn:El.
    + destruct dead; [discriminate|]. injection Hs as <- <-. cbn [r_dead r_idx r_main r_n r_comp r_acts].
      assert (Hop : forall i, In i (mv_cur v') -> exists j, open (RS false (S idx) RStarting c comp ac) j /\ In i (v_ (MS (RS false (S idx) RStarting c comp ac) m' (m_set (ms_view h) [t_start; t_op idx] v')) (t_op j))).
      { intros i Hi. exists idx. simpl. split; [split; simpl; [lia|]|rewrite set_in; [exact Hi|simpl; auto]]. intros H. apply (ri_lt _ _ _ HA) in H. simpl in H. lia. }
      split.
      * intros i [(_ & _ & H)|[(j & [Hj Hjc] & H)|H]]; [right; left; apply Hop; auto| |auto]. right. left. exists j. simpl in *. split; [split; simpl; auto|].
        rewrite set_out; [exact H|]. tnot.
      * intros e i _ _ Hi. auto.
    + injection Hs as <- <-. apply Nat.ltb_ge in El. cbn [r_dead r_idx r_main r_n r_comp r_acts]. split.
      * intros i [(_ & H & _)|[(j & [Hj Hjc] & H)|H]]; [lia| |auto]. right. left. exists j. split; [split; auto|]. rewrite set_out; [exact H|]. tnot.
      * intros e i [<-|[]]. discriminate.
  - destruct (i <? idx) eqn:El; [|discriminate]. destruct (memb i comp) eqn:Ec; [discriminate|]. cbn [andb negb] in Hs. destruct dead; [discriminate|]. injection Hs as <- <-.
    apply Nat.ltb_lt in El. assert (Hv : incl (v_ h (t_op i)) (mv_cur v')). { eapply incl_tran; [|exact (ef_cur _ _ _ _ _ Ef)]. apply in_hview. simpl. auto. }
    destruct (exec_rmw (ms_mem h) _ [Touch (l_op i) true; Touch l_n false] 0 true true m' v' eq_refl He) as (Hrel & _). specialize (Hrel eq_refl).
    cbn [r_dead r_idx r_main r_n r_comp r_acts ch_dst]. split; [|intros e k _ _ Hk; auto].
    intros k [(H1 & H2 & H)|[(j & [Hj Hjc] & H)|H]]; [|simpl in Hj, Hjc|auto].
    + left. split; [exact H1|]. split; [exact H2|]. rewrite set_out; [exact H|]. tnot.
    + destruct (Nat.eq_dec j i) as [->|Hne]; [auto|]. right. left. exists j. split; [split; simpl; auto|].
      * intros H1. apply In_snoc in H1. intuition.
      * rewrite set_out; [exact H|]. tnot.
  - assert (Hout : forall t, t <> t_act k -> t <> t_fin -> m_set (ms_view h) (ch_dst n (RS dead idx main c comp ac) (RLAct k)) v' t = ms_view h t).
    { intros t H1 H2. apply set_out. simpl. destruct (nth_error ac k) as [[i j m|]|]; [destruct (j <? n); [|destruct (m + 1 =? n)]| |]; simpl; intuition. }
    assert (Hs' : s' = RS dead idx main c comp (r_acts s') /\ forall e, In e es -> op_event e = false).
    { destruct (nth_error ac k) as [[i j m|]|]; try discriminate. destruct (j <? n); [destruct (j =? i)|destruct (m + 1 =? n)]; try (destruct dead; [discriminate|]); injection Hs as <- <-;
      (split; [reflexivity|]); simpl; intros e He'; intuition subst; reflexivity. }
    destruct Hs' as [-> Hes]. cbn [r_dead r_idx r_main r_n r_comp r_acts]. split; [|intros e i H1 H2; rewrite (Hes e H1) in H2; discriminate].
    intros i [(H1 & H2 & H)|[(j & Hj & H)|H]]; [left|right; left|auto].
    + split; [exact H1|]. split; [exact H2|]. rewrite Hout; auto; tdiff.
    + exists j. split; [exact Hj|]. rewrite Hout; auto; tdiff.
  - destruct dead; [discriminate|]. injection Hs as <- <-. split; [|intros e i [<-|[]]; discriminate]. intros i [H|[H|H]]; auto.
Qed.

Lemma WI_step h tr l v s' es m' v' : RI n (st h) tr -> RI n s' (tr ++ es) -> WI h ->
  r_step n (st h) l = Next s' es -> m_exec (ms_mem h) (hv h l v) (acts (st h) l) = Some (m', v') ->
  WI (MS s' m' (m_set (ms_view h) (ch_dst n (st h) l) v')).
Proof.
  intros HA HA' HI Hs He. pose proof (eff_exec _ _ _ _ _ He) as Ef. destruct (T_step _ _ _ _ _ _ _ _ HA Hs He) as [HT HTn]. unfold WI in HI |- *. cbn [ms_base ms_mem ms_view]. intros Hal.
  assert (Hnew : forall i, i < length (mm_log m') -> i < length (lg h) \/ In i (mv_cur v')).
  { intros i Hi. destruct (nth_error (mm_log m') i) as [[a p]|] eqn:Hni; [|apply nth_error_None in Hni; lia]. destruct (eff_cases Ef _ _ _ Hni) as [[H _]|(_ & H & _)]; auto. }
  pose proof (started_of h tr HA HI) as HS.
  destruct (st h) as [dead idx main c comp ac] eqn:Hb.
  assert (Hnd : length comp < n -> P_Race.done n ac = 0). { intros H. destruct (done01 (RS dead idx main c comp ac)) as [H1|H1]; [exact H1|]. apply (done_full _ _ HA) in H1. simpl in H1. lia. }
  cbn [r_dead r_idx r_main r_n r_comp r_acts] in *.
  destruct l; cbn [r_step r_dead r_idx r_main r_n r_comp r_acts] in Hs.
  - destruct main; try discriminate. destruct dead; [discriminate|]. injection Hs as <- <-. specialize (HI eq_refl). cbn [r_main] in *.
    assert (Hka : ka (mm_log m') (mv_cur v')). { intros i Hi. destruct (Hnew i Hi) as [H|H]; [rewrite HI in H; simpl in H; lia|exact H]. }
    pose proof (ri_main _ _ _ HA) as Hm. simpl in Hm. subst idx.
    assert (comp = []) by (destruct comp as [|i comp]; [reflexivity|]; pose proof (ri_lt _ _ _ HA i (or_introl eq_refl)) as H; simpl in H; lia). subst comp.
    assert (ac = []) by (pose proof (ri_len _ _ _ HA) as H; simpl in H; destruct ac; [reflexivity|discriminate]). subst ac.
    constructor; cbn [ms_base ms_mem ms_view r_dead r_idx r_main r_n r_comp r_acts].
    + intros _ i Hi. left. apply (HTn REStart); simpl; auto.
    + intros x _. rewrite set_in by (simpl; auto). split; [apply kn_kw; now apply ka_kn|]. split; [intros j [Hj _]|intros k Hk]; simpl in *; lia.
    + intros j _. rewrite set_in by (simpl; auto). now apply ka_kn.
    + intros j [Hj _]. simpl in Hj. lia.
    + simpl. lia.
    + simpl in Hnd. rewrite Hnd by lia. discriminate.
  - destruct main; try discriminate. assert (Hdead : dead = false) by (destruct dead; [|reflexivity]; destruct (idx <? n); [discriminate|injection Hs as <- <-; discriminate Hal]). subst dead. specialize (HI eq_refl).
    destruct HI as [A B C O P F]. unfold T in A. rewrite Hb in *. cbn [r_dead r_idx r_main r_n r_comp r_acts] in *.
    assert (B' : forall x, (forall i, x <> l_op i) -> kw (lg h) (mv_cur (hv h RLStep v)) x). { intros x Hx. apply (kw_incl _ (v_ h t_start)); [apply (B x Hx)|]. apply in_hview. simpl. auto. }
    assert (C' : forall j, idx <= j -> kn (lg h) (mv_cur (hv h RLStep v)) (l_op j)). { intros j Hj. apply (kn_incl _ _ _ _ (C j Hj)). apply in_hview. simpl. auto. }
    cbn [ch_acts ch_dst r_idx] in He, Ef, HT, HTn |- *. destruct (idx <? n) eqn:El.
    + injection Hs as <- <-. cbn [r_main]. apply Nat.ltb_lt in El.
      assert (Hlen : length comp < n). { pose proof (comp_le n Hn _ _ HA) as H. simpl in H. destruct (Nat.eq_dec (length comp) n) as [E|E]; [|lia]. destruct (ri_full n Hn _ _ HA E) as [H1 _]. simpl in H1. lia. }
      specialize (Hnd Hlen). constructor; cbn [ms_base ms_mem ms_view r_dead r_idx r_main r_n r_comp r_acts].
      * intros _ i Hi. destruct (Hnew i Hi) as [Ho|Hi']; [|left; apply (HTn (REChild idx)); simpl; auto]. destruct (A Hnd i Ho) as [H|[H1 H]]; [left|right].
        -- apply HT. unfold T. rewrite Hb. exact H.
        -- split; [exact H1|]. rewrite set_out; [exact H|]. tnot.
      * intros x Hx. rewrite set_in by (simpl; auto). split; [now apply (eff_kw Ef), B'|]. destruct (B x Hx) as (_ & B2 & B3). split.
        -- intros j [Hj Hjc]. simpl in Hj, Hjc. destruct (Nat.eq_dec j idx) as [->|Hne]; [rewrite set_in by (simpl; auto); now apply (eff_kw Ef), B'|].
           rewrite set_out by tnot. apply (eff_kw_other Ef); [apply B2; split; simpl; auto; lia|]. intros [[= H]|[]]. apply (Hx idx). auto.
        -- intros k Hk. rewrite set_out by tnot. apply (eff_kw_other Ef); [now apply B3|]. intros [[= H]|[]]. apply (Hx idx). auto.
      * intros j Hj. rewrite set_in by (simpl; auto). apply (eff_kn Ef), C'. lia.
      * intros j [Hj Hjc]. simpl in Hj, Hjc. destruct (Nat.eq_dec j idx) as [->|Hne]; [rewrite set_in by (simpl; auto); apply (eff_kn Ef), C'; lia|].
        rewrite set_out by tnot. apply (eff_kn_other Ef); [apply O; split; simpl; auto; lia|]. intros w. noloc.
      * simpl. lia.
      * rewrite Hnd. discriminate.
    + injection Hs as <- <-. cbn [r_main]. apply Nat.ltb_ge in El. cbn [m_exec] in He. injection He as <- <-.
      constructor; cbn [ms_base ms_mem ms_view r_dead r_idx r_main r_n r_comp r_acts].
      * intros Hdo i Hi. destruct (A Hdo i Hi) as [H|[H1 H]]; [left|right]; [apply HT; unfold T; rewrite Hb; exact H|]. split; [exact H1|]. rewrite set_out; [exact H|]. tnot.
      * intros x Hx. rewrite set_in by (simpl; auto). split; [now apply B'|]. destruct (B x Hx) as (_ & B2 & B3). split; intros j Hj; (rewrite set_out by tnot); auto.
      * intros j Hj. rewrite set_in by (simpl; auto). now apply C'.
      * intros j Hj. rewrite set_out by tnot. now apply O.
      * intros Hf. rewrite set_out by tnot. now apply P.
      * intros Hdo i Hi. rewrite !set_out by tnot. now apply F.
  - destruct (i <? idx) eqn:El; [|discriminate]. destruct (memb i comp) eqn:Ec; [discriminate|]. cbn [andb negb] in Hs. destruct dead; [discriminate|]. injection Hs as <- <-.
    apply Nat.ltb_lt in El. apply memb_not_In in Ec. specialize (HS eq_refl ltac:(lia)). cbn [r_main]. pose proof (ri_idx _ _ _ HA) as Hix. pose proof (ri_len _ _ _ HA) as Hla. pose proof (ri_main _ _ _ HA) as Hmain. simpl in Hix, Hla, Hmain.
    assert (Hlen : length comp < n). { pose proof (comp_le n Hn _ _ HA') as H. cbn [r_comp] in H. rewrite app_length in H. simpl in H. lia. }
    specialize (Hnd Hlen). destruct (exec_rmw (ms_mem h) _ [Touch (l_op i) true; Touch l_n false] 0 true true m' v' eq_refl He) as (Hrel & Hacq & _). specialize (Hrel eq_refl). specialize (Hacq eq_refl).
    match goal with |- match main with RIdle => _ | RStarting => ?X | REnd => _ end => enough X by (destruct main; auto; lia) end.
    destruct HS as [A B C O P F]. unfold T in A. rewrite Hb in *. cbn [r_dead r_idx r_main r_n r_comp r_acts ch_dst] in *.
    assert (B' : forall x, (forall i, x <> l_op i) -> kw (mm_log m') (mv_cur v') x). { intros x Hx. apply (eff_kw Ef). apply (kw_incl _ (v_ h (t_op i))); [apply (B x Hx); split; auto|]. apply in_hview. simpl. auto. }
    assert (Hd' : P_Race.done n (ac ++ [RA i (if c =? 0 then 0 else n) c]) = 0).
    { unfold P_Race.done in *. destruct (Nat.lt_ge_cases (n - 1) (length ac)) as [L|L]; [rewrite nth_error_app1; auto|]. rewrite nth_error_app2 by auto. destruct (n - 1 - length ac) as [|[]]; reflexivity. }
    constructor; cbn [ms_base ms_mem ms_view r_dead r_idx r_main r_n r_comp r_acts].
    + intros _ k Hk. destruct (Hnew k Hk) as [Ho|Hi']; [|left; apply (HTn (REComp i)); simpl; auto]. destruct (A Hnd k Ho) as [H|[H1 H]]; [left|right].
      * apply HT. unfold T. rewrite Hb. exact H.
      * split; [destruct ac; discriminate|]. destruct ac as [|a ac]; [congruence|]. rewrite set_out; [exact H|]. simpl length. tnot.
    + intros x Hx. rewrite set_out by tnot. destruct (B x Hx) as (B1 & B2 & B3). assert (Hnt : ~ In (Touch x true) [Touch (l_op i) true; Touch l_n false; Rmw 0 true true]).
      { intros [[= H]|[[=]|[[=]|[]]]]. apply (Hx i). auto. }
      split; [now apply (eff_kw_other Ef)|]. split.
      * intros j [Hj Hjc]. simpl in Hj, Hjc. assert (j <> i) by (intros ->; apply Hjc, In_snoc; auto). rewrite set_out by tnot. apply (eff_kw_other Ef); [|exact Hnt]. apply B2. split; simpl; auto. intros H1. apply Hjc, In_snoc; auto.
      * intros k Hk. rewrite app_length in Hk. simpl in Hk. destruct (Nat.eq_dec k (length ac)) as [->|Hne]; [rewrite set_in by (simpl; auto); auto|]. rewrite set_out by tnot. apply (eff_kw_other Ef); [|exact Hnt]. apply B3. lia.
    + intros j Hj. rewrite set_out by tnot. apply (eff_kn_other Ef); [auto|]. intros w. noloc.
    + intros j [Hj Hjc]. simpl in Hj, Hjc. assert (j <> i) by (intros ->; apply Hjc, In_snoc; auto). rewrite set_out by tnot. apply (eff_kn_other Ef); [apply O; split; simpl; auto; intros H1; apply Hjc, In_snoc; auto|].
      intros w. noloc.
    + intros Hf. rewrite app_length in Hf. simpl in Hf. replace (n - 1) with (length ac) by lia. rewrite set_in by (simpl; auto).
      intros k Hk. apply (exec_rmw_rel (ms_mem h) _ [Touch (l_op i) true; Touch l_n false] 0 true true m' v' eq_refl He) in Hk. apply in_app_or in Hk. destruct Hk; auto.
    + rewrite Hd'. discriminate.
  - destruct (nth_error ac k) as [[i j m|]|] eqn:Hk; try discriminate. pose proof (ri_acts _ _ _ HA _ _ Hk) as (A1 & A2 & A3 & A4). cbn [r_comp] in A1.
    assert (Hdead : dead = false). { destruct dead; [|reflexivity]. destruct (j <? n); [destruct (j =? i)|destruct (m + 1 =? n)]; try discriminate Hs; injection Hs as <- <-; discriminate Hal. }
    subst dead. pose proof (act_started _ _ _ _ HA Hk) as Hidx. cbn [r_idx] in Hidx. specialize (HS eq_refl Hidx).
    pose proof (ri_main _ _ _ HA) as Hmain. cbn [r_main r_idx] in Hmain. pose proof (ri_len _ _ _ HA) as Hla. cbn [r_acts r_comp] in Hla.
    assert (Hkl : k < length ac) by (apply nth_error_Some; congruence).
    assert (HX : s' = RS false idx main c comp (r_acts s') /\ length (r_acts s') = length ac /\
                 (P_Race.done n (r_acts s') = P_Race.done n ac \/ (k = n - 1 /\ P_Race.done n (r_acts s') = 1 /\ P_Race.done n ac = 0 /\ ch_dst n (RS false idx main c comp ac) (RLAct k) = [t_act k; t_fin]))).
    { cbn [ch_dst r_acts]. rewrite Hk. destruct (j <? n) eqn:E1.
      - destruct (j =? i); injection Hs as <- <-; cbn [r_with_act r_dead r_idx r_main r_n r_comp r_acts]; (split; [reflexivity|]); rewrite set_nth_length; (split; [reflexivity|]); left; apply (done_set n _ _ _ _ Hk); discriminate.
      - destruct (m + 1 =? n) eqn:E2; injection Hs as <- <-; cbn [r_with_act r_dead r_idx r_main r_n r_comp r_acts]; (split; [reflexivity|]); rewrite set_nth_length; (split; [reflexivity|]);
          rewrite (done_ret n Hn _ _ _ _ Hk) by discriminate; rewrite A2 in E2; rewrite E2; [|left; lia]. right. apply Nat.eqb_eq in E2.
        assert (Hz : P_Race.done n ac = 0) by (unfold P_Race.done; replace (n - 1) with k by lia; rewrite Hk; reflexivity). rewrite Hz. repeat split; auto; lia. }
    destruct HX as (Hs' & Hl' & HD). rewrite Hs'. cbn [r_main].
    match goal with |- match main with RIdle => _ | RStarting => ?X | REnd => _ end => enough X by (destruct main; auto; lia) end.
    destruct HS as [A B C O P F]. unfold T in A. rewrite Hb in *. cbn [r_dead r_idx r_main r_n r_comp r_acts] in *.
    assert (Hv : incl (v_ h (t_act k)) (mv_cur v')). { eapply incl_tran; [|exact (ef_cur _ _ _ _ _ Ef)]. apply in_hview. simpl. auto. }
    assert (Htk : m_set (ms_view h) (ch_dst n (RS false idx main c comp ac) (RLAct k)) v' (t_act k) = v').
    { apply set_in. cbn [ch_dst r_acts]. rewrite Hk. destruct (j <? n); [|destruct (m + 1 =? n)]; simpl; auto. }
    assert (Hout : forall t, t <> t_act k -> t <> t_fin -> m_set (ms_view h) (ch_dst n (RS false idx main c comp ac) (RLAct k)) v' t = ms_view h t).
    { intros t H1 H2. apply set_out. cbn [ch_dst r_acts]. rewrite Hk. destruct (j <? n); [|destruct (m + 1 =? n)]; simpl; intuition. }
    assert (Hacts : forall x w, In (Touch x w) (acts (RS false idx main c comp ac) (RLAct k)) -> w = false /\ forall y, x <> l_op y).
    { intros x w. cbn [ch_acts r_acts]. rewrite Hk. destruct (j <? n); [destruct (j =? i)|destruct (m + 1 =? n)]; intros H; try destruct H as [[= <- <-]|[]]; try destruct H; (split; [reflexivity|]); intros y; unfold l_cs, l_r, l_op; lia. }
    assert (Hnw : forall x, ~ In (Touch x true) (acts (RS false idx main c comp ac) (RLAct k))) by (intros x H; apply Hacts in H; destruct H; discriminate).
    assert (Hno : forall y w, ~ In (Touch (l_op y) w) (acts (RS false idx main c comp ac) (RLAct k))) by (intros y w H; apply Hacts in H; destruct H as [_ H]; now apply (H y)).
    assert (Hrl : mm_rel m' = mm_rel (ms_mem h)).
    { assert (Htc : forallb is_touch (acts (RS false idx main c comp ac) (RLAct k)) = true) by (cbn [ch_acts r_acts]; rewrite Hk; destruct (j <? n); [destruct (j =? i)|destruct (m + 1 =? n)]; reflexivity).
      apply (exec_touches _ _ _ _ _ Htc He). }
    assert (Hw0 : forall x, In x (v_ h (t_act 0)) -> In x (mv_cur (m_set (ms_view h) (ch_dst n (RS false idx main c comp ac) (RLAct k)) v' (t_act 0)))).
    { intros x Hx. destruct k; [rewrite Htk; auto|]. rewrite Hout; [exact Hx| |]; tdiff. }
    (** an access of this call before the notification was done by the first call *)
    assert (Hn0 : forall x, length (lg h) <= x -> x < length (mm_log m') -> P_Race.done n (r_acts s') = P_Race.done n ac -> k = 0).
    { intros x H1 H2 H3. destruct (nth_error (mm_log m') x) as [[a p]|] eqn:Hni; [|apply nth_error_None in Hni; lia]. destruct (eff_cases Ef _ _ _ Hni) as [[H _]|(_ & _ & H)]; [lia|].
      cbn [ch_acts r_acts] in H. rewrite Hk in H. destruct (j <? n) eqn:E1; [apply Nat.ltb_lt in E1; destruct k; [reflexivity|]; specialize (A4 ltac:(lia)); lia|].
      destruct (m + 1 =? n) eqn:E2; [|destruct H]. exfalso. apply Nat.eqb_eq in E2. injection Hs as Hs1 _. rewrite <- Hs1 in H3. cbn [r_with_act r_acts] in H3.
      rewrite (done_ret n Hn _ _ _ _ Hk) in H3 by discriminate. subst m. rewrite E2, Nat.eqb_refl in H3. lia. }
    constructor; cbn [ms_base ms_mem ms_view r_dead r_idx r_main r_n r_comp r_acts].
    + intros Hdo x Hx. destruct HD as [HD|(_ & HD & _)]; [|lia]. rewrite HD in Hdo. destruct (Nat.lt_ge_cases x (length (lg h))) as [Ho|Ho].
      * destruct (A Hdo x Ho) as [H|[H1 H]]; [left|right]; [rewrite Hs' in HT; apply HT; unfold T; rewrite Hb; exact H|]. split; [|apply Hw0, H]. intros E. rewrite E in Hl'. simpl in Hl'. lia.
      * right. split; [intros E; rewrite E in Hl'; simpl in Hl'; lia|]. specialize (Hn0 x Ho Hx HD). destruct k; [|discriminate Hn0]. rewrite Htk. destruct (Hnew x Hx) as [H|H]; [lia|exact H].
    + intros x Hx. destruct (B x Hx) as (B1 & B2 & B3). rewrite Hout by tdiff. split; [apply (eff_kw_other Ef); auto|]. split.
      * intros y Hy. rewrite Hout by tdiff. apply (eff_kw_other Ef); auto.
      * intros y Hy. destruct (Nat.eq_dec y k) as [->|Hne]; [rewrite Htk; apply (eff_kw Ef), (kw_incl _ _ _ _ (B3 k Hkl)); apply in_hview; simpl; auto|].
        rewrite Hout by tdiff. apply (eff_kw_other Ef); auto. apply B3. lia.
    + intros y Hy. rewrite Hout by tdiff. apply (eff_kn_other Ef); auto.
    + intros y Hy. rewrite Hout by tdiff. apply (eff_kn_other Ef); auto.
    + intros Hf. rewrite Hrl. destruct (Nat.eq_dec k (n - 1)) as [->|Hne]; [rewrite Htk; eapply incl_tran; [exact (P Hf)|exact Hv]|]. rewrite Hout by tdiff. auto.
    + intros Hdo x Hx. destruct HD as [HD|(-> & HD & HD0 & Hdst)].
      * rewrite HD in Hdo. destruct (Nat.lt_ge_cases x (length (lg h))) as [Ho|Ho].
        -- destruct (F Hdo x Ho) as [H|H]; [|right; now apply Hw0]. left. rewrite set_out; [exact H|]. cbn [ch_dst r_acts]. rewrite Hk. destruct (j <? n); [tnot|]. destruct (m + 1 =? n) eqn:E2; [|tnot].
           exfalso. apply Nat.eqb_eq in E2. unfold P_Race.done in Hdo. replace (n - 1) with k in Hdo by lia. rewrite Hk in Hdo. discriminate.
        -- right. specialize (Hn0 x Ho Hx HD). destruct k; [|discriminate Hn0]. rewrite Htk. destruct (Hnew x Hx) as [H|H]; [lia|exact H].
      * rewrite Hdst. rewrite (set_in _ _ _ t_fin) by (simpl; auto). destruct (Hnew x Hx) as [Ho|Hn1]; [|auto]. rewrite <- Hdst. destruct (A HD0 x Ho) as [H|[H1 H]]; [left|right; now apply Hw0].
        assert (Hf : length comp = n). { rewrite <- Hla. pose proof (comp_le n Hn _ _ HA) as H1. cbn [r_comp] in H1. lia. }
        apply Hv, (P Hf). destruct H as [(_ & H & _)|[(y & Hy & _)|H]]; [|exfalso; exact (full_closed _ _ y HA Hf Hy)|exact H].
        destruct (ri_full n Hn _ _ HA Hf) as [H2 _]. cbn [r_idx] in H2. lia.
  - destruct dead; [discriminate|]. injection Hs as <- <-. discriminate.
Qed.

Lemma WI_run ls h tr : run hstep ch_init ls = Running h tr -> WI h /\ RI n (st h) (map fst tr).
Proof.
  intros Hr. split; [|apply (ri_run n Hn (map fst ls)); apply h_run in Hr; exact Hr]. revert Hr.
  intros Hr. apply (h_inv (r_step n) ch_src (ch_dst n) acts (fun _ => True) (fun h _ => WI h) r_init) with (ls := ls) (tr := tr); auto.
  - intros _. reflexivity.
  - clear ls h tr Hr. intros ls h tr l v s' es m' v' Hr HI Hs He _. apply h_run in Hr. pose proof (ri_run n Hn _ _ _ Hr) as HA.
    apply (WI_step h (map fst tr) l v s' es); auto. exact (ri_step n Hn _ _ _ _ _ HA Hs).
Qed.

Theorem race_norace ls tr : run hstep ch_init ls = Failed DataRace tr -> ~ r_rule (map fst tr).
Proof.
  intros Hr HC. destruct (h_failed _ _ _ _ _ _ _ _ Hr) as [(ls0 & Hb)|(_ & ls1 & h & tr1 & l & v & s' & es & H1 & He & Hs & Ht)].
  - exact (r_safe n Hn _ _ _ Hb HC).
  - rewrite Ht in HC. destruct (WI_run _ _ _ H1) as [HI HA]. revert He.
    apply (WI_ok h (map fst tr1) l v HA HI) with s' es; [|exact Hs]. intros ->. cbn [r_step] in Hs. destruct (r_dead _); [discriminate|]. injection Hs as <- <-.
    exact (proj1 (r_rule_last _ HC)).
Qed.

(** ** Visibility *)
Lemma sees_app tr es v : sees_operations tr -> (In REDone es -> (exists es', es = REDone :: es' /\ ~ In REDone es') /\ forall e u, In (e, u) tr -> op_event e = true -> incl u v) ->
  sees_operations (tr ++ map (fun e => (e, v)) es).
Proof.
  assert (Hg : forall es tr, sees_operations tr -> ~ In REDone es -> sees_operations (tr ++ map (fun e => (e, v)) es)).
  { clear. intros es tr H Hni t1 w t2 Ht. revert t1 t2 Ht. induction es as [|e es IH] using rev_ind; intros t1 t2 Ht.
    + simpl in Ht. rewrite app_nil_r in Ht. now apply (H t1 w t2).
    + rewrite map_app, app_assoc in Ht. simpl in Ht. apply snoc_cons_inv in Ht. destruct Ht as [(_ & [= Hx _] & _)|(t2' & Ht)].
      * exfalso. apply Hni. apply in_or_app. right. left. congruence.
      * apply IH with t2'; [|exact Ht]. intros Hy. apply Hni, in_or_app. auto. }
  intros H Hd. destruct (in_dec (fun a b : revent => ltac:(decide equality; apply Nat.eq_dec) : {a = b} + {a <> b}) REDone es) as [Hin|Hni]; [|now apply Hg].
  destruct (Hd Hin) as [(es' & -> & Hni) Hv]. simpl. change ((REDone, v) :: map (fun e => (e, v)) es') with ([(REDone, v)] ++ map (fun e => (e, v)) es'). rewrite app_assoc. apply Hg; [|exact Hni].
  intros t1 w t2 Ht. apply snoc_cons_inv in Ht. destruct Ht as [(-> & Hx & _)|(t2' & ->)]; [injection Hx as ->; exact Hv|]. now apply (H t1 w t2').
Qed.
Lemma VI_run ls h tr : run hstep ch_init ls = Running h tr -> (forall e u i, In (e, u) tr -> op_event e = true -> In i u -> T h i) /\ sees_operations tr.
Proof.
  intros Hr. apply (h_inv (r_step n) ch_src (ch_dst n) acts (fun _ => True) (fun h tr => (forall e u i, In (e, u) tr -> op_event e = true -> In i u -> T h i) /\ sees_operations tr) r_init) with (ls := ls); auto.
  { split; [intros ? ? ? []|]. intros [] ? ? [=]. }
  clear ls h tr Hr. intros ls h tr l v s' es m' v' Hr [V1 V2] Hs He _. destruct (WI_run ls h tr Hr) as [HI HA]. pose proof (eff_exec _ _ _ _ _ He) as Ef.
  destruct (T_step _ _ _ _ _ _ _ _ HA Hs He) as [HT HTn]. split.
  - intros e u i Hin Hop Hi. apply in_app_or in Hin. destruct Hin as [Hin|Hin]; [apply HT; eauto|]. apply in_map_iff in Hin. destruct Hin as (y & [= -> <-] & Hy). apply (HTn e); auto.
  - apply sees_app; [exact V2|]. intros Hin. pose proof (r_emits n _ _ _ _ Hs) as Hem.
    destruct l.
    1-3: exfalso; intuition (subst; simpl in *); try (destruct H as [? ->]); simpl in *; intuition discriminate.
    2: exfalso; subst es; simpl in Hin; intuition discriminate.
    destruct Hem as (i & j & m & Hk & [(_ & _ & ->)|[(_ & _ & ->)|[(Hj & Hm & ->)|(_ & _ & ->)]]]); try (exfalso; simpl in Hin; intuition discriminate).
    split; [exists [RECRet i]; split; [reflexivity|simpl; intuition discriminate]|]. intros e u Hu Hop x Hx. specialize (V1 e u x Hu Hop Hx).
    assert (Hdead : r_dead (st h) = false). { cbn [r_step] in Hs. rewrite Hk in Hs. apply Nat.ltb_ge in Hj. rewrite Hj in Hs. apply Nat.eqb_eq in Hm. rewrite Hm in Hs. destruct (r_dead (st h)); [discriminate|reflexivity]. }
    pose proof (started_of _ _ HA HI Hdead (act_started _ _ _ _ HA Hk)) as HS. pose proof (ri_acts _ _ _ HA _ _ Hk) as (A1 & A2 & _).
    assert (Hf : full (st h)). { pose proof (comp_le n Hn _ _ HA) as H1. assert (k < length (r_comp (st h))) by (apply nth_error_Some; congruence). lia. }
    apply (ef_cur _ _ _ _ _ Ef). apply (in_hview ch_src h (RLAct k) v (t_act k)); [simpl; auto|]. replace k with (n - 1) by lia. apply (si_last _ HS Hf).
    destruct V1 as [(_ & H & _)|[(y & Hy & _)|H]]; [|exfalso; exact (full_closed _ _ y HA Hf Hy)|exact H]. destruct (ri_full n Hn _ _ HA Hf) as [H2 _]. lia.
Qed.
Theorem race_visible ls h tr : run hstep ch_init ls = Running h tr -> sees_operations tr.
Proof. intros Hr. apply (VI_run ls h tr Hr). Qed.
End N.
