(** run(), detach() and spawn() under the C++ memory model: the accesses are totally ordered. *)
From Coq Require Import List Arith Bool Lia.
From Verif Require Import Lts ListFacts M_HB P_HB M_Run S_Run P_Run M_RunHB.
Import ListNotations.

Lemma exec_ka l m v : ka (mm_log m) (mv_cur v) -> m_exec m v l <> None.
Proof. intros H. apply exec_ok; intros x _; [|apply kn_kw]; now apply ka_kn. Qed.
Lemma ka_app_in g v w l : incl v l -> incl w l -> ka g (v ++ w) -> ka g l.
Proof. intros H1 H2 H i Hi. specialize (H i Hi). apply in_app_or in H. destruct H; auto. Qed.

(** ** run() *)
Definition UI (h : mst (S := ust)) : Prop :=
  let v0 := mv_cur (ms_view h t_run) in let v1 := mv_cur (ms_view h t_set) in let g := mm_log (ms_mem h) in
  match u_pc (ms_base h) with
  | UStart | UWait => match u_cp (ms_base h) with UEmpl _ | USet => ka g v1 | _ => ka g (v0 ++ v1) end
  | _ => ka g v0
  end.

Lemma uh_known dm h tr l v s' es : UI h -> U false (ms_base h) tr -> u_step false dm (ms_base h) l = Next s' es -> ka (mm_log (ms_mem h)) (mv_cur (hview (uh_src true) h l v)).
Proof.
  intros HI HU Hs. destruct (ms_base h) as [p c d w al] eqn:Eb. destruct HU as (_ & _ & _ & _ & _ & Hf & Hi & _ & Hn & _). unfold UI in HI. rewrite Eb in HI. cbn [u_pc u_cp] in HI.
  assert (H0 : forall t, In t (uh_src true (ms_base h) l) -> incl (mv_cur (ms_view h t)) (mv_cur (hview (uh_src true) h l v))) by (intros t; apply in_hview).
  rewrite Eb in H0.
  destruct l; simpl in Hs; simpl in H0; destruct p; try discriminate; destruct c; try discriminate; simpl in HI;
  repeat match type of Hs with (if ?b then _ else _) = _ => destruct b eqn:?; try discriminate | (match ?b with _ => _ end) = _ => destruct b eqn:?; try discriminate end;
  try (eapply ka_incl; [exact HI|]; now (apply H0; auto)); try (eapply ka_app_in; [| |exact HI]; apply H0; auto);
  try (specialize (Hi eq_refl); discriminate); try (specialize (Hf eq_refl); discriminate); try (specialize (Hn eq_refl eq_refl); discriminate).
Qed.
Lemma uh_keep dm h tr l v s' es m' v' : UI h -> U false (ms_base h) tr -> u_step false dm (ms_base h) l = Next s' es ->
  m_exec (ms_mem h) (hview (uh_src true) h l v) (uh_acts (ms_base h) l) = Some (m', v') -> UI (MS s' m' (m_set (ms_view h) (uh_dst (ms_base h) l) v')).
Proof.
  intros HI HU Hs He. pose proof (eff_ka (eff_exec _ _ _ _ _ He) (uh_known _ _ _ _ v _ _ HI HU Hs)) as Hk.
  assert (Hk2 : forall w, ka (mm_log m') (w ++ mv_cur v')) by (intros w; apply (ka_incl _ _ _ Hk), incl_appr, incl_refl).
  assert (Hk1 : forall w, ka (mm_log m') (mv_cur v' ++ w)) by (intros w; apply (ka_incl _ _ _ Hk), incl_appl, incl_refl).
  destruct (ms_base h) as [p c d w al] eqn:Eb. destruct HU as (_ & _ & _ & _ & _ & Hf & Hi & _ & Hn & _). clear He HI.
  unfold UI. cbn [ms_base ms_mem ms_view].
  destruct l; simpl in Hs; destruct p; try discriminate; destruct c; try discriminate;
  repeat match type of Hs with (if ?b then _ else _) = _ => destruct b eqn:?; try discriminate | (match ?b with _ => _ end) = _ => destruct b eqn:?; try discriminate end;
  injection Hs as <- <-; simpl; auto; try (specialize (Hi eq_refl); discriminate); try (specialize (Hf eq_refl); discriminate); try (specialize (Hn eq_refl eq_refl); discriminate).
Qed.
Definition UV (h : mst (S := ust)) (tr : list (uevent * hbs)) : Prop :=
  UI h /\ forall t1 e v t2, tr = t1 ++ (e, v) :: t2 -> forall e' u, In (e', u) t1 -> incl u v.
Lemma uh_inv dm ls h tr : run (uh_step false dm true) uh_init ls = Running h tr -> UV h tr.
Proof.
  intros Hr. apply (h_inv _ _ _ _ (fun _ => True) UV) with (ls := ls) (s0 := u_init) in Hr; auto.
  - split; [exact (ka_nil _)|]. intros [] ? ? ? [=].
  - clear. intros ls h tr l v s' es m' v' Hr [HI HV] Hs He _. pose proof (U_run _ _ _ _ _ (h_run _ _ _ _ _ _ _ _ Hr)) as HU.
    pose proof (hb_bounded _ _ _ _ _ _ _ _ Hr) as HB. split; [exact (uh_keep _ _ _ _ _ _ _ _ _ HI HU Hs He)|].
    pose proof (eff_ka (eff_exec _ _ _ _ _ He) (uh_known _ _ _ _ v _ _ HI HU Hs)) as Hk. pose proof (ef_len _ _ _ _ _ (eff_exec _ _ _ _ _ He)) as Hle.
    assert (Hes : es = [] \/ exists e, es = [e]).
    { clear -Hs. destruct (ms_base h) as [p c d w al]. destruct l; simpl in Hs;
      repeat match type of Hs with (if ?b then _ else _) = _ => destruct b eqn:?; try discriminate | (match ?b with _ => _ end) = _ => destruct b eqn:?; try discriminate end;
      injection Hs as <- <-; eauto. }
    destruct Hes as [->|[e ->]]; [simpl; rewrite app_nil_r; exact HV|]. simpl. intros t1 e1 v1 t2 Et e' u Hin.
    apply snoc_cons_inv in Et. destruct Et as [(-> & [= <- <-] & ->)|(t2' & ->)]; [|eauto].
    intros i Hi. apply Hk. pose proof (hb_tr _ _ HB _ _ Hin _ Hi). lia.
Qed.
Lemma uh_order dm ls h t1 e v t2 : run (uh_step false dm true) uh_init ls = Running h (t1 ++ (e, v) :: t2) -> forall e' u, In (e', u) t1 -> incl u v.
Proof. intros Hr. destruct (uh_inv _ _ _ _ Hr) as [_ H]. eauto. Qed.
Lemma uh_fails dm ls f tr : run (uh_step false dm true) uh_init ls = Failed f tr -> dm = true /\ f = Panicked /\ exists t, map fst tr = t ++ [UEWait] /\ u_comps t = [].
Proof.
  intros Hr. apply h_failed in Hr. destruct Hr as [[ls0 H]|(-> & ls1 & h & tr1 & l & v & s' & es & H1 & H2 & H3 & _)].
  - apply run_fails in H. destruct H as (A & B & t & C & D). eauto 6.
  - exfalso. destruct (uh_inv _ _ _ _ H1) as [HI _]. pose proof (U_run _ _ _ _ _ (h_run _ _ _ _ _ _ _ _ H1)) as HU. revert H2. apply exec_ka. exact (uh_known _ _ _ _ v _ _ HI HU H3).
Qed.

(** Whatever happens before start() happens before the completion, wherever it happens. *)
Lemma uh_started sep dm sync ls h tr : run (uh_step sep dm sync) uh_init ls = Running h tr ->
  (u_pc (ms_base h) = UInit -> tr = [] /\ u_cp (ms_base h) = UNone) /\ (forall u, In (UEStart, u) tr -> incl u (mv_cur (ms_view h t_set))) /\
  forall t1 x v t2, tr = t1 ++ (UEComp x, v) :: t2 -> forall u, In (UEStart, u) t1 -> incl u v.
Proof.
  intros Hr. apply (h_inv _ _ _ _ (fun _ => True) (fun h tr => (u_pc (ms_base h) = UInit -> tr = [] /\ u_cp (ms_base h) = UNone) /\ (forall u, In (UEStart, u) tr -> incl u (mv_cur (ms_view h t_set))) /\
    forall t1 x v t2, tr = t1 ++ (UEComp x, v) :: t2 -> forall u, In (UEStart, u) t1 -> incl u v)) with (ls := ls) (s0 := u_init) in Hr; auto.
  - split; [split; reflexivity|]. split; [intros u []|]. intros [] ? ? ? [=].
  - clear. intros ls h tr l v s' es m' v' Hr (H0 & H1 & H2) Hs He _.
    assert (Hm : incl (mv_cur (hview (uh_src sync) h l v)) (mv_cur v')) by (destruct (exec_mono _ _ _ _ _ He) as (Hm & _); exact Hm).
    assert (Hv : In t_set (uh_src sync (ms_base h) l) -> incl (mv_cur (ms_view h t_set)) (mv_cur v')) by (intros Ht; apply (incl_tran (in_hview _ _ _ v _ Ht)), Hm).
    assert (Ht : In t_set (uh_dst (ms_base h) l) -> In t_set (uh_src sync (ms_base h) l) \/ l = ULStart).
    { destruct l; simpl; intros H; auto; try (exfalso; destruct H as [H|[]]; discriminate H); left; destruct sync; simpl; auto. }
    assert (Hw : forall u, In (UEStart, u) tr -> incl u (mv_cur (m_set (ms_view h) (uh_dst (ms_base h) l) v' t_set))).
    { intros u Hu. specialize (H1 u Hu). destruct (in_dec Nat.eq_dec t_set (uh_dst (ms_base h) l)) as [Hi|Hi]; [rewrite set_in by exact Hi|rewrite set_out by exact Hi; exact H1].
      destruct (Ht Hi) as [Hj| ->]; [exact (incl_tran H1 (Hv Hj))|]. destruct (ms_base h) as [p c d w al]. simpl in Hs. destruct p; try discriminate. now rewrite (proj1 (H0 eq_refl)) in Hu. }
    assert (Hc : (exists e, es = [e] /\ (e = UEStart -> l = ULStart) /\ (forall x, e = UEComp x -> In t_set (uh_src sync (ms_base h) l))) \/ es = []).
    { clear -Hs. destruct (ms_base h) as [p c d w al]. destruct l; simpl in Hs;
      repeat match type of Hs with (if ?b then _ else _) = _ => destruct b eqn:?; try discriminate | (match ?b with _ => _ end) = _ => destruct b eqn:?; try discriminate end;
      injection Hs as <- <-; try (right; reflexivity); left; eexists; split; try reflexivity; split; try discriminate; auto; intros x0 _; destruct sync; simpl; auto. }
    cbn [ms_base ms_view]. split; [|split].
    + intros Eu. exfalso. clear -Hs Eu H0. destruct (ms_base h) as [p c d w al]. destruct l; simpl in Hs;
      repeat match type of Hs with (if ?b then _ else _) = _ => destruct b eqn:?; try discriminate | (match ?b with _ => _ end) = _ => destruct b eqn:?; try discriminate end; injection Hs as <- <-; simpl in Eu; try discriminate.
      all: destruct (H0 Eu) as [_ H]; simpl in H; discriminate.
    + destruct Hc as [(e & -> & He1 & _)| ->]; [|simpl; rewrite app_nil_r; exact Hw]. intros u Hu. apply in_app_or in Hu. destruct Hu as [Hu|[[= -> <-]|[]]]; [exact (Hw u Hu)|].
      rewrite (He1 eq_refl). simpl. apply incl_refl.
    + destruct Hc as [(e & -> & _ & He1)| ->]; [|simpl; rewrite app_nil_r; exact H2]. simpl. intros t1 x v1 t2 Et u Hu.
      apply snoc_cons_inv in Et. destruct Et as [(-> & [= -> <-] & ->)|(t2' & ->)]; [|eauto]. exact (incl_tran (H1 u Hu) (Hv (He1 x eq_refl))).
Qed.

(** ** detach() and spawn() *)
Definition DI (h : mst (S := dst)) : Prop :=
  ka (mm_log (ms_mem h)) (mv_cur (ms_view h (if d_started (ms_base h) then 1 else 0))) /\ (d_started (ms_base h) = false -> d_cp (ms_base h) = DCNone) /\ (d_started (ms_base h) = true -> d_block (ms_base h) <> DNone).
Lemma dh_known sp h l v s' es : DI h -> d_step sp (ms_base h) l = Next s' es -> ka (mm_log (ms_mem h)) (mv_cur (hview dh_thr h l v)).
Proof.
  intros (HI & H1 & H2) Hs.
  assert (H0 : forall t, In t (dh_thr (ms_base h) l) -> incl (mv_cur (ms_view h t)) (mv_cur (hview dh_thr h l v))) by (intros t; apply in_hview).
  destruct (ms_base h) as [st b c]. simpl in *. destruct l, st; simpl in *; try discriminate; try (eapply ka_incl; [exact HI|]; apply H0; auto).
  - destruct b; try discriminate. now destruct H2.
  - rewrite (H1 eq_refl) in Hs. discriminate.
Qed.
Lemma dh_keep sp h l v s' es m' v' : DI h -> d_step sp (ms_base h) l = Next s' es ->
  m_exec (ms_mem h) (hview dh_thr h l v) (dh_acts (ms_base h) l) = Some (m', v') -> DI (MS s' m' (m_set (ms_view h) (dh_dst (ms_base h) l) v')).
Proof.
  intros HI Hs He. pose proof (eff_ka (eff_exec _ _ _ _ _ He) (dh_known _ _ _ v _ _ HI Hs)) as Hk. clear He. destruct HI as (_ & H1 & H2).
  destruct (ms_base h) as [st b c]. unfold DI. cbn [ms_base ms_mem ms_view].
  destruct l, st, b, c; simpl in *; try discriminate; repeat match type of Hs with context [if ?b then _ else _] => destruct b end; try discriminate; injection Hs as <- <-; simpl; repeat split; auto; try discriminate;
  try (now destruct H2); try (specialize (H1 eq_refl); discriminate).
Qed.
Definition DV (h : mst (S := dst)) (tr : list (devent * hbs)) : Prop :=
  DI h /\ forall t1 e v t2, tr = t1 ++ (e, v) :: t2 -> forall e' u, In (e', u) t1 -> incl u v.
Lemma dh_inv sp ls h tr : run (dh_step sp) dh_init ls = Running h tr -> DV h tr.
Proof.
  intros Hr. apply (h_inv _ _ _ _ (fun _ => True) DV) with (ls := ls) (s0 := d_init) in Hr; auto.
  - split; [split; [exact (ka_nil _)|split; [reflexivity|discriminate]]|]. intros [] ? ? ? [=].
  - clear. intros ls h tr l v s' es m' v' Hr [HI HV] Hs He _.
    pose proof (hb_bounded _ _ _ _ _ _ _ _ Hr) as HB. split; [exact (dh_keep _ _ _ _ _ _ _ _ HI Hs He)|].
    pose proof (eff_ka (eff_exec _ _ _ _ _ He) (dh_known _ _ _ v _ _ HI Hs)) as Hk. pose proof (ef_len _ _ _ _ _ (eff_exec _ _ _ _ _ He)) as Hle.
    assert (Hes : es = [] \/ exists e, es = [e]).
    { clear -Hs. destruct (ms_base h) as [st b c]. destruct l, st, b, c; simpl in Hs; try discriminate; injection Hs as <- <-; eauto. }
    destruct Hes as [->|[e ->]]; [simpl; rewrite app_nil_r; exact HV|]. simpl. intros t1 e1 v1 t2 Et e' u Hin.
    apply snoc_cons_inv in Et. destruct Et as [(-> & [= <- <-] & ->)|(t2' & ->)]; [|eauto].
    intros i Hi. apply Hk. pose proof (hb_tr _ _ HB _ _ Hin _ Hi). lia.
Qed.
Lemma dh_order sp ls h t1 e v t2 : run (dh_step sp) dh_init ls = Running h (t1 ++ (e, v) :: t2) -> forall e' u, In (e', u) t1 -> incl u v.
Proof. intros Hr. destruct (dh_inv _ _ _ _ Hr) as [_ H]. eauto. Qed.
Lemma dh_safe sp ls f tr : run (dh_step sp) dh_init ls <> Failed f tr.
Proof.
  intros Hr. apply h_failed in Hr. destruct Hr as [[ls0 H]|(-> & ls1 & h & tr1 & l & v & s' & es & H1 & H2 & H3 & _)].
  - exact (detach_safe _ _ _ _ H).
  - destruct (dh_inv _ _ _ _ H1) as [HI _]. revert H2. apply exec_ka. exact (dh_known _ _ _ v _ _ HI H3).
Qed.
