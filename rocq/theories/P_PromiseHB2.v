(** The steps of the shared state of promise / future keep the invariant of P_PromiseHB.v. *)
From Coq Require Import List Arith Bool Lia.
From Verif Require Import Lts ListFacts M_HB P_HB M_PromiseHB P_PromiseHB.
Import ListNotations.

Notation v_ h t := (mv_cur (ms_view h t)).
Notation lg h := (mm_log (ms_mem h)).
Notation rl h x := (mm_rel (ms_mem h) x).
Notation st h := (ms_base h).
Notation hv := (hview ph_src).
Ltac tne := unfold t_h, t_l, t_r, t_c, t_f in *; lia.

Definition nowr (l : list mact) : Prop := ~ In (Touch l_has true) l /\ ~ In (Touch l_val true) l.

Section Step.
Context {h : mst (S := pst)} {l : list mact} {v0 : mview} {m' : mmem} {v' : mview} {s' : pst} {d : list nat}.
Hypothesis W : Inv h.
Hypothesis Ef : eff (ms_mem h) v0 l m' v'.
Notation h' := (MS s' m' (m_set (ms_view h) d v')).
Hypothesis Mono : forall t, In t d -> incl (v_ h t) (mv_cur v').

Lemma mono t : incl (v_ h t) (v_ h' t).
Proof. simpl. unfold m_set. destruct (memb t d) eqn:E; [apply Mono, memb_In, E|apply incl_refl]. Qed.
Lemma view_in t : In t d -> v_ h' t = mv_cur v'.
Proof. intros H. simpl. rewrite set_in; auto. Qed.
Lemma view_out t : ~ In t d -> v_ h' t = v_ h t.
Proof. intros H. simpl. rewrite set_out; auto. Qed.

Lemma Inv_step :
  GI m' (p_has s') ->
  nowr l \/ p_sv (st h) = SvNo ->
  (forall x, holds s' x = true -> holds (st h) x = true \/ (In (t_h x) d /\ C0 (mv_cur v'))) ->
  (forall p, p_sv s' = SvSplice p \/ p_sv s' = SvLoop p -> (p_sv (st h) = SvSplice p \/ p_sv (st h) = SvLoop p) \/ KS (mm_log m') (v_ h' (t_h p))) ->
  (forall o r, nth_error (p_op s') o = Some r -> OV h' o r) ->
  length (p_hd (st h)) <= length (p_hd s') -> length (p_op (st h)) <= length (p_op s') ->
  (forall x, In (t_h x) d -> x < length (p_hd s')) ->
  (forall o, In (t_l o) d \/ In (t_r o) d \/ In (t_c o) d \/ In (t_f o) d -> o < length (p_op s')) ->
  (length (mm_log m') = length (lg h) \/ forall i, In i (mv_cur v') -> cov h' i) ->
  (forall t, tk (st h) t -> tk s' t \/ (incl (v_ h t) (mv_cur v') /\ forall i, In i (mv_cur v') -> cov h' i)) ->
  Inv h'.
Proof.
  intros HG HN HH HS HO L1 L2 F1 F2 C1 C2. constructor; cbn [ms_base ms_mem].
  - exact HG.
  - intros x Hx. destruct (HH x Hx) as [K|[K1 K2]]; [eapply C0_incl; [exact (w_h _ W x K)|apply mono]|]. rewrite view_in; auto.
  - intros p Hp. destruct (HS p Hp) as [K|K]; [|exact K]. destruct HN as [HN|HN]; [|rewrite HN in K; destruct K; discriminate].
    apply (KS_step _ _ _ _ _ _ Ef HN). eapply KS_incl; [exact (w_sv _ W p K)|apply mono].
  - exact HO.
  - intros x Hx. rewrite view_out; [apply (w_fh _ W); lia|]. intros K. specialize (F1 x K). lia.
  - intros o Ho. assert (~ (In (t_l o) d \/ In (t_r o) d \/ In (t_c o) d \/ In (t_f o) d)) by (intros K; specialize (F2 o K); lia).
    rewrite !view_out by tauto. apply (w_fo _ W). lia.
  - apply (cov_step h l v0 m' v' s' d (w_cov _ W) Ef C1). intros t Ht. destruct (C2 t Ht) as [K|K]; [left; split; [exact K|apply mono]|right; exact K].
Qed.
End Step.

(** Steps of handles *)
Lemma K1 h l v0 m' v' s' d : Inv h -> eff (ms_mem h) v0 l m' v' -> (forall t, In t d -> incl (v_ h t) (mv_cur v')) ->
  let h' := MS s' m' (m_set (ms_view h) d v') in
  readonly (p_has (st h)) l -> p_has s' = p_has (st h) -> p_op s' = p_op (st h) ->
  (p_sv s' = p_sv (st h) \/ p_sv s' = SvNo) ->
  length (p_hd (st h)) <= length (p_hd s') ->
  (forall t, In t d -> exists x, t = t_h x /\ x < length (p_hd s')) ->
  (forall x, holds s' x = true -> holds (st h) x = true \/ (In (t_h x) d /\ C0 (mv_cur v'))) ->
  (length (mm_log m') = length (lg h) \/ forall i, In i (mv_cur v') -> cov h' i) ->
  (forall t, tk (st h) t -> tk s' t \/ (incl (v_ h t) (mv_cur v') /\ forall i, In i (mv_cur v') -> cov h' i)) ->
  Inv h'.
Proof.
  intros W Ef Mono h' Hr Hh Ho Hsv Hl Hd HH C1 C2. assert (NW : nowr l) by (split; intros K; destruct (Hr _ _ K); discriminate).
  apply (Inv_step W Ef Mono); auto.
  - rewrite Hh. exact (GI_read _ _ _ _ _ _ Ef (w_g _ W) Hr).
  - intros p Hp. left. destruct Hsv as [<-|E]; [exact Hp|]. rewrite E in Hp. destruct Hp; discriminate.
  - intros o r Hn. rewrite Ho in Hn. apply (OV_keep _ _ _ _ _ _ _ _ _ (w_op _ W _ _ Hn) Ef); [left; exact NW|..]; intros K; destruct (Hd _ K) as (x & E & _); tne.
  - rewrite Ho. lia.
  - intros x K. destruct (Hd _ K) as (y & E & Hy). assert (x = y) by tne. subst. exact Hy.
  - intros o K. exfalso. destruct K as [K|[K|[K|K]]]; destruct (Hd _ K) as (y & E & Hy); tne.
Qed.

Lemma tk_mono s s' t : (forall x, holds s x = true -> holds s' x = true) -> (forall o r, nth_error (p_op s) o = Some r -> exists r', nth_error (p_op s') o = Some r' /\ o_fut r' = o_fut r) -> tk s t -> tk s' t.
Proof.
  intros Hh Ho [(x & Hx & ->)|(o & r & Hn & Hx & Ht)]; [left; eauto|right]. destruct (Ho o r Hn) as (r' & Hn' & E). exists o, r'. rewrite E. auto.
Qed.
(** A token of x or a token of another handle that still refers to the state *)
Lemma tk_split h l v v' x t s' : Inv h -> quiet (st h) x = true -> incl (t_all (st h) x) (ph_src (st h) l) -> incl (mv_cur (hv h l v)) (mv_cur v') ->
  p_op s' = p_op (st h) -> (forall y, holds (st h) y = true -> y <> x -> holds s' y = true) -> tk (st h) t -> tk s' t \/ (holds (st h) x = true /\ incl (v_ h t) (mv_cur v')).
Proof.
  intros W Hq Hs Hv Ho Hh Ht. destruct (all_view h l v x W Hq Hs) as [K1 K2]. destruct Ht as [(y & Hy & ->)|(o & r & Hn & Hy & E)].
  - destruct (Nat.eq_dec y x) as [->|Hne]; [right; split; [exact Hy|eapply incl_tran; eauto]|]. left. left. eauto.
  - destruct (Nat.eq_dec (o_fut r) x) as [Ex|Hne].
    + right. rewrite Ex in Hy. split; [exact Hy|]. destruct (K2 o r Hn Ex) as (Q1 & Q2 & Q3). destruct E as [->|[->| ->]]; eapply incl_tran; eauto.
    + left. right. exists o, r. rewrite Ho. auto.
Qed.

Lemma holds_app s d c x : holds (with_hd s (p_hd s ++ [d]) c) x = if x =? length (p_hd s) then d_has d else holds s x.
Proof. unfold holds, hdl. simpl. rewrite nth_app_last. destruct (x =? _); reflexivity. Qed.
Lemma holds_lt s x : holds s x = true -> x < length (p_hd s). Proof. intros H. apply hdl_lt. auto. Qed.
Lemma holds_put s y b b' c x : live s y = true -> holds (with_hd s (put s y b b') c) x = if x =? y then b else holds s x.
Proof. intros H. unfold holds. rewrite hdl_put by exact H. destruct (x =? y); reflexivity. Qed.
Lemma exec_nil m v m' v' : m_exec m v [] = Some (m', v') -> m' = m /\ v' = v. Proof. intros [= <- <-]. auto. Qed.
Lemma tk_op s s' t : p_op s' = p_op s -> (forall x, holds s x = true -> holds s' x = true) -> tk s t -> tk s' t.
Proof. intros E H. apply tk_mono; [exact H|]. intros o r Hn. rewrite E. eauto. Qed.
Lemma readonly_nil b : readonly b []. Proof. intros x w []. Qed.
Lemma cov_h (h : mst (S := pst)) x v : holds (st h) x = true -> v_ h (t_h x) = mv_cur v -> forall i, In i (mv_cur v) -> cov h i.
Proof. intros Hx <- i Hi. right. exists (t_h x). split; [left; eauto|exact Hi]. Qed.
Lemma in_tin (t : nat) d : In t (t :: d). Proof. left. reflexivity. Qed.

Section Orders.
Variables r_acq r_rel : bool.
Notation hstep := (ph_step r_acq r_rel true true).
Notation acts := (ph_acts r_acq r_rel true true).

Definition stepok (h : mst) (l : plabel) : Prop := forall v s' es m' v', BI (st h) -> Inv h -> p_step (st h) l = Next s' es ->
  m_exec (ms_mem h) (hv h l v) (acts (st h) l) = Some (m', v') -> p_dead s' = false -> Inv (MS s' m' (m_set (ms_view h) (ph_dst (st h) l) v')).

Lemma fresh_h h x v' : Inv h -> length (p_hd (st h)) <= x -> incl (v_ h (t_h x)) v'.
Proof. intros W H. rewrite (w_fh _ W x H). intros i []. Qed.
Lemma src_in h l v t m acts' m' v' : In t (ph_src (st h) l) -> m_exec m (hv h l v) acts' = Some (m', v') -> incl (v_ h t) (mv_cur v').
Proof. intros Ht He. eapply incl_tran; [exact (in_hview ph_src h l v t Ht)|]. exact (ef_cur _ _ _ _ _ (eff_exec _ _ _ _ _ He)). Qed.
Lemma ref_ro b : readonly b (ref_acts r_acq r_rel).
Proof. intros x w [[= <- <-]|[[=]|[]]]. split; [reflexivity|]. split; [discriminate|auto]. Qed.

Lemma st_empty h : stepok h LEmpty.
Proof.
  intros v s' es m' v' B W Hs He _. pose proof (eff_exec _ _ _ _ _ He) as Ef. cbn [p_step ph_acts ph_dst] in *. injection Hs as <- _. destruct (exec_nil _ _ _ _ He) as [-> _].
  apply (K1 h _ _ _ _ _ _ W Ef); simpl; auto.
  - intros t [<-|[]]. apply fresh_h; auto.
  - apply readonly_nil.
  - rewrite app_length. lia.
  - intros t [<-|[]]. exists (length (p_hd (st h))). rewrite app_length. simpl. split; [reflexivity|lia].
  - intros x. rewrite holds_app. destruct (x =? _); [discriminate|auto].
  - intros t Ht. left. apply (tk_op (st h)); auto. intros x Hx. rewrite holds_app. pose proof (holds_lt _ _ Hx). destruct (Nat.eqb_spec x (length (p_hd (st h)))); [lia|exact Hx].
Qed.
Lemma st_copy h x : stepok h (LCopy x).
Proof.
  intros v s' es m' v' B W Hs He _. pose proof (eff_exec _ _ _ _ _ He) as Ef. cbn [p_step ph_acts ph_dst] in *.
  destruct (live (st h) x && negb (setting (st h) x)); [|discriminate]. destruct (holds (st h) x) eqn:Hx.
  - rewrite (alive_holds _ _ _ B Hx) in Hs. injection Hs as <- _.
    assert (C : forall i, In i (mv_cur v') -> cov (MS (with_hd (st h) (p_hd (st h) ++ [Hd false true true]) (S (p_ctr (st h)))) m' (m_set (ms_view h) [t_h (length (p_hd (st h)))] v')) i).
    { apply (cov_h _ (length (p_hd (st h)))); [cbn [ms_base]; rewrite holds_app, Nat.eqb_refl; reflexivity|]. cbn [ms_view]. rewrite set_in by apply in_tin. reflexivity. }
    apply (K1 h _ _ _ _ _ _ W Ef); try reflexivity; auto.
    + intros t [<-|[]]. apply fresh_h; auto.
    + apply ref_ro.
    + simpl. rewrite app_length. lia.
    + intros t [<-|[]]. exists (length (p_hd (st h))). simpl. rewrite app_length. simpl. split; [reflexivity|lia].
    + intros y. rewrite holds_app. destruct (Nat.eqb_spec y (length (p_hd (st h)))) as [->|]; [|auto]. intros _. right. split; [apply in_tin|]. eapply C0_incl; [exact (w_h _ W x Hx)|]. eapply src_in; [|exact He]. simpl. auto.
    + intros t Ht. left. apply (tk_op (st h)); auto. intros y Hy. rewrite holds_app. pose proof (holds_lt _ _ Hy). destruct (Nat.eqb_spec y (length (p_hd (st h)))); [lia|exact Hy].
  - injection Hs as <- _. destruct (exec_nil _ _ _ _ He) as [-> _].
    apply (K1 h _ _ _ _ _ _ W Ef); simpl; auto.
    + intros t [<-|[]]. apply fresh_h; auto.
    + apply readonly_nil.
    + rewrite app_length. lia.
    + intros t [<-|[]]. exists (length (p_hd (st h))). rewrite app_length. simpl. split; [reflexivity|lia].
    + intros y. rewrite holds_app. destruct (y =? _); [discriminate|auto].
    + intros t Ht. left. apply (tk_op (st h)); auto. intros y Hy. rewrite holds_app. pose proof (holds_lt _ _ Hy). destruct (Nat.eqb_spec y (length (p_hd (st h)))); [lia|exact Hy].
Qed.
Lemma st_move h x : stepok h (LMove x).
Proof.
  intros v s' es m' v' B W Hs He _. pose proof (eff_exec _ _ _ _ _ He) as Ef. cbn [p_step ph_acts ph_dst] in *.
  destruct (idle (st h) x) eqn:Hi; [|discriminate]. destruct (idle_inv _ _ Hi) as (Hl & _ & Hq). injection Hs as <- _. destruct (exec_nil _ _ _ _ He) as [-> _].
  pose proof (hdl_lt _ _ (or_introl Hl)) as Hlt.
  assert (Hh : forall y, holds (with_hd (st h) (put (st h) x false true ++ [Hd (prom (st h) x) true (holds (st h) x)]) (p_ctr (st h))) y =
     if y =? length (p_hd (st h)) then holds (st h) x else if y =? x then false else holds (st h) y).
  { intros y. pose proof (holds_put (st h) x false true 0 y Hl) as E. unfold holds, hdl in E |- *. simpl in *. rewrite nth_app_last, put_length. destruct (y =? length (p_hd (st h))); [reflexivity|exact E]. }
  assert (Sx : incl (v_ h (t_h x)) (mv_cur v')) by (eapply src_in; [|exact He]; left; reflexivity).
  apply (K1 h _ _ _ _ _ _ W Ef); try reflexivity; auto.
  - intros t [<-|[<-|[]]]; [exact Sx|apply fresh_h; auto].
  - apply readonly_nil.
  - simpl. rewrite app_length, put_length. lia.
  - intros t [<-|[<-|[]]]; simpl; rewrite app_length, put_length; simpl; [exists x|exists (length (p_hd (st h)))]; (split; [reflexivity|lia]).
  - intros y. rewrite Hh. destruct (Nat.eqb_spec y (length (p_hd (st h)))) as [->|]; [|destruct (y =? x); [discriminate|auto]]. intros Hx. right. split; [right; apply in_tin|]. eapply C0_incl; [exact (w_h _ W x Hx)|exact Sx].
  - intros t Ht. match goal with |- tk ?s _ \/ _ => destruct (tk_split h (LMove x) v v' x t s W Hq (incl_refl _) (ef_cur _ _ _ _ _ Ef) eq_refl) as [K|[K1 K2]]; auto end.
    + intros y Hy Hne. rewrite Hh. pose proof (holds_lt _ _ Hy). destruct (Nat.eqb_spec y (length (p_hd (st h)))); [lia|]. destruct (Nat.eqb_spec y x); [contradiction|exact Hy].
    + right. split; [exact K2|]. apply (cov_h _ (length (p_hd (st h)))); [cbn [ms_base]; rewrite Hh, Nat.eqb_refl; exact K1|]. cbn [ms_view]. rewrite set_in by (right; apply in_tin). reflexivity.
Qed.
Lemma st_swap h g x : stepok h (LSwap g x).
Proof.
  intros v s' es m' v' B W Hs He _. pose proof (eff_exec _ _ _ _ _ He) as Ef. cbn [p_step ph_acts ph_dst] in *.
  destruct (idle (st h) g) eqn:Hg; [|discriminate]. destruct (idle (st h) x) eqn:Hi; [|discriminate]. destruct (Bool.eqb _ _); [|discriminate]. cbn [andb] in Hs.
  destruct (idle_inv _ _ Hi) as (Hlx & _ & Hqx). destruct (idle_inv _ _ Hg) as (Hlg & _ & Hqg). injection Hs as <- _. destruct (exec_nil _ _ _ _ He) as [-> _].
  pose proof (hdl_lt _ _ (or_introl Hlx)) as Hltx. pose proof (hdl_lt _ _ (or_introl Hlg)) as Hltg.
  set (s1 := with_hd (st h) (put (st h) g (holds (st h) x) true) (p_ctr (st h))).
  assert (Hl1 : live s1 x = true). { unfold live, s1. rewrite hdl_put by exact Hlg. destruct (x =? g); [reflexivity|exact Hlx]. }
  assert (Hh : forall y, holds (with_hd s1 (put s1 x (holds (st h) g) true) (p_ctr (st h))) y = if y =? x then holds (st h) g else if y =? g then holds (st h) x else holds (st h) y).
  { intros y. rewrite holds_put by exact Hl1. destruct (y =? x); [reflexivity|]. unfold s1. rewrite holds_put by exact Hlg. reflexivity. }
  assert (Sx : incl (v_ h (t_h x)) (mv_cur v')) by (eapply src_in; [|exact He]; apply in_or_app; right; left; reflexivity).
  assert (Sg : incl (v_ h (t_h g)) (mv_cur v')) by (eapply src_in; [|exact He]; left; reflexivity).
  assert (D : forall t, In t [t_h g; t_h x] -> exists y, t = t_h y /\ y < length (p_hd (with_hd s1 (put s1 x (holds (st h) g) true) (p_ctr (st h))))).
  { intros t [<-|[<-|[]]]; simpl; rewrite put_length; simpl; rewrite put_length; [exists g|exists x]; (split; [reflexivity|lia]). }
  assert (Ca : holds (st h) g = true \/ holds (st h) x = true -> forall i, In i (mv_cur v') -> cov (MS (with_hd s1 (put s1 x (holds (st h) g) true) (p_ctr (st h))) (ms_mem h) (m_set (ms_view h) [t_h g; t_h x] v')) i).
  { intros [E|E].
    - apply (cov_h _ x); [cbn [ms_base]; rewrite Hh, Nat.eqb_refl; exact E|]. cbn [ms_view]. rewrite set_in by (right; apply in_tin). reflexivity.
    - destruct (Nat.eq_dec g x) as [->|Hne].
      + apply (cov_h _ x); [cbn [ms_base]; rewrite Hh, Nat.eqb_refl; exact E|]. cbn [ms_view]. rewrite set_in by (right; apply in_tin). reflexivity.
      + apply (cov_h _ g); [cbn [ms_base]; rewrite Hh, Nat.eqb_refl; destruct (Nat.eqb_spec g x); [contradiction|exact E]|]. cbn [ms_view]. rewrite set_in by apply in_tin. reflexivity. }
  apply (K1 h _ _ _ _ _ _ W Ef); try reflexivity; auto.
  - intros t [<-|[<-|[]]]; assumption.
  - apply readonly_nil.
  - simpl. rewrite put_length. simpl. rewrite put_length. lia.
  - intros y. rewrite Hh. destruct (Nat.eqb_spec y x) as [->|]; [|destruct (Nat.eqb_spec y g) as [->|]; [|auto]].
    + intros K. right. split; [right; apply in_tin|]. eapply C0_incl; [exact (w_h _ W g K)|exact Sg].
    + intros K. right. split; [apply in_tin|]. eapply C0_incl; [exact (w_h _ W x K)|exact Sx].
  - intros t Ht. pose proof (ef_cur _ _ _ _ _ Ef) as Hc.
    assert (Hd : (tk (with_hd s1 (put s1 x (holds (st h) g) true) (p_ctr (st h))) t) \/ ((holds (st h) g = true \/ holds (st h) x = true) /\ incl (v_ h t) (mv_cur v'))).
    { destruct (all_view h (LSwap g x) v g W Hqg (incl_appl _ (incl_refl _))) as [A1 A2]. destruct (all_view h (LSwap g x) v x W Hqx (incl_appr _ (incl_refl _))) as [B1 B2].
      destruct Ht as [(y & Hy & ->)|(o & r & Hn & Hy & E)].
      - destruct (Nat.eq_dec y g) as [->|Hng]; [right; auto|]. destruct (Nat.eq_dec y x) as [->|Hnx]; [right; auto|]. left. left. exists y. rewrite Hh.
        destruct (Nat.eqb_spec y x); [contradiction|]. destruct (Nat.eqb_spec y g); [contradiction|]. auto.
      - destruct (Nat.eq_dec (o_fut r) g) as [Eg|Hng].
        { right. rewrite Eg in Hy. split; [auto|]. destruct (A2 o r Hn Eg) as (Q1 & Q2 & Q3). destruct E as [->|[->| ->]]; eapply incl_tran; eauto. }
        destruct (Nat.eq_dec (o_fut r) x) as [Ex|Hnx].
        { right. rewrite Ex in Hy. split; [auto|]. destruct (B2 o r Hn Ex) as (Q1 & Q2 & Q3). destruct E as [->|[->| ->]]; eapply incl_tran; eauto. }
        left. right. exists o, r. split; [exact Hn|]. rewrite Hh. destruct (Nat.eqb_spec (o_fut r) x); [contradiction|]. destruct (Nat.eqb_spec (o_fut r) g); [contradiction|]. auto. }
    destruct Hd as [K|[K1 K2]]; [auto|right]. split; [exact K2|apply Ca; exact K1].
Qed.
Lemma st_assign h g f : stepok h (LAssign g f).
Proof.
  intros v s' es m' v' B W Hs He _. pose proof (eff_exec _ _ _ _ _ He) as Ef. cbn [p_step ph_acts ph_dst] in *.
  destruct (idle (st h) g && negb (prom (st h) g) && negb (holds (st h) g) && live (st h) f && negb (prom (st h) f) && holds (st h) f) eqn:E; [|discriminate].
  rewrite !andb_true_iff, !negb_true_iff in E. destruct E as (((((Hi & _) & Hng) & _) & _) & Hf). rewrite (alive_holds _ _ _ B Hf) in Hs. injection Hs as <- _. destruct (idle_inv _ _ Hi) as (Hl & _ & _).
  pose proof (hdl_lt _ _ (or_introl Hl)) as Hlt. pose proof (fun y => holds_put (st h) g true true (S (p_ctr (st h))) y Hl) as Hh.
  apply (K1 h _ _ _ _ _ _ W Ef); try reflexivity; auto.
  - intros t [<-|[]]. eapply src_in; [|exact He]. simpl. auto.
  - apply ref_ro.
  - simpl. rewrite put_length. lia.
  - intros t [<-|[]]. exists g. simpl. rewrite put_length. auto.
  - intros y. rewrite Hh. destruct (Nat.eqb_spec y g) as [->|]; [|auto]. intros _. right. split; [apply in_tin|]. eapply C0_incl; [exact (w_h _ W f Hf)|]. eapply src_in; [|exact He]. simpl. auto.
  - right. apply (cov_h _ g); [cbn [ms_base]; rewrite Hh, Nat.eqb_refl; reflexivity|]. cbn [ms_view]. rewrite set_in by apply in_tin. reflexivity.
  - intros t Ht. left. apply (tk_op (st h)); auto. intros y Hy. rewrite Hh. destruct (y =? g); [reflexivity|exact Hy].
Qed.
(** Releasing a handle, not the last one *)
Lemma st_unref h l v x b sv m' v' c : BI (st h) -> Inv h -> holds (st h) x = true -> quiet (st h) x = true -> p_ctr (st h) = S (S c) -> sv = p_sv (st h) \/ sv = SvNo -> In (t_h x) (ph_src (st h) l) ->
  (forall o r, nth_error (p_op (st h)) o = Some r -> o_fut r = x -> incl (v_ h (t_f o)) (mv_cur v')) ->
  m_exec (ms_mem h) (hv h l v) (unref_acts true true (st h)) = Some (m', v') ->
  Inv (MS (PS (p_new (st h)) (put (st h) x false b) (S c) false (p_has (st h)) sv (p_op (st h))) m' (m_set (ms_view h) [t_h x] v')).
Proof.
  intros B W Hx Hq Hc Hsv Hsrc Hg He. pose proof (eff_exec _ _ _ _ _ He) as Ef. pose proof (b_live _ B _ Hx) as Hl. unfold unref_acts in He, Ef. rewrite Hc in He, Ef. cbn [Nat.eqb app] in He, Ef.
  destruct (exec_rmw _ _ [Touch l_obj false] x_ctr true true _ _ eq_refl He) as (Hrel & _). specialize (Hrel eq_refl).
  assert (Hh : forall y, holds (PS (p_new (st h)) (put (st h) x false b) (S c) false (p_has (st h)) sv (p_op (st h))) y = if y =? x then false else holds (st h) y) by (intros y; exact (holds_put (st h) x false b 0 y Hl)).
  assert (Ca : forall i, In i (mv_cur v') -> cov (MS (PS (p_new (st h)) (put (st h) x false b) (S c) false (p_has (st h)) sv (p_op (st h))) m' (m_set (ms_view h) [t_h x] v')) i) by (apply cov_rel; exact Hrel).
  assert (Sx : incl (v_ h (t_h x)) (mv_cur v')) by (eapply src_in; eauto).
  apply (K1 h _ _ _ _ _ _ W Ef); try reflexivity; auto.
  - intros t [<-|[]]. exact Sx.
  - intros y w [[= <- <-]|[[=]|[]]]. split; [reflexivity|]. split; [discriminate|auto].
  - simpl. rewrite put_length. lia.
  - intros t [<-|[]]. exists x. simpl. rewrite put_length. split; [reflexivity|]. now apply holds_lt.
  - intros y. rewrite Hh. destruct (y =? x); [discriminate|auto].
  - intros t [(y & Hy & ->)|(o & r & Hn & Hy & E)].
    + destruct (Nat.eq_dec y x) as [->|Hne]; [right; auto|]. left. left. exists y. rewrite Hh. destruct (Nat.eqb_spec y x); [contradiction|auto].
    + destruct (Nat.eq_dec (o_fut r) x) as [Ex|Hne].
      * right. split; [|exact Ca]. pose proof (quiet_op _ _ Hq _ _ Hn Ex) as Hf. destruct (ov_fl _ _ _ (w_op _ W _ _ Hn) Hf) as [Q1 Q2]. pose proof (Hg o r Hn Ex) as Q3. destruct E as [->|[->| ->]]; eauto using incl_tran.
      * left. right. exists o, r. split; [exact Hn|]. rewrite Hh. destruct (Nat.eqb_spec (o_fut r) x); [contradiction|]. auto.
Qed.
Lemma st_release h x b : stepok h (LRelease x b).
Proof.
  intros v s' es m' v' B W Hs He Hd. pose proof (eff_exec _ _ _ _ _ He) as Ef. cbn [p_step ph_acts ph_dst] in *.
  destruct (idle (st h) x) eqn:Hi; [|discriminate]. destruct (idle_inv _ _ Hi) as (Hl & _ & Hq). destruct (holds (st h) x) eqn:Hx.
  - unfold unref in Hs. rewrite (alive_holds _ _ _ B Hx) in Hs. destruct (p_ctr (st h)) as [|[|c]] eqn:Hc; try discriminate; injection Hs as <- _; [discriminate|]. cbn [Nat.eqb].
    apply (st_unref h (LRelease x b) v); auto; [left; reflexivity|]. intros o r Hn Hf. eapply src_in; [|exact He]. right. apply in_map, in_gets. eauto.
  - injection Hs as <- _. destruct (exec_nil _ _ _ _ He) as [-> _]. pose proof (fun y => holds_put (st h) x false (negb b) (p_ctr (st h)) y Hl) as Hh.
    apply (K1 h _ _ _ _ _ _ W Ef); try reflexivity; auto.
    + intros t [<-|[]]. eapply src_in; [|exact He]. left. reflexivity.
    + apply readonly_nil.
    + simpl. rewrite put_length. lia.
    + intros t [<-|[]]. exists x. simpl. rewrite put_length. split; [reflexivity|]. apply hdl_lt. auto.
    + intros y. rewrite Hh. destruct (y =? x); [discriminate|auto].
    + intros t Ht. left. apply (tk_op (st h)); auto. intros y Hy. rewrite Hh. destruct (Nat.eqb_spec y x) as [->|]; [congruence|exact Hy].
Qed.

(** ** Critical sections *)
Lemma newacc_crit m' v' i a has' : incl (mv_cur v') (mm_rel m' x_mtx) -> In i (mv_cur v') -> (ma_loc a = l_obj -> ma_wr a = false) -> (has' = false -> ma_loc a <> l_val) -> newacc m' has' i a.
Proof. intros Hr Hi Ho Hv. split; [exact Ho|]. split; [auto|]. split; [auto|]. split; [exact Hv|auto]. Qed.
Lemma st_set h p : stepok h (LSet p).
Proof.
  intros v s' es m' v' B W Hs He _. pose proof (eff_exec _ _ _ _ _ He) as Ef. cbn [p_step ph_acts ph_dst] in *.
  destruct (idle (st h) p && prom (st h) p && holds (st h) p) eqn:E; [|discriminate]. rewrite !andb_true_iff in E. destruct E as ((Hi & Hp) & Hh).
  rewrite (alive_holds _ _ _ B Hh) in Hs. destruct (p_has (st h)) eqn:Ev; [discriminate|]. injection Hs as <- _.
  pose proof (exec_unlock _ _ [Touch l_obj false; Lock x_mtx; Touch l_has false; Touch l_val true; Touch l_has true] _ _ _ _ He) as Hul.
  pose proof (mid_lock _ _ [Touch l_obj false] _ _ _ _ eq_refl He) as Hlk.
  assert (Nsv : p_sv (st h) = SvNo). { destruct (p_sv (st h)) as [|q|q] eqn:Es; [reflexivity|destruct (b_sv _ B q (or_introl Es)) as (_ & _ & K); congruence|destruct (b_sv _ B q (or_intror Es)) as (_ & _ & K); congruence]. }
  assert (Sp : incl (v_ h (t_h p)) (mv_cur v')) by (eapply src_in; [|exact He]; left; reflexivity).
  assert (M : forall t, In t [t_h p] -> incl (v_ h t) (mv_cur v')) by (intros t [<-|[]]; exact Sp).
  assert (Ca : forall i, In i (mv_cur v') -> cov (MS (PS (p_new (st h)) (p_hd (st h)) (p_ctr (st h)) (p_dead (st h)) true (SvSplice p) (p_op (st h))) m' (m_set (ms_view h) [t_h p] v')) i).
  { apply (cov_h _ p); [exact Hh|]. cbn [ms_view]. rewrite set_in by apply in_tin. reflexivity. }
  apply (Inv_step W Ef M); auto.
  - apply (GI_step _ _ _ _ _ _ _ Ef (w_g _ W)); [auto|]. intros i a Hi' Ht. apply (newacc_crit _ _ _ _ _ Hul Hi'); [|discriminate]. intros K. rewrite K in Ht.
    repeat (destruct Ht as [Ht|Ht]; [try discriminate Ht; injection Ht; auto|]). destruct Ht.
  - intros q [[= <-]|]; [|discriminate]. right. cbn [ms_view]. rewrite set_in by apply in_tin. intros i a q Hn Hi' Hl Hw. destruct (eff_cases Ef _ _ _ Hn) as [[_ Ho]|(_ & K & _)]; [|exact K].
    destruct Hl as [Hl|Hl]; [apply Hlk; exact (g_has0 _ _ (w_g _ W) Ev _ _ _ Ho Hi' Hl)|destruct (g_val0 _ _ (w_g _ W) Ev _ _ _ Ho Hi' Hl)].
  - intros o r Hn. apply (OV_keep _ _ _ _ _ _ _ _ _ (w_op _ W _ _ Hn) Ef); [right; intros K; pose proof (i_set _ _ (b_op _ B _ _ Hn)) as Q; rewrite Q in Ev by auto; discriminate|..]; intros [K|[]]; tne.
  - intros x [K|[]]. assert (x = p) by tne. subst. now apply holds_lt.
  - intros o K. exfalso. destruct K as [[K|[]]|[[K|[]]|[[K|[]]|[K|[]]]]]; tne.
Qed.
Lemma OV_it h o r : OV h o r -> OV h o (Op (o_fut r) AtIt (o_l r) (o_c r) (o_fin r)).
Proof. intros [A B C D F G I J K M]. constructor; simpl; auto; discriminate. Qed.
Lemma st_splice h o b p : p_sv (st h) = SvSplice p -> stepok h (LSv o b).
Proof.
  intros Esv v s' es m' v' B W Hs He _. pose proof (eff_exec _ _ _ _ _ He) as Ef. cbn [p_step ph_acts ph_dst] in *. rewrite Esv in Hs, He, Ef |- *.
  destruct (b_sv _ B p (or_introl Esv)) as (Hh & Hp & Ev). rewrite (alive_holds _ _ _ B Hh), Ev in Hs. injection Hs as <- _.
  pose proof (exec_unlock _ _ [Touch l_has false; Touch l_obj false; Lock x_mtx; Touch l_q true] _ _ _ _ He) as Hul.
  assert (Sp : incl (v_ h (t_h p)) (mv_cur v')) by (eapply src_in; [|exact He]; simpl; rewrite Esv; left; reflexivity).
  assert (M : forall t, In t [t_h p] -> incl (v_ h t) (mv_cur v')) by (intros t [<-|[]]; exact Sp).
  assert (NW : nowr [Touch l_has false; Touch l_obj false; Lock x_mtx; Touch l_q true; Unlock x_mtx]) by (split; intros K; repeat (destruct K as [K|K]; [discriminate K|]); destruct K).
  assert (Ca : forall i, In i (mv_cur v') -> cov (MS (PS (p_new (st h)) (p_hd (st h)) (p_ctr (st h)) (p_dead (st h)) true (SvLoop p) (map splice (p_op (st h)))) m' (m_set (ms_view h) [t_h p] v')) i).
  { apply (cov_h _ p); [exact Hh|]. cbn [ms_view]. rewrite set_in by apply in_tin. reflexivity. }
  apply (Inv_step W Ef M); auto.
  - apply (GI_step _ _ _ _ _ _ _ Ef (w_g _ W)); [auto|]. intros i a Hi' Ht. apply (newacc_crit _ _ _ _ _ Hul Hi'); [|discriminate]. intros K. rewrite K in Ht.
    repeat (destruct Ht as [Ht|Ht]; [try discriminate Ht; injection Ht; auto|]). destruct Ht.
  - intros q [|[= <-]]; [discriminate|]. auto.
  - intros o' r' Hn. simpl in Hn. rewrite nth_error_map in Hn. destruct (nth_error (p_op (st h)) o') as [r|] eqn:Ho; [|discriminate]. injection Hn as <-.
    assert (V : OV (MS (PS (p_new (st h)) (p_hd (st h)) (p_ctr (st h)) (p_dead (st h)) true (SvLoop p) (map splice (p_op (st h)))) m' (m_set (ms_view h) [t_h p] v')) o' r).
    { apply (OV_keep _ _ _ _ _ _ _ _ _ (w_op _ W _ _ Ho) Ef); [left; exact NW|..]; intros [K|[]]; tne. }
    unfold splice. destruct (o_at r); try exact V. apply OV_it. exact V.
  - simpl. rewrite map_length. lia.
  - intros x [K|[]]. assert (x = p) by tne. subst. now apply holds_lt.
  - intros o' K. exfalso. destruct K as [[K|[]]|[[K|[]]|[[K|[]]|[K|[]]]]]; tne.
  - intros t Ht. left. revert Ht. apply tk_mono; [auto|]. intros o' r Hn. simpl. rewrite nth_error_map, Hn. simpl. eexists. split; [reflexivity|]. unfold splice. destruct (o_at r); reflexivity.
Qed.
Lemma op_app_lt (l : list pop) r o r' : nth_error l o = Some r' -> nth_error (l ++ [r]) o = Some r'.
Proof. intros H. rewrite nth_error_app1; [exact H|]. apply nth_error_Some. congruence. Qed.
Lemma st_get h f : stepok h (LGet f).
Proof.
  intros v s' es m' v' B W Hs He _. pose proof (eff_exec _ _ _ _ _ He) as Ef. cbn [p_step ph_acts ph_dst] in *. cbv zeta in *.
  destruct (live (st h) f && negb (prom (st h) f) && holds (st h) f) eqn:E; [|discriminate]. rewrite !andb_true_iff, negb_true_iff in E. destruct E as ((Hl & Hp) & Hh).
  rewrite (alive_holds _ _ _ B Hh) in Hs. pose proof (w_g _ W) as G. destruct (w_fo _ W (length (p_op (st h))) (le_n _)) as (F1 & F2 & F3 & F4). set (o := length (p_op (st h))) in *.
  assert (Sf : incl (v_ h (t_h f)) (mv_cur v')) by (eapply src_in; [|exact He]; left; reflexivity). pose proof (C0_incl _ _ (w_h _ W f Hh) Sf) as C'.
  assert (T : forall r t, o_fut r = f -> tk (st h) t -> tk (with_op (st h) (p_op (st h) ++ [r])) t).
  { intros r t _. apply tk_mono; [auto|]. intros o' r' Hn. exists r'. split; [simpl; apply op_app_lt; exact Hn|reflexivity]. }
  assert (Ca : forall r d, o_fut r = f -> In (t_l o) d -> forall i, In i (mv_cur v') -> cov (MS (with_op (st h) (p_op (st h) ++ [r])) m' (m_set (ms_view h) d v')) i).
  { intros r d Er Hd i Hi. right. exists (t_l o). split; [right; exists o, r; simpl; unfold o; rewrite nth_error_app2, Nat.sub_diag by lia; rewrite Er; auto|]. cbn [ms_view]. rewrite set_in by exact Hd. exact Hi. }
  destruct (p_has (st h)) eqn:Ev; injection Hs as <- _.
  - pose proof (mid_lock _ _ [Touch l_obj false] _ _ _ _ eq_refl He) as Hlk.
    assert (RO : readonly true ([Touch l_obj false; Lock x_mtx; Touch l_has false] ++ [Unlock x_mtx; Touch l_has false; Touch l_val false])).
    { intros x w K. simpl in K. repeat (destruct K as [K|K]; [first [discriminate K|injection K as <- <-; split; [reflexivity|split; discriminate]]|]). destruct K. }
    assert (M : forall t, In t [t_l o; t_r o; t_f o] -> incl (v_ h t) (mv_cur v')) by (intros t [<-|[<-|[<-|[]]]]; rewrite ?F1, ?F2, ?F4; intros i []).
    assert (NW : nowr ([Touch l_obj false; Lock x_mtx; Touch l_has false] ++ [Unlock x_mtx; Touch l_has false; Touch l_val false])) by (split; intros K; destruct (RO _ _ K); discriminate).
    apply (Inv_step W Ef M); auto.
    + simpl. rewrite Ev. exact (GI_read _ _ _ _ _ _ Ef G RO).
    + intros o' r Hn. simpl in Hn. apply nth_snoc in Hn. destruct Hn as [Hn|[-> ->]].
      * assert (o' < o) by (apply nth_error_Some; congruence). apply (OV_keep _ _ _ _ _ _ _ _ _ (w_op _ W _ _ Hn) Ef); [left; exact NW|..]; intros [K|[K|[K|[]]]]; tne.
      * fold o. assert (N : ~ In (t_c o) [t_l o; t_r o; t_f o]) by (intros [K|[K|[K|[]]]]; tne).
        constructor; cbn [o_at o_l o_c o_fin ms_view ms_mem]; rewrite ?(set_out _ _ _ _ N), ?(set_in _ [t_l o; t_r o; t_f o] v' (t_l o)), ?(set_in _ [t_l o; t_r o; t_f o] v' (t_r o)), ?(set_in _ [t_l o; t_r o; t_f o] v' (t_f o)) by (simpl; auto); auto; try discriminate.
        -- intros _ _. apply (KS_own _ _ _ _ _ Ef). eapply KS_incl; [exact (g_ks _ _ G eq_refl)|exact Hlk].
        -- rewrite F3. intros _. split; [apply incl_refl|intros i []].
    + simpl. rewrite app_length. lia.
    + intros x [K|[K|[K|[]]]]; exfalso; tne.
    + intros o' K. simpl. rewrite app_length. simpl. fold o. assert (o' = o); [|lia]. destruct K as [K|[K|[K|K]]]; destruct K as [K|[K|[K|[]]]]; tne.
    + right. apply Ca; [reflexivity|apply in_tin].
  - pose proof (exec_unlock _ _ [Touch l_obj false; Lock x_mtx; Touch l_has false; Touch l_q true] _ _ _ _ He) as Hul.
    assert (M : forall t, In t [t_l o; t_r o] -> incl (v_ h t) (mv_cur v')) by (intros t [<-|[<-|[]]]; rewrite ?F1, ?F2; intros i []).
    assert (NW : nowr ([Touch l_obj false; Lock x_mtx; Touch l_has false] ++ [Touch l_q true; Unlock x_mtx])) by (split; intros K; simpl in K; repeat (destruct K as [K|K]; [discriminate K|]); destruct K).
    apply (Inv_step W Ef M); auto.
    + simpl. rewrite Ev. apply (GI_step _ _ _ _ _ _ _ Ef G); [auto|]. intros i a Hi' Ht. simpl in Ht. apply (newacc_crit _ _ _ _ _ Hul Hi').
      * intros K. rewrite K in Ht. repeat (destruct Ht as [Ht|Ht]; [try discriminate Ht; injection Ht; auto|]). destruct Ht.
      * intros _ K. rewrite K in Ht. repeat (destruct Ht as [Ht|Ht]; [discriminate Ht|]). destruct Ht.
    + intros o' r Hn. simpl in Hn. apply nth_snoc in Hn. destruct Hn as [Hn|[-> ->]].
      * assert (o' < o) by (apply nth_error_Some; congruence). apply (OV_keep _ _ _ _ _ _ _ _ _ (w_op _ W _ _ Hn) Ef); [left; exact NW|..]; intros [K|[K|[]]]; tne.
      * fold o. assert (N : ~ In (t_c o) [t_l o; t_r o]) by (intros [K|[K|[]]]; tne). assert (N' : ~ In (t_f o) [t_l o; t_r o]) by (intros [K|[K|[]]]; tne).
        constructor; cbn [o_at o_l o_c o_fin ms_view ms_mem]; rewrite ?(set_out _ _ _ _ N), ?(set_out _ _ _ _ N'), ?(set_in _ [t_l o; t_r o] v' (t_l o)), ?(set_in _ [t_l o; t_r o] v' (t_r o)) by (simpl; auto); auto; try discriminate.
    + simpl. rewrite app_length. lia.
    + intros x [K|[K|[]]]; exfalso; tne.
    + intros o' K. simpl. rewrite app_length. simpl. fold o. assert (o' = o); [|lia]. destruct K as [K|[K|[K|K]]]; destruct K as [K|[K|[]]]; tne.
    + right. apply Ca; [reflexivity|apply in_tin].
Qed.
Lemma op_set (s : pst) o r r' : nth_error (p_op s) o = Some r -> o_fut r' = o_fut r -> forall t, tk s t -> tk (with_op s (set_nth (p_op s) o r')) t.
Proof.
  intros Hn Hf t. apply tk_mono; [auto|]. intros o' x Hx. simpl. destruct (Nat.eq_dec o' o) as [->|Hne].
  - exists r'. rewrite (nth_error_set_nth_same _ _ _ _ Hn). split; [reflexivity|congruence].
  - exists x. rewrite nth_error_set_nth_other by auto. auto.
Qed.
Lemma st_try h o : stepok h (LTry o).
Proof.
  intros v s' es m' v' B W Hs He _. pose proof (eff_exec _ _ _ _ _ He) as Ef. cbn [p_step ph_acts ph_dst] in *.
  destruct (nth_error (p_op (st h)) o) as [r|] eqn:Ho; [|discriminate]. destruct (o_fin r) eqn:Efin; [discriminate|].
  pose proof (b_op _ B _ _ Ho) as O. pose proof (i_pend _ _ O Efin) as Hh. pose proof (w_op _ W _ _ Ho) as V. pose proof (w_g _ W) as G.
  assert (Hc : o_c r = CNone \/ o_c r = CTake) by (destruct (o_c r); auto; discriminate).
  assert (Hn : exists a, s' = with_op (st h) (set_nth (p_op (st h)) o (Op (o_fut r) a (o_l r) CTried false)) /\ (a = AtComp -> o_at r = AtComp)).
  { assert (Hs' : alive (st h) (if p_has (st h) then Next (with_op (st h) (set_nth (p_op (st h)) o (Op (o_fut r) (o_at r) (o_l r) CTried false))) []
                       else match o_at r with AtQ => Next (with_op (st h) (set_nth (p_op (st h)) o (Op (o_fut r) AtHit (o_l r) CTried false))) [] | _ => Fail BadUnlink [] end) = Next s' es) by (destruct Hc as [E|E]; rewrite E in Hs; exact Hs).
    rewrite (alive_holds _ _ _ B Hh) in Hs'. destruct (p_has (st h)); [injection Hs' as <- _; eauto|]. destruct (o_at r); try discriminate. injection Hs' as <- _. exists AtHit. split; [reflexivity|discriminate]. }
  clear Hs. destruct Hn as (a & -> & Ha).
  set (L := [Touch l_obj false; Lock x_mtx; Touch l_has false] ++ (if p_has (st h) then [] else [Touch l_q true]) ++ [Unlock x_mtx]) in *.
  assert (Hul : incl (mv_cur v') (mm_rel m' x_mtx)). { unfold L in He. rewrite app_assoc in He. exact (exec_unlock _ _ _ _ _ _ _ He). }
  assert (TL : forall x w, In (Touch x w) L -> (x = l_obj /\ w = false) \/ (x = l_has /\ w = false) \/ x = l_q).
  { intros x w K. unfold L in K. simpl in K. destruct K as [[= <- <-]|[[=]|[[= <- <-]|K]]]; auto. apply in_app_or in K. destruct K as [K|[[=]|[]]]. destruct (p_has (st h)); [destruct K|]. destruct K as [[= <- <-]|[]]; auto. }
  assert (NW : nowr L) by (split; intros K; destruct (TL _ _ K) as [[E E']|[[E E']|E]]; discriminate).
  assert (M : forall t, In t [t_c o] -> incl (v_ h t) (mv_cur v')) by (intros t [<-|[]]; rewrite (ov_e _ _ _ V Hc); intros i []).
  apply (Inv_step W Ef M); auto.
  - simpl. apply (GI_step _ _ _ _ _ _ _ Ef G); [auto|]. intros i a' Hi' Ht. apply (newacc_crit _ _ _ _ _ Hul Hi').
    + intros K. destruct (TL _ _ Ht) as [[_ E]|[[E _]|E]]; [exact E|rewrite K in E; discriminate|rewrite K in E; discriminate].
    + intros _ K. destruct (TL _ _ Ht) as [[E _]|[[E _]|E]]; rewrite K in E; discriminate.
  - intros o' r' Hn. simpl in Hn. destruct (Nat.eq_dec o' o) as [->|Hne].
    + rewrite (nth_error_set_nth_same _ _ _ _ Ho) in Hn. injection Hn as <-. assert (N1 : ~ In (t_l o) [t_c o]) by (intros [K|[]]; tne). assert (N2 : ~ In (t_r o) [t_c o]) by (intros [K|[]]; tne). assert (N3 : ~ In (t_f o) [t_c o]) by (intros [K|[]]; tne).
      pose proof (ef_rel _ _ _ _ _ Ef (x_op o)) as R.
      constructor; cbn [o_at o_l o_c o_fin ms_view ms_mem]; rewrite ?(set_out _ _ _ _ N1), ?(set_out _ _ _ _ N2), ?(set_out _ _ _ _ N3), ?(set_in _ [t_c o] v' (t_c o)) by (simpl; auto); try discriminate.
      * exact (ov_l0 _ _ _ V).
      * intros _. eapply C0_incl; [exact (proj2 (ov_l0 _ _ _ V))|]. eapply src_in; [|exact He]. left. reflexivity.
      * intros E _. apply (KS_step _ _ _ _ _ _ Ef NW). apply (KS_incl _ _ _ (ov_comp _ _ _ V (Ha E) Efin) R).
      * intros _ El. eapply incl_tran; [exact (ov_l _ _ _ V Efin El)|exact R].
      * intros [|]; discriminate.
      * intros _. exact (ov_ef _ _ _ V Efin).
    + rewrite nth_error_set_nth_other in Hn by auto. apply (OV_keep _ _ _ _ _ _ _ _ _ (w_op _ W _ _ Hn) Ef); [left; exact NW|..]; intros [K|[]]; tne.
  - simpl. rewrite set_nth_length. lia.
  - intros x [K|[]]. exfalso. tne.
  - intros o' K. simpl. rewrite set_nth_length. assert (o' = o) by (destruct K as [[K|[]]|[[K|[]]|[[K|[]]|[K|[]]]]]; tne). subst. apply nth_error_Some. congruence.
  - right. intros i Hi. right. exists (t_c o). split; [|cbn [ms_view]; rewrite set_in by apply in_tin; exact Hi]. right. eexists o, _. split; [simpl; exact (nth_error_set_nth_same _ _ _ _ Ho)|]. auto.
  - intros t Ht. left. revert Ht. eapply op_set; eauto.
Qed.
Lemma st_read h o : stepok h (LRead o).
Proof.
  intros v s' es m' v' B W Hs He _. pose proof (eff_exec _ _ _ _ _ He) as Ef. cbn [p_step ph_acts ph_dst] in *.
  destruct (nth_error (p_op (st h)) o) as [r|] eqn:Ho; [|discriminate]. destruct (o_fin r && ok_of r && holds (st h) (o_fut r)) eqn:E; [|discriminate]. rewrite !andb_true_iff in E. destruct E as ((Efin & Ek) & Hh).
  rewrite (alive_holds _ _ _ B Hh) in Hs. injection Hs as <- _. pose proof (w_op _ W _ _ Ho) as V. assert (Ea : o_at r = AtComp) by (unfold ok_of in Ek; destruct (o_at r); congruence).
  pose proof (i_set _ _ (b_op _ B _ _ Ho) ltac:(auto)) as Ev.
  assert (RO : readonly (p_has (st h)) [Touch l_val false]). { rewrite Ev. intros x w [[= <- <-]|[]]. split; [reflexivity|]. split; discriminate. }
  assert (NW : nowr [Touch l_val false]) by (split; intros [K|[]]; discriminate).
  assert (Sf : incl (v_ h (t_f o)) (mv_cur v')) by (eapply src_in; [|exact He]; left; reflexivity).
  assert (M : forall t, In t [t_f o] -> incl (v_ h t) (mv_cur v')) by (intros t [<-|[]]; exact Sf).
  apply (Inv_step W Ef M); auto.
  - exact (GI_read _ _ _ _ _ _ Ef (w_g _ W) RO).
  - intros o' r' Hn. destruct (Nat.eq_dec o' o) as [->|Hne].
    + rewrite Ho in Hn. injection Hn as <-. assert (N1 : ~ In (t_l o) [t_f o]) by (intros [K|[]]; tne). assert (N2 : ~ In (t_r o) [t_f o]) by (intros [K|[]]; tne). assert (N3 : ~ In (t_c o) [t_f o]) by (intros [K|[]]; tne).
      destruct V as [A B' C D F G I J K M']. constructor; cbn [ms_view ms_mem]; rewrite ?(set_out _ _ _ _ N1), ?(set_out _ _ _ _ N2), ?(set_out _ _ _ _ N3), ?(set_in _ [t_f o] v' (t_f o)) by (simpl; auto); auto; try congruence.
      * intros Hf. eapply C0_incl; [exact (C Hf)|exact Sf].
      * intros _ Hf. apply (KS_step _ _ _ _ _ _ Ef NW). eapply KS_incl; [exact (F Ea Hf)|exact Sf].
      * intros Hf. destruct (J Hf) as [J1 J2]. split; eapply incl_tran; eauto.
    + apply (OV_keep _ _ _ _ _ _ _ _ _ (w_op _ W _ _ Hn) Ef); [left; exact NW|..]; intros [K|[]]; tne.
  - intros x [K|[]]. exfalso. tne.
  - intros o' K. assert (o' = o) by (destruct K as [[K|[]]|[[K|[]]|[[K|[]]|[K|[]]]]]; tne). subst. apply nth_error_Some. congruence.
  - right. intros i Hi. right. exists (t_f o). split; [|cbn [ms_view]; rewrite set_in by apply in_tin; exact Hi]. right. exists o, r. auto.
Qed.

(** ** Steps of resolvers; t: the thread *)
Lemma K5 h v0 m' v' t o r0 r1 b : BI (st h) -> Inv h -> nth_error (p_op (st h)) o = Some r0 -> o_fin r0 = false -> o_fin r1 = false -> o_fut r1 = o_fut r0 ->
  m_exec (ms_mem h) v0 (Rmw (x_op o) true true :: res_acts (settle r1 b)) = Some (m', v') -> incl (v_ h t) (mv_cur v0) -> C0 (v_ h t) ->
  (o_at r1 = AtComp -> p_has (st h) = true) ->
  (o_l r1 = true -> t = t_l o \/ o_l r0 = true) ->
  (o_c r1 = CDone -> t = t_c o \/ o_c r0 = CDone) ->
  (o_at r1 = AtComp -> KS (lg h) (v_ h t) \/ o_at r0 = AtComp) ->
  (o_c r1 <> CDone -> o_c r1 = o_c r0 /\ t <> t_c o) ->
  (t = t_l o \/ t = t_c o \/ exists p, t = t_h p /\ holds (st h) p = true) ->
  Inv (MS (with_op (st h) (set_nth (p_op (st h)) o (settle r1 b))) m' (m_set (ms_view h) (t :: fin_t o (settle r1 b)) v')).
Proof.
  intros B W Ho Hf0 Hf1 Hfut He Ht C Hv A1 A2 A3 A4 At. pose proof (eff_exec _ _ _ _ _ He) as Ef. pose proof (w_op _ W _ _ Ho) as V. pose proof (w_g _ W) as G. pose proof (i_pend _ _ (b_op _ B _ _ Ho) Hf0) as Hh.
  set (r' := settle r1 b) in *. pose proof (settle_at r1 b : o_at r' = o_at r1) as Ea. pose proof (settle_l r1 b : o_l r' = o_l r1) as El. pose proof (settle_fut r1 b : o_fut r' = o_fut r1) as Efu.
  pose proof (settle_c r1 b : o_c r' = o_c r1 \/ (o_c r1 = CNone /\ o_c r' = CTake)) as Ec. pose proof (settle_fin r1 b Hf1 : o_fin r' = true -> _) as Efi. fold r' in Efi. clearbody r'.
  pose proof (exec_lock _ _ _ _ _ _ _ He) as Hlk. pose proof (ef_rel _ _ _ _ _ Ef (x_op o)) as R. pose proof (ef_cur _ _ _ _ _ Ef) as Hc.
  assert (Hul : o_fin r' = false -> incl (mv_cur v') (mm_rel m' (x_op o))). { intros E. unfold res_acts in He. rewrite E in He. exact (exec_unlock _ _ [] _ _ _ _ He). }
  assert (St : incl (v_ h t) (mv_cur v')) by (eapply incl_tran; eauto).
  assert (RO : readonly (p_has (st h)) (Rmw (x_op o) true true :: res_acts r')).
  { intros x w [[=]|K]. unfold res_acts in K. destruct (o_fin r' && ok_of r') eqn:E; [|destruct K]. apply andb_true_iff in E. destruct E as [_ E]. unfold ok_of in E. rewrite Ea in E. destruct (o_at r1) eqn:Ea1; try discriminate. rewrite (Hv eq_refl).
    destruct K as [[= <- <-]|[[= <- <-]|[]]]; (split; [reflexivity|split; discriminate]). }
  assert (NW : nowr (Rmw (x_op o) true true :: res_acts r')) by (split; intros K; destruct (RO _ _ K); discriminate).
  set (d := t :: fin_t o r') in *.
  assert (Hd : forall x, In x d -> x = t \/ (x = t_f o /\ o_fin r' = true)). { intros x [<-|K]; [auto|]. unfold fin_t in K. destruct (o_fin r'); [|destruct K]. destruct K as [<-|[]]. auto. }
  assert (Dt : In t d) by apply in_tin.
  assert (M : forall x, In x d -> incl (v_ h x) (mv_cur v')). { intros x K. destruct (Hd x K) as [->|[-> _]]; [exact St|]. rewrite (ov_ef _ _ _ V Hf0). intros i []. }
  assert (Tf : t <> t_f o /\ t <> t_r o). { destruct At as [->|[->|(p & -> & _)]]; split; intros K; tne. }
  apply (Inv_step W Ef M); auto.
  - exact (GI_read _ _ _ _ _ _ Ef G RO).
  - intros o' r Hn. simpl in Hn. destruct (Nat.eq_dec o' o) as [->|Hne].
    + rewrite (nth_error_set_nth_same _ _ _ _ Ho) in Hn. injection Hn as <-.
      assert (Mo : forall x, incl (v_ h x) (mv_cur (m_set (ms_view h) d v' x))) by (intros x; exact (mono (s' := st h) (m' := m') M x)).
      assert (Fin : o_fin r' = true -> m_set (ms_view h) d v' (t_f o) = v'). { intros E. apply set_in. right. unfold fin_t. rewrite E. apply in_tin. }
      assert (OutR : m_set (ms_view h) d v' (t_r o) = ms_view h (t_r o)). { apply set_out. intros K. destruct (Hd _ K) as [E|[E _]]; [destruct Tf; congruence|tne]. }
      assert (In_t : m_set (ms_view h) d v' t = v') by (apply set_in; exact Dt).
      assert (OutL : t <> t_l o -> m_set (ms_view h) d v' (t_l o) = ms_view h (t_l o)). { intros Nt. apply set_out. intros K. destruct (Hd _ K) as [E|[E _]]; [congruence|tne]. }
      assert (OutC : t <> t_c o -> m_set (ms_view h) d v' (t_c o) = ms_view h (t_c o)). { intros Nt. apply set_out. intros K. destruct (Hd _ K) as [E|[E _]]; [congruence|tne]. }
      assert (VL : o_l r' = true -> incl (mv_cur (m_set (ms_view h) d v' (t_l o))) (mv_cur v') /\ (o_fin r' = false -> incl (mv_cur (m_set (ms_view h) d v' (t_l o))) (mm_rel m' (x_op o)))).
      { intros E. rewrite El in E. destruct (Nat.eq_dec t (t_l o)) as [Et|Et]; [rewrite <- Et, In_t; split; [apply incl_refl|exact Hul]|]. rewrite (OutL Et). destruct (A1 E) as [|E0]; [contradiction|]. pose proof (ov_l _ _ _ V Hf0 E0) as Q. split; [eapply incl_tran; eauto|intros _; eapply incl_tran; eauto]. }
      assert (VC : o_c r' = CDone -> incl (mv_cur (m_set (ms_view h) d v' (t_c o))) (mv_cur v') /\ (o_fin r' = false -> incl (mv_cur (m_set (ms_view h) d v' (t_c o))) (mm_rel m' (x_op o)))).
      { intros E. destruct Ec as [Ec|[_ Ec]]; [|congruence]. rewrite Ec in E. destruct (Nat.eq_dec t (t_c o)) as [Et|Et]; [rewrite <- Et, In_t; split; [apply incl_refl|exact Hul]|]. rewrite (OutC Et). destruct (A2 E) as [|E0]; [contradiction|]. pose proof (ov_c _ _ _ V Hf0 E0) as Q. split; [eapply incl_tran; eauto|intros _; eapply incl_tran; eauto]. }
      assert (VE : o_c r' = CNone \/ o_c r' = CTake -> mv_cur (m_set (ms_view h) d v' (t_c o)) = []).
      { intros E. assert (N : o_c r1 <> CDone) by (destruct Ec as [Ec|[Ec _]]; destruct E; congruence). destruct (A4 N) as [E0 Nt]. rewrite (OutC Nt). apply (ov_e _ _ _ V). rewrite <- E0. destruct Ec as [Ec|[Ec _]]; [rewrite <- Ec; exact E|auto]. }
      assert (KV : o_at r' = AtComp -> KS (mm_log m') (mv_cur v')).
      { intros E. rewrite Ea in E. apply (KS_step _ _ _ _ _ _ Ef NW). destruct (A3 E) as [K|K]; [eapply KS_incl; [exact K|exact St]|]. eapply KS_incl; [exact (ov_comp _ _ _ V K Hf0)|exact Hlk]. }
      constructor; cbn [ms_view ms_mem].
      * destruct (ov_l0 _ _ _ V) as [L1 L2]. split; [eapply C0_incl; [exact L1|apply Mo]|rewrite OutR; exact L2].
      * intros E. destruct Ec as [Ec|[_ Ec]]; [|congruence]. rewrite Ec in E. destruct (A4 ltac:(congruence)) as [E0 Nt]. rewrite (OutC Nt). apply (ov_c0 _ _ _ V). congruence.
      * intros E. rewrite (Fin E). eapply C0_incl; eauto.
      * intros E1 E2. eapply KS_incl; [exact (KV E1)|exact (Hul E2)].
      * intros E1 E2. rewrite (Fin E2). exact (KV E1).
      * intros E1 E2. apply VL; assumption.
      * intros E1 E2. apply VC; assumption.
      * intros E. rewrite (Fin E). destruct (Efi E) as (_ & _ & Q1 & Q2 & Q3). split; [apply VL; exact Q3|]. destruct Q1 as [Q1|Q1]; [rewrite VE by (left; congruence); intros i []|apply VC; congruence].
      * exact VE.
      * intros E. rewrite set_out; [exact (ov_ef _ _ _ V Hf0)|]. intros K. destruct (Hd _ K) as [E'|[_ E']]; [destruct Tf; congruence|congruence].
    + rewrite nth_error_set_nth_other in Hn by auto. apply (OV_keep _ _ _ _ _ _ _ _ _ (w_op _ W _ _ Hn) Ef); [left; exact NW|..]; intros K; destruct (Hd _ K) as [E|[E _]]; try tne; destruct At as [->|[->|(p & -> & _)]]; tne.
  - simpl. rewrite set_nth_length. lia.
  - intros x K. destruct (Hd _ K) as [E|[E _]]; [|exfalso; tne]. destruct At as [->|[->|(p & -> & Hp)]]; try (exfalso; tne). assert (x = p) by tne. subst. now apply holds_lt.
  - intros o' K. simpl. rewrite set_nth_length. assert (o' = o); [|subst; apply nth_error_Some; congruence].
    destruct K as [K|[K|[K|K]]]; destruct (Hd _ K) as [E|[E _]]; try tne; destruct At as [->|[->|(p & -> & Hp)]]; tne.
  - right. intros i Hi. right. exists t. split; [|cbn [ms_view]; rewrite set_in by exact Dt; exact Hi]. cbn [ms_base].
    destruct At as [->|[->|(p & -> & Hp)]]; [right|right|left; exists p; auto]; eexists o, _; (split; [simpl; exact (nth_error_set_nth_same _ _ _ _ Ho)|]); rewrite Efu, Hfut; auto.
  - intros x Hx. left. revert Hx. eapply op_set; eauto. congruence.
Qed.
Lemma trans_state s o r r0 b s' es : BI s -> nth_error (p_op s) o = Some r0 -> o_fin r = false -> trans s o r b = Next s' es -> s' = with_op s (set_nth (p_op s) o (settle r b)).
Proof.
  intros B Hn Hf. unfold trans. destruct (o_fin (settle r b)); [|intros [= <- _]; reflexivity]. destruct (ok_of (settle r b)); [|intros [= <- _]; reflexivity].
  unfold alive. destruct (p_dead s); [discriminate|]. destruct (p_has s); [|discriminate]. intros [= <- _]. reflexivity.
Qed.
Lemma notfin_l s r : OI s r -> o_l r = false -> o_fin r = false.
Proof. intros O E. destruct (o_fin r) eqn:Ef; [|reflexivity]. destruct (i_fin _ _ O Ef) as (K & _). congruence. Qed.
Lemma notfin_c s r : OI s r -> o_c r = CTried -> o_fin r = false.
Proof. intros O E. destruct (o_fin r) eqn:Ef; [|reflexivity]. destruct (i_fin _ _ O Ef) as (_ & _ & [K|K]); congruence. Qed.
Lemma notfin_a s r : OI s r -> o_at r = AtIt -> o_fin r = false.
Proof. intros O E. destruct (o_fin r) eqn:Ef; [|reflexivity]. destruct (i_fin _ _ O Ef) as (_ & K & _). rewrite E in K. discriminate. Qed.

Lemma st_listen h o b : stepok h (LListen o b).
Proof.
  intros v s' es m' v' B W Hs He _. cbn [p_step ph_acts ph_dst] in *. destruct (nth_error (p_op (st h)) o) as [r|] eqn:Ho; [|discriminate]. destruct (o_l r) eqn:El; [discriminate|].
  pose proof (b_op _ B _ _ Ho) as O. pose proof (notfin_l _ _ O El) as Hf. pose proof (trans_state _ _ (Op (o_fut r) (o_at r) true (o_c r) false) _ _ _ _ B Ho eq_refl Hs) as ->.
  unfold trans_acts, trans_dst in *. cbn [settled] in *. rewrite Ho in He |- *. pose proof (w_op _ W _ _ Ho) as V.
  apply (K5 h (hv h (LListen o b) v) _ _ (t_l o) o r); auto; cbn [o_at o_l o_c o_fin o_fut].
  - apply in_hview. left. reflexivity.
  - apply (ov_l0 _ _ _ V).
  - intros E. apply (i_set _ _ O). auto.
  - intros _. split; [reflexivity|tne].
Qed.
Lemma st_can h o : stepok h (LCan o).
Proof.
  intros v s' es m' v' B W Hs He _. cbn [p_step ph_acts ph_dst] in *. destruct (nth_error (p_op (st h)) o) as [r|] eqn:Ho; [|discriminate]. destruct (o_c r) eqn:Ec; try discriminate.
  pose proof (b_op _ B _ _ Ho) as O. pose proof (notfin_c _ _ O Ec) as Hf. pose proof (trans_state _ _ (Op (o_fut r) (match o_at r with AtHit => AtCanc | a => a end) (o_l r) CDone false) _ _ _ _ B Ho eq_refl Hs) as ->.
  unfold trans_acts, trans_dst in *. cbn [settled] in *. rewrite Ho in He |- *. pose proof (w_op _ W _ _ Ho) as V.
  assert (Ea : (match o_at r with AtHit => AtCanc | a => a end) = AtComp -> o_at r = AtComp) by (destruct (o_at r); congruence).
  apply (K5 h (hv h (LCan o) v) _ _ (t_c o) o r); auto; cbn [o_at o_l o_c o_fin o_fut].
  - apply in_hview. left. reflexivity.
  - apply (ov_c0 _ _ _ V Ec).
  - intros E. apply (i_set _ _ O). auto.
  - intros []. reflexivity.
Qed.
Lemma st_loop h o b p : p_sv (st h) = SvLoop p -> stepok h (LSv o b).
Proof.
  intros Esv v s' es m' v' B W Hs He Hd. cbn [p_step ph_acts ph_dst] in *. rewrite Esv in Hs, He |- *. destruct (b_sv _ B p (or_intror Esv)) as (Hh & Hp & Ev).
  assert (Sp : incl (v_ h (t_h p)) (mv_cur (hv h (LSv o b) v))) by (apply in_hview; simpl; rewrite Esv; left; reflexivity).
  destruct (any_it (st h)) eqn:Eit.
  - destruct (nth_error (p_op (st h)) o) as [r|] eqn:Ho; [|discriminate]. destruct (o_at r) eqn:Ea; try discriminate.
    pose proof (b_op _ B _ _ Ho) as O. pose proof (notfin_a _ _ O Ea) as Hf. pose proof (trans_state _ _ (Op (o_fut r) AtComp (o_l r) (o_c r) false) _ _ _ _ B Ho eq_refl Hs) as ->.
    unfold trans_acts, trans_dst in *. cbn [settled] in *. rewrite Ho in He |- *. pose proof (w_op _ W _ _ Ho) as V.
    apply (K5 h (hv h (LSv o b) v) _ _ (t_h p) o r); auto; cbn [o_at o_l o_c o_fin o_fut].
    + apply (w_h _ W). exact Hh.
    + intros _. left. apply (w_sv _ W). auto.
    + intros _. split; [reflexivity|tne].
    + right. right. eauto.
  - unfold unref in Hs. rewrite (alive_holds _ _ _ B Hh) in Hs. destruct (p_ctr (st h)) as [|[|c]] eqn:Hc; try discriminate; injection Hs as <- _; [discriminate|]. cbn [Nat.eqb].
    assert (Nf : forall o' r, nth_error (p_op (st h)) o' = Some r -> o_fut r <> p). { intros o' r Hn E. destruct (i_fut _ _ (b_op _ B _ _ Hn)) as [K _]. rewrite E in K. congruence. }
    apply (st_unref h (LSv o b) v); auto.
    + unfold quiet. apply forallb_forall. intros r Hr. apply In_nth_error in Hr. destruct Hr as [o' Hn]. destruct (Nat.eqb_spec (o_fut r) p) as [E|]; [destruct (Nf _ _ Hn E)|reflexivity].
    + simpl. rewrite Esv. left. reflexivity.
    + intros o' r Hn E. destruct (Nf _ _ Hn E).
Qed.

(** ** The construction *)
Lemma four_exec m v : mm_log m = [] -> exists p0 p1 p2 p3 m' v', m_exec m v [Touch l_obj true; Touch l_has true; Touch l_val true; Touch l_q true] = Some (m', v') /\
  mm_log m' = [(MA l_obj true, p0); (MA l_has true, p1); (MA l_val true, p2); (MA l_q true, p3)] /\ mm_rel m' = mm_rel m /\ C0 (mv_cur v').
Proof.
  intros E. cbn [m_exec m_exec1]. rewrite E. cbn. eexists _, _, _, _, _, _. split; [reflexivity|]. cbn. split; [reflexivity|]. split; [reflexivity|]. intros i Hi. simpl. lia.
Qed.
Lemma st_new h v m' v' s' es : BI (st h) -> p_new (st h) = false -> lg h = [] -> (forall t, v_ h t = []) -> p_step (st h) LNew = Next s' es -> m_exec (ms_mem h) (hv h LNew v) (acts (st h) LNew) = Some (m', v') ->
  Inv (MS s' m' (m_set (ms_view h) [t_h (length (p_hd (st h)))] v')).
Proof.
  intros B En El Ev Hs He. cbn [p_step ph_acts] in *. rewrite En in Hs. injection Hs as <- _. destruct (b_new _ B En) as (E1 & E2 & E3). destruct (BI_new _ B En) as (E4 & E5 & E6).
  destruct (four_exec (ms_mem h) (hv h LNew v) El) as (p0 & p1 & p2 & p3 & m1 & v1 & He' & Hlog & Hrel & HC). rewrite He in He'. injection He' as <- <-.
  assert (N4 : forall i a p, nth_error (mm_log m') i = Some (a, p) -> 4 <= i -> False). { intros i a p Hn Hi. assert (i < length (mm_log m')) by (apply nth_error_Some; congruence). rewrite Hlog in H. simpl in H. lia. }
  assert (Hh : forall y, holds (PS true (p_hd (st h) ++ [Hd true true true]) 1 false false SvNo (p_op (st h))) y = true -> y = length (p_hd (st h))).
  { intros y. unfold holds, hdl. simpl. rewrite nth_app_last. destruct (Nat.eqb_spec y (length (p_hd (st h)))) as [->|]; [reflexivity|]. intros K. pose proof (E6 y) as K'. unfold holds, hdl in K'. congruence. }
  constructor; cbn [ms_base ms_mem ms_view p_has p_sv p_op p_hd].
  - constructor; try (intros; exfalso; eapply N4; eauto; fail); [rewrite Hlog; simpl; lia|discriminate].
  - intros y Hy. rewrite (Hh y Hy), set_in by apply in_tin. exact HC.
  - intros p [|]; discriminate.
  - rewrite E2. intros [|o] r; discriminate.
  - intros y Hy. rewrite app_length in Hy. simpl in Hy. rewrite set_out; [apply Ev|]. intros [K|[]]. tne.
  - intros o _. rewrite !set_out by (intros [K|[]]; tne). rewrite !Ev. auto.
  - intros i Hi. right. exists (t_h (length (p_hd (st h)))). cbn [ms_base ms_view]. split; [|rewrite set_in by apply in_tin; apply HC; rewrite Hlog in Hi; simpl in Hi; lia].
    left. exists (length (p_hd (st h))). split; [|reflexivity]. unfold holds, hdl. simpl. rewrite nth_app_last, Nat.eqb_refl. reflexivity.
Qed.

(** ** All steps *)
Definition WI2 (h : mst (S := pst)) : Prop := WI h /\ (p_new (st h) = false -> forall t, v_ h t = []).
Lemma unref_dead s x l sv s' es : unref s x l sv = Next s' es -> p_dead s = true -> False.
Proof. unfold unref, alive. intros H E. rewrite E in H. discriminate. Qed.
Lemma trans_new s o r b s' es : trans s o r b = Next s' es -> p_new s' = p_new s /\ p_dead s' = p_dead s.
Proof.
  unfold trans. destruct (o_fin _); [|intros [= <- _]; auto]. destruct (ok_of _); [|intros [= <- _]; auto]. unfold alive. destruct (p_dead s) eqn:E; [discriminate|]. destruct (p_has s); [|discriminate]. intros [= <- _]. auto.
Qed.
Lemma step_dead s l s' es : p_step s l = Next s' es -> p_new s = true -> p_new s' = true /\ (p_dead s = true -> p_dead s' = true).
Proof.
  intros Hs En. assert (AL : forall k, alive s k = Next s' es -> p_dead s = false /\ k = Next s' es) by (intros k; unfold alive; destruct (p_dead s); [discriminate|auto]).
  assert (UN : forall x b sv, unref s x b sv = Next s' es -> p_new s' = true /\ p_dead s = false).
  { intros x b sv H. unfold unref in H. apply AL in H. destruct H as [E H]. destruct (p_ctr s); [discriminate|]. injection H as <- _. auto. }
  destruct l as [| |x|x|g x|x d|g f|p|o b|f|o b|o|o|o]; cbn [p_step] in Hs.
  - rewrite En in Hs. discriminate.
  - injection Hs as <- _. auto.
  - destruct (_ && _); [|discriminate]. destruct (holds s x); [apply AL in Hs; destruct Hs as [E Hs]|]; injection Hs as <- _; auto.
  - destruct (idle s x); [|discriminate]. injection Hs as <- _. auto.
  - destruct (_ && _); [|discriminate]. injection Hs as <- _. auto.
  - destruct (idle s x); [|discriminate]. destruct (holds s x); [destruct (UN _ _ _ Hs); split; [auto|congruence]|]. injection Hs as <- _. auto.
  - destruct (_ && _); [|discriminate]. apply AL in Hs. destruct Hs as [E Hs]. injection Hs as <- _. auto.
  - destruct (_ && _); [|discriminate]. apply AL in Hs. destruct Hs as [E Hs]. destruct (p_has s); [discriminate|]. injection Hs as <- _. auto.
  - destruct (p_sv s); [discriminate| |].
    + apply AL in Hs. destruct Hs as [E Hs]. destruct (p_has s); [|discriminate]. injection Hs as <- _. auto.
    + destruct (any_it s); [|destruct (UN _ _ _ Hs); split; [auto|congruence]]. destruct (nth_error (p_op s) o) as [r|]; [|discriminate]. destruct (o_at r); try discriminate. destruct (trans_new _ _ _ _ _ _ Hs) as [-> ->]. auto.
  - destruct (_ && _); [|discriminate]. cbv zeta in Hs. apply AL in Hs. destruct Hs as [E Hs]. destruct (p_has s); injection Hs as <- _; auto.
  - destruct (nth_error (p_op s) o) as [r|]; [|discriminate]. destruct (o_l r); [discriminate|]. destruct (trans_new _ _ _ _ _ _ Hs) as [-> ->]. auto.
  - destruct (nth_error (p_op s) o) as [r|]; [|discriminate]. destruct (o_fin r); [discriminate|].
    assert (K : p_dead s = false /\ p_new s' = true) by (destruct (o_c r); try discriminate; apply AL in Hs; destruct Hs as [E Hs]; (split; [exact E|]); (destruct (p_has s); [|destruct (o_at r); try discriminate]); injection Hs as <- _; exact En).
    destruct K. split; [auto|congruence].
  - destruct (nth_error (p_op s) o) as [r|]; [|discriminate]. destruct (o_c r); try discriminate. destruct (trans_new _ _ _ _ _ _ Hs) as [-> ->]. auto.
  - destruct (nth_error (p_op s) o) as [r|]; [|discriminate]. destruct (_ && _); [|discriminate]. apply AL in Hs. destruct Hs as [E Hs]. injection Hs as <- _. auto.
Qed.
(** Before the construction *)
Lemma step_pre s l s' es : BI s -> p_step s l = Next s' es -> p_new s = false -> l = LNew \/ (acts s l = [] /\ p_new s' = false).
Proof.
  intros B Hs En. destruct (b_new _ B En) as (E1 & E2 & E3). destruct (BI_new _ B En) as (E4 & E5 & E6).
  assert (Nop : forall o, nth_error (p_op s) o = None) by (intros [|o]; rewrite E2; reflexivity).
  assert (Nh : forall x, holds s x = false). { intros x. destruct (holds s x) eqn:E; [|reflexivity]. rewrite E6 in E. discriminate. }
  destruct l as [| |x|x|g x|x d|g f|p|o b|f|o b|o|o|o]; cbn [p_step ph_acts] in *; rewrite ?Nop, ?Nh, ?andb_false_r in *; try discriminate; auto; right.
  - injection Hs as <- _. auto.
  - destruct (_ && _); [|discriminate]. injection Hs as <- _. auto.
  - destruct (idle s x); [|discriminate]. injection Hs as <- _. auto.
  - destruct (_ && _); [|discriminate]. injection Hs as <- _. auto.
  - destruct (idle s x); [|discriminate]. injection Hs as <- _. auto.
  - rewrite E5 in Hs. discriminate.
Qed.
Lemma st_all h l : p_new (st h) = true -> stepok h l.
Proof.
  intros En. destruct l as [| |x|x|g x|x d|g f|p|o b|f|o b|o|o|o];
    [|apply st_empty|apply st_copy|apply st_move|apply st_swap|apply st_release|apply st_assign|apply st_set| |apply st_get|apply st_listen|apply st_try|apply st_can|apply st_read].
  - intros v s' es m' v' B W Hs. cbn [p_step] in Hs. rewrite En in Hs. discriminate.
  - destruct (p_sv (st h)) as [|p|p] eqn:Esv; [|exact (st_splice _ _ _ _ Esv)|exact (st_loop _ _ _ _ Esv)]. intros v s' es m' v' B W Hs. cbn [p_step] in Hs. rewrite Esv in Hs. discriminate.
Qed.
Lemma WI_step h l v s' es m' v' : BI (st h) -> WI h -> (p_new (st h) = false -> forall t, v_ h t = []) -> p_step (st h) l = Next s' es -> m_exec (ms_mem h) (hv h l v) (acts (st h) l) = Some (m', v') ->
  WI (MS s' m' (m_set (ms_view h) (ph_dst (st h) l) v')).
Proof.
  intros B [W0 W1] E0 Hs He. destruct (p_new (st h)) eqn:En.
  - destruct (step_dead _ _ _ _ Hs En) as [En' Hd]. split; cbn [ms_base ms_mem]; [congruence|]. intros _ Hd'. apply (st_all h l En v s' es); auto. apply W1; [reflexivity|]. destruct (p_dead (st h)); [rewrite Hd in Hd'; [discriminate|reflexivity]|reflexivity].
  - destruct (step_pre _ _ _ _ B Hs En) as [->|[Ea En']].
    + pose proof (st_new h v _ _ _ _ B En (W0 eq_refl) (E0 eq_refl) Hs He) as K. split; cbn [ms_base]; [|intros _ _; exact K]. cbn [p_step] in Hs. rewrite En in Hs. injection Hs as <- _. discriminate.
    + rewrite Ea in He. destruct (exec_nil _ _ _ _ He) as [-> _]. split; cbn [ms_base ms_mem]; [auto|congruence].
Qed.

Lemma ph_run ls h tr : run hstep ph_init ls = Running h tr -> BI (st h) /\ WI h.
Proof.
  intros Hr. apply (h_inv p_step ph_src ph_dst acts (fun _ => True) (fun h _ => BI (st h) /\ WI h) p_start) with (ls := ls) (tr := tr); auto.
  - split; [apply BI_init|]. split; [reflexivity|discriminate].
  - clear. intros ls h tr l v s' es m' v' Hr [B W] Hs He _. split.
    + pose proof (BI_good _ l B) as K. rewrite Hs in K. exact K.
    + apply (WI_step h l v s' es); auto. intros En t. pose proof (hb_bounded p_step ph_src ph_dst acts _ _ _ _ Hr) as Hb. pose proof (hb_cur _ _ Hb t) as K. rewrite (proj1 W En) in K. destruct (v_ h t) as [|i u]; [reflexivity|]. specialize (K i (or_introl eq_refl)). simpl in K. lia.
Qed.
Lemma promise_norace ls f tr : run hstep ph_init ls <> Failed f tr.
Proof.
  intros Hr. destruct (h_failed p_step ph_src ph_dst acts ls p_start f tr Hr) as [(ls0 & H)|(_ & ls1 & h & tr1 & l & v & s' & es & H1 & H2 & H3 & _)].
  - revert H. apply (run_safe p_step (fun s _ => BI s) p_start BI_init).
    + intros s t l s' es B Hs. pose proof (BI_good _ l B) as K. rewrite Hs in K. exact K.
    + intros s t l f' es B Hs. pose proof (BI_good _ l B) as K. rewrite Hs in K. exact K.
  - destruct (ph_run _ _ _ H1) as [B W]. exact (WI_ok r_acq r_rel h l v s' es B W H3 H2).
Qed.
End Orders.
