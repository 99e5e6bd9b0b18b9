(** Proofs about M_WaitLists. *)
From Coq Require Import List Arith Bool Lia.
From Verif Require Import Lts ListFacts M_Wait S_Wait P_WaitView P_Wait M_WaitLists S_WaitLists.
Import ListNotations.

Lemma next_inj {S E} (a b : S) (x y : list E) : Next a x = Next b y -> a = b.
Proof. congruence. Qed.

Section Proofs.
Variable P : prim.
Variable W : laws P.
Variable eager : bool.
Variable T : tlaws P W.
Variable L : listof P.
Hypothesis Hq : forall ps o, In o (li_q L ps) <-> pq W ps o.
Notation cst := (cst P).
Notation JT := (JT P W eager T).
Notation GInv := (GInv P W eager).
Notation view_of := (view_of P).

Definition ev_linked (v : view) : bool := negb (Nat.eqb (v_cb v + v_pd v) 0).
Definition pr_linked (v : view) : bool :=
  match v_node v with NQueued => true | _ => li_keep L && negb (Nat.eqb (v_wk v) 0) end.

Definition HInv (h : lst P) : Prop :=
  (forall o, l_ev h o = ev_linked (view_of (l_base h) o)) /\
  (forall o, l_pr h o = pr_linked (view_of (l_base h) o)).

(** linked nodes belong to existing operations, whose receiver was not notified *)
Lemma linked_alive s o : GInv s -> ev_linked (view_of s o) = true \/ pr_linked (view_of s o) = true \/ v_wk (view_of s o) <> 0 ->
  o_alive (c_op s o) = true /\ o_done (c_op s o) = false.
Proof.
  intros [HV _] H. specialize (HV o).
  pose (Q := fun v => negb (negb (Nat.eqb (v_cb v + v_pd v) 0) || match v_node v with NQueued => true | _ => negb (Nat.eqb (v_wk v) 0) end || negb (Nat.eqb (v_wk v) 0)) || (v_alive v && negb (v_done v))).
  assert (HQ : forallb Q (R eager) = true) by (destruct eager; vm_compute; reflexivity).
  pose proof (R_check Q eager HQ _ HV) as Hc. unfold Q in Hc. apply orb_prop in Hc. destruct Hc as [Hc|Hc].
  - exfalso. rewrite negb_true_iff in Hc. apply orb_false_iff in Hc. destruct Hc as [Hc H3]. apply orb_false_iff in Hc. destruct Hc as [H1 H2].
    destruct H as [H|[H|H]].
    + unfold ev_linked in H. congruence.
    + unfold pr_linked in H. destruct (v_node (view_of s o)); try discriminate; rewrite H2, andb_false_r in H; discriminate.
    + apply H. destruct (Nat.eqb_spec (v_wk (view_of s o)) 0); auto. discriminate.
  - apply andb_prop in Hc. destruct Hc as [H1 H2]. simpl in H1, H2. split; auto. now destruct (o_done (c_op s o)).
Qed.

Lemma cbs_linked s e o : GInv s -> In o (e_cbs (c_ev s e)) -> ev_linked (view_of s o) = true.
Proof.
  intros (_ & HE & _) Hin. unfold ev_linked. simpl. rewrite (HE _ _ Hin). simpl.
  pose proof (proj2 (cnt_pos o (e_cbs (c_ev s e))) Hin). destruct (cnt o (e_cbs (c_ev s e))); [lia|reflexivity].
Qed.

Lemma inrest_In s k lp o : nth_error s k = Some lp -> In o (lp_rest lp) -> inrest o s > 0.
Proof.
  intros Hn Hin. unfold inrest. revert k Hn. induction s as [|x s IH]; intros [|k] Hn; simpl in *; try discriminate.
  - injection Hn as ->. pose proof (proj2 (cnt_pos o _) Hin). lia.
  - specialize (IH _ Hn). lia.
Qed.

Lemma bounds s o : GInv s ->
  v_cb (view_of s o) + v_pd (view_of s o) <= 1 /\ v_wk (view_of s o) <= 1 /\
  (o_node (c_op s o) = NQueued -> v_wk (view_of s o) = 0) /\
  (o_l (c_op s o) = PIdle \/ o_l (c_op s o) = PListen -> v_cb (view_of s o) + v_pd (view_of s o) = 0) /\
  (o_l (c_op s o) = PIdle -> v_wk (view_of s o) = 0 /\ o_node (c_op s o) = NFresh).
Proof.
  intros [HV _]. specialize (HV o).
  pose (Q := fun v => Nat.leb (v_cb v + v_pd v) 1 && Nat.leb (v_wk v) 1 && (match v_node v with NQueued => Nat.eqb (v_wk v) 0 | _ => true end) &&
    (match v_l v with PIdle | PListen => Nat.eqb (v_cb v + v_pd v) 0 | _ => true end) &&
    (match v_l v with PIdle => Nat.eqb (v_wk v) 0 && match v_node v with NFresh => true | _ => false end | _ => true end)).
  assert (HQ : forallb Q (R eager) = true) by (destruct eager; vm_compute; reflexivity).
  pose proof (R_check Q eager HQ _ HV) as Hc. unfold Q in Hc.
  rewrite !andb_true_iff in Hc. destruct Hc as ((((H1 & H2) & H3) & H4) & H5).
  apply Nat.leb_le in H1, H2. split; [exact H1|]. split; [exact H2|]. split; [|split].
  - intros Hn. change (v_node (view_of s o)) with (o_node (c_op s o)) in H3. rewrite Hn in H3. now apply Nat.eqb_eq.
  - intros Hn. change (v_l (view_of s o)) with (o_l (c_op s o)) in H4. destruct Hn as [Hn|Hn]; rewrite Hn in H4; now apply Nat.eqb_eq.
  - intros Hn. change (v_l (view_of s o)) with (o_l (c_op s o)) in H5. rewrite Hn in H5. apply andb_prop in H5. destruct H5 as [H5 H6].
    apply Nat.eqb_eq in H5. split; auto. change (v_node (view_of s o)) with (o_node (c_op s o)) in H6. now destruct (o_node (c_op s o)).
Qed.

(** listen() is only running in the activity of start() *)
Lemma listen_path s o x : GInv s -> get_pc x (c_op s o) = PListen -> x = PathL.
Proof.
  intros [HV _] H. specialize (HV o).
  pose (Q := fun v => match v_pc x v with PListen => match x with PathL => true | _ => false end | _ => true end).
  assert (HQ : forallb Q (R eager) = true) by (destruct eager, x; vm_compute; reflexivity).
  pose proof (R_check Q eager HQ _ HV) as Hc. unfold Q in Hc. rewrite v_pc_view, H in Hc. now destruct x.
Qed.

Lemma alive_cbs s e : GInv s -> alive_all P s (e_cbs (c_ev s e)) = true.
Proof. intros HG. apply forallb_forall. intros o Hin. apply (linked_alive s o HG). left. now apply (cbs_linked s e). Qed.

Lemma alive_q s : GInv s -> alive_all P s (li_q L (c_prim s)) = true.
Proof.
  intros HG. apply forallb_forall. intros o Hin. apply Hq in Hin. apply (pq_node _ _ _ _ o HG) in Hin. apply (linked_alive s o HG). right; left.
  unfold pr_linked. simpl. now rewrite Hin.
Qed.

Lemma alive_wk s k lp : GInv s -> nth_error (c_wk s) k = Some lp -> alive_all P s (lp_rest lp) = true.
Proof.
  intros HG Hk. apply forallb_forall. intros o Hin. apply (linked_alive s o HG). right; right. pose proof (inrest_In _ _ _ _ Hk Hin). simpl. lia.
Qed.

Lemma alive_cn s k lp : GInv s -> nth_error (c_cn s) k = Some lp -> alive_all P s (lp_rest lp) = true.
Proof.
  intros HG Hk. apply forallb_forall. intros o Hin. apply (linked_alive s o HG). left. pose proof (inrest_In _ _ _ _ Hk Hin).
  unfold ev_linked. simpl. destruct (Nat.eqb_spec (cb_of P s o (o_tok (c_op s o)) + inrest o (c_cn s)) 0); [lia|reflexivity].
Qed.

Lemma ev_step s tr l s' es f : JT s tr -> step P eager s l = Next s' es -> (forall o, f o = ev_linked (view_of s o)) ->
  exists f', ev_hooks P s f l = inr f' /\ forall o, f' o = ev_linked (view_of s' o).
Proof.
  intros HJ Hs Hf. pose proof (JT_reliable _ _ _ _ _ _ HJ) as HR. pose proof HJ as [[HG _] _].
  assert (Hsame : (forall o, ev_linked (view_of s' o) = ev_linked (view_of s o)) -> forall o, f o = ev_linked (view_of s' o)).
  { intros H o. now rewrite H. }
  destruct l as [o tok a|o x|e|k|k|pl|o]; simpl in *.
  - (* LStart *)
    exists f. split; auto. apply Hsame. intros o'. pose proof HG as (_ & HE & _).
    destruct (o_l (c_op s o)) eqn:Hl; try discriminate.
    destruct (fresh_facts _ _ _ _ o HG Hl) as (Hn & Ht & _).
    assert (Hcb : forall e, cnt o (e_cbs (c_ev s e)) = 0).
    { intros e. apply cnt_zero. intros Hin. apply HE in Hin. congruence. }
    destruct (p_start P (c_prim s) o a); try discriminate; injection Hs as <- <-; unfold ev_linked; simpl;
      (destruct (Nat.eq_dec o' o) as [->|Hne]; [rewrite upd_same, Ht; simpl; destruct tok as [e|]; simpl; rewrite ?Hcb; reflexivity|now rewrite upd_other by auto]).
  - (* LPath *)
    pose proof (path_view _ _ _ s o x s' es HG HR Hs) as [Hv Ho].
    assert (Hoth : forall o', o' <> o -> ev_linked (view_of s' o') = ev_linked (view_of s o')) by (intros o' Hne; now destruct (Ho o' Hne) as [-> _]).
    simpl in Hv. rewrite v_pc_view in Hv.
    destruct (get_pc x (c_op s o)) as [| | | |m| | |] eqn:Hpc; try discriminate; simpl v_alive in Hv; destruct (o_alive (c_op s o)) eqn:Hal; simpl in Hv; try discriminate.
    + exists f. split; auto. apply Hsame. intros o'. destruct (Nat.eq_dec o' o) as [->|Hne]; [|auto].
      destruct (isSome (o_fast (c_op s o))); try discriminate. destruct (o_done (c_op s o)); try discriminate. apply next_inj in Hv. rewrite <- Hv. now destruct x.
    + destruct (o_tok (c_op s o)) as [e|] eqn:Ht; simpl in Hv.
      * destruct (e_req (c_ev s e)) eqn:Hr.
        -- exists f. split; auto. apply Hsame. intros o'. destruct (Nat.eq_dec o' o) as [->|Hne]; [|auto]. apply next_inj in Hv. rewrite <- Hv. now destruct x.
        -- pose proof (listen_path s o x HG Hpc) as ->. simpl in Hpc.
           destruct (bounds s o HG) as (_ & _ & _ & H0 & _). specialize (H0 (or_intror Hpc)).
           unfold li_push. rewrite (alive_cbs s e HG). simpl. rewrite Hf. unfold ev_linked at 1. rewrite H0. simpl.
           exists (upd f o true). split; auto. intros o'. destruct (Nat.eq_dec o' o) as [->|Hne].
           ++ rewrite upd_same. apply next_inj in Hv. rewrite <- Hv. reflexivity.
           ++ rewrite upd_other by auto. rewrite Hoth by auto. apply Hf.
      * exists f. split; auto. apply Hsame. intros o'. destruct (Nat.eq_dec o' o) as [->|Hne]; [|auto]. apply next_inj in Hv. rewrite <- Hv. now destruct x.
    + exists f. split; auto. apply Hsame. intros o'. destruct (Nat.eq_dec o' o) as [->|Hne]; [|auto].
      destruct (o_node (c_op s o)); try discriminate; apply next_inj in Hv; rewrite <- Hv; now destruct x.
    + exists f. split; auto. apply Hsame. intros o'. destruct (Nat.eq_dec o' o) as [->|Hne]; [|auto].
      destruct (moverlap (o_bits (c_op s o)) m); try discriminate. apply next_inj in Hv. rewrite <- Hv. now destruct x.
    + destruct (o_tok (c_op s o)) as [e|] eqn:Ht; simpl in Hv; try discriminate.
      destruct (e_req (c_ev s e)) eqn:Hr.
      * exists f. split; auto. apply Hsame. intros o'. destruct (Nat.eq_dec o' o) as [->|Hne]; [|auto]. apply next_inj in Hv. rewrite <- Hv. now destruct x.
      * destruct (bounds s o HG) as (H1 & _). simpl in H1. rewrite Ht in H1. simpl in H1.
        destruct (cnt o (e_cbs (c_ev s e))) as [|n] eqn:Hc; try discriminate.
        assert (Hl : ev_linked (view_of s o) = true).
        { apply (cbs_linked s e o HG). apply cnt_pos. lia. }
        unfold li_erase. rewrite (alive_cbs s e HG). simpl. rewrite Hf, Hl. simpl.
        exists (unhook f [o]). split; auto. intros o'. unfold unhook. simpl. destruct (Nat.eqb_spec o' o) as [->|Hne]; simpl.
        -- apply next_inj in Hv. rewrite <- Hv. unfold ev_linked. destruct x; simpl; (destruct (Nat.eqb_spec (n + inrest o (c_cn s)) 0); [reflexivity|lia]).
        -- rewrite Hoth by auto. apply Hf.
    + exists f. split; auto. apply Hsame. intros o'. destruct (Nat.eq_dec o' o) as [->|Hne]; [|auto].
      destruct (o_done (c_op s o)); try discriminate. apply next_inj in Hv. rewrite <- Hv. now destruct x.
  - (* LCancel *)
    unfold li_splice. rewrite (alive_cbs s e HG). simpl. exists f. split; auto. apply Hsame. intros o. injection Hs as <- <-.
    pose proof HG as (_ & HE & _). unfold ev_linked. simpl. rewrite inrest_app. unfold inrest at 2. simpl. rewrite Nat.add_0_r.
    destruct (o_tok (c_op s o)) as [e'|] eqn:Ht; simpl.
    + destruct (Nat.eq_dec e' e) as [->|Hne].
      * rewrite upd_same. simpl. now rewrite Nat.add_comm.
      * rewrite upd_other by auto. replace (cnt o (e_cbs (c_ev s e))) with 0; [now rewrite !Nat.add_0_r|].
        symmetry. apply cnt_zero. intros Hin. apply HE in Hin. congruence.
    + replace (cnt o (e_cbs (c_ev s e))) with 0; [now rewrite !Nat.add_0_r|].
      symmetry. apply cnt_zero. intros Hin. apply HE in Hin. congruence.
  - (* LCanNext *)
    destruct (nth_error (c_cn s) k) as [lp|] eqn:Hk; try discriminate.
    destruct (loop_ready o_c s lp); try discriminate.
    destruct (lp_rest lp) as [|o rest] eqn:Hrest; try discriminate.
    destruct (o_alive (c_op s o)) eqn:Hal; try discriminate. simpl in Hs.
    destruct (o_c (c_op s o)) eqn:Hc; try discriminate. injection Hs as <- <-.
    unfold li_erase. rewrite <- Hrest, (alive_cn s k lp HG Hk). simpl.
    pose proof (inrest_In _ _ _ o Hk ltac:(rewrite Hrest; now left)) as Hpos.
    assert (Hl : ev_linked (view_of s o) = true).
    { unfold ev_linked. simpl. destruct (Nat.eqb_spec (cb_of P s o (o_tok (c_op s o)) + inrest o (c_cn s)) 0); [lia|reflexivity]. }
    rewrite Hf, Hl. simpl. exists (unhook f [o]). split; auto. intros o'. unfold unhook. simpl.
    pose proof (inrest_set o' _ k lp (Loop (Some o) rest) Hk) as Hin. simpl in Hin. rewrite Hrest, cnt_cons in Hin.
    destruct (Nat.eqb_spec o' o) as [->|Hne]; simpl.
    + destruct (Nat.eq_dec o o); [|congruence]. destruct (bounds s o HG) as (H1 & _). simpl in H1. unfold ev_linked. simpl. rewrite upd_same. simpl.
      match goal with |- false = negb ?b => replace b with true; [reflexivity|symmetry; apply Nat.eqb_eq] end. unfold cb_of in *. simpl in *. lia.
    + destruct (Nat.eq_dec o o'); [congruence|]. rewrite Hf. unfold ev_linked. simpl. rewrite upd_other by auto.
      replace (inrest o' (set_nth (c_cn s) k (Loop (Some o) rest))) with (inrest o' (c_cn s)) by lia. reflexivity.
  - (* LWakeNext *)
    exists f. split; auto. apply Hsame. intros o'.
    destruct (nth_error (c_wk s) k) as [lp|] eqn:Hk; try discriminate.
    destruct (loop_ready o_p s lp); try discriminate.
    destruct (lp_rest lp) as [|o rest] eqn:Hrest; try discriminate.
    destruct (o_alive (c_op s o)) eqn:Hal; try discriminate. simpl in Hs.
    destruct (o_p (c_op s o)) eqn:Hc; try discriminate. injection Hs as <- <-.
    unfold ev_linked. simpl. destruct (Nat.eq_dec o' o) as [->|Hne]; [rewrite upd_same|rewrite upd_other by auto]; reflexivity.
  - (* LPrim *)
    exists f. split; auto. apply Hsame. intros o'. destruct (p_step P (c_prim s) pl); try discriminate. injection Hs as <- <-.
    unfold ev_linked. simpl. destruct (memb o' taken); reflexivity.
  - (* LDestroy *)
    destruct (o_done (c_op s o)) eqn:Hd; [|discriminate].
    destruct (f o) eqn:Hfo.
    + exfalso. rewrite Hf in Hfo. destruct (linked_alive s o HG (or_introl Hfo)). congruence.
    + exists f. split; auto. apply Hsame. intros o'. destruct (true && o_alive (c_op s o) && (eager || all_ended (c_op s o))); try discriminate. injection Hs as <- <-.
      unfold ev_linked. simpl. destruct (Nat.eq_dec o' o) as [->|Hne]; [rewrite upd_same|rewrite upd_other by auto]; reflexivity.
Qed.

Lemma pr_step s tr l s' es f : JT s tr -> step P eager s l = Next s' es -> (forall o, f o = pr_linked (view_of s o)) ->
  exists f', pr_hooks P L s f l = inr f' /\ forall o, f' o = pr_linked (view_of s' o).
Proof.
  intros HJ Hs Hf. pose proof (JT_reliable _ _ _ _ _ _ HJ) as HR. pose proof HJ as [[HG _] _].
  assert (Hsame : (forall o, pr_linked (view_of s' o) = pr_linked (view_of s o)) -> forall o, f o = pr_linked (view_of s' o)).
  { intros H o. now rewrite H. }
  destruct l as [o tok a|o x|e|k|k|pl|o]; simpl in *.
  - (* LStart *)
    destruct (o_l (c_op s o)) eqn:Hl; try discriminate.
    destruct (bounds s o HG) as (_ & _ & _ & _ & H0). destruct (H0 Hl) as [Hw Hn]. simpl in Hw.
    destruct (p_start P (c_prim s) o a); try discriminate; injection Hs as <- <-.
    + unfold li_push. rewrite (alive_q s HG). simpl. rewrite Hf. unfold pr_linked at 1. simpl. rewrite Hn, Hw. simpl. rewrite andb_false_r.
      exists (upd f o true). split; auto. intros o'. unfold pr_linked. simpl. destruct (Nat.eq_dec o' o) as [->|Hne].
      * now rewrite !upd_same.
      * rewrite !upd_other by auto. rewrite Hf. reflexivity.
    + exists f. split; auto. apply Hsame. intros o'. unfold pr_linked. simpl. destruct (Nat.eq_dec o' o) as [->|Hne]; [now rewrite upd_same|now rewrite upd_other by auto].
  - (* LPath *)
    pose proof (path_view _ _ _ s o x s' es HG HR Hs) as [Hv Ho].
    assert (Hoth : forall o', o' <> o -> pr_linked (view_of s' o') = pr_linked (view_of s o')) by (intros o' Hne; now destruct (Ho o' Hne) as [-> _]).
    simpl in Hv. rewrite v_pc_view in Hv. unfold path_step in Hs.
    destruct (get_pc x (c_op s o)) as [| | | |m| | |] eqn:Hpc; try discriminate; simpl v_alive in Hv; destruct (o_alive (c_op s o)) eqn:Hal; simpl in Hv, Hs; try discriminate.
    + exists f. split; auto. apply Hsame. intros o'. destruct (Nat.eq_dec o' o) as [->|Hne]; [|auto].
      destruct (isSome (o_fast (c_op s o))); try discriminate. destruct (o_done (c_op s o)); try discriminate. apply next_inj in Hv. rewrite <- Hv. now destruct x.
    + exists f. split; auto. apply Hsame. intros o'. destruct (Nat.eq_dec o' o) as [->|Hne]; [|auto].
      destruct (isSome (o_tok (c_op s o))); [destruct (req_of P s (o_tok (c_op s o)))|]; apply next_inj in Hv; rewrite <- Hv; now destruct x.
    + destruct (try_facts _ _ _ s o x HG Hpc) as [Hn|Hn]; rewrite Hn in Hv; apply next_inj in Hv.
      * pose proof HG as (_ & _ & (HI & HQ) & _). destruct (l_try W _ _ HI (proj2 (HQ o) Hn)) as (ps & Ht & _). rewrite Ht.
        assert (Hl : pr_linked (view_of s o) = true) by (unfold pr_linked; simpl; now rewrite Hn).
        destruct (bounds s o HG) as (_ & _ & H0 & _). specialize (H0 Hn). simpl in H0.
        unfold li_erase. rewrite (alive_q s HG). simpl. rewrite Hf, Hl. simpl.
        exists (unhook f [o]). split; auto. intros o'. unfold unhook. simpl. destruct (Nat.eqb_spec o' o) as [->|Hne]; simpl.
        -- rewrite <- Hv. unfold pr_linked. destruct x; simpl; rewrite H0; simpl; now rewrite andb_false_r.
        -- rewrite Hoth by auto. apply Hf.
      * destruct (p_try P (c_prim s) o) as [ps b|] eqn:Ht; try discriminate. destruct (HR o x ps b Hpc Hn Ht) as [_ ->].
        exists f. split; auto. apply Hsame. intros o'. destruct (Nat.eq_dec o' o) as [->|Hne]; [|auto]. rewrite <- Hv. destruct x; reflexivity.
    + exists f. split; auto. apply Hsame. intros o'. destruct (Nat.eq_dec o' o) as [->|Hne]; [|auto].
      destruct (moverlap (o_bits (c_op s o)) m); try discriminate. apply next_inj in Hv. rewrite <- Hv. now destruct x.
    + exists f. split; auto. apply Hsame. intros o'. destruct (Nat.eq_dec o' o) as [->|Hne]; [|auto].
      destruct (isSome (o_tok (c_op s o))); try discriminate. destruct (req_of P s (o_tok (c_op s o))); [apply next_inj in Hv; rewrite <- Hv; now destruct x|].
      destruct (cb_of P s o (o_tok (c_op s o))); try discriminate. apply next_inj in Hv. rewrite <- Hv. now destruct x.
    + exists f. split; auto. apply Hsame. intros o'. destruct (Nat.eq_dec o' o) as [->|Hne]; [|auto].
      destruct (o_done (c_op s o)); try discriminate. apply next_inj in Hv. rewrite <- Hv. now destruct x.
  - (* LCancel *)
    exists f. split; auto. apply Hsame. intros o. injection Hs as <- <-. reflexivity.
  - (* LCanNext *)
    exists f. split; auto. apply Hsame. intros o'.
    destruct (nth_error (c_cn s) k) as [lp|] eqn:Hk; try discriminate.
    destruct (loop_ready o_c s lp); try discriminate.
    destruct (lp_rest lp) as [|o rest] eqn:Hrest; try discriminate.
    destruct (o_alive (c_op s o)) eqn:Hal; try discriminate. simpl in Hs.
    destruct (o_c (c_op s o)) eqn:Hc; try discriminate. injection Hs as <- <-.
    unfold pr_linked. simpl. destruct (Nat.eq_dec o' o) as [->|Hne]; [rewrite upd_same|rewrite upd_other by auto]; reflexivity.
  - (* LWakeNext *)
    destruct (nth_error (c_wk s) k) as [lp|] eqn:Hk; try discriminate.
    destruct (loop_ready o_p s lp); try discriminate.
    destruct (lp_rest lp) as [|o rest] eqn:Hrest; try discriminate.
    destruct (o_alive (c_op s o)) eqn:Hal; try discriminate. simpl in Hs.
    destruct (o_p (c_op s o)) eqn:Hc; try discriminate. injection Hs as <- <-.
    pose proof (inrest_In _ _ _ o Hk ltac:(rewrite Hrest; now left)) as Hpos.
    destruct (bounds s o HG) as (_ & Hle & Hnq & _). simpl in Hle, Hnq.
    assert (Hnq' : o_node (c_op s o) <> NQueued) by (intros E; specialize (Hnq E); lia).
    destruct (li_keep L) eqn:HK.
    + unfold li_erase. rewrite <- Hrest, (alive_wk s k lp HG Hk). simpl.
      assert (Hl : pr_linked (view_of s o) = true).
      { unfold pr_linked. simpl. rewrite HK. destruct (o_node (c_op s o)); auto; (destruct (Nat.eqb_spec (inrest o (c_wk s)) 0); [lia|reflexivity]). }
      rewrite Hf, Hl. simpl. exists (unhook f [o]). split; auto. intros o'. unfold unhook. simpl.
      pose proof (inrest_set o' _ k lp (Loop (Some o) rest) Hk) as Hin. simpl in Hin. rewrite Hrest, cnt_cons in Hin.
      destruct (Nat.eqb_spec o' o) as [->|Hne]; simpl.
      * destruct (Nat.eq_dec o o); [|congruence]. unfold pr_linked. simpl. rewrite upd_same. simpl.
        replace (inrest o (set_nth (c_wk s) k (Loop (Some o) rest))) with 0 by lia. simpl. rewrite andb_false_r.
        destruct (o_node (c_op s o)); congruence.
      * destruct (Nat.eq_dec o o'); [congruence|]. rewrite Hf. unfold pr_linked. simpl. rewrite upd_other by auto.
        replace (inrest o' (set_nth (c_wk s) k (Loop (Some o) rest))) with (inrest o' (c_wk s)) by lia. reflexivity.
    + exists f. split; auto. apply Hsame. intros o'. unfold pr_linked. simpl. rewrite HK. simpl.
      destruct (Nat.eq_dec o' o) as [->|Hne]; [rewrite upd_same|rewrite upd_other by auto]; reflexivity.
  - (* LPrim *)
    destruct (p_step P (c_prim s) pl) as [ps taken es'| |] eqn:Hp; try discriminate. injection Hs as <- <-.
    pose proof HG as (_ & _ & (HI & HQ) & _). destruct (l_step W _ _ _ _ _ HI Hp) as (_ & Hnd & Htk & _).
    assert (Hrest : forall o, inrest o (c_wk s ++ [Loop None taken]) = inrest o (c_wk s) + cnt o taken).
    { intros o. rewrite inrest_app. unfold inrest at 2. simpl. lia. }
    destruct (li_keep L) eqn:HK.
    + unfold li_splice. rewrite (alive_q s HG). simpl. exists f. split; auto. apply Hsame. intros o. unfold pr_linked. simpl. rewrite HK, Hrest.
      destruct (memb o taken) eqn:Hm; simpl.
      * apply memb_In in Hm. pose proof (proj1 (HQ o) (Htk o Hm)) as Hn. rewrite Hn. pose proof (proj2 (cnt_pos o taken) Hm).
        destruct (Nat.eqb_spec (inrest o (c_wk s) + cnt o taken) 0); [lia|reflexivity].
      * apply memb_not_In in Hm. apply cnt_zero in Hm. rewrite Hm, Nat.add_0_r. reflexivity.
    + unfold li_erase. rewrite (alive_q s HG). simpl.
      assert (Hall : forallb f taken = true).
      { apply forallb_forall. intros o Hin. rewrite Hf. unfold pr_linked. simpl. now rewrite (proj1 (HQ o) (Htk o Hin)). }
      rewrite Hall. simpl. exists (unhook f taken). split; auto. intros o. unfold unhook, pr_linked. simpl. rewrite HK.
      destruct (memb o taken) eqn:Hm; simpl; auto. rewrite Hf. unfold pr_linked. simpl. now rewrite HK.
  - (* LDestroy *)
    destruct (o_done (c_op s o)) eqn:Hd; [|discriminate].
    destruct (f o) eqn:Hfo.
    + exfalso. rewrite Hf in Hfo. destruct (linked_alive s o HG (or_intror (or_introl Hfo))). congruence.
    + exists f. split; auto. apply Hsame. intros o'. destruct (true && o_alive (c_op s o) && (eager || all_ended (c_op s o))); try discriminate. injection Hs as <- <-.
      unfold pr_linked. simpl. destruct (Nat.eq_dec o' o) as [->|Hne]; [rewrite upd_same|rewrite upd_other by auto]; reflexivity.
Qed.

Lemma lists_from ls : forall h tr, JT (l_base h) tr -> HInv h ->
  forget (run_from (lists_step P L eager) h tr ls) = run_from (step P eager) (l_base h) tr ls.
Proof.
  induction ls as [|l ls IH]; intros h tr HJ [Hf Hg]; simpl; auto. unfold lists_step at 1.
  destruct (step P eager (l_base h) l) as [s' es| |f es] eqn:Hs; simpl; auto.
  destruct (ev_step _ _ _ _ _ _ HJ Hs Hf) as (f' & -> & Hf'). destruct (pr_step _ _ _ _ _ _ HJ Hs Hg) as (g' & -> & Hg').
  apply IH; [|split; auto]. simpl. eapply JT_step; eauto.
Qed.

Lemma hinv_init : HInv (l_init0 P).
Proof. split; intros o; unfold ev_linked, pr_linked; simpl; auto. now rewrite andb_false_r. Qed.

Lemma lists_run ls : forget (run (lists_step P L eager) (l_init0 P) ls) = run (step P eager) (c_init P) ls.
Proof. apply (lists_from ls (l_init0 P) []); [apply JT_init|apply hinv_init]. Qed.

(** The hooks of an operation at the end of a run *)
Lemma lists_inv ls h tr : run (lists_step P L eager) (l_init0 P) ls = Running h tr -> JT (l_base h) tr /\ HInv h.
Proof.
  apply (run_inv (lists_step P L eager) (fun h tr => JT (l_base h) tr /\ HInv h)).
  - split; [apply JT_init|apply hinv_init].
  - intros h0 tr0 l h1 es (HJ & Hf & Hg) Hs. unfold lists_step in Hs.
    destruct (step P eager (l_base h0) l) as [s' es'| |] eqn:Hb; try discriminate.
    destruct (ev_step _ _ _ _ _ _ HJ Hb Hf) as (f' & Ef & Hf'). destruct (pr_step _ _ _ _ _ _ HJ Hb Hg) as (g' & Eg & Hg').
    rewrite Ef, Eg in Hs. injection Hs as <- <-. split; [eapply JT_step; eauto|split; auto].
Qed.

Lemma inrest_pos o lps : inrest o lps > 0 <-> exists lp, In lp lps /\ In o (lp_rest lp).
Proof.
  split.
  - unfold inrest. induction lps as [|lp lps IH]; simpl; [lia|]. intros H. destruct (cnt o (lp_rest lp)) eqn:Hc.
    + destruct (IH H) as (lp' & H1 & H2). eauto.
    + exists lp. split; auto. apply cnt_pos. lia.
  - intros (lp & H1 & H2). apply In_nth_error in H1. destruct H1 as (k & Hk). exact (inrest_In _ _ _ _ Hk H2).
Qed.

(** The hooks tell the truth. *)
Lemma lists_ev ls h tr o : run (lists_step P L eager) (l_init0 P) ls = Running h tr ->
  (l_ev h o = true <-> (exists e, In o (e_cbs (c_ev (l_base h) e))) \/ exists lp, In lp (c_cn (l_base h)) /\ In o (lp_rest lp)).
Proof.
  intros Hr. destruct (lists_inv _ _ _ Hr) as (HJ & Hf & _). pose proof HJ as [[HG _] _]. rewrite Hf, <- inrest_pos.
  unfold ev_linked. simpl. rewrite negb_true_iff, Nat.eqb_neq. split.
  - intros H. destruct (inrest o (c_cn (l_base h))); [|right; lia]. left. destruct (o_tok (c_op (l_base h) o)) as [e|]; simpl in H; [|lia].
    exists e. apply cnt_pos. lia.
  - intros [(e & Hin)|H]; [|lia]. pose proof (cbs_linked _ _ _ HG Hin) as Hl. unfold ev_linked in Hl. simpl in Hl. rewrite negb_true_iff, Nat.eqb_neq in Hl. exact Hl.
Qed.

Lemma lists_pr ls h tr o : run (lists_step P L eager) (l_init0 P) ls = Running h tr ->
  (l_pr h o = true <-> In o (li_q L (c_prim (l_base h))) \/ (li_keep L = true /\ exists lp, In lp (c_wk (l_base h)) /\ In o (lp_rest lp))).
Proof.
  intros Hr. destruct (lists_inv _ _ _ Hr) as (HJ & _ & Hg). pose proof HJ as [[HG _] _]. rewrite Hg, <- inrest_pos, Hq, (pq_node _ _ _ _ o HG).
  unfold pr_linked. simpl. destruct (o_node (c_op (l_base h) o)) eqn:Hn; rewrite ?andb_true_iff, ?negb_true_iff, ?Nat.eqb_neq;
    (split; [intros H; try (left; reflexivity); right; destruct H; split; auto; lia|intros [H|[H1 H2]]; try discriminate; auto; split; auto; lia]).
Qed.

(** An operation whose receiver was notified is in no list. *)
Lemma lists_unlinked ls h tr o : run (lists_step P L eager) (l_init0 P) ls = Running h tr ->
  notified o tr > 0 -> l_ev h o = false /\ l_pr h o = false.
Proof.
  intros Hr Ho. destruct (lists_inv _ _ _ Hr) as (HJ & Hf & Hg). rewrite Hf, Hg. pose proof HJ as [[HG (HD & _)] _].
  specialize (HD o). destruct (o_done (c_op (l_base h) o)) eqn:Hd; [|lia].
  split.
  - destruct (ev_linked (view_of (l_base h) o)) eqn:E; auto. destruct (linked_alive _ o HG (or_introl E)). congruence.
  - destruct (pr_linked (view_of (l_base h) o)) eqn:E; auto. destruct (linked_alive _ o HG (or_intror (or_introl E))). congruence.
Qed.

Lemma lists_all ls h tr o : run (lists_step P L eager) (l_init0 P) ls = Running h tr ->
  (l_ev h o = true <-> in_event_list o (l_base h)) /\ (l_pr h o = true <-> in_wait_list L o (l_base h)) /\
  (notified o tr > 0 -> ~ in_event_list o (l_base h) /\ ~ in_wait_list L o (l_base h)).
Proof.
  intros Hr. split; [exact (lists_ev _ _ _ o Hr)|]. split; [exact (lists_pr _ _ _ o Hr)|]. intros Hn.
  destruct (lists_unlinked _ _ _ o Hr Hn) as [H1 H2]. split; intros H.
  - apply (lists_ev _ _ _ o Hr) in H. congruence.
  - apply (lists_pr _ _ _ o Hr) in H. congruence.
Qed.
End Proofs.
