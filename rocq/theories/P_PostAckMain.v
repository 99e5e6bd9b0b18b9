(** post_ack_mechanism: the properties *)
From Coq Require Import List Arith Bool Lia.
From Verif Require Import Lts ListFacts M_Wait S_Wait P_Wait M_PostAck S_PostAck P_PostAck P_PostAckInv P_PostAckSteps P_PostAckRun.
Import ListNotations.

Section Main.
Variable T : Type.
Notation P := (post_ack T).
Notation trace := (list (event P)).

(** ** The history of an agent *)
Definition HI (a : nat) (s : @sp T) (h : hist) : Prop :=
  (h_att h = true <-> In a (sp_att s)) /\ (forall o, In o (h_ops h) <-> agent_of o s = Some a) /\
  (In a (sp_att s) -> h_posted h = h_received h ++ due_of a s).

Definition side (s : @sp T) (e : event P) : Prop :=
  match e with
  | EStart o _ _ => agent_of o s = None
  | EDone o v => reports T s o v
  | EPrim (EAttach a) => due_of a s = []
  | _ => True
  end.

Lemma HI_event a s h e : HI a s h -> NoDup (sp_att s) -> side s e -> HI a (sp_step s e) (h_step a h e).
Proof.
  intros (H1 & H2 & H3) HN Hside. destruct e as [o tok b|o v|e|o|[b|b|b|p x|p|o|o v]]; simpl in Hside; try exact (conj H1 (conj H2 H3)).
  - assert (Hao : forall o', agent_of o' (sp_step s (EStart (P := P) o tok b)) = if Nat.eqb o' o then Some b else agent_of o' s)
      by (intros o'; exact (ag_of_snoc (sp_ops s) o b o' Hside)).
    simpl h_step. destruct (Nat.eqb_spec b a) as [->|Hne].
    + split; [exact H1|]. split; [|exact H3]. intros o'. rewrite Hao. simpl. rewrite H2. destruct (Nat.eqb_spec o' o) as [->|Hn]; [tauto|]. intuition congruence.
    + split; [exact H1|]. split; [|exact H3]. intros o'. rewrite Hao, H2. destruct (Nat.eqb_spec o' o) as [->|Hn]; [|tauto]. rewrite Hside. intuition congruence.
  - simpl sp_step. destruct (agent_of o s) as [b|] eqn:Hb.
    2:{ assert (Hm : memb o (h_ops h) = false). { destruct (memb o (h_ops h)) eqn:E; auto. apply memb_In, H2 in E. congruence. }
        destruct v as [p|]; simpl; rewrite ?Hm; exact (conj H1 (conj H2 H3)). }
    destruct v as [p|]; [|exact (conj H1 (conj H2 H3))]. simpl h_step.
    destruct (Hside p eq_refl) as (b' & later & E1 & E2). assert (b' = b) by congruence. subst b'.
    destruct (Nat.eq_dec b a) as [->|Hne].
    + rewrite (proj2 (memb_In o (h_ops h)) (proj2 (H2 o) Hb)). split; [exact H1|]. split; [exact H2|]. cbn [sp_att h_posted h_received]. intros Ha. rewrite (H3 Ha), E2.
      change (due_of a _) with (dl a (drop_pair (a, p) (sp_due s))). rewrite (drop_dl_same a p _ later E2), <- app_assoc. reflexivity.
    + assert (Hm : memb o (h_ops h) = false). { destruct (memb o (h_ops h)) eqn:E; auto. apply memb_In, H2 in E. congruence. }
      rewrite Hm. split; [exact H1|]. split; [exact H2|]. cbn [sp_att h_posted h_received]. intros Ha. rewrite (H3 Ha). f_equal. symmetry. apply drop_dl_other. auto.
  - simpl. destruct (Nat.eqb_spec b a) as [->|Hne].
    + split; [simpl; tauto|]. split; [exact H2|]. simpl. intros _. change (due_of a _) with (due_of a s). now rewrite Hside.
    + split; [simpl; rewrite H1; intuition congruence|]. split; [exact H2|]. simpl. intros [E|Ha]; [congruence|]. exact (H3 Ha).
  - simpl. assert (Hin : forall c, In c (remove1 b (sp_att s)) <-> In c (sp_att s) /\ c <> b) by (intros c; now apply In_remove1_NoDup).
    destruct (Nat.eqb_spec b a) as [->|Hne].
    + split; [simpl; rewrite Hin; intuition congruence|]. split; [exact H2|]. simpl. rewrite Hin. tauto.
    + split; [simpl; rewrite Hin, H1; intuition congruence|]. split; [exact H2|]. cbn [sp_att]. rewrite Hin. intros [Ha _]. rewrite (H3 Ha). f_equal.
      symmetry. change (dl a (filter (fun x => negb (Nat.eqb (fst x) b)) (sp_due s)) = due_of a s). rewrite filter_dl. destruct (Nat.eqb_spec a b); [congruence|reflexivity].
  - simpl. split; [exact H1|]. split; [exact H2|]. cbn [sp_att h_posted h_received]. intros Ha. rewrite (proj2 H1 Ha), (H3 Ha), <- app_assoc. f_equal.
    symmetry. change (dl a (sp_due s ++ map (fun c => (c, p)) (sp_att s)) = due_of a s ++ [p]). rewrite dl_app, post_dl, (proj2 (memb_In a (sp_att s)) Ha) by auto. reflexivity.
Qed.

Lemma posts_In (tr : trace) p x : In (p, x) (sp_posts (spec tr)) <-> In (EPrim (EPost p x : PE P)) tr.
Proof.
  induction tr as [|e tr IH] using rev_ind; [simpl; tauto|]. rewrite spec_app, in_app_iff, <- IH. simpl.
  destruct e as [o tok b|o v|e|o|[b|b|b|q y|q|o|o v]]; simpl; try (intuition discriminate).
  - destruct (agent_of o (spec tr)); simpl; intuition discriminate.
  - rewrite in_app_iff. simpl. split; (intros [H|[H|[]]]; [auto|right; left; congruence]).
Qed.
Lemma held_In (tr : trace) o p : In (o, p) (sp_held (spec tr)) -> In (EDone (P := P) o (Some p)) tr.
Proof.
  induction tr as [|e tr IH] using rev_ind; [simpl; tauto|]. rewrite spec_app, in_app_iff. simpl.
  destruct e as [o' tok b|o' v|e|o'|[b|b|b|q y|q|o'|o' v]]; simpl; auto.
  - destruct (agent_of o' (spec tr)); simpl; auto. destruct v as [q|]; auto. rewrite In_snoc. intros [H|[= <- <-]]; auto.
  - rewrite filter_In. intros [H _]. auto.
Qed.

(** after the first one, the events of a step of the mechanism are completions of posts and returns of detach() *)
Lemma prim_tail (k0 k1 : kst T) pl taken e es0 : k_step k0 pl = POk k1 taken (e :: es0) ->
  forall e', In e' es0 -> match e' with EDetached _ | EPostDone _ => True | _ => False end.
Proof.
  intros Hp e' Hin.
  assert (Hdn : forall (k : kst T) b r es k' tk es1, det_next k b r es = POk k' tk es1 -> es1 = es ++ [EDetached b] \/ es1 = es).
  { intros k b r es k' tk es1. unfold det_next. destruct (Nat.eqb _ _); intros [= _ _ <-]; auto. }
  assert (Hrt : forall (k : kst T) b r es k' tk es1, retire_one k b r es = POk k' tk es1 -> es1 = es ++ [EDetached b] \/ es1 = es).
  { intros k b r es k' tk es1. unfold retire_one. destruct (negb _); [discriminate|]. destruct (find_seq _ _) as [p|]; [|discriminate].
        destruct (k_nd k p) as [nd|]; [|discriminate]. destruct (n_acks nd) as [|[|n]]; [discriminate|intros [= _ _ <-]; auto|]. apply Hdn. }
  simpl in Hp. destruct pl as [b|b|b|p x|o|o|o]; simpl in Hp.
  - destruct (g_mech _); [discriminate|]. injection Hp as _ _ _ <-. destruct Hin.
  - destruct (negb _); [discriminate|]. destruct (g_det _); [discriminate|]. destruct (k_active _); [discriminate|]. destruct (Nat.ltb _ _).
    + apply Hrt in Hp. destruct Hp as [[= _ ->]|[= _ ->]]; simpl in Hin; [destruct Hin as [<-|[]]; exact I|destruct Hin].
    + injection Hp as _ _ _ <-. destruct Hin as [<-|[]]. exact I.
  - destruct (g_det _) as [[r [p|]]|]; [| |discriminate].
    + destruct (post_complete _ p); [|discriminate]. apply Hdn in Hp. destruct Hp as [[= _ ->]|[= _ ->]]; simpl in Hin; [destruct Hin as [<-|[]]; exact I|destruct Hin].
    + apply Hrt in Hp. destruct Hp as [[= _ ->]|[= ]]. destruct Hin.
  - destruct (k_nd _ p); [discriminate|]. destruct (k_active _).
    + destruct (k_pq _); [|discriminate]. injection Hp as _ _ _ <-. destruct Hin as [<-|[]]. exact I.
    + destruct (negb _); [discriminate|]. destruct (existsb _ _); [discriminate|]. injection Hp as _ _ _ <-. destruct Hin.
  - destruct (k_hd _ o) as [|p|p|p|p]; try discriminate. destruct (k_nd _ p) as [nd|]; [|discriminate]. destruct (n_done nd); [discriminate|]. destruct (n_acks nd); [discriminate|].
        injection Hp as _ _ _ <-. destruct Hin.
  - destruct (k_hd _ o) as [|p|p|p|p]; try discriminate.
    + destruct (negb _); [discriminate|]. destruct (memb _ _); discriminate.
    + destruct (post_complete _ p); [|discriminate]. injection Hp as _ _ _ <-. destruct Hin.
  - destruct (k_hd _ o) as [|p|p|p|p]; try discriminate; (destruct (k_nd _ p) as [nd|]; [|discriminate]); (destruct (n_done nd); [discriminate|]); injection Hp as _ _ _ <-; destruct Hin.
Qed.

Section Eager.
Variable eager : bool.
Notation cst := (cst P).
Notation step := (step P eager).
Notation KInv := (KInv T eager).

(** ** C32 *)
Lemma run_hist ls s tr a : run step (c_init P) ls = Running s tr -> well_behaved tr -> HI a (spec tr) (history a tr).
Proof.
  intros Hr HW. apply (run_inv_client step well_behaved (fun s tr => KInv s tr /\ HI a (spec tr) (history a tr)) (c_init P) (wb_prefix T)) with (3 := Hr); auto.
  - split; [apply KInv_init|]. split; [simpl; intuition discriminate|]. split; [simpl; intros o; intuition discriminate|]. simpl. tauto.
  - clear. intros s tr l s' es [HK HH] Hs HW. destruct (KInv_step_strong T eager s tr l s' es HK Hs HW) as [HK' Hrep]. split; [exact HK'|].
    pose proof HK as (HJT & HKI & HR & HC). pose proof HKI as (K1 & _ & K3 & _ & K5 & _).
    pose proof (JT_reliable _ _ _ _ _ _ HJT) as Hrel. pose proof HJT as [[HG HTI] HTK]. pose proof HTI as (_ & HS & _).
    pose proof (step_effect _ _ _ _ _ _ _ HG Hrel Hs) as He.
    assert (HN : NoDup (sp_att (spec tr))) by apply K1.
    assert (Hone : forall e, side (spec tr) e -> HI a (spec (tr ++ [e])) (history a (tr ++ [e]))).
    { intros e Hside. unfold history. rewrite spec_app, fold_left_app. simpl. now apply HI_event. }
    assert (Hst : forall o tok b es', es = EStart o tok b :: es' -> side (spec tr) (EStart (P := P) o tok b)).
    { intros o tok b es' ->. apply ag_of_none. destruct HJT as [[_ HTI0] _]. intros Hin.
      assert (Hd : NoDup (starts (tr ++ EStart o tok b :: es'))). { destruct HK' as ([[_ (_ & _ & H & _)] _] & _). exact H. }
      rewrite starts_app in Hd. simpl in Hd. apply NoDup_remove_2 in Hd. apply Hd, in_app_iff. auto. }
    destruct He as [s' o tok b pes Hl Hn Hd Hp Hss|s' o tok b v pes Hl Hn Hd Hp Hss|s' o es Hp|s' es Hp Hss Hes|s' pl taken pes Hp Htk Hss].
    + destruct (k_start_q _ _ _ _ _ _ Hp) as (_ & -> & _). apply Hone. eauto.
    + destruct (k_start_f _ _ _ _ _ _ _ Hp) as (p & _ & _ & _ & -> & _). apply Hone. eauto.
    + destruct Hp; try (rewrite app_nil_r; exact HH); apply Hone; simpl; eauto.
    + destruct Hes as [->|[[o ->]|[e ->]]]; [rewrite app_nil_r; exact HH| |]; apply Hone; exact I.
    + assert (Hcov : forall e, (match e with EDetached _ | EPostDone _ | EAck _ | ERead _ _ => True | _ => False end) -> forall t, HI a (spec t) (history a t) ->
        HI a (spec (t ++ [EPrim (e : PE P)])) (history a (t ++ [EPrim (e : PE P)]))).
      { intros e He t H. unfold history. rewrite spec_app, fold_left_app. simpl. destruct e; try destruct He; exact H. }
      assert (Hgen : forall e es', pes = e :: es' -> (forall e', In e' es' -> match e' with EDetached _ | EPostDone _ => True | _ => False end) -> HI a (spec (tr ++ map EPrim pes)) (history a (tr ++ map EPrim pes))).
      { intros e es' -> Hes'. assert (H1 : HI a (spec (tr ++ [EPrim (e : PE P)])) (history a (tr ++ [EPrim (e : PE P)]))).
        { apply Hone. destruct e; simpl; auto. destruct (K5 a0) as (_ & _ & H). apply H. apply (HW tr _ (map EPrim es') eq_refl). }
        change (EPrim (e : PE P) :: map EPrim es') with ([EPrim (e : PE P)] ++ map EPrim es'). simpl map. change (EPrim e :: map EPrim es') with ([EPrim (e : PE P)] ++ map EPrim es'). rewrite app_assoc.
        clear - H1 Hes' Hcov. revert H1. generalize (tr ++ [EPrim (e : PE P)]). induction es' as [|e' es' IH]; intros t H1; [now rewrite app_nil_r|].
        simpl map. change (EPrim e' :: map EPrim es') with ([EPrim (e' : PE P)] ++ map EPrim es'). rewrite app_assoc. apply IH.
        - intros e1 H. apply Hes'. now right.
        - apply Hcov; [|exact H1]. specialize (Hes' e' (or_introl eq_refl)). destruct e'; auto. }
      destruct pes as [|e es']; [rewrite app_nil_r; exact HH|]. apply (Hgen e es' eq_refl). intros e' Hin.
      exact (prim_tail _ _ _ _ _ _ Hp e' Hin).
Qed.

(** a poll of [a] that is still waiting when nothing moves: everything was received *)
Lemma pending_due ls s tr o a : run step (c_init P) ls = Running s tr -> well_behaved tr -> all_returned s ->
  started o tr -> notified o tr = 0 -> agent_of o (spec tr) = Some a -> In a (sp_att (spec tr)) /\ due_of a (spec tr) = [].
Proof.
  intros Hr HW Hret Hst Hn Hao. destruct (k_inv_run T eager ls s tr Hr HW) as (HJT & HK & HR & HC). pose proof HJT as [[HG HTI] _]. pose proof HTI as (HD & HS & _).
  destruct (quiescent _ _ _ s o HG Hret (proj2 (HS o) Hst)) as [Hd|(Hq & Hd & _)]; [rewrite HD, Hd in Hn; discriminate|].
  pose proof HK as (K1 & K2 & K3 & K4 & K5 & _). destruct (K4 o) as (A & _). destruct (A Hq) as (_ & A2 & _).
  assert (Hact : act (view T s) (sp_ops (spec tr)) o a) by (split; auto).
  assert (Ha : In a (sp_att (spec tr))) by (apply (proj2 (proj2 (proj2 (proj2 (proj2 K3))))) with o; auto). split; [exact Ha|].
  assert (Hag : k_agt (c_prim s) o = a) by (destruct K3 as (H & _); auto). rewrite Hag in A2.
  destruct (K5 a) as (_ & H & _). destruct (H Ha) as [(E & _)|(o' & p & _ & E & F)].
  - change (due_of a (spec tr)) with (dl a (sp_due (spec tr))). rewrite E, A2. apply skipn_all2. rewrite map_length. destruct K2 as [-> _]. lia.
  - exfalso. assert (o' = o) by (destruct K3 as (_ & _ & _ & _ & H5 & _); eapply H5; eauto). subst o'. simpl in F.
    destruct (K4 o) as (_ & _ & _ & _ & _ & G). assert (o_node (c_op s o) = NFresh) by (apply G; simpl; congruence). congruence.
Qed.

Lemma post_ack_order ls s tr a : run step (c_init P) ls = Running s tr -> well_behaved tr -> h_att (history a tr) = true ->
  exists rest, h_posted (history a tr) = h_received (history a tr) ++ rest /\
    (forall o, all_returned s -> In o (h_ops (history a tr)) -> notified o tr = 0 -> rest = []).
Proof.
  intros Hr HW Ha. destruct (run_hist ls s tr a Hr HW) as (H1 & H2 & H3). exists (due_of a (spec tr)). split; [apply H3, H1, Ha|].
  intros o Hret Ho Hn. apply H2 in Ho. eapply pending_due; eauto.
  apply (proj1 (starts_In o tr)) || idtac. assert (Hst : ag_of (sp_ops (spec tr)) o <> None) by (change (agent_of o (spec tr) <> None); congruence).
  destruct (in_dec Nat.eq_dec o (starts tr)) as [Hi|Hi]; [exact Hi|]. exfalso. apply Hst. now apply ag_of_none.
Qed.

(** the number of posts with the same name is one *)
Lemma post_names ls s tr : run step (c_init P) ls = Running s tr -> well_behaved tr -> NoDup (map fst (sp_posts (spec tr))).
Proof.
  intros Hr HW. destruct (k_inv_run T eager ls s tr Hr HW) as (_ & (_ & K2 & _) & _).
  apply NoDup_nth_error. intros i j Hi Hij. destruct (nth_error (map fst (sp_posts (spec tr))) i) as [p|] eqn:E; [|apply nth_error_None in E; lia].
  pose proof E as E0. rewrite nth_error_map in E0. destruct (nth_error (sp_posts (spec tr)) i) as [[q x]|] eqn:E1; [|discriminate]. simpl in E0. injection E0 as ->.
  apply K2 in E1. destruct E1 as (nd & E1 & E2 & _). rewrite <- E2. symmetry in Hij. apply (g2_nth _ _ _ _ _ _ _ K2 Hij E1).
Qed.


(** operator-> returns the object that was posted *)
Lemma post_ack_read ls s t1 o v t2 : run step (c_init P) ls = Running s (t1 ++ EPrim (ERead o v : PE P) :: t2) ->
  well_behaved (t1 ++ EPrim (ERead o v : PE P) :: t2) ->
  exists p x, v = Some x /\ In (EDone (P := P) o (Some p)) t1 /\ In (EPrim (EPost p x : PE P)) t1.
Proof.
  intros Hr HW. destruct (run_split_event _ _ _ _ _ _ _ Hr) as (ls1 & l & ls2 & s1 & s2 & tr0 & e1 & e2 & -> & H1 & H2 & -> & _).
  assert (HW0 : well_behaved tr0) by (apply (wb_prefix T _ (e1 ++ EPrim (ERead o v : PE P) :: t2)); now rewrite app_assoc).
  destruct (k_inv_run T eager ls1 s1 tr0 H1 HW0) as (HJT & HK & HR & HC).
  pose proof (JT_reliable _ _ _ _ _ _ HJT) as Hrel. pose proof HJT as [[HG HTI] HTK].
  pose proof (step_effect _ _ _ _ _ _ _ HG Hrel H2) as He.
  assert (Hpes : exists pl taken pes, k_step (c_prim s1) pl = POk (c_prim s2) taken pes /\ e1 ++ EPrim (ERead o v : PE P) :: e2 = map (@EPrim P) pes).
  { remember (e1 ++ EPrim (ERead o v : PE P) :: e2) as es eqn:Hes. assert (Hin : In (EPrim (ERead o v : PE P)) es) by (rewrite Hes; apply in_elt). clear Hes.
    destruct He as [s' o1 tok b pes Hl Hn Hd Hp Hss|s' o1 tok b v1 pes Hl Hn Hd Hp Hss|s' o1 es Hp|s' es Hp Hss Hes|s' pl taken pes Hp Htk Hss].
    - destruct (k_start_q _ _ _ _ _ _ Hp) as (_ & -> & _). destruct Hin as [H|[]]. discriminate.
    - destruct (k_start_f _ _ _ _ _ _ _ Hp) as (q & _ & _ & _ & -> & _). destruct Hin as [H|[]]. discriminate.
    - destruct Hp; simpl in Hin; exfalso; intuition discriminate.
    - destruct Hes as [->|[[o1 ->]|[e ->]]]; simpl in Hin; exfalso; intuition discriminate.
    - exists pl, taken, pes. split; [exact Hp|reflexivity]. }
  destruct Hpes as (pl & taken & pes & Hp & Hes). destruct pes as [|e pes]; [destruct e1; discriminate|].
  assert (He1 : e1 = []).
  { destruct e1 as [|x e1]; auto. exfalso. simpl in Hes. injection Hes as _ Hes. assert (Hin : In (EPrim (ERead o v : PE P)) (map (@EPrim P) pes)) by exact (eq_ind _ (fun l => In (EPrim (ERead o v : PE P)) l) (in_elt _ _ _) _ Hes).
    apply in_map_iff in Hin. destruct Hin as (e' & E & Hin). injection E as ->. exact (prim_tail _ _ _ _ _ _ Hp _ Hin). }
  subst e1. simpl in Hes. injection Hes as <- _. rewrite app_nil_r in *.
  destruct (HW tr0 _ t2 eq_refl) as [p Hin]. exists p.
  pose proof HK as (_ & K2 & _ & _ & _ & K6 & _). assert (Hho : k_hd (c_prim s1) o = HHas p) by (apply K6 in Hin; tauto).
  destruct (ki_held _ _ _ _ _ _ HK Hin) as (nd & Hnd & Hak). destruct (ki_alive _ _ _ _ _ _ HK Hnd Hak) as (_ & Hdn & _).
  exists (n_obj nd). split; [|split].
  - destruct pl as [b|b|b|q x|o1|o1|o1]; simpl in Hp.
    + destruct (g_mech _); discriminate.
    + destruct (rule_first T (c_prim s1) (KDetach b) (ERead o v :: pes) (spec tr0)); simpl; try discriminate.
      * simpl. rewrite Hp. reflexivity.
      * intros e es' [= <- <-]. exists p. exact Hin.
      * exfalso. destruct (negb _); [discriminate|]. destruct (g_det _); [discriminate|]. destruct (k_active _); [discriminate|]. destruct (Nat.ltb _ _); [|discriminate].
        match type of Hp with retire_one ?k1 _ _ _ = _ => destruct (retire_es T k1 b (k_seq (c_prim s1)) [EDetach b]) as [es' E] end. rewrite Hp in E. discriminate.
    + exfalso. destruct (g_det _) as [[r [q|]]|]; [| |discriminate].
      * destruct (post_complete _ q); [|discriminate]. unfold det_next in Hp. destruct (Nat.eqb _ _); discriminate.
      * unfold retire_one in Hp. destruct (negb _); [discriminate|]. destruct (find_seq _ _) as [q|]; [|discriminate]. destruct (k_nd _ q) as [nd1|]; [|discriminate].
        destruct (n_acks nd1) as [|[|n]]; [discriminate|discriminate|]. unfold det_next in Hp. destruct (Nat.eqb _ _); discriminate.
    + exfalso. destruct (k_nd _ q); [discriminate|]. destruct (k_active _); [destruct (k_pq _); discriminate|]. destruct (negb _); [discriminate|]. destruct (existsb _ _); discriminate.
    + exfalso. destruct (k_hd _ o1) as [|q|q|q|q]; try discriminate. destruct (k_nd _ q) as [nd1|]; [|discriminate]. destruct (n_done nd1); [discriminate|]. destruct (n_acks nd1); discriminate.
    + exfalso. destruct (k_hd _ o1) as [|q|q|q|q]; try discriminate; [destruct (negb _); [discriminate|]; destruct (memb _ _); discriminate|]. destruct (post_complete _ q); discriminate.
    + assert (o1 = o). { destruct (k_hd _ o1) as [|q|q|q|q]; try discriminate; (destruct (k_nd _ q) as [nd1|]; [|discriminate]); (destruct (n_done nd1); [discriminate|]); injection Hp; auto. }
      subst o1. rewrite Hho, Hnd, Hdn in Hp. injection Hp as _ _ <- _. reflexivity.
  - apply held_In. exact Hin.
  - apply posts_In. apply (nth_error_In _ (n_seq nd)). apply K2. eauto.
Qed.

(** ** Failures *)
Lemma post_ack_fail ls f tr : run step (c_init P) ls = Failed f tr -> well_behaved tr ->
  eager = true /\ f = UseAfterFree /\ exists o, In (EDestroy o) tr /\ notified o tr = 1 /\ cancel_requested o tr.
Proof.
  intros Hr HW. destruct (t_failure _ _ (post_ack_tlaws T) _ _ _ Hr) as [(ls1 & s & tr1 & l & es & H1 & -> & HJT & Hcase)|H]; auto. exfalso.
  pose proof (wb_prefix T _ _ HW) as HW1. destruct (k_inv_run T eager ls1 s tr1 H1 HW1) as (_ & HK & HR & _). pose proof HJT as [[HG HTI] HTK].
  pose proof HG as (_ & _ & (HI0 & HQ) & _).
  destruct Hcase as [(o & tok & a & -> & Hl & Hst & ->)|[(pl & pes & -> & Hp & ->)|[(o & x & -> & Hp & Hres & -> & Hn)|(o & x & -> & Hp & Hnd & Htry & ->)]]].
  - destruct (HW tr1 _ [] eq_refl) as [Ha Hb]. simpl in Hst. unfold k_start in Hst. pose proof HK as (K1 & _).
    assert (Hm : g_mech (k_ag (c_prim s) a) = true) by (apply K1 in Ha; tauto). rewrite Hm in Hst. simpl in Hst.
    destruct (Nat.ltb_spec (g_seq (k_ag (c_prim s) a)) (k_seq (c_prim s))); [|discriminate]. rewrite (ki_q_live _ _ _ _ HK) in Hst. simpl in Hst.
    destruct (ki_next _ _ _ _ _ HK Ha Hb H) as (p & y & _ & E). rewrite E in Hst. discriminate.
  - assert (Hrl : rule T (spec tr1) pl).
    { apply (rule_first T (c_prim s) pl pes); [simpl in Hp; now rewrite Hp|]. intros e es' ->. exact (HW tr1 _ (map (@EPrim P) es') eq_refl). }
    pose proof (step_good T _ _ _ _ HK HR HQ HI0 Hrl) as Hg. simpl in Hp. rewrite Hp in Hg. exact Hg.
  - simpl in Hres. unfold k_resume in Hres. destruct (k_pnd (c_prim s) o); discriminate.
  - specialize (HTK o Hnd). simpl in HTK, Htry. unfold k_try in Htry. rewrite HTK in Htry. discriminate.
Qed.

(** ** C33 *)
Lemma post_once ls s tr p : run step (c_init P) ls = Running s tr -> well_behaved tr ->
  completions p tr <= 1 /\ (completions p tr = 1 -> exists x, In (EPrim (EPost p x : PE P)) tr).
Proof.
  intros Hr HW. destruct (k_inv_run T eager ls s tr Hr HW) as (_ & HK & _ & HC). rewrite HC. unfold cdone.
  destruct (k_nd (c_prim s) p) as [nd|] eqn:E; [|split; [lia|discriminate]]. split; [destruct (n_done nd); lia|]. intros _. exists (n_obj nd).
  apply posts_In. pose proof HK as (_ & K2 & _). apply (nth_error_In _ (n_seq nd)). apply K2. eauto.
Qed.

Lemma settled_acks (k : kst T) st s p nd : KI T k st s -> k_nd k p = Some nd -> n_acks nd = 0 -> settled p s.
Proof.
  intros (_ & _ & _ & _ & _ & _ & (H1 & _) & _) Hp Ha. rewrite (H1 p nd Hp) in Ha. split; intros b Hb.
  - assert (cp p (sp_due s) > 0) by (apply cp_pos; eauto). lia.
  - assert (cp p (sp_held s) > 0) by (apply cp_pos; eauto). lia.
Qed.
Lemma settled_quiet p (es : trace) s : settled p (fold_left sp_step es s) ->
  (forall e, In e es -> match e with EPrim (EDetached _) | EPrim (EPostDone _) => True | _ => False end) -> settled p s.
Proof.
  revert s. induction es as [|e es IH]; intros s Hs Hq; auto. specialize (IH _ Hs ltac:(intros; apply Hq; now right)). specialize (Hq e (or_introl eq_refl)).
  destruct e as [o tok b|o v|e|o|[b|b|b|q y|q|o|o v]]; try destruct Hq; exact IH.
Qed.

Lemma post_done_after ls s t1 p t2 : run step (c_init P) ls = Running s (t1 ++ EPrim (EPostDone p : PE P) :: t2) ->
  well_behaved (t1 ++ EPrim (EPostDone p : PE P) :: t2) -> settled p (spec t1).
Proof.
  intros Hr HW. destruct (run_split_event _ _ _ _ _ _ _ Hr) as (ls1 & l & ls2 & s1 & s2 & tr0 & e1 & e2 & -> & H1 & H2 & -> & H3).
  assert (HW2 : well_behaved (tr0 ++ e1 ++ EPrim (EPostDone p : PE P) :: e2)).
  { destruct (run_from_trace_prefix step ls2 _ _ _ _ H3) as [t3 Ht]. rewrite Ht in HW. eapply wb_prefix; eauto. }
  assert (Hr2 : run step (c_init P) (ls1 ++ [l]) = Running s2 (tr0 ++ e1 ++ EPrim (EPostDone p : PE P) :: e2)).
  { unfold run. rewrite run_from_app. unfold run in H1. rewrite H1. simpl. rewrite H2. reflexivity. }
  destruct (k_inv_run T eager _ _ _ Hr2 HW2) as (HJT2 & HK2 & _ & HC2).
  assert (Hdone : exists nd, k_nd (c_prim s2) p = Some nd /\ n_acks nd = 0).
  { assert (Hc : cdone T (c_prim s2) p > 0).
    { rewrite <- HC2. unfold completions. rewrite !filter_app, !app_length. simpl. rewrite Nat.eqb_refl. simpl. lia. }
    unfold cdone in Hc. destruct (k_nd (c_prim s2) p) as [nd|] eqn:E; [|lia]. destruct (n_done nd) eqn:Ed; [|lia]. exists nd. split; auto.
    destruct HK2 as (_ & _ & _ & _ & _ & _ & _ & (_ & _ & _ & H4)). destruct (H4 p nd E) as [(_ & _ & H & _)|[(_ & H & _)|(H & _)]]; congruence. }
  destruct Hdone as (nd & Hnd & Hak). pose proof (settled_acks _ _ _ _ _ HK2 Hnd Hak) as Hset.
  rewrite app_assoc, spec_app in Hset. apply settled_quiet in Hset; auto.
  assert (HW0 : well_behaved tr0) by (eapply wb_prefix; eauto).
  destruct (k_inv_run T eager ls1 s1 tr0 H1 HW0) as (HJT & HK & HR & HC).
  pose proof (JT_reliable _ _ _ _ _ _ HJT) as Hrel. pose proof HJT as [[HG HTI] HTK].
  pose proof (step_effect _ _ _ _ _ _ _ HG Hrel H2) as He. clear - He.
  remember (e1 ++ EPrim (EPostDone p : PE P) :: e2) as es eqn:Hes. assert (Hin : In (EPrim (EPostDone p : PE P)) es) by (rewrite Hes; apply in_elt).
  destruct He as [s' o1 tok b pes Hl Hn Hd Hp Hss|s' o1 tok b v1 pes Hl Hn Hd Hp Hss|s' o1 es Hp|s' es Hp Hss Hes'|s' pl taken pes Hp Htk Hss].
  - destruct (k_start_q _ _ _ _ _ _ Hp) as (_ & -> & _). destruct Hin as [H|[]]. discriminate.
  - destruct (k_start_f _ _ _ _ _ _ _ Hp) as (q & _ & _ & _ & -> & _). destruct Hin as [H|[]]. discriminate.
  - destruct Hp; simpl in Hin; exfalso; intuition discriminate.
  - destruct Hes' as [->|[[o1 ->]|[e ->]]]; simpl in Hin; exfalso; intuition discriminate.
  - destruct pes as [|e pes]; [destruct Hin|]. pose proof (prim_tail _ _ _ _ _ _ Hp) as Ht.
    assert (Hq : forall e', In e' (map (@EPrim P) pes) -> match (e' : event P) with EPrim (EDetached _) | EPrim (EPostDone _) => True | _ => False end).
    { intros e' H. apply in_map_iff in H. destruct H as (e0 & <- & H). specialize (Ht _ H). destruct e0; auto. }
    intros e' [<-|He']; [exact I|]. apply Hq. destruct e1 as [|x e1]; simpl in Hes; injection Hes as _ Hes; [exact (eq_ind_r (fun l => In e' l) He' Hes)|].
    refine (eq_ind_r (fun l => In e' l) _ Hes). apply in_app_iff. right. now right.
Qed.

Lemma post_completes ls s tr p x : run step (c_init P) ls = Running s tr -> well_behaved tr -> calls_returned s ->
  In (EPrim (EPost p x : PE P)) tr -> settled p (spec tr) -> completions p tr = 1.
Proof.
  intros Hr HW [Hc1 Hc2] Hin [Hs1 Hs2]. destruct (k_inv_run T eager ls s tr Hr HW) as (_ & HK & _ & HC). rewrite HC. unfold cdone.
  pose proof HK as (_ & K2 & _ & _ & _ & _ & (H7 & _) & (_ & _ & _ & H4)).
  apply posts_In in Hin. apply In_nth_error in Hin. destruct Hin as [i Hi]. apply K2 in Hi. destruct Hi as (nd & Hp & _). rewrite Hp.
  assert (Hak : n_acks nd = 0).
  { rewrite (H7 p nd Hp). assert (E1 : cp p (sp_due (spec tr)) = 0). { destruct (cp p (sp_due (spec tr))) eqn:E; auto. assert (H : cp p (sp_due (spec tr)) > 0) by lia. apply cp_pos in H. destruct H as [b H]. destruct (Hs1 _ H). }
    assert (E2 : cp p (sp_held (spec tr)) = 0). { destruct (cp p (sp_held (spec tr))) eqn:E; auto. assert (H : cp p (sp_held (spec tr)) > 0) by lia. apply cp_pos in H. destruct H as [b H]. destruct (Hs2 _ H). }
    rewrite E1, E2, filter_none; auto. intros b. unfold ret. now rewrite Hc2. }
  destruct (H4 p nd Hp) as [(H & _)|[(_ & _ & w & Hw & _)|(_ & -> & _)]]; [lia| |auto]. exfalso. destruct w as [o|a]; simpl in Hw.
  - specialize (Hc1 o). destruct Hw as [E|E]; rewrite E in Hc1; exact Hc1.
  - destruct Hw as [r E]. rewrite Hc2 in E. discriminate.
Qed.

(** ** ack() and detach() return *)
Definition hw (h : hpc) : nat := match h with HErase _ => 2 | HComp _ => 1 | _ => 0 end.
Definition aw (g : agent) : nat := match g_det g with Some (r, w) => 2 * (r - g_seq g) + match w with Some _ => 1 | None => 0 end | None => 0 end.
Definition todo (s : cst) (tr : trace) : nat :=
  sum (map (fun a => aw (k_ag (c_prim s) a)) (sp_det (spec tr))) + sum (map (fun o => hw (k_hd (c_prim s) o)) (starts tr)).

Lemma sum_split (f : nat -> nat) a l : In a l -> sum (map f l) = f a + sum (map f (remove1 a l)).
Proof.
  induction l as [|b l IH]; [intros []|]. cbn [In map sum remove1]. intros H. destruct (Nat.eqb_spec b a) as [->|Hne]; auto.
  destruct H as [H|H]; [congruence|]. cbn [map sum]. rewrite (IH H). lia.
Qed.
Lemma sum_agree (f f' : nat -> nat) a l : NoDup l -> (forall b, b <> a -> f' b = f b) -> sum (map f' (remove1 a l)) = sum (map f (remove1 a l)).
Proof. intros Hn H. apply sum_map_ext. intros b Hb. apply H. apply In_remove1_NoDup in Hb; tauto. Qed.

Lemma hd_started s tr o : KInv s tr -> k_hd (c_prim s) o <> HNone -> In o (starts tr).
Proof.
  intros (HJT & HK & _) Hh. pose proof HK as (_ & _ & K3 & K4 & _). destruct (K4 o) as (_ & _ & _ & D & _).
  destruct (in_dec Nat.eq_dec o (starts tr)) as [Hi|Hi]; auto. exfalso. apply ag_of_none in Hi. destruct K3 as (_ & H & _). specialize (H _ Hi).
  rewrite H in D. simpl in D. destruct (D Hh); congruence.
Qed.

Lemma det_next_aw (k k' : kst T) a r es tk es1 : det_next k a r es = POk k' tk es1 -> (forall b, b <> a -> k_ag k' b = k_ag k b) /\ k_hd k' = k_hd k /\
  ((es1 = es ++ [EDetached a]) \/ (es1 = es /\ k_ag k' a = Ag (g_mech (k_ag k a)) (g_seq (k_ag k a)) (Some (r, None)))).
Proof.
  unfold det_next. destruct (Nat.eqb _ _); intros [= <- _ <-]; (split; [intros b Hb; simpl; now rewrite upd_other|split; [reflexivity|]]); [auto|].
  right. split; auto. simpl. apply upd_same.
Qed.

Lemma call_decreases s tr l s' es : KInv s tr -> call_step l = true -> step s l = Next s' es -> todo s' (tr ++ es) < todo s tr.
Proof.
  intros HKI Hl Hs. pose proof HKI as (HJT & HK & HR & HC). destruct l as [| | | | |pl|]; try discriminate. simpl in Hs.
  destruct (k_step (c_prim s) pl) as [k' taken pes| |] eqn:Hp; try discriminate. injection Hs as <- <-.
  pose proof HK as (K1 & _ & _ & _ & _ & _ & (_ & _ & _ & HD4) & K8).
  assert (Hst : starts (tr ++ map (@EPrim P) pes) = starts tr).
  { rewrite starts_app. replace (starts (map (@EPrim P) pes)) with (@nil nat); [apply app_nil_r|]. clear. induction pes; simpl; auto. }
  unfold todo. change (map (@EPrim P) pes) with (map (@EPrim P) pes). rewrite Hst. cbn [c_prim].
  destruct pl as [a|a|a|p x|o|o|o]; try discriminate; simpl in Hp.
  - destruct (g_det (k_ag (c_prim s) a)) as [[r w]|] eqn:Hd; [|discriminate].
    assert (Hina : In a (sp_det (spec tr))) by (apply K1; congruence). assert (HDdet : NoDup (sp_det (spec tr))) by apply K1.
    destruct (HD4 _ _ _ Hd) as [_ Hle].
    assert (Hmain : forall n, (forall b, b <> a -> k_ag k' b = k_ag (c_prim s) b) -> k_hd k' = k_hd (c_prim s) ->
       (exists e1, pes = e1 ++ [EDetached a] /\ (e1 = [] \/ exists q, e1 = [EPostDone q]) \/ ((pes = [] \/ exists q, pes = [EPostDone q]) /\ aw (k_ag k' a) = n)) ->
       n < aw (k_ag (c_prim s) a) -> sum (map (fun a => aw (k_ag k' a)) (sp_det (spec (tr ++ map (@EPrim P) pes)))) +
         sum (map (fun o => hw (k_hd k' o)) (starts tr)) < sum (map (fun a => aw (k_ag (c_prim s) a)) (sp_det (spec tr))) + sum (map (fun o => hw (k_hd (c_prim s) o)) (starts tr))).
    { intros n Hoth Hhd Hes Hn. rewrite Hhd. rewrite (sum_split (fun a => aw (k_ag (c_prim s) a)) a (sp_det (spec tr)) Hina). cbv beta.
      pose proof (sum_agree (fun a => aw (k_ag (c_prim s) a)) (fun a => aw (k_ag k' a)) a _ HDdet (fun b Hb => f_equal aw (Hoth b Hb))) as Hag.
      destruct Hes as (e1 & [(-> & He1)|(He1 & Haw)]).
      - assert (Hsd : sp_det (spec (tr ++ map (@EPrim P) (e1 ++ [EDetached a]))) = remove1 a (sp_det (spec tr))).
        { rewrite spec_app. destruct He1 as [->|[q ->]]; reflexivity. }
        rewrite Hsd, Hag. lia.
      - assert (Hsd : sp_det (spec (tr ++ map (@EPrim P) pes)) = sp_det (spec tr)).
        { rewrite spec_app. destruct He1 as [->|[q ->]]; reflexivity. }
        rewrite Hsd, (sum_split (fun a => aw (k_ag k' a)) a _ Hina). cbv beta. lia. }
    destruct w as [p|].
    + unfold post_complete in Hp. destruct (k_nd (c_prim s) p) as [nd|]; [|discriminate]. destruct (n_done nd); [discriminate|].
      apply det_next_aw in Hp. destruct Hp as (H1 & H2 & H3). apply (Hmain (2 * (r - g_seq (k_ag (c_prim s) a)))); [exact H1|exact H2| |unfold aw; rewrite Hd; lia].
      destruct H3 as [->|[-> E]]; [exists [EPostDone p]; left; eauto|]. exists []. right. split; [eauto|]. rewrite E. unfold aw. simpl. lia.
    + specialize (HR _ _ Hd). unfold retire_one in Hp. destruct (negb _); [discriminate|]. destruct (find_seq _ _) as [p|]; [|discriminate].
      destruct (k_nd (c_prim s) p) as [nd|]; [|discriminate]. destruct (n_acks nd) as [|[|n]]; [discriminate| |].
      * injection Hp as <- _ <-. apply (Hmain (2 * (r - (g_seq (k_ag (c_prim s) a) + 1)) + 1)).
        -- intros b Hb. simpl. now rewrite upd_other.
        -- reflexivity.
        -- exists []. right. split; [auto|]. simpl. rewrite upd_same. reflexivity.
        -- unfold aw. rewrite Hd. lia.
      * apply det_next_aw in Hp. destruct Hp as (H1 & H2 & H3). apply (Hmain (2 * (r - (g_seq (k_ag (c_prim s) a) + 1)))).
        -- intros b Hb. rewrite (H1 b Hb). simpl. now rewrite upd_other.
        -- exact H2.
        -- destruct H3 as [->|[-> E]]; [exists []; left; auto|]. exists []. right. split; [auto|]. rewrite E. simpl. rewrite upd_same. unfold aw. simpl. lia.
        -- unfold aw. rewrite Hd. lia.
  - assert (HDst : NoDup (starts tr)) by (destruct HJT as [[_ (_ & _ & H & _)] _]; exact H).
    assert (Hmain : In o (starts tr) -> k_ag k' = k_ag (c_prim s) -> (forall o', o' <> o -> k_hd k' o' = k_hd (c_prim s) o') -> hw (k_hd k' o) < hw (k_hd (c_prim s) o) ->
       (pes = [] \/ exists q, pes = [EPostDone q]) -> sum (map (fun a => aw (k_ag k' a)) (sp_det (spec (tr ++ map (@EPrim P) pes)))) +
         sum (map (fun o => hw (k_hd k' o)) (starts tr)) < sum (map (fun a => aw (k_ag (c_prim s) a)) (sp_det (spec tr))) + sum (map (fun o => hw (k_hd (c_prim s) o)) (starts tr))).
    { intros Hin Hag Hoth Hlt Hes. assert (Hsd : sp_det (spec (tr ++ map (@EPrim P) pes)) = sp_det (spec tr)).
      { rewrite spec_app. destruct Hes as [->|[q ->]]; reflexivity. }
      rewrite Hsd, Hag, !(sum_split _ o _ Hin). cbv beta.
      rewrite (sum_agree (fun o => hw (k_hd (c_prim s) o)) (fun o => hw (k_hd k' o)) o _ HDst (fun b Hb => f_equal hw (Hoth b Hb))). lia. }
    destruct (k_hd (c_prim s) o) as [|p|p|p|p] eqn:Ho; try discriminate.
    + destruct (negb _); [discriminate|]. destruct (memb _ _); [|discriminate]. injection Hp as <- _ <-. apply Hmain; auto.
      * eapply hd_started; eauto. congruence.
      * intros o' Hne. simpl. now rewrite upd_other.
      * simpl. rewrite upd_same. simpl. lia.
    + unfold post_complete in Hp. destruct (k_nd (c_prim s) p) as [nd|]; [|discriminate]. destruct (n_done nd); [discriminate|]. injection Hp as <- _ <-. apply Hmain; eauto.
      * eapply hd_started; eauto. congruence.
      * intros o' Hne. simpl. now rewrite upd_other.
      * simpl. rewrite upd_same. simpl. lia.
Qed.

(** calls in flight make no further calls: such steps need no client rule *)
Lemma call_wb s tr l s' es : call_step l = true -> step s l = Next s' es -> well_behaved tr -> well_behaved (tr ++ es).
Proof.
  intros Hl Hs HW. assert (Hq : forall e, In e es -> forall s0, call_ok s0 e).
  { destruct l as [| | | | |pl|]; try discriminate. simpl in Hs. destruct (k_step (c_prim s) pl) as [k' taken pes| |] eqn:Hp; try discriminate. injection Hs as _ <-.
    intros e Hin s0. apply in_map_iff in Hin. destruct Hin as (e0 & <- & Hin). destruct pes as [|e1 pes]; [destruct Hin|].
    assert (He : match e0 with EDetached _ | EPostDone _ => True | _ => False end).
    { destruct Hin as [<-|Hin]; [|exact (prim_tail _ _ _ _ _ _ Hp _ Hin)].
      destruct pl as [a|a|a|p x|o|o|o]; try discriminate; simpl in Hp.
      - destruct (g_det _) as [[r [p|]]|]; [| |discriminate].
        + destruct (post_complete _ p); [|discriminate]. apply det_next_aw in Hp. destruct Hp as (_ & _ & [[= -> _]|[[= -> _] _]]); exact I.
        + unfold retire_one in Hp. destruct (negb _); [discriminate|]. destruct (find_seq _ _) as [p|]; [|discriminate].
          destruct (k_nd (c_prim s) p) as [nd|]; [|discriminate]. destruct (n_acks nd) as [|[|n]]; [discriminate|discriminate|].
          apply det_next_aw in Hp. destruct Hp as (_ & _ & [[= -> _]|[[=] _]]); exact I.
      - destruct (k_hd _ o) as [|p|p|p|p]; try discriminate.
        + destruct (negb _); [discriminate|]. destruct (memb _ _); discriminate.
        + destruct (post_complete _ p); [|discriminate]. injection Hp as _ _ <- _. exact I. }
    destruct e0; try destruct He; exact I. }
  intros t1 e t2 E. apply app_eq_app in E. destruct E as (m & [(-> & E)|(-> & ->)]).
  - destruct m as [|e' m]; simpl in E.
    + apply (Hq e). rewrite <- E. now left.
    + injection E as <- _. exact (HW t1 e m eq_refl).
  - apply (Hq e). apply in_elt.
Qed.

Lemma calls_finish s tr ls s' tr' : KInv s tr -> well_behaved tr -> (forall l, In l ls -> call_step l = true) -> run_from step s tr ls = Running s' tr' ->
  length ls <= todo s tr.
Proof.
  revert s tr. induction ls as [|l ls IH]; intros s tr HK HW Hc Hr; simpl; [lia|]. simpl in Hr. destruct (step s l) as [s1 es| |] eqn:Hs; try discriminate.
  pose proof (Hc l (or_introl eq_refl)) as Hl. pose proof (call_wb _ _ _ _ _ Hl Hs HW) as HW1. pose proof (KInv_step T eager _ _ _ _ _ HK Hs HW1) as HK1.
  pose proof (call_decreases _ _ _ _ _ HK Hl Hs). specialize (IH s1 (tr ++ es) HK1 HW1 ltac:(intros; apply Hc; now right) Hr). lia.
Qed.

Lemma post_ack_finishes ls s tr : run step (c_init P) ls = Running s tr -> well_behaved tr ->
  exists n, forall ls' s' tr', (forall l, In l ls' -> call_step l = true) -> run_from step s tr ls' = Running s' tr' -> length ls' <= n.
Proof. intros Hr HW. exists (todo s tr). intros ls' s' tr' H1 H2. eapply calls_finish; eauto. eapply k_inv_run; eauto. Qed.

Lemma post_ack_progress ls s tr : run step (c_init P) ls = Running s tr -> well_behaved tr ->
  (forall l, call_step l = true -> step s l = Disabled) -> calls_returned s.
Proof.
  intros Hr HW Hst. destruct (k_inv_run T eager ls s tr Hr HW) as (HJT & HK & HR & HC). pose proof HJT as [[HG HTI] _]. pose proof HG as (_ & _ & (HI0 & HQ) & _).
  split.
  - intros o. specialize (Hst (LPrim (KAckStep o : PL P)) eq_refl). simpl in Hst. pose proof (step_good T (c_prim s) _ _ (KAckStep o) HK HR HQ HI0 I) as Hg. simpl in Hg.
    destruct (k_hd (c_prim s) o) as [|p|p|p|p] eqn:Ho; auto.
    + destruct (negb _); [exact Hg|]. destruct (memb _ _); [discriminate|exact Hg].
    + destruct (post_complete _ p); [discriminate|exact Hg].
  - intros a. specialize (Hst (LPrim (KDetStep a : PL P)) eq_refl). simpl in Hst. pose proof (step_good T (c_prim s) _ _ (KDetStep a) HK HR HQ HI0 I) as Hg. simpl in Hg.
    destruct (g_det (k_ag (c_prim s) a)) as [[r [p|]]|] eqn:Hd; auto; exfalso.
    + destruct (post_complete _ p); [|exact Hg]. unfold det_next in *. destruct (Nat.eqb _ _); discriminate.
    + unfold retire_one in *. destruct (negb _); [exact Hg|]. destruct (find_seq _ _) as [p|]; [|exact Hg]. destruct (k_nd _ p) as [nd|]; [|exact Hg].
      destruct (n_acks nd) as [|[|n]]; [exact Hg|discriminate|]. unfold det_next in *. destruct (Nat.eqb _ _); discriminate.
Qed.

(** ** C03 *)
Lemma post_ack_none ls s t1 o t2 : run step (c_init P) ls = Running s (t1 ++ EDone (P := P) o None :: t2) -> well_behaved t1 -> cancel_requested o t1.
Proof.
  intros Hr HW. destruct (t_report _ _ (post_ack_tlaws T) _ _ _ _ _ _ Hr) as (ls1 & s1 & Hr1 & HJT & Hcase).
  destruct (k_inv_run T eager ls1 s1 t1 Hr1 HW) as (_ & HK & _). pose proof HK as (_ & _ & _ & K4 & _). destruct (K4 o) as (_ & B & _ & _ & E & _).
  destruct (run_split_done _ _ _ _ _ _ _ _ Hr) as (ls2 & l & ls3 & s2 & s3 & _ & Hr2 & Hs).
  assert (Hd : o_done (c_op s1 o) = false).
  { pose proof HJT as [[_ (HD & _)] _]. pose proof (t_once _ _ _ (post_ack_tlaws T) _ _ _ Hr o) as H. specialize (HD o). destruct (o_done (c_op s1 o)); auto. exfalso.
    rewrite ndone_app, HD in H. simpl in H. rewrite Nat.eqb_refl in H. lia. }
  destruct Hcase as [(w & Hf & Hv & Hn)|(ps & Hres & [Hn|[_ Hn]])]; auto.
  - exfalso. simpl in Hv. subst w. destruct (E None Hf Hd) as (p & H & _). discriminate.
  - exfalso. destruct (B Hn Hd) as (p & x & H & _). simpl in Hres. unfold k_resume in Hres. rewrite H in Hres. discriminate.
Qed.

Lemma post_ack_some ls s t1 o p t2 : run step (c_init P) ls = Running s (t1 ++ EDone (P := P) o (Some p) :: t2) -> well_behaved (t1 ++ EDone (P := P) o (Some p) :: t2) ->
  exists a later, agent_of o (spec t1) = Some a /\ due_of a (spec t1) = p :: later.
Proof.
  intros Hr HW. destruct (run_split_done _ _ _ _ _ _ _ _ Hr) as (ls1 & l & ls2 & s1 & s2 & _ & Hr1 & Hs).
  assert (HW1 : well_behaved (t1 ++ [EDone (P := P) o (Some p)])) by (apply (wb_prefix T _ t2); now rewrite <- app_assoc).
  destruct (KInv_step_strong T eager s1 t1 l s2 _ (k_inv_run T eager ls1 s1 t1 Hr1 (wb_prefix T _ _ HW1)) Hs HW1) as [_ H]. exact (H o (Some p) [] eq_refl p eq_refl).
Qed.

Lemma post_ack_default_token ls s tr o a v : run step (c_init P) ls = Running s tr -> well_behaved tr ->
  In (EStart (P := P) o None a) tr -> In (EDone (P := P) o v) tr -> v <> None.
Proof.
  intros Hr HW Hs Hd ->. apply in_split in Hd. destruct Hd as (t1 & t2 & ->).
  apply (t_default_token _ _ _ (post_ack_tlaws T) _ _ _ _ _ Hr Hs). destruct (post_ack_none _ _ _ _ _ Hr (wb_prefix T _ _ HW)) as (e & (b & H1) & H2).
  exists e. split; [exists b|]; apply in_app_iff; auto.
Qed.

Lemma post_ack_pending ls s tr o : run step (c_init P) ls = Running s tr -> well_behaved tr -> all_returned s -> started o tr ->
  notified o tr = 1 \/ ((exists a, agent_of o (spec tr) = Some a /\ due_of a (spec tr) = []) /\ ~ cancel_requested o tr).
Proof.
  intros Hr HW Hret Hst. pose proof (t_once _ _ _ (post_ack_tlaws T) _ _ _ Hr o) as H1. destruct (notified o tr) as [|[|n]] eqn:Hn; [|auto|lia]. right. split.
  - assert (Hin : In o (map fst (sp_ops (spec tr)))) by (rewrite ops_starts; exact Hst). unfold agent_of.
    destruct (find (fun x => Nat.eqb (fst x) o) (sp_ops (spec tr))) as [[o' a]|] eqn:E.
    + exists a. split; [reflexivity|]. apply (pending_due ls s tr o a Hr HW Hret Hst Hn). unfold agent_of. now rewrite E.
    + exfalso. apply in_map_iff in Hin. destruct Hin as (x & <- & Hx). apply (find_none _ _ E) in Hx. simpl in Hx. now rewrite Nat.eqb_refl in Hx.
  - intros Hc. rewrite (t_cancelled _ _ _ (post_ack_tlaws T) _ _ _ Hr Hret o Hst Hc) in Hn. discriminate.
Qed.

End Eager.

Lemma post_ack_safe ls f tr : run (step P false) (c_init P) ls = Failed f tr -> ~ well_behaved tr.
Proof. intros Hr HW. destruct (post_ack_fail false _ _ _ Hr HW) as [H _]. discriminate. Qed.

(** ** Checking the client rule *)
Definition call_okb (s : @sp T) (e : event P) : bool :=
  match e with
  | EStart o _ a => memb a (sp_att s) && negb (memb a (sp_busy s))
  | EPrim (EAttach a) => negb (memb a (sp_att s)) && negb (memb a (sp_det s))
  | EPrim (EDetach a) => memb a (sp_att s) && negb (memb a (sp_busy s))
  | EPrim (EAck o) | EPrim (ERead o _) => memb o (map fst (sp_held s))
  | _ => true
  end.
Fixpoint wbb (s : @sp T) (tr : trace) : bool := match tr with [] => true | e :: tr' => call_okb s e && wbb (sp_step s e) tr' end.
Lemma call_okb_ok s e : call_okb s e = true -> call_ok s e.
Proof.
  assert (Hm : forall x l, memb x l = false -> ~ In x l) by (intros x l H Hi; apply memb_In in Hi; congruence).
  destruct e as [o tok a|o v|e|o|[a|a|a|p x|p|o|o v]]; simpl; auto; rewrite ?andb_true_iff, ?negb_true_iff, ?memb_In, ?in_map_iff.
  - intros [H1 H2]. split; auto.
  - intros [H1 H2]. split; auto.
  - intros [H1 H2]. split; auto.
  - intros ([o' p] & E & H). simpl in E. subst. eauto.
  - intros ([o' p] & E & H). simpl in E. subst. eauto.
Qed.
Lemma wbb_sound (tr : trace) : wbb sp_init tr = true -> well_behaved tr.
Proof.
  unfold well_behaved, spec. generalize (@sp_init T). induction tr as [|e tr IH]; intros s H t1 e' t2 E; [destruct t1; discriminate|].
  simpl in H. apply andb_true_iff in H. destruct H as [H1 H2]. destruct t1 as [|e1 t1]; injection E as <- E.
  - now apply call_okb_ok.
  - simpl. exact (IH _ H2 t1 e' t2 E).
Qed.

End Main.
