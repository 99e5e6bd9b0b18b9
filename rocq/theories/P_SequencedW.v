(** sequenced_event under the C++ memory model. *)
From Coq Require Import List Arith Bool Lia Permutation.
From Verif Require Import Lts ListFacts M_Weak P_WaitGroupW P_BarrierW M_SequencedW S_SequencedW.
Import ListNotations.

Definition taken (r : sraise) : list nat := match r with SLoop _ os _ => os | SRaise _ _ => [] end.
Definition rph (r : sraise) : nat := match r with SLoop p _ _ | SRaise p _ => p end.
Definition rv (r : sraise) : view := match r with SLoop _ _ v | SRaise _ v => v end.

Lemma taken_drop (l : list sraise) k p o os v v' : nth_error l k = Some (SLoop p (o :: os) v) ->
  exists l1 l2, flat_map taken l = l1 ++ o :: l2 /\ flat_map taken (set_nth l k (SLoop p os v')) = l1 ++ l2.
Proof.
  revert k. induction l as [|a l IH]; intros [|k] H; simpl in H; try discriminate.
  - injection H as ->. exists [], (os ++ flat_map taken l). split; reflexivity.
  - destruct (IH k H) as (l1 & l2 & E1 & E2). exists (taken a ++ l1), l2. simpl. rewrite E1, E2, <- !app_assoc. split; reflexivity.
Qed.
Lemma taken_take (l : list sraise) k p q v v' : nth_error l k = Some (SRaise p v) -> Permutation (q ++ flat_map taken l) (flat_map taken (set_nth l k (SLoop p q v'))).
Proof.
  revert k. induction l as [|a l IH]; intros [|k] H; simpl in H; try discriminate.
  - injection H as ->. reflexivity.
  - simpl. rewrite <- (IH k H). rewrite !app_assoc. apply Permutation_app_tail. apply Permutation_app_comm.
Qed.
Lemma raises_app a b : s_raises (a ++ b) = s_raises a + s_raises b.
Proof. unfold s_raises. rewrite filter_app, app_length. reflexivity. Qed.
Lemma compl_app o a b : s_completed o (a ++ b) = s_completed o a + s_completed o b.
Proof. unfold s_completed. rewrite filter_app, app_length. reflexivity. Qed.

Section Orders.
Variables r_acq r_rel ld_acq : bool.
Notation step := (s_step r_acq r_rel ld_acq).
Notation both := (r_rel && ld_acq).

Definition num_ok (tr : list sevent) : Prop := forall t1 j n t2, tr = t1 ++ SERaise j n :: t2 -> j = S (s_raises t1).

Record EI (s : sst) (tr : list sevent) : Prop := EInv {
  e_h : s_h s <> [];
  e_val : forall i x w, nth_error (s_h s) i = Some (x, w) -> x = i /\ v_ts w <= i /\ (r_rel = true -> forall j n, j <= i -> In (SERaise j n) tr -> In n (accs w));
  e_rj : forall j n, In (SERaise j n) tr -> 1 <= j /\ j <= newest (s_h s);
  e_ev : v_ts (s_ev s) <= newest (s_h s);
  e_rs : forall r, In r (s_rs s) -> 1 <= rph r /\ rph r <= v_ts (rv r) /\ v_ts (rv r) <= newest (s_h s);
  e_B : forall j, 1 <= j -> j <= newest (s_h s) -> (exists v, In (SRaise j v) (s_rs s)) \/ j <= v_ts (s_ev s);
  e_A : forall o t j, In o (s_q s) -> s_op s o = SWait t -> t < j -> j <= newest (s_h s) -> exists v, In (SRaise j v) (s_rs s);
  e_q : forall o, In o (s_q s ++ flat_map taken (s_rs s)) -> exists t, s_op s o = SWait t;
  e_qt : forall o t, In o (s_q s) -> s_op s o = SWait t -> t <= v_ts (s_ev s);
  e_tt : forall r o t, In r (s_rs s) -> In o (taken r) -> s_op s o = SWait t -> t <= v_ts (rv r);
  e_nd : NoDup (s_q s ++ flat_map taken (s_rs s));
  e_in : forall o t, s_op s o = SWait t -> In o (s_q s ++ flat_map taken (s_rs s));
  e_cp : forall o v, In (o, v) (s_cp s) -> v_ts v <= newest (s_h s) /\ s_op s o <> SIdle /\ forall t, s_op s o = SRun t -> t < v_ts v;
  e_tw : forall o t, In (SEWait o t) tr -> s_op s o = SWait t \/ s_op s o = SRun t \/ s_op s o = SDone;
  e_uw : forall o t t', In (SEWait o t) tr -> In (SEWait o t') tr -> t = t';
  e_wt : forall o t, s_op s o = SWait t \/ s_op s o = SRun t -> In (SEWait o t) tr;
  e_tn : forall o, s_completed o tr = match s_op s o with SDone => 1 | _ => 0 end;
  e_dn : forall o by_ x b, In (SEDone o by_ x b) tr -> s_op s o = SDone;
  e_d : forall o by_ x b, In (SEDone o by_ x b) tr -> x <= newest (s_h s) /\ (both = true -> forall j n, j <= x -> In (SERaise j n) tr -> In n b) /\
        forall t, In (SEWait o t) tr -> match by_ with None => t < x | Some j => j <= x /\ t <= x end;
  e_nx : forall x b, In (SENext x b) tr -> x <= S (newest (s_h s)) /\ (both = true -> forall j n, j < x -> In (SERaise j n) tr -> In n b);
  e_ph : s_raises tr = newest (s_h s);
  e_num : num_ok tr }.

Lemma num_snoc tr e : num_ok tr -> (forall j n, e = SERaise j n -> j = S (s_raises tr)) -> num_ok (tr ++ [e]).
Proof.
  intros H He t1 s n t2 Heq. destruct t2 as [|e2 t2'] using rev_ind.
  - apply app_inj_tail in Heq as [-> ->]. exact (He s n eq_refl).
  - clear IHt2'. rewrite app_comm_cons, app_assoc in Heq. apply app_inj_tail in Heq as [-> _]. exact (H t1 s n t2' eq_refl).
Qed.

Lemma EI_init : EI s_init [].
Proof.
  split; simpl; try solve [intros; contradiction || discriminate || lia || constructor | intros; intuition discriminate].
  - intros [|[]] x w H; simpl in H; try discriminate. injection H as <- <-. split; [reflexivity|]. split; [simpl; lia|]. intros _ j n _ [].
  - intros t1 s n t2 H. destruct t1; discriminate.
Qed.

Lemma s_newest_eq s tr : EI s tr -> s_newest s = newest (s_h s).
Proof.
  intros J. unfold s_newest. destruct (nth_error (s_h s) (newest (s_h s))) as [[x w]|] eqn:E; [exact (proj1 (e_val _ _ J _ _ _ E))|].
  apply nth_error_None in E. pose proof (newest_lt _ (e_h _ _ J)). lia.
Qed.

Lemma EI_raise s tr v : EI s tr -> v_ts v < length (s_h s) ->
  let v1 := vadd v (TData (s_acc s)) in
  EI (SS (rmw r_acq r_rel (s_h s) v1 (S (newest (s_h s)))) (s_ev s) (s_q s) (s_op s) (s_rs s ++ [SRaise (S (newest (s_h s))) (rmw_view r_acq (s_h s) v1)]) (s_cp s) (S (s_acc s)))
     (tr ++ [SERaise (S (newest (s_h s))) (s_acc s)]).
Proof.
  intros J Hv v1. pose proof (len_newest _ (e_h _ _ J)) as Hl. set (N := newest (s_h s)) in *. unfold rmw.
  assert (Hnew : newest (s_h s ++ [(S N, if r_rel then vjoin (rel_of (s_h s)) (rmw_view r_acq (s_h s) v1) else rel_of (s_h s))]) = S N) by (apply newest_app; exact (e_h _ _ J)).
  assert (Hrel : v_ts (rel_of (s_h s)) <= N /\ (r_rel = true -> forall j n, In (SERaise j n) tr -> In n (accs (rel_of (s_h s))))).
  { pose proof (newest_nth _ (e_h _ _ J)) as Hn. fold N in Hn. destruct (e_val _ _ J _ _ _ Hn) as (_ & Hw & Hr). split; [exact Hw|].
    intros Hrr j n Hin. exact (Hr Hrr j n (proj2 (e_rj _ _ J j n Hin)) Hin). }
  assert (Htv : v_ts (rmw_view r_acq (s_h s) v1) = S N) by (unfold rmw_view; destruct r_acq; simpl; lia).
  assert (Harr : forall j n, In (SERaise j n) (tr ++ [SERaise (S N) (s_acc s)]) -> In (SERaise j n) tr \/ (j = S N /\ n = s_acc s)).
  { intros j n H. apply in_app_or in H as [H|[H|[]]]; [auto|injection H; auto]. }
  assert (Hno : forall e0 : sevent, (forall s' n, e0 <> SERaise s' n) -> In e0 (tr ++ [SERaise (S N) (s_acc s)]) -> In e0 tr).
  { intros e0 He H. apply in_app_or in H as [H|[H|[]]]; [exact H|]. destruct (He _ _ (eq_sym H)). }
  assert (Htk : flat_map taken (s_rs s ++ [SRaise (S N) (rmw_view r_acq (s_h s) v1)]) = flat_map taken (s_rs s)) by (rewrite flat_map_app; simpl; apply app_nil_r).
  split; cbn [s_h s_ev s_q s_op s_rs s_cp s_acc]; rewrite ?Hnew, ?Htk; try solve [apply J].
  - destruct (s_h s); discriminate.
  - intros i x w Hi. apply nth_snoc in Hi as [[Hlt Hi]|[-> Hi]].
    + destruct (e_val _ _ J i x w Hi) as (Hx & Hw & Hr). split; [exact Hx|]. split; [exact Hw|]. intros Hrr j n Hle Hin.
      destruct (Harr _ _ Hin) as [Hin'|[-> ->]]; [exact (Hr Hrr j n Hle Hin')|]. lia.
    + injection Hi as -> ->. split; [lia|]. split.
      * destruct r_rel; [|lia]. change (Nat.max (v_ts (rel_of (s_h s))) (v_ts (rmw_view r_acq (s_h s) v1)) <= length (s_h s)). lia.
      * intros Hrr j n Hle Hin. rewrite Hrr. apply accs_join. destruct (Harr _ _ Hin) as [Hin'|[-> ->]]; [left; exact (proj2 Hrel Hrr j n Hin')|].
        right. apply rmw_accs. left. left. reflexivity.
  - intros j n Hin. destruct (Harr _ _ Hin) as [Hin'|[-> ->]]; [|lia]. pose proof (e_rj _ _ J j n Hin') as Hj. fold N in Hj. lia.
  - pose proof (e_ev _ _ J) as H. fold N in H. lia.
  - intros r Hr. apply in_app_or in Hr as [Hr|[<-|[]]].
    + pose proof (e_rs _ _ J r Hr) as H. fold N in H. lia.
    + simpl rph. simpl rv. rewrite Htv. lia.
  - intros j Hj1 Hj2. destruct (Nat.eq_dec j (S N)) as [->|Hne]; [left; eexists; apply in_or_app; right; left; reflexivity|].
    destruct (e_B _ _ J j Hj1) as [(v0 & Hv0)|H]; [fold N; lia| |right; exact H]. left. exists v0. apply in_or_app. auto.
  - intros o t j Hq Ho Hlt Hj. destruct (Nat.eq_dec j (S N)) as [->|Hne]; [eexists; apply in_or_app; right; left; reflexivity|].
    destruct (e_A _ _ J o t j Hq Ho Hlt) as (v0 & Hv0); [fold N; lia|]. exists v0. apply in_or_app. auto.
  - intros r o t Hr Ho Hw. apply in_app_or in Hr as [Hr|[<-|[]]]; [exact (e_tt _ _ J r o t Hr Ho Hw)|]. destruct Ho.
  - intros o v0 Hin. destruct (e_cp _ _ J o v0 Hin) as (A & B & C). fold N in A. split; [lia|]. split; [exact B|exact C].
  - intros o t Hin. apply (e_tw _ _ J). apply Hno; [discriminate|exact Hin].
  - intros o t t' H1 H2. apply (e_uw _ _ J o); apply Hno; auto; discriminate.
  - intros o t Ho. apply in_or_app. left. exact (e_wt _ _ J o t Ho).
  - intros o. rewrite compl_app, (e_tn _ _ J o). unfold s_completed. simpl. lia.
  - intros o by_ x b Hin. apply (e_dn _ _ J o by_ x b). apply Hno; [discriminate|exact Hin].
  - intros o by_ x b Hin. apply Hno in Hin; [|discriminate]. destruct (e_d _ _ J o by_ x b Hin) as (A & B & C). fold N in A. split; [lia|]. split.
    + intros Hb j n Hle Hin'. destruct (Harr _ _ Hin') as [Hin''|[-> ->]]; [exact (B Hb j n Hle Hin'')|lia].
    + intros t Ht. apply C. apply Hno; [discriminate|exact Ht].
  - intros x b Hin. apply Hno in Hin; [|discriminate]. destruct (e_nx _ _ J x b Hin) as (A & B). fold N in A. split; [lia|].
    intros Hb j n Hle Hin'. destruct (Harr _ _ Hin') as [Hin''|[-> ->]]; [exact (B Hb j n Hle Hin'')|lia].
  - rewrite raises_app, (e_ph _ _ J). unfold s_raises. simpl. fold N. lia.
  - apply num_snoc; [exact (e_num _ _ J)|]. intros j n E. injection E as <- _. rewrite (e_ph _ _ J). reflexivity.
Qed.

Lemma EI_lock s tr k p v : EI s tr -> nth_error (s_rs s) k = Some (SRaise p v) ->
  EI (SS (s_h s) (vjoin v (s_ev s)) [] (s_op s) (set_nth (s_rs s) k (SLoop p (s_q s) (vjoin v (s_ev s)))) (s_cp s) (s_acc s)) (tr ++ []).
Proof.
  intros J Hk. rewrite app_nil_r. destruct (e_rs _ _ J _ (nth_error_In _ _ Hk)) as (H1 & H2 & H3). simpl in H1, H2, H3.
  pose proof (taken_take (s_rs s) k p (s_q s) v (vjoin v (s_ev s)) Hk) as Hperm. pose proof (e_ev _ _ J) as Hev.
  split; simpl; try solve [apply J].
  - lia.
  - intros r Hr. apply In_set_nth in Hr as [->|Hr]; [|exact (e_rs _ _ J r Hr)]. simpl. lia.
  - intros p' Hp1 Hp'. destruct (e_B _ _ J p' Hp1 Hp') as [(v0 & Hv0)|Hle]; [|right; lia]. apply In_nth_error in Hv0 as [k' Hk'].
    destruct (Nat.eq_dec k' k) as [->|Hne].
    + rewrite Hk in Hk'. injection Hk' as <- <-. right. lia.
    + left. exists v0. apply (nth_error_In _ k'). rewrite nth_error_set_nth_other by auto. exact Hk'.
  - intros; contradiction.
  - intros o Ho. apply (e_q _ _ J). exact (Permutation_in _ (Permutation_sym Hperm) Ho).
  - intros; contradiction.
  - intros r o t Hr Ho Hw. apply In_set_nth in Hr as [->|Hr]; [|exact (e_tt _ _ J r o t Hr Ho Hw)]. simpl in Ho |- *. pose proof (e_qt _ _ J o t Ho Hw). lia.
  - exact (Permutation_NoDup Hperm (e_nd _ _ J)).
  - intros o t Ho. exact (Permutation_in _ Hperm (e_in _ _ J o t Ho)).
Qed.

(** what a load gives *)
Lemma load_facts s tr v i x w : EI s tr -> rd (s_h s) v i = Some (x, w) -> x = i /\ v_ts v <= i /\ i <= newest (s_h s) /\ v_ts (s_load ld_acq v i w) = i /\
  (both = true -> forall j n, j <= i -> In (SERaise j n) tr -> In n (accs (s_load ld_acq v i w))).
Proof.
  intros J Hr. apply rd_some in Hr as (Hle & Hi & Hl). destruct (e_val _ _ J i x w Hi) as (-> & Hw & Hrel). pose proof (len_newest _ (e_h _ _ J)).
  split; [reflexivity|]. split; [exact Hle|]. split; [lia|]. split; [unfold s_load; destruct ld_acq; simpl; lia|].
  intros Hb j n Hj Hin. apply andb_true_iff in Hb as [Hb1 Hb2]. unfold s_load. rewrite Hb2. change (In n (accs (vjoin v w))). apply accs_join. right. exact (Hrel Hb1 j n Hj Hin).
Qed.

(** a completion *)
Lemma EI_complete s tr o by_ x b t rs' : EI s tr -> s_op s o = SWait t \/ s_op s o = SRun t ->
  x <= newest (s_h s) -> (both = true -> forall j n, j <= x -> In (SERaise j n) tr -> In n b) -> match by_ with None => t < x | Some j => j <= x /\ t <= x end ->
  (forall r, In r rs' -> 1 <= rph r /\ rph r <= v_ts (rv r) /\ v_ts (rv r) <= newest (s_h s)) ->
  (forall p v, In (SRaise p v) (s_rs s) -> In (SRaise p v) rs') ->
  (forall r, In r rs' -> exists r', In r' (s_rs s) /\ v_ts (rv r') <= v_ts (rv r) /\ forall o', In o' (taken r) -> In o' (taken r')) ->
  NoDup (s_q s ++ flat_map taken rs') -> ~ In o (s_q s ++ flat_map taken rs') ->
  (forall o', In o' (s_q s ++ flat_map taken (s_rs s)) -> In o' (s_q s ++ flat_map taken rs') \/ o' = o) ->
  EI (SS (s_h s) (s_ev s) (s_q s) (upd (s_op s) o SDone) rs' (s_cp s) (s_acc s)) (tr ++ [SEDone o by_ x b]).
Proof.
  intros J Ho Hx Hvis Hby Hrs HR Hsub Hnd Hnin Hmem.
  assert (Hno : forall e0 : sevent, (forall o b c d, e0 <> SEDone o b c d) -> In e0 (tr ++ [SEDone o by_ x b]) -> In e0 tr).
  { intros e0 He H. apply in_app_or in H as [H|[H|[]]]; [exact H|]. destruct (He _ _ _ _ (eq_sym H)). }
  assert (Hw : In (SEWait o t) tr) by exact (e_wt _ _ J o t Ho).
  split; simpl; try solve [apply J].
  - intros i y w Hi. destruct (e_val _ _ J i y w Hi) as (A & B & C). split; [exact A|]. split; [exact B|]. intros Hr j n Hj Hin. apply (C Hr j n Hj). apply Hno; [discriminate|exact Hin].
  - intros j n Hin. apply (e_rj _ _ J j n). apply Hno; [discriminate|exact Hin].
  - exact Hrs.
  - intros j H1 H2. destruct (e_B _ _ J j H1 H2) as [(v & Hv)|H]; [left; exists v; apply HR; exact Hv|right; exact H].
  - intros o' t' j Hq Ho' Hlt Hj. destruct (Nat.eq_dec o' o) as [->|Hn]; [rewrite upd_same in Ho'; discriminate|]. rewrite upd_other in Ho' by exact Hn.
    destruct (e_A _ _ J o' t' j Hq Ho' Hlt Hj) as (v & Hv). exists v. apply HR. exact Hv.
  - intros o' Hin. rewrite upd_other by (intros ->; exact (Hnin Hin)). apply (e_q _ _ J). apply in_app_or in Hin as [Hin|Hin]; apply in_or_app; [auto|]. right.
    apply in_flat_map in Hin as (r & Hr & Hin). destruct (Hsub r Hr) as (r' & Hr' & _ & Hs). apply in_flat_map. exists r'. auto.
  - intros o' t' Hq Ho'. destruct (Nat.eq_dec o' o) as [->|Hn]; [rewrite upd_same in Ho'; discriminate|]. rewrite upd_other in Ho' by exact Hn. exact (e_qt _ _ J o' t' Hq Ho').
  - intros r o' t' Hr Hin Ho'. destruct (Nat.eq_dec o' o) as [->|Hn]; [rewrite upd_same in Ho'; discriminate|]. rewrite upd_other in Ho' by exact Hn.
    destruct (Hsub r Hr) as (r' & Hr' & Hts & Hs). pose proof (e_tt _ _ J r' o' t' Hr' (Hs o' Hin) Ho'). lia.
  - exact Hnd.
  - intros o' t' Ho'. destruct (Nat.eq_dec o' o) as [->|Hn]; [rewrite upd_same in Ho'; discriminate|]. rewrite upd_other in Ho' by exact Hn.
    destruct (Hmem o' (e_in _ _ J o' t' Ho')) as [H|H]; [exact H|congruence].
  - intros o' v Hin. destruct (e_cp _ _ J o' v Hin) as (A & B & C). split; [exact A|]. destruct (Nat.eq_dec o' o) as [->|Hn]; [rewrite upd_same; split; discriminate|].
    rewrite upd_other by exact Hn. auto.
  - intros o' t' Hin. apply Hno in Hin; [|discriminate]. destruct (Nat.eq_dec o' o) as [->|Hn]; [rewrite upd_same; auto|]. rewrite upd_other by exact Hn. exact (e_tw _ _ J o' t' Hin).
  - intros o' t1 t2 A B. apply Hno in A; [|discriminate]. apply Hno in B; [|discriminate]. exact (e_uw _ _ J o' t1 t2 A B).
  - intros o' t' Ho'. destruct (Nat.eq_dec o' o) as [->|Hn]; [rewrite upd_same in Ho'; destruct Ho'; discriminate|]. rewrite upd_other in Ho' by exact Hn.
    apply in_or_app. left. exact (e_wt _ _ J o' t' Ho').
  - intros o'. rewrite compl_app, (e_tn _ _ J o'). unfold s_completed. simpl. destruct (Nat.eqb_spec o o') as [->|Hn]; simpl.
    + rewrite upd_same. destruct Ho as [-> | ->]; reflexivity.
    + rewrite upd_other by auto. lia.
  - intros o' by' x' b' Hin. apply in_app_or in Hin as [Hin|[E|[]]]; [|injection E as <- _ _ _; apply upd_same].
    destruct (Nat.eq_dec o' o) as [->|Hn]; [apply upd_same|]. rewrite upd_other by exact Hn. exact (e_dn _ _ J o' by' x' b' Hin).
  - intros o' by' x' b' Hin. apply in_app_or in Hin as [Hin|[E|[]]].
    + destruct (e_d _ _ J o' by' x' b' Hin) as (A & B & C). split; [exact A|]. split.
      * intros Hb j n Hj Hin'. apply (B Hb j n Hj). apply Hno; [discriminate|exact Hin'].
      * intros t' Ht'. apply C. apply Hno; [discriminate|exact Ht'].
    + injection E as <- <- <- <-. split; [exact Hx|]. split.
      * intros Hb j n Hj Hin'. apply (Hvis Hb j n Hj). apply Hno; [discriminate|exact Hin'].
      * intros t' Ht'. apply Hno in Ht'; [|discriminate]. rewrite (e_uw _ _ J o t' t Ht' Hw). exact Hby.
  - intros x' b' Hin. apply Hno in Hin; [|discriminate]. destruct (e_nx _ _ J x' b' Hin) as (A & B). split; [exact A|].
    intros Hb j n Hj Hin'. apply (B Hb j n Hj). apply Hno; [discriminate|exact Hin'].
  - rewrite raises_app, (e_ph _ _ J). unfold s_raises. simpl. lia.
  - apply num_snoc; [exact (e_num _ _ J)|discriminate].
Qed.

Lemma EI_wake s tr k j o os v t i x w : EI s tr -> nth_error (s_rs s) k = Some (SLoop j (o :: os) v) -> s_op s o = SWait t -> rd (s_h s) v i = Some (x, w) ->
  EI (SS (s_h s) (s_ev s) (s_q s) (upd (s_op s) o SDone) (set_nth (s_rs s) k (SLoop j os (s_load ld_acq v i w))) (s_cp s) (s_acc s))
     (tr ++ [SEDone o (Some j) x (accs (s_load ld_acq v i w))]).
Proof.
  intros J Hk Ho Hr. destruct (load_facts s tr v i x w J Hr) as (-> & Hle & Hl & Hts & Hvis). set (v1 := s_load ld_acq v i w) in *.
  destruct (e_rs _ _ J _ (nth_error_In _ _ Hk)) as (H1 & H2 & H3). simpl in H1, H2, H3.
  pose proof (e_tt _ _ J _ o t (nth_error_In _ _ Hk) (or_introl eq_refl) Ho) as Ht. simpl in Ht.
  destruct (taken_drop _ _ _ _ _ _ v1 Hk) as (l1 & l2 & E1 & E2). pose proof (e_nd _ _ J) as Hnd. rewrite E1, app_assoc in Hnd.
  apply (EI_complete s tr o (Some j) i (accs v1) t); auto.
  - lia.
  - intros r Hr'. apply In_set_nth in Hr' as [->|Hr']; [cbn [rph rv]; rewrite Hts; lia|exact (e_rs _ _ J r Hr')].
  - intros p v0 Hin. apply In_nth_error in Hin as [k' Hk']. apply (nth_error_In _ k'). rewrite nth_error_set_nth_other; [exact Hk'|]. intros ->. rewrite Hk in Hk'. discriminate.
  - intros r Hr'. apply In_set_nth in Hr' as [->|Hr']; [|exists r; auto]. exists (SLoop j (o :: os) v). split; [exact (nth_error_In _ _ Hk)|]. simpl. split; [lia|]. auto.
  - rewrite E2, app_assoc. exact (NoDup_remove_1 _ _ _ Hnd).
  - rewrite E2, app_assoc. exact (NoDup_remove_2 _ _ _ Hnd).
  - intros o'. rewrite E1, E2. rewrite !in_app_iff. simpl. intuition.
Qed.

Lemma EI_fast s tr k o v t i x w : EI s tr -> nth_error (s_cp s) k = Some (o, v) -> s_op s o = SRun t -> rd (s_h s) v i = Some (x, w) ->
  EI (SS (s_h s) (s_ev s) (s_q s) (upd (s_op s) o SDone) (s_rs s) (s_cp s) (s_acc s)) (tr ++ [SEDone o None x (accs (s_load ld_acq v i w))]).
Proof.
  intros J Hk Ho Hr. destruct (load_facts s tr v i x w J Hr) as (-> & Hle & Hl & Hts & Hvis).
  destruct (e_cp _ _ J o v (nth_error_In _ _ Hk)) as (_ & _ & Ht). specialize (Ht t Ho).
  apply (EI_complete s tr o None i _ t); auto.
  - lia.
  - exact (e_rs _ _ J).
  - intros r Hr'. exists r. auto.
  - exact (e_nd _ _ J).
  - intros Hin. destruct (e_q _ _ J o Hin). congruence.
Qed.

Lemma EI_next s tr v i x w : EI s tr -> rd (s_h s) v i = Some (x, w) -> EI s (tr ++ [SENext (S x) (accs (s_load ld_acq v i w))]).
Proof.
  intros J Hr. destruct (load_facts s tr v i x w J Hr) as (-> & Hle & Hl & Hts & Hvis). set (b := accs (s_load ld_acq v i w)) in *.
  assert (Hno : forall e0 : sevent, (forall o b, e0 <> SENext o b) -> In e0 (tr ++ [SENext (S i) b]) -> In e0 tr).
  { intros e0 He H. apply in_app_or in H as [H|[H|[]]]; [exact H|]. destruct (He _ _ (eq_sym H)). }
  split; try solve [apply J].
  - intros i' y w' Hi. destruct (e_val _ _ J i' y w' Hi) as (A & B & C). split; [exact A|]. split; [exact B|]. intros Hr' j n Hj Hin. apply (C Hr' j n Hj). apply Hno; [discriminate|exact Hin].
  - intros j n Hin. apply (e_rj _ _ J j n). apply Hno; [discriminate|exact Hin].
  - intros o t Hin. apply (e_tw _ _ J). apply Hno; [discriminate|exact Hin].
  - intros o t1 t2 A B. apply Hno in A; [|discriminate]. apply Hno in B; [|discriminate]. exact (e_uw _ _ J o t1 t2 A B).
  - intros o t Ho. apply in_or_app. left. exact (e_wt _ _ J o t Ho).
  - intros o. rewrite compl_app, (e_tn _ _ J o). unfold s_completed. simpl. lia.
  - intros o by_ y b' Hin. apply (e_dn _ _ J o by_ y b'). apply Hno; [discriminate|exact Hin].
  - intros o by_ y b' Hin. apply Hno in Hin; [|discriminate]. destruct (e_d _ _ J o by_ y b' Hin) as (A & B & C). split; [exact A|]. split.
    + intros Hb j n Hj Hin'. apply (B Hb j n Hj). apply Hno; [discriminate|exact Hin'].
    + intros t Ht. apply C. apply Hno; [discriminate|exact Ht].
  - intros y b' Hin. apply in_app_or in Hin as [Hin|[E|[]]].
    + destruct (e_nx _ _ J y b' Hin) as (A & B). split; [exact A|]. intros Hb j n Hj Hin'. apply (B Hb j n Hj). apply Hno; [discriminate|exact Hin'].
    + injection E as <- <-. split; [lia|]. intros Hb j n Hj Hin'. apply (Hvis Hb j n ltac:(lia)). apply Hno; [discriminate|exact Hin'].
  - rewrite raises_app, (e_ph _ _ J). unfold s_raises. simpl. lia.
  - apply num_snoc; [exact (e_num _ _ J)|discriminate].
Qed.

(** start() *)
Lemma EI_wait s tr o t v i x w (queued : bool) : EI s tr -> s_op s o = SIdle -> rd (s_h s) (vjoin v (s_ev s)) i = Some (x, w) -> (if queued then x = t else t < x) ->
  let v2 := s_load ld_acq (vjoin v (s_ev s)) i w in
  EI (SS (s_h s) v2 (if queued then s_q s ++ [o] else s_q s) (upd (s_op s) o (if queued then SWait t else SRun t)) (s_rs s) (if queued then s_cp s else s_cp s ++ [(o, v2)]) (s_acc s))
     (tr ++ [SEWait o t]).
Proof.
  intros J Ho Hr Hx v2. destruct (load_facts s tr _ i x w J Hr) as (-> & Hle & Hl & Hts & _). fold v2 in Hts. simpl in Hle.
  assert (Hno : forall e0 : sevent, (forall o t, e0 <> SEWait o t) -> In e0 (tr ++ [SEWait o t]) -> In e0 tr).
  { intros e0 He H. apply in_app_or in H as [H|[H|[]]]; [exact H|]. destruct (He _ _ (eq_sym H)). }
  assert (Hnin : ~ In o (s_q s ++ flat_map taken (s_rs s))) by (intros H; destruct (e_q _ _ J o H); congruence).
  assert (Hnw : forall t', ~ In (SEWait o t') tr) by (intros t' H; destruct (e_tw _ _ J o t' H) as [E|[E|E]]; congruence).
  assert (Hqc : forall o', In o' (if queued then s_q s ++ [o] else s_q s) -> (In o' (s_q s) /\ o' <> o) \/ (o' = o /\ queued = true)).
  { intros o' H. assert (In o' (s_q s) -> o' <> o) by (intros H' ->; apply Hnin; apply in_or_app; auto). destruct queued; [|auto].
    apply in_app_or in H as [H|[<-|[]]]; auto. }
  split; cbn [s_h s_ev s_q s_op s_rs s_cp s_acc]; try solve [apply J].
  - intros i' y w' Hi. destruct (e_val _ _ J i' y w' Hi) as (A & B & C). split; [exact A|]. split; [exact B|]. intros Hr' j n Hj Hin. apply (C Hr' j n Hj). apply Hno; [discriminate|exact Hin].
  - intros j n Hin. apply (e_rj _ _ J j n). apply Hno; [discriminate|exact Hin].
  - lia.
  - intros j H1 H2. destruct (e_B _ _ J j H1 H2) as [A|A]; [left; exact A|right; lia].
  - intros o' t' j Hq Ho' Hlt Hj. destruct (Hqc o' Hq) as [[Hq' Hn]|[-> ->]].
    + rewrite upd_other in Ho' by exact Hn. exact (e_A _ _ J o' t' j Hq' Ho' Hlt Hj).
    + rewrite upd_same in Ho'. injection Ho' as <-. destruct (e_B _ _ J j ltac:(lia) Hj) as [A|A]; [exact A|]. lia.
  - intros o' Hin. apply in_app_or in Hin as [Hin|Hin].
    + destruct (Hqc o' Hin) as [[Hq' Hn]|[-> ->]]; [|rewrite upd_same; eauto]. rewrite upd_other by exact Hn. apply (e_q _ _ J). apply in_or_app. auto.
    + assert (o' <> o) by (intros ->; apply Hnin; apply in_or_app; auto). rewrite upd_other by assumption. apply (e_q _ _ J). apply in_or_app. auto.
  - intros o' t' Hq Ho'. rewrite Hts. destruct (Hqc o' Hq) as [[Hq' Hn]|[-> ->]].
    + rewrite upd_other in Ho' by exact Hn. pose proof (e_qt _ _ J o' t' Hq' Ho'). lia.
    + rewrite upd_same in Ho'. injection Ho' as <-. lia.
  - intros r o' t' Hr' Hin Ho'. assert (o' <> o) by (intros ->; apply Hnin; apply in_or_app; right; apply in_flat_map; eauto). rewrite upd_other in Ho' by assumption.
    exact (e_tt _ _ J r o' t' Hr' Hin Ho').
  - destruct queued; [|exact (e_nd _ _ J)]. rewrite <- app_assoc. simpl. apply NoDup_Add with (a := o) (l := s_q s ++ flat_map taken (s_rs s)); [apply Add_app|].
    split; [exact (e_nd _ _ J)|exact Hnin].
  - intros o' t' Ho'. destruct (Nat.eq_dec o' o) as [->|Hn].
    + rewrite upd_same in Ho'. destruct queued; [|discriminate]. rewrite !in_app_iff. simpl. auto.
    + rewrite upd_other in Ho' by exact Hn. pose proof (e_in _ _ J o' t' Ho') as H. destruct queued; [|exact H]. rewrite !in_app_iff in *. tauto.
  - intros o' v' Hin. assert (Hc : In (o', v') (s_cp s) \/ (o' = o /\ v' = v2 /\ queued = false)).
    { destruct queued; [auto|]. apply in_app_or in Hin as [Hin|[E|[]]]; [auto|]. injection E as <- <-. auto. }
    destruct Hc as [Hc|(-> & -> & ->)].
    + destruct (e_cp _ _ J o' v' Hc) as (A & B & C). assert (o' <> o) by (intros ->; congruence). rewrite upd_other by assumption. auto.
    + rewrite upd_same. split; [lia|]. split; [discriminate|]. intros t' E. injection E as <-. lia.
  - intros o' t' Hin. apply in_app_or in Hin as [Hin|[E|[]]].
    + assert (o' <> o) by (intros ->; exact (Hnw t' Hin)). rewrite upd_other by assumption. exact (e_tw _ _ J o' t' Hin).
    + injection E as <- <-. rewrite upd_same. destruct queued; auto.
  - intros o' t1 t2 A B. apply in_app_or in A as [A|[A|[]]]; apply in_app_or in B as [B|[B|[]]].
    + exact (e_uw _ _ J o' t1 t2 A B).
    + injection B as <- <-. destruct (Hnw _ A).
    + injection A as <- <-. destruct (Hnw _ B).
    + congruence.
  - intros o' t' Ho'. apply in_or_app. destruct (Nat.eq_dec o' o) as [->|Hn].
    + rewrite upd_same in Ho'. right. left. destruct queued, Ho' as [E|E]; congruence.
    + rewrite upd_other in Ho' by exact Hn. left. exact (e_wt _ _ J o' t' Ho').
  - intros o'. rewrite compl_app, (e_tn _ _ J o'). unfold s_completed. simpl. destruct (Nat.eq_dec o' o) as [->|Hn]; [rewrite upd_same, Ho; destruct queued; reflexivity|].
    rewrite upd_other by exact Hn. lia.
  - intros o' by_ y b Hin. apply Hno in Hin; [|discriminate]. pose proof (e_dn _ _ J o' by_ y b Hin) as D. rewrite upd_other; [exact D|]. intros ->. congruence.
  - intros o' by_ y b Hin. apply Hno in Hin; [|discriminate]. pose proof (e_dn _ _ J o' by_ y b Hin) as D. destruct (e_d _ _ J o' by_ y b Hin) as (A & B & C). split; [exact A|]. split.
    + intros Hb j n Hj Hin'. apply (B Hb j n Hj). apply Hno; [discriminate|exact Hin'].
    + intros t' Ht'. apply in_app_or in Ht' as [Ht'|[E|[]]]; [exact (C t' Ht')|]. injection E as <- <-. congruence.
  - intros y b Hin. apply Hno in Hin; [|discriminate]. destruct (e_nx _ _ J y b Hin) as (A & B). split; [exact A|].
    intros Hb j n Hj Hin'. apply (B Hb j n Hj). apply Hno; [discriminate|exact Hin'].
  - rewrite raises_app, (e_ph _ _ J). unfold s_raises. simpl. lia.
  - apply num_snoc; [exact (e_num _ _ J)|discriminate].
Qed.

Lemma EI_step s tr l : EI s tr -> (forall s' es, step s l = Next s' es -> EI s' (tr ++ es)) /\ forall f es, step s l <> Fail f es.
Proof.
  intros J. destruct l as [v|k|k i|o t v i|k i|v i]; cbn [s_step].
  - rewrite (s_newest_eq s tr J). destruct (Nat.ltb_spec (v_ts v) (length (s_h s))) as [Hv|Hv]; [|split; discriminate]. split; [|discriminate].
    intros s' es E. injection E as <- <-. exact (EI_raise s tr v J Hv).
  - destruct (nth_error (s_rs s) k) as [[p v|p os v]|] eqn:Hk; try (split; discriminate). split; [|discriminate]. intros s' es E. injection E as <- <-.
    exact (EI_lock s tr k p v J Hk).
  - destruct (nth_error (s_rs s) k) as [[p v|p [|o os] v]|] eqn:Hk; try (split; discriminate). destruct (e_q _ _ J o) as (t & Ho).
    { apply in_or_app. right. apply in_flat_map. exists (SLoop p (o :: os) v). split; [exact (nth_error_In _ _ Hk)|left; reflexivity]. }
    rewrite Ho. destruct (rd (s_h s) v i) as [[x w]|] eqn:Hr; [|split; discriminate]. split; [|discriminate]. intros s' es E. injection E as <- <-.
    exact (EI_wake s tr k p o os v t i x w J Hk Ho Hr).
  - destruct (s_op s o) eqn:Ho; try (split; discriminate). destruct (rd (s_h s) (vjoin v (s_ev s)) i) as [[x w]|] eqn:Hr; [|split; discriminate].
    destruct (Nat.leb_spec t (v_ts v)) as [Ht|Ht]; [|split; discriminate]. destruct (v_ts v <? length (s_h s)); [|split; discriminate]. simpl andb. cbv iota.
    destruct (load_facts s tr _ i x w J Hr) as (Hx & Hle & _). simpl in Hle. destruct (Nat.ltb_spec x t) as [Hxt|Hxt]; [lia|].
    destruct (Nat.leb_spec x t) as [Hxt'|Hxt']; (split; [|discriminate]); intros s' es E; injection E as <- <-.
    + exact (EI_wait s tr o t v i x w true J Ho Hr (Nat.le_antisymm _ _ Hxt' Hxt)).
    + exact (EI_wait s tr o t v i x w false J Ho Hr Hxt').
  - destruct (nth_error (s_cp s) k) as [[o v]|] eqn:Hk; [|split; discriminate]. destruct (s_op s o) as [|t|t|] eqn:Ho; try (split; discriminate).
    destruct (rd (s_h s) v i) as [[x w]|] eqn:Hr; [|split; discriminate]. split; [|discriminate]. intros s' es E. injection E as <- <-.
    exact (EI_fast s tr k o v t i x w J Hk Ho Hr).
  - destruct (v_ts v <? length (s_h s)); [|split; discriminate]. destruct (rd (s_h s) v i) as [[x w]|] eqn:Hr; [|split; discriminate]. split; [|discriminate].
    intros s' es E. injection E as <- <-. exact (EI_next s tr v i x w J Hr).
Qed.

Theorem se_inv ls s tr : run step s_init ls = Running s tr -> EI s tr.
Proof. apply (run_inv step EI s_init EI_init). intros s1 tr1 l s2 es J Hs. exact (proj1 (EI_step s1 tr1 l J) s2 es Hs). Qed.
Theorem se_safe ls f tr : run step s_init ls <> Failed f tr.
Proof.
  revert ls f tr. apply (run_safe step EI s_init EI_init); intros s1 tr1 l; [intros s2 es J Hs; exact (proj1 (EI_step s1 tr1 l J) s2 es Hs)|].
  intros f es J. exact (proj2 (EI_step s1 tr1 l J) f es).
Qed.
Theorem se_live ls s tr o t : run step s_init ls = Running s tr -> s_quiet s -> In (SEWait o t) tr -> t < s_raises tr -> s_completed o tr = 1.
Proof.
  intros Hr [Hq Hc] Hw Ht. pose proof (se_inv ls s tr Hr) as J. rewrite (e_tn _ _ J o). destruct (e_tw _ _ J o t Hw) as [E|[E|E]]; [|destruct (Hc o t E)|rewrite E; reflexivity].
  exfalso. pose proof (e_in _ _ J o t E) as Hin. apply in_app_or in Hin as [Hin|Hin].
  - rewrite (e_ph _ _ J) in Ht. destruct (e_A _ _ J o t (S t) Hin E ltac:(lia) Ht) as (v & Hv). destruct (Hq _ Hv) as (p & v' & E'). discriminate.
  - apply in_flat_map in Hin as (r & Hr' & Ho). destruct (Hq r Hr') as (p & v & ->). destruct Ho.
Qed.
End Orders.
