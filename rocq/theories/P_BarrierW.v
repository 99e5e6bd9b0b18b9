(** barrier under the C++ memory model. *)
From Coq Require Import List Arith Bool Lia ZArith Permutation.
From Verif Require Import Lts ListFacts M_Weak P_WaitGroupW M_BarrierW S_BarrierW.
Import ListNotations.

(** waiters that a raise() has taken *)
Definition taken (r : braise) : list nat := match r with BLoop _ os _ => os | BRaise _ _ => [] end.
Definition rph (r : braise) : nat := match r with BLoop p _ _ | BRaise p _ => p end.
Definition rv (r : braise) : view := match r with BLoop _ _ v | BRaise _ v => v end.

Lemma taken_drop (l : list braise) k p o os v : nth_error l k = Some (BLoop p (o :: os) v) ->
  exists l1 l2, flat_map taken l = l1 ++ o :: l2 /\ flat_map taken (set_nth l k (BLoop p os v)) = l1 ++ l2.
Proof.
  revert k. induction l as [|a l IH]; intros [|k] H; simpl in H; try discriminate.
  - injection H as ->. exists [], (os ++ flat_map taken l). split; reflexivity.
  - destruct (IH k H) as (l1 & l2 & E1 & E2). exists (taken a ++ l1), l2. simpl. rewrite E1, E2, <- !app_assoc. split; reflexivity.
Qed.
Lemma taken_take (l : list braise) k p q v v' : nth_error l k = Some (BRaise p v) -> Permutation (q ++ flat_map taken l) (flat_map taken (set_nth l k (BLoop p q v'))).
Proof.
  revert k. induction l as [|a l IH]; intros [|k] H; simpl in H; try discriminate.
  - injection H as ->. reflexivity.
  - simpl. rewrite <- (IH k H). rewrite !app_assoc. apply Permutation_app_tail. apply Permutation_app_comm.
Qed.
Lemma phases_app a b : b_phases (a ++ b) = b_phases a + b_phases b.
Proof. unfold b_phases. rewrite filter_app, app_length. reflexivity. Qed.
Lemma bnot_app o a b : b_notified o (a ++ b) = b_notified o a + b_notified o b.
Proof. unfold b_notified. rewrite filter_app, app_length. reflexivity. Qed.

Section Params.
Variable expected : Z.
Variables st_rel ld_acq : bool.
Notation step := (b_step st_rel ld_acq).

Definition tok_ok (tr : list bevent) : Prop := forall t1 s n t2, tr = t1 ++ BEArrive s n :: t2 -> s = b_phases t1.

Record BI (s : bst) (tr : list bevent) : Prop := BInv {
  j_h : b_h s <> [];
  j_val : forall i x w, nth_error (b_h s) i = Some (x, w) -> x = i /\ v_ts w <= i /\
          (st_rel = true -> forall s' n, s' < i -> In (BEArrive s' n) tr -> In n (accs w));
  j_lts : v_ts (b_lv s) = newest (b_h s);
  j_arr : forall s' n, In (BEArrive s' n) tr -> s' <= newest (b_h s) /\ In n (accs (b_lv s));
  j_ev : v_ts (b_ev s) <= newest (b_h s);
  j_rs : forall r, In r (b_rs s) -> rph r < newest (b_h s) /\ S (rph r) <= v_ts (rv r) /\ v_ts (rv r) <= newest (b_h s) /\
         forall s' n, s' <= rph r -> In (BEArrive s' n) tr -> In n (accs (rv r));
  j_B : forall p, p < newest (b_h s) -> (exists v, In (BRaise p v) (b_rs s)) \/ S p <= v_ts (b_ev s);
  j_A : forall o t p, In o (b_q s) -> b_op s o = BWait t -> t <= p -> p < newest (b_h s) -> exists v, In (BRaise p v) (b_rs s);
  j_q : forall o, In o (b_q s ++ flat_map taken (b_rs s)) -> exists t, b_op s o = BWait t;
  j_nd : NoDup (b_q s ++ flat_map taken (b_rs s));
  j_in : forall o t, b_op s o = BWait t -> In o (b_q s ++ flat_map taken (b_rs s));
  j_tw : forall o t, In (BEWait o t) tr -> b_op s o = BWait t \/ b_op s o = BDone;
  j_uw : forall o t t', In (BEWait o t) tr -> In (BEWait o t') tr -> t = t';
  j_wt : forall o t, b_op s o = BWait t -> In (BEWait o t) tr;
  j_tn : forall o, b_notified o tr = match b_op s o with BDone => 1 | _ => 0 end;
  j_dn : forall o by_ b, In (BENotify o by_ b) tr -> b_op s o = BDone;
  j_n : forall o by_ b t, In (BENotify o by_ b) tr -> In (BEWait o t) tr -> (forall p, by_ = Some p -> t <= p) ->
        t < newest (b_h s) /\ ((by_ = None -> st_rel && ld_acq = true) -> forall s' n, s' <= t -> In (BEArrive s' n) tr -> In n b);
  j_ph : b_phases tr = newest (b_h s);
  j_tok : tok_ok tr }.

Lemma tok_snoc tr e : tok_ok tr -> (forall s n, e = BEArrive s n -> s = b_phases tr) -> tok_ok (tr ++ [e]).
Proof.
  intros H He t1 s n t2 Heq. destruct t2 as [|e2 t2'] using rev_ind.
  - apply app_inj_tail in Heq as [-> ->]. exact (He s n eq_refl).
  - clear IHt2'. rewrite app_comm_cons, app_assoc in Heq. apply app_inj_tail in Heq as [-> _]. exact (H t1 s n t2' eq_refl).
Qed.

Lemma BI_init : BI (b_init expected) [].
Proof.
  split; simpl; try solve [intros; contradiction || discriminate || lia || constructor].
  - intros [|[]] x w H; simpl in H; try discriminate. injection H as <- <-. repeat split; simpl; lia.
  - unfold newest. simpl. intros. lia.
  - intros t1 s n t2 H. destruct t1; discriminate.
Qed.

Lemma newest_app {A} (h : hist A) m : h <> [] -> newest (h ++ [m]) = S (newest h).
Proof. intros H. rewrite newest_snoc. unfold newest. destruct h; [congruence|reflexivity]. Qed.
Lemma len_newest {A} (h : hist A) : h <> [] -> length h = S (newest h).
Proof. unfold newest. destruct h; [congruence|reflexivity]. Qed.

Lemma arr_snoc (tr : list bevent) x a e s' n : In (BEArrive s' n) (tr ++ BEArrive x a :: e) -> (forall s n, ~ In (BEArrive s n) e) -> In (BEArrive s' n) tr \/ (s' = x /\ n = a).
Proof. intros H He. apply in_app_or in H as [H|[H|H]]; [auto|injection H; auto|]. destruct (He _ _ H). Qed.

Lemma lv_acc v a lv i n : In n (accs lv) -> In n (accs (vsee (vjoin (vadd v (TData a)) lv) i)).
Proof. intros H. change (In n (accs (vjoin (vadd v (TData a)) lv))). apply accs_join. auto. Qed.
Lemma own_acc v a lv i : In a (accs (vsee (vjoin (vadd v (TData a)) lv) i)).
Proof. left. reflexivity. Qed.

(** the arrival that does not complete the phase *)
Lemma BI_arrive s tr v c e : BI s tr -> v_ts v < length (b_h s) ->
  BI (BS (b_h s) (vsee (vjoin (vadd v (TData (b_acc s))) (b_lv s)) (newest (b_h s))) c e (b_ev s) (b_q s) (b_op s) (b_rs s) (S (b_acc s)))
     (tr ++ [BEArrive (newest (b_h s)) (b_acc s)]).
Proof.
  intros J Hv. pose proof (len_newest _ (j_h _ _ J)) as Hl. set (N := newest (b_h s)) in *.
  assert (Harr : forall s' n, In (BEArrive s' n) (tr ++ [BEArrive N (b_acc s)]) -> In (BEArrive s' n) tr \/ (s' = N /\ n = b_acc s)).
  { intros s' n H. apply arr_snoc in H; [exact H|]. intros ? ? []. }
  assert (Hno : forall e0 : bevent, (forall s' n, e0 <> BEArrive s' n) -> In e0 (tr ++ [BEArrive N (b_acc s)]) -> In e0 tr).
  { intros e0 He H. apply in_app_or in H as [H|[H|[]]]; [exact H|]. destruct (He _ _ (eq_sym H)). }
  split; simpl; fold N; try solve [apply J].
  - intros i x w Hi. destruct (j_val _ _ J i x w Hi) as (-> & Hw & Hr). split; [reflexivity|]. split; [exact Hw|]. intros Hrel s' n Hlt Hin.
    destruct (Harr _ _ Hin) as [Hin'|[-> ->]]; [exact (Hr Hrel s' n Hlt Hin')|]. assert (i < length (b_h s)) by (apply nth_error_Some; congruence). lia.
  - pose proof (j_lts _ _ J). fold N in H. lia.
  - intros s' n Hin. destruct (Harr _ _ Hin) as [Hin'|[-> ->]].
    + destruct (j_arr _ _ J s' n Hin') as [Ha Hb]. split; [exact Ha|]. exact (lv_acc v (b_acc s) (b_lv s) N n Hb).
    + split; [lia|]. exact (own_acc v (b_acc s) (b_lv s) N).
  - intros r Hr. destruct (j_rs _ _ J r Hr) as (H1 & H2 & H3 & H4). fold N in H1, H3. repeat split; auto. intros s' n Hle Hin.
    destruct (Harr _ _ Hin) as [Hin'|[-> ->]]; [eauto|lia].
  - intros o t Hin. apply (j_tw _ _ J). apply Hno; [discriminate|exact Hin].
  - intros o t t' H1 H2. apply (j_uw _ _ J o); apply Hno; auto; discriminate.
  - intros o t Ho. apply in_or_app. left. exact (j_wt _ _ J o t Ho).
  - intros o. rewrite bnot_app, (j_tn _ _ J o). unfold b_notified. simpl. lia.
  - intros o by_ b Hin. apply (j_dn _ _ J o by_ b). apply Hno; [discriminate|exact Hin].
  - intros o by_ b t H1 H2 Hp. apply Hno in H1; [|discriminate]. apply Hno in H2; [|discriminate]. destruct (j_n _ _ J o by_ b t H1 H2 Hp) as [Hlt Hs].
    split; [exact Hlt|]. intros Hb s' n Hle Hin. destruct (Harr _ _ Hin) as [Hin'|[-> ->]]; [eauto|]. fold N in Hlt. lia.
  - rewrite phases_app, (j_ph _ _ J). unfold b_phases. simpl. fold N. lia.
  - apply tok_snoc; [exact (j_tok _ _ J)|]. intros s' n E. injection E as <- _. symmetry. exact (j_ph _ _ J).
Qed.

(** the arrival that completes the phase *)
Lemma BI_phase s tr v c e w3 : BI s tr -> v_ts v < length (b_h s) ->
  let v3 := vsee (vsee (vjoin (vadd v (TData (b_acc s))) (b_lv s)) (newest (b_h s))) (length (b_h s)) in
  w3 = (if st_rel then v3 else vbot) ->
  BI (BS (b_h s ++ [(S (newest (b_h s)), w3)]) v3 c e (b_ev s) (b_q s) (b_op s) (b_rs s ++ [BRaise (newest (b_h s)) v3]) (S (b_acc s)))
     (tr ++ [BEArrive (newest (b_h s)) (b_acc s); BEPhase (newest (b_h s))]).
Proof.
  intros J Hv v3 Hw3. pose proof (len_newest _ (j_h _ _ J)) as Hl. pose proof (newest_app (b_h s) (S (newest (b_h s)), w3) (j_h _ _ J)) as Hnew. set (N := newest (b_h s)) in *.
  assert (Hts3 : v_ts v3 = S N) by (unfold v3; simpl; rewrite (j_lts _ _ J); fold N; lia).
  assert (Harr : forall s' n, In (BEArrive s' n) (tr ++ [BEArrive N (b_acc s); BEPhase N]) -> In (BEArrive s' n) tr \/ (s' = N /\ n = b_acc s)).
  { intros s' n H. apply arr_snoc in H; [exact H|]. intros ? ? [E|[]]. discriminate. }
  assert (Hno : forall e0 : bevent, (forall s' n, e0 <> BEArrive s' n) -> (forall s', e0 <> BEPhase s') -> In e0 (tr ++ [BEArrive N (b_acc s); BEPhase N]) -> In e0 tr).
  { intros e0 He He' H. apply in_app_or in H as [H|[H|[H|[]]]]; [exact H|destruct (He _ _ (eq_sym H))|destruct (He' _ (eq_sym H))]. }
  assert (Hall : forall s' n, In (BEArrive s' n) (tr ++ [BEArrive N (b_acc s); BEPhase N]) -> s' <= N /\ In n (accs v3)).
  { intros s' n Hin. destruct (Harr _ _ Hin) as [Hin'|[-> ->]].
    - destruct (j_arr _ _ J s' n Hin') as [Ha Hb]. split; [exact Ha|]. exact (lv_acc v (b_acc s) (b_lv s) N n Hb).
    - split; [lia|]. exact (own_acc v (b_acc s) (b_lv s) N). }
  assert (Htk : flat_map taken (b_rs s ++ [BRaise N v3]) = flat_map taken (b_rs s)) by (rewrite flat_map_app; simpl; apply app_nil_r).
  split; simpl; rewrite ?Hnew, ?Htk; try solve [apply J].
  - destruct (b_h s); discriminate.
  - intros i x w Hi. apply nth_snoc in Hi as [[Hlt Hi]|[-> Hi]].
    + destruct (j_val _ _ J i x w Hi) as (-> & Hw & Hr). split; [reflexivity|]. split; [exact Hw|]. intros Hrel s' n Hlt' Hin.
      destruct (Harr _ _ Hin) as [Hin'|[-> ->]]; [exact (Hr Hrel s' n Hlt' Hin')|]. lia.
    + injection Hi as -> ->. split; [lia|]. split; [rewrite Hw3; destruct st_rel; [rewrite Hts3|simpl]; lia|]. intros Hrel s' n _ Hin. rewrite Hw3, Hrel. exact (proj2 (Hall _ _ Hin)).
  - exact Hts3.
  - intros s' n Hin. destruct (Hall _ _ Hin). split; [lia|assumption].
  - pose proof (j_ev _ _ J). fold N in H. lia.
  - intros r Hr. apply in_app_or in Hr as [Hr|[<-|[]]].
    + destruct (j_rs _ _ J r Hr) as (H1 & H2 & H3 & H4). fold N in H1, H3. split; [lia|]. split; [lia|]. split; [lia|]. intros s' n Hle Hin.
      destruct (Harr _ _ Hin) as [Hin'|[-> ->]]; [eauto|lia].
    + simpl rph. simpl rv. rewrite Hts3. repeat split; try lia. intros s' n _ Hin. exact (proj2 (Hall _ _ Hin)).
  - intros p Hp. destruct (Nat.eq_dec p N) as [->|Hne]; [left; exists v3; apply in_or_app; right; left; reflexivity|].
    destruct (j_B _ _ J p) as [(v0 & Hv0)|Hev]; [fold N; lia| |right; exact Hev]. left. exists v0. apply in_or_app. auto.
  - intros o t p Hq Ho Hle Hp. destruct (Nat.eq_dec p N) as [->|Hne]; [exists v3; apply in_or_app; right; left; reflexivity|].
    destruct (j_A _ _ J o t p Hq Ho Hle) as (v0 & Hv0); [fold N; lia|]. exists v0. apply in_or_app. auto.
  - intros o t Hin. apply (j_tw _ _ J). apply Hno; [discriminate|discriminate|exact Hin].
  - intros o t t' H1 H2. apply (j_uw _ _ J o); apply Hno; auto; discriminate.
  - intros o t Ho. apply in_or_app. left. exact (j_wt _ _ J o t Ho).
  - intros o. rewrite bnot_app, (j_tn _ _ J o). unfold b_notified. simpl. lia.
  - intros o by_ b Hin. apply (j_dn _ _ J o by_ b). apply Hno; [discriminate|discriminate|exact Hin].
  - intros o by_ b t H1 H2 Hp. apply Hno in H1; [|discriminate|discriminate]. apply Hno in H2; [|discriminate|discriminate]. destruct (j_n _ _ J o by_ b t H1 H2 Hp) as [Hlt Hs].
    fold N in Hlt. split; [lia|]. intros Hb s' n Hle Hin. destruct (Harr _ _ Hin) as [Hin'|[-> ->]]; [eauto|]. lia.
  - rewrite phases_app, (j_ph _ _ J). unfold b_phases. simpl. fold N. lia.
  - change [BEArrive N (b_acc s); BEPhase N] with ([BEArrive N (b_acc s)] ++ [BEPhase N]). rewrite app_assoc. apply tok_snoc; [|discriminate].
    apply tok_snoc; [exact (j_tok _ _ J)|]. intros s' n E. injection E as <- _. symmetry. exact (j_ph _ _ J).
Qed.

Lemma BI_raise s tr k p v : BI s tr -> nth_error (b_rs s) k = Some (BRaise p v) ->
  BI (BS (b_h s) (b_lv s) (b_ctr s) (b_exp s) (vjoin v (b_ev s)) [] (b_op s) (set_nth (b_rs s) k (BLoop p (b_q s) (vjoin v (b_ev s)))) (b_acc s)) (tr ++ []).
Proof.
  intros J Hk. rewrite app_nil_r. destruct (j_rs _ _ J _ (nth_error_In _ _ Hk)) as (H1 & H2 & H3 & H4). simpl in H1, H2, H3, H4.
  pose proof (taken_take (b_rs s) k p (b_q s) v (vjoin v (b_ev s)) Hk) as Hperm. pose proof (j_ev _ _ J) as Hev.
  split; simpl; try solve [apply J].
  - lia.
  - intros r Hr. apply In_set_nth in Hr as [->|Hr]; [|exact (j_rs _ _ J r Hr)]. simpl. split; [exact H1|]. split; [lia|]. split; [lia|].
    intros s' n Hle Hin. apply accs_join. left. exact (H4 s' n Hle Hin).
  - intros p' Hp'. destruct (j_B _ _ J p' Hp') as [(v0 & Hv0)|Hle]; [|right; lia]. apply In_nth_error in Hv0 as [k' Hk'].
    destruct (Nat.eq_dec k' k) as [->|Hne].
    + rewrite Hk in Hk'. injection Hk' as <- <-. right. lia.
    + left. exists v0. apply (nth_error_In _ k'). rewrite nth_error_set_nth_other by auto. exact Hk'.
  - intros; contradiction.
  - intros o Ho. apply (j_q _ _ J). exact (Permutation_in _ (Permutation_sym Hperm) Ho).
  - exact (Permutation_NoDup Hperm (j_nd _ _ J)).
  - intros o t Ho. exact (Permutation_in _ Hperm (j_in _ _ J o t Ho)).
Qed.

Lemma BI_wake s tr k p o os v t : BI s tr -> nth_error (b_rs s) k = Some (BLoop p (o :: os) v) -> b_op s o = BWait t ->
  BI (BS (b_h s) (b_lv s) (b_ctr s) (b_exp s) (b_ev s) (b_q s) (upd (b_op s) o BDone) (set_nth (b_rs s) k (BLoop p os v)) (b_acc s)) (tr ++ [BENotify o (Some p) (accs v)]).
Proof.
  intros J Hk Ho. destruct (j_rs _ _ J _ (nth_error_In _ _ Hk)) as (H1 & H2 & H3 & H4). simpl in H1, H2, H3, H4.
  destruct (taken_drop _ _ _ _ _ _ Hk) as (l1 & l2 & E1 & E2). pose proof (j_nd _ _ J) as Hnd. rewrite E1, app_assoc in Hnd.
  assert (Hnin : ~ In o (b_q s ++ l1 ++ l2)) by (rewrite app_assoc; exact (NoDup_remove_2 _ _ _ Hnd)).
  assert (Hno : forall e0 : bevent, (forall o b c, e0 <> BENotify o b c) -> In e0 (tr ++ [BENotify o (Some p) (accs v)]) -> In e0 tr).
  { intros e0 He H. apply in_app_or in H as [H|[H|[]]]; [exact H|]. destruct (He _ _ _ (eq_sym H)). }
  assert (HR : forall p' v0, In (BRaise p' v0) (b_rs s) -> In (BRaise p' v0) (set_nth (b_rs s) k (BLoop p os v))).
  { intros p' v0 Hin. apply In_nth_error in Hin as [k' Hk']. apply (nth_error_In _ k'). rewrite nth_error_set_nth_other; [exact Hk'|]. intros ->. rewrite Hk in Hk'. discriminate. }
  split; simpl; rewrite ?E2; try solve [apply J].
  - intros i x w Hi. destruct (j_val _ _ J i x w Hi) as (Hx & Hw & Hr). split; [exact Hx|]. split; [exact Hw|]. intros Hrel s' n Hlt Hin.
    apply (Hr Hrel s' n Hlt). apply Hno; [discriminate|exact Hin].
  - intros s' n Hin. apply (j_arr _ _ J). apply Hno; [discriminate|exact Hin].
  - intros r Hr. apply In_set_nth in Hr as [->|Hr]; [simpl|]; [|destruct (j_rs _ _ J r Hr) as (A1 & A2 & A3 & A4)]; repeat split; auto; intros s' n Hle Hin.
    + apply (H4 s' n Hle). apply Hno; [discriminate|exact Hin].
    + apply (A4 s' n Hle). apply Hno; [discriminate|exact Hin].
  - intros p' Hp'. destruct (j_B _ _ J p' Hp') as [(v0 & Hv0)|Hle]; [|right; exact Hle]. left. exists v0. exact (HR _ _ Hv0).
  - intros o' t' p' Hq Ho' Hle Hp'. destruct (Nat.eq_dec o' o) as [->|Hn]; [rewrite upd_same in Ho'; discriminate|]. rewrite upd_other in Ho' by exact Hn.
    destruct (j_A _ _ J o' t' p' Hq Ho' Hle Hp') as (v0 & Hv0). exists v0. exact (HR _ _ Hv0).
  - intros o' Hin. rewrite upd_other; [|intros ->; exact (Hnin Hin)]. apply (j_q _ _ J). rewrite E1. rewrite !in_app_iff in *. simpl. tauto.
  - rewrite app_assoc. exact (NoDup_remove_1 _ _ _ Hnd).
  - intros o' t' Ho'. destruct (Nat.eq_dec o' o) as [->|Hn]; [rewrite upd_same in Ho'; discriminate|]. rewrite upd_other in Ho' by exact Hn.
    apply (j_in _ _ J) in Ho'. rewrite E1 in Ho'. rewrite !in_app_iff in *. simpl in Ho'. intuition congruence.
  - intros o' t' Hin. apply Hno in Hin; [|discriminate]. destruct (Nat.eq_dec o' o) as [->|Hn]; [right; apply upd_same|]. rewrite upd_other by exact Hn.
    exact (j_tw _ _ J o' t' Hin).
  - intros o' t1 t2 A B. apply Hno in A; [|discriminate]. apply Hno in B; [|discriminate]. exact (j_uw _ _ J o' t1 t2 A B).
  - intros o' t' Ho'. destruct (Nat.eq_dec o' o) as [->|Hn]; [rewrite upd_same in Ho'; discriminate|]. rewrite upd_other in Ho' by exact Hn.
    apply in_or_app. left. exact (j_wt _ _ J o' t' Ho').
  - intros o'. rewrite bnot_app, (j_tn _ _ J o'). unfold b_notified. simpl. destruct (Nat.eqb_spec o o') as [->|Hn]; simpl.
    + rewrite upd_same, Ho. reflexivity.
    + rewrite upd_other by auto. lia.
  - intros o' by_ b Hin. apply in_app_or in Hin as [Hin|[E|[]]]; [|injection E as <- _ _; apply upd_same].
    destruct (Nat.eq_dec o' o) as [->|Hn]; [apply upd_same|]. rewrite upd_other by exact Hn. exact (j_dn _ _ J o' by_ b Hin).
  - intros o' by_ b t' A B Hp. apply Hno in B; [|discriminate]. apply in_app_or in A as [A|[E|[]]].
    + destruct (j_n _ _ J o' by_ b t' A B Hp) as [C D]. split; [exact C|]. intros Hb s' n Hle Hin. apply (D Hb s' n Hle). apply Hno; [discriminate|exact Hin].
    + injection E as <- <- <-. specialize (Hp p eq_refl). split; [lia|]. intros _ s' n Hle Hin. apply (H4 s' n); [lia|]. apply Hno; [discriminate|exact Hin].
  - rewrite phases_app, (j_ph _ _ J). unfold b_phases. simpl. lia.
  - apply tok_snoc; [exact (j_tok _ _ J)|discriminate].
Qed.

(** facts about a wait that starts *)
Lemma BI_queue s tr o t v i w v2 : BI s tr -> b_op s o = BIdle -> rd (b_h s) (vjoin v (b_ev s)) i = Some (t, w) -> v_ts v2 = i ->
  BI (BS (b_h s) (b_lv s) (b_ctr s) (b_exp s) v2 (b_q s ++ [o]) (upd (b_op s) o (BWait t)) (b_rs s) (b_acc s)) (tr ++ [BEWait o t]).
Proof.
  intros J Ho Hr Hv2. apply rd_some in Hr as (Hle & Hi & Hl). simpl in Hle. destruct (j_val _ _ J i t w Hi) as (-> & _ & _).
  pose proof (len_newest _ (j_h _ _ J)) as HL.
  assert (Hno : forall e0 : bevent, (forall o t, e0 <> BEWait o t) -> In e0 (tr ++ [BEWait o i]) -> In e0 tr).
  { intros e0 He H. apply in_app_or in H as [H|[H|[]]]; [exact H|]. destruct (He _ _ (eq_sym H)). }
  assert (Hnin : ~ In o (b_q s ++ flat_map taken (b_rs s))) by (intros H; destruct (j_q _ _ J o H); congruence).
  assert (Hnw : forall t', ~ In (BEWait o t') tr) by (intros t' H; destruct (j_tw _ _ J o t' H); congruence).
  split; simpl; try solve [apply J].
  - intros j x w' Hj. destruct (j_val _ _ J j x w' Hj) as (Hx & Hw & Hr). split; [exact Hx|]. split; [exact Hw|]. intros Hrel s' n Hlt Hin.
    apply (Hr Hrel s' n Hlt). apply Hno; [discriminate|exact Hin].
  - intros s' n Hin. apply (j_arr _ _ J). apply Hno; [discriminate|exact Hin].
  - lia.
  - intros r Hr. destruct (j_rs _ _ J r Hr) as (A1 & A2 & A3 & A4). repeat split; auto. intros s' n Hle' Hin. apply (A4 s' n Hle'). apply Hno; [discriminate|exact Hin].
  - intros p Hp. destruct (j_B _ _ J p Hp) as [A|A]; [left; exact A|right; lia].
  - intros o' t' p Hq Ho' Hle' Hp. apply in_app_or in Hq as [Hq|[<-|[]]].
    + assert (o' <> o) by (intros ->; apply Hnin; apply in_or_app; auto). rewrite upd_other in Ho' by assumption. exact (j_A _ _ J o' t' p Hq Ho' Hle' Hp).
    + rewrite upd_same in Ho'. injection Ho' as <-. destruct (j_B _ _ J p Hp) as [A|A]; [exact A|]. lia.
  - intros o' Hin. rewrite <- app_assoc in Hin. simpl in Hin. destruct (Nat.eq_dec o' o) as [->|Hn]; [rewrite upd_same; eauto|]. rewrite upd_other by exact Hn.
    apply (j_q _ _ J). rewrite in_app_iff in *. simpl in Hin. intuition congruence.
  - rewrite <- app_assoc. simpl. apply NoDup_Add with (a := o) (l := b_q s ++ flat_map taken (b_rs s)); [apply Add_app|]. split; [exact (j_nd _ _ J)|exact Hnin].
  - intros o' t' Ho'. rewrite <- app_assoc. simpl. rewrite in_app_iff. simpl. destruct (Nat.eq_dec o' o) as [->|Hn]; [auto|]. rewrite upd_other in Ho' by exact Hn.
    apply (j_in _ _ J) in Ho'. rewrite in_app_iff in Ho'. tauto.
  - intros o' t' Hin. apply in_app_or in Hin as [Hin|[E|[]]]; [|injection E as <- <-; left; apply upd_same].
    assert (o' <> o) by (intros ->; exact (Hnw t' Hin)). rewrite upd_other by assumption. exact (j_tw _ _ J o' t' Hin).
  - intros o' t1 t2 A B. apply in_app_or in A as [A|[A|[]]]; apply in_app_or in B as [B|[B|[]]].
    + exact (j_uw _ _ J o' t1 t2 A B).
    + injection B as <- <-. destruct (Hnw _ A).
    + injection A as <- <-. destruct (Hnw _ B).
    + congruence.
  - intros o' t' Ho'. apply in_or_app. destruct (Nat.eq_dec o' o) as [->|Hn]; [rewrite upd_same in Ho'; injection Ho' as <-; right; left; reflexivity|].
    rewrite upd_other in Ho' by exact Hn. left. exact (j_wt _ _ J o' t' Ho').
  - intros o'. rewrite bnot_app, (j_tn _ _ J o'). unfold b_notified. simpl. destruct (Nat.eq_dec o' o) as [->|Hn]; [rewrite upd_same, Ho; reflexivity|].
    rewrite upd_other by exact Hn. lia.
  - intros o' by_ b Hin. apply Hno in Hin; [|discriminate]. pose proof (j_dn _ _ J o' by_ b Hin) as D. rewrite upd_other; [exact D|]. intros ->. congruence.
  - intros o' by_ b t' A B Hp. apply Hno in A; [|discriminate]. pose proof (j_dn _ _ J o' by_ b A) as D. apply in_app_or in B as [B|[E|[]]]; [|injection E as <- <-; congruence].
    destruct (j_n _ _ J o' by_ b t' A B Hp) as [C D']. split; [exact C|]. intros Hb s' n Hle' Hin. apply (D' Hb s' n Hle'). apply Hno; [discriminate|exact Hin].
  - rewrite phases_app, (j_ph _ _ J). unfold b_phases. simpl. lia.
  - apply tok_snoc; [exact (j_tok _ _ J)|discriminate].
Qed.

Lemma BI_inline s tr o t v i x w : BI s tr -> b_op s o = BIdle -> rd (b_h s) (vjoin v (b_ev s)) i = Some (x, w) -> t <= v_ts v -> v_ts v < length (b_h s) -> x <> t ->
  let v2 := vsee (if ld_acq then vjoin (vjoin v (b_ev s)) w else vjoin v (b_ev s)) i in v_ts v2 <= newest (b_h s) ->
  BI (BS (b_h s) (b_lv s) (b_ctr s) (b_exp s) v2 (b_q s) (upd (b_op s) o BDone) (b_rs s) (b_acc s)) (tr ++ [BEWait o t; BENotify o None (accs v2)]).
Proof.
  intros J Ho Hr Ht Hv Hne v2 Hv2. apply rd_some in Hr as (Hle & Hi & Hl). simpl in Hle. destruct (j_val _ _ J i x w Hi) as (-> & Hw & Hrel).
  pose proof (len_newest _ (j_h _ _ J)) as HL.
  assert (Hev : v_ts (b_ev s) <= v_ts v2) by (unfold v2; destruct ld_acq; simpl; lia).
  assert (Hno : forall e0 : bevent, (forall o t, e0 <> BEWait o t) -> (forall o b c, e0 <> BENotify o b c) -> In e0 (tr ++ [BEWait o t; BENotify o None (accs v2)]) -> In e0 tr).
  { intros e0 He He' H. apply in_app_or in H as [H|[H|[H|[]]]]; [exact H|destruct (He _ _ (eq_sym H))|destruct (He' _ _ _ (eq_sym H))]. }
  assert (Hnin : ~ In o (b_q s ++ flat_map taken (b_rs s))) by (intros H; destruct (j_q _ _ J o H); congruence).
  assert (Hnw : forall t', ~ In (BEWait o t') tr) by (intros t' H; destruct (j_tw _ _ J o t' H); congruence).
  split; simpl; try solve [apply J].
  - intros j x w' Hj. destruct (j_val _ _ J j x w' Hj) as (Hx & Hw' & Hr). split; [exact Hx|]. split; [exact Hw'|]. intros Hrel' s' n Hlt Hin.
    apply (Hr Hrel' s' n Hlt). apply Hno; [discriminate|discriminate|exact Hin].
  - intros s' n Hin. apply (j_arr _ _ J). apply Hno; [discriminate|discriminate|exact Hin].
  - exact Hv2.
  - intros r Hr. destruct (j_rs _ _ J r Hr) as (A1 & A2 & A3 & A4). repeat split; auto. intros s' n Hle' Hin. apply (A4 s' n Hle'). apply Hno; [discriminate|discriminate|exact Hin].
  - intros p Hp. destruct (j_B _ _ J p Hp) as [A|A]; [left; exact A|right; lia].
  - intros o' t' p Hq Ho' Hle' Hp. assert (o' <> o) by (intros ->; apply Hnin; apply in_or_app; auto). rewrite upd_other in Ho' by assumption.
    exact (j_A _ _ J o' t' p Hq Ho' Hle' Hp).
  - intros o' Hin. rewrite upd_other by (intros ->; exact (Hnin Hin)). exact (j_q _ _ J o' Hin).
  - intros o' t' Ho'. destruct (Nat.eq_dec o' o) as [->|Hn]; [rewrite upd_same in Ho'; discriminate|]. rewrite upd_other in Ho' by exact Hn. exact (j_in _ _ J o' t' Ho').
  - intros o' t' Hin. apply in_app_or in Hin as [Hin|[E|[E|[]]]]; [|injection E as <- <-; right; apply upd_same|discriminate].
    assert (o' <> o) by (intros ->; exact (Hnw t' Hin)). rewrite upd_other by assumption. exact (j_tw _ _ J o' t' Hin).
  - intros o' t1 t2 A B. apply in_app_or in A as [A|[A|[A|[]]]]; [| |discriminate]; (apply in_app_or in B as [B|[B|[B|[]]]]; [| |discriminate]).
    + exact (j_uw _ _ J o' t1 t2 A B).
    + injection B as <- <-. destruct (Hnw _ A).
    + injection A as <- <-. destruct (Hnw _ B).
    + congruence.
  - intros o' t' Ho'. apply in_or_app. destruct (Nat.eq_dec o' o) as [->|Hn]; [rewrite upd_same in Ho'; discriminate|].
    rewrite upd_other in Ho' by exact Hn. left. exact (j_wt _ _ J o' t' Ho').
  - intros o'. rewrite bnot_app, (j_tn _ _ J o'). unfold b_notified. simpl. destruct (Nat.eqb_spec o o') as [->|Hn]; simpl; [rewrite upd_same, Ho; reflexivity|].
    rewrite upd_other by auto. lia.
  - intros o' by_ b Hin. apply in_app_or in Hin as [Hin|[E|[E|[]]]]; [|discriminate|injection E as <- _ _; apply upd_same].
    pose proof (j_dn _ _ J o' by_ b Hin) as D. rewrite upd_other; [exact D|]. intros ->. congruence.
  - intros o' by_ b t' A B Hp. apply in_app_or in A as [A|[A|[A|[]]]]; [|discriminate|].
    + pose proof (j_dn _ _ J o' by_ b A) as D. apply in_app_or in B as [B|[E|[E|[]]]]; [|injection E as <- <-; congruence|discriminate].
      destruct (j_n _ _ J o' by_ b t' A B Hp) as [C D']. split; [exact C|]. intros Hb s' n Hle' Hin. apply (D' Hb s' n Hle'). apply Hno; [discriminate|discriminate|exact Hin].
    + injection A as <- <- <-. apply in_app_or in B as [B|[E|[E|[]]]]; [destruct (Hnw _ B)| |discriminate]. injection E as <-.
      split; [lia|]. intros Hb s' n Hle' Hin. specialize (Hb eq_refl). apply andb_true_iff in Hb as [Hb1 Hb2].
      apply Hno in Hin; [|discriminate|discriminate]. pose proof (Hrel Hb1 s' n ltac:(lia) Hin) as Hin2. unfold v2. rewrite Hb2. apply (proj2 (accs_join _ _ n)). auto.
  - rewrite phases_app, (j_ph _ _ J). unfold b_phases. simpl. lia.
  - change [BEWait o t; BENotify o None (accs v2)] with ([BEWait o t] ++ [BENotify o None (accs v2)]). rewrite app_assoc.
    apply tok_snoc; [apply tok_snoc; [exact (j_tok _ _ J)|discriminate]|discriminate].
Qed.

Lemma BI_step s tr l : BI s tr -> (forall s' es, step s l = Next s' es -> BI s' (tr ++ es)) /\ forall f es, step s l = Fail f es -> f = AssertFailed.
Proof.
  intros J. pose proof (len_newest _ (j_h _ _ J)) as HL. destruct l as [n delta v i|k|k|o t v i]; simpl.
  - destruct (Nat.ltb_spec (v_ts v) (length (b_h s))) as [Hv|Hv]; [|split; discriminate].
    destruct (rd (b_h s) (vjoin (vadd v (TData (b_acc s))) (b_lv s)) i) as [[x w]|] eqn:Hr; [|split; discriminate].
    apply rd_some in Hr as (Hle & Hi & Hl). simpl in Hle. rewrite (j_lts _ _ J) in Hle. assert (i = newest (b_h s)) by lia. subst i.
    destruct (j_val _ _ J _ _ _ Hi) as (-> & _ & _).
    destruct (b_exp s + delta <? 0)%Z; [split; [discriminate|intros f es E; injection E; auto]|].
    destruct (b_ctr s + n =? b_exp s + delta)%Z.
    + destruct (Nat.eqb_spec (Nat.max (Nat.max (v_ts v) (v_ts (b_lv s))) (newest (b_h s))) (newest (b_h s))) as [E|E].
      * split; [|discriminate]. intros s' es Es. injection Es as <- <-. apply BI_phase; auto.
      * exfalso. apply E. rewrite (j_lts _ _ J). lia.
    + destruct (b_ctr s + n <? b_exp s + delta)%Z; [|split; [discriminate|intros f es E; injection E; auto]].
      split; [|discriminate]. intros s' es Es. injection Es as <- <-. apply BI_arrive; auto.
  - destruct (nth_error (b_rs s) k) as [[p v|p os v]|] eqn:Hk; try (split; discriminate). split; [|discriminate]. intros s' es Es. injection Es as <- <-.
    exact (BI_raise s tr k p v J Hk).
  - destruct (nth_error (b_rs s) k) as [[p v|p [|o os] v]|] eqn:Hk; try (split; discriminate).
    destruct (j_q _ _ J o) as (t & Ho).
    { apply in_or_app. right. apply in_flat_map. exists (BLoop p (o :: os) v). split; [exact (nth_error_In _ _ Hk)|left; reflexivity]. }
    rewrite Ho. split; [|discriminate]. intros s' es Es. injection Es as <- <-. exact (BI_wake s tr k p o os v t J Hk Ho).
  - destruct (b_op s o) eqn:Ho; try (split; discriminate). destruct (rd (b_h s) (vjoin v (b_ev s)) i) as [[x w]|] eqn:Hr; [|split; discriminate].
    destruct (Nat.leb_spec t (v_ts v)) as [Ht|Ht]; [|split; discriminate]. destruct (Nat.ltb_spec (v_ts v) (length (b_h s))) as [Hv|Hv]; [|split; discriminate]. simpl andb. cbv iota.
    pose proof (rd_some _ _ _ _ Hr) as (Hle & Hi & Hl). simpl in Hle. destruct (j_val _ _ J i x w Hi) as (Hx & Hw & _).
    assert (Hv2 : v_ts (vsee (if ld_acq then vjoin (vjoin v (b_ev s)) w else vjoin v (b_ev s)) i) <= newest (b_h s)) by (destruct ld_acq; simpl; lia).
    destruct (Nat.eqb_spec x t) as [->|Hne].
    + split; [|discriminate]. intros s' es Es. injection Es as <- <-. apply (BI_queue s tr o t v i w _ J Ho Hr). subst t. 
      destruct ld_acq; simpl; lia.
    + split; [|discriminate]. intros s' es Es. injection Es as <- <-. exact (BI_inline s tr o t v i x w J Ho Hr Ht Hv Hne Hv2).
Qed.

Theorem b_inv ls s tr : run step (b_init expected) ls = Running s tr -> BI s tr.
Proof. apply (run_inv step BI (b_init expected) BI_init). intros s1 tr1 l s2 es J Hs. exact (proj1 (BI_step s1 tr1 l J) s2 es Hs). Qed.
Theorem b_fail ls f tr : run step (b_init expected) ls = Failed f tr -> f = AssertFailed.
Proof.
  intros H. apply run_from_failed in H as (ls1 & l & s1 & tr1 & es & Hr & Hs & _).
  exact (proj2 (BI_step s1 tr1 l (b_inv ls1 s1 tr1 Hr)) f es Hs).
Qed.
Theorem b_raise_sees ls s tr : run step (b_init expected) ls = Running s tr -> sees_arrivals_raise tr.
Proof.
  intros Hr o p before t A B Hle s' n Hs Hin. pose proof (b_inv ls s tr Hr) as J.
  destruct (j_n _ _ J o (Some p) before t A B) as [_ H]; [intros q E; injection E as <-; exact Hle|]. apply (H ltac:(discriminate) s' n Hs Hin).
Qed.
Theorem b_sees ls s tr : st_rel && ld_acq = true -> run step (b_init expected) ls = Running s tr -> sees_arrivals tr.
Proof.
  intros Ho Hr o by_ before t A B Hle s' n Hs Hin. pose proof (b_inv ls s tr Hr) as J. destruct (j_n _ _ J o by_ before t A B Hle) as [_ H]. exact (H (fun _ => Ho) s' n Hs Hin).
Qed.
Theorem b_notearly ls s tr o by_ before t : run step (b_init expected) ls = Running s tr -> In (BENotify o by_ before) tr -> In (BEWait o t) tr ->
  (forall p, by_ = Some p -> t <= p) -> t < b_phases tr.
Proof. intros Hr A B Hle. pose proof (b_inv ls s tr Hr) as J. rewrite (j_ph _ _ J). exact (proj1 (j_n _ _ J o by_ before t A B Hle)). Qed.
Theorem b_live ls s tr o t : run step (b_init expected) ls = Running s tr -> b_quiet s -> In (BEWait o t) tr -> t < b_phases tr -> b_notified o tr = 1.
Proof.
  intros Hr Hq Hw Ht. pose proof (b_inv ls s tr Hr) as J. rewrite (j_tn _ _ J o). destruct (j_tw _ _ J o t Hw) as [E|E]; [|rewrite E; reflexivity]. exfalso.
  pose proof (j_in _ _ J o t E) as Hin. apply in_app_or in Hin as [Hin|Hin].
  - rewrite (j_ph _ _ J) in Ht. destruct (j_A _ _ J o t t Hin E (le_n _) Ht) as (v & Hv). destruct (Hq _ Hv) as (p & v' & E'). discriminate.
  - apply in_flat_map in Hin as (r & Hr' & Ho). destruct (Hq r Hr') as (p & v & ->). destruct Ho.
Qed.
Theorem b_once ls s tr o : run step (b_init expected) ls = Running s tr -> b_notified o tr <= 1.
Proof. intros Hr. rewrite (j_tn _ _ (b_inv ls s tr Hr) o). destruct (b_op s o); lia. Qed.
End Params.
