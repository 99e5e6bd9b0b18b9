(** When a oneshot_primitive may be destroyed under the C++ memory model: C95. *)
From Coq Require Import List Arith Bool Lia.
From Verif Require Import Lts ListFacts M_Mutex P_Mutex M_Weak M_OneshotPrim P_OneshotPrim P_MutexW M_OneshotW S_OneshotW P_OneshotW M_WaitGroupWD P_WaitGroupWD M_OneshotWD S_OneshotWD.
Import ListNotations.

(** ** Marking a call does not matter for the invariants of M_OneshotW *)
Lemma qops_fst a v v' : qops (a, v) = qops (a, v').
Proof. destruct a; reflexivity. Qed.
Lemma qrr_fst a v v' : qrr (a, v) = qrr (a, v').
Proof. destruct a; reflexivity. Qed.
Lemma fm_set l k a v a' v' : nth_error l k = Some (a, v) -> qops (a', v') = qops (a, v) -> flat_map qops (set_nth l k (a', v')) = flat_map qops l.
Proof. revert k. induction l as [|b l IH]; intros [|k] H E; simpl in *; try discriminate; [injection H as ->; now rewrite E|now rewrite (IH k H E)]. Qed.
Lemma sr_set l k a v a' v' : nth_error l k = Some (a, v) -> qrr (a', v') = qrr (a, v) -> sum (map qrr (set_nth l k (a', v'))) = sum (map qrr l).
Proof. intros H E. pose proof (sum_map_set_nth qrr _ k (a', v') _ H). lia. Qed.
Lemma mark_in s k m b u : In (b, u) (q_act (q_mark s k m)) -> exists u0, In (b, u0) (q_act s) /\ (u = u0 \/ (u = vadd u0 (TCall m) /\ nth_error (q_act s) k = Some (b, u0))).
Proof.
  unfold q_mark. destruct (nth_error (q_act s) k) as [[a v]|] eqn:Ek; simpl; intros H.
  - apply In_set_nth in H as [E|H]; [|eauto]. injection E as -> ->. exists v. split; [exact (nth_error_In _ _ Ek)|auto].
  - eauto.
Qed.
Lemma qmark_same s k m : q_h (q_mark s k m) = q_h s /\ q_next (q_mark s k m) = q_next s /\ q_op (q_mark s k m) = q_op s /\ q_acc (q_mark s k m) = q_acc s /\
  flat_map qops (q_act (q_mark s k m)) = flat_map qops (q_act s) /\ sum (map qrr (q_act (q_mark s k m))) = sum (map qrr (q_act s)).
Proof.
  unfold q_mark. destruct (nth_error (q_act s) k) as [[a v]|] eqn:Ek; simpl; repeat split; [apply (fm_set _ _ _ _ _ _ Ek); apply qops_fst|apply (sr_set _ _ _ _ _ _ Ek); apply qrr_fst].
Qed.
Lemma mark_QI s k m tr l lr : QI s tr l lr -> QI (q_mark s k m) tr l lr.
Proof.
  intros J. destruct (qmark_same s k m) as (E1 & E2 & E3 & E4 & E5 & E6).
  split; rewrite ?E1, ?E2, ?E3, ?E4, ?E5, ?E6; try solve [apply J].
  - intros b u Hb. apply mark_in in Hb as (u0 & Hb & [->|[-> _]]); exact (qi_ts _ _ _ _ J _ _ Hb).
  - intros b u Hb. apply mark_in in Hb as (u0 & Hb & _). exact (qi_lr _ _ _ _ J _ _ Hb).
  - intros b u Hb Hr. apply mark_in in Hb as (u0 & Hb & [->|[-> _]]); exact (qi_kr _ _ _ _ J _ _ Hb Hr).
  - intros o u Hb. apply mark_in in Hb as (u0 & Hb & [->|[-> _]]); exact (qi_ff _ _ _ _ J _ _ Hb).
  - intros b u o Hb Ho. apply mark_in in Hb as (u0 & Hb & [->|[-> _]]); exact (qi_o _ _ _ _ J _ _ o Hb Ho).
Qed.

(** ** The accesses to the primitive *)
Definition by_op (ws : list qwho) (m o : nat) : Prop := nth_error ws m = Some (RWait o).
Definition by_raise (ws : list qwho) (m : nat) : Prop := nth_error ws m = Some RRaise.

Record JI (s : qst) (ws : list qwho) (nt : list (nat * list nat)) : Prop := {
  ji_o : forall a v o m, In (a, v) (q_act s) -> In o (qops (a, v)) -> by_op ws m o -> tc m v;
  ji_p : forall o m, by_op ws m o -> q_op s o = OStarted -> ~ In o (flat_map qops (q_act s)) ->
         tc m (rel_of (q_h s)) /\ forall a v, In (a, v) (q_act s) -> qrr (a, v) = 1 -> tc m v;
  ji_r : forall m, by_raise ws m -> q_last (q_h s) = DFired /\ tc m (rel_of (q_h s)) /\ (forall a v, In (a, v) (q_act s) -> qrr (a, v) = 1 -> tc m v) /\
         forall o v, In (QLoop o DFired, v) (q_act s) -> tc m v;
  ji_n : forall o c m, In (o, c) nt -> by_op ws m o \/ by_raise ws m -> In m c;
  ji_d : forall o c, In (o, c) nt -> q_op s o = ODone;
  ji_i : forall o m, by_op ws m o -> q_op s o <> OIdle }.

Lemma JI_init : JI q_init [] [].
Proof.
  assert (Hn : forall (A : Type) m (x : A), nth_error [] m = Some x -> False) by (intros A [|m] x H; discriminate).
  split; unfold by_op, by_raise; simpl; intros; try tauto; try (exfalso; eauto; fail).
Qed.

Lemma by_op_snoc ws a m o : by_op (ws ++ [a]) m o -> by_op ws m o \/ (m = length ws /\ a = RWait o).
Proof. intros H. apply nth_snoc_cases in H as [[_ H]|[H E]]; auto. Qed.
Lemma by_raise_snoc ws a m : by_raise (ws ++ [a]) m -> by_raise ws m \/ (m = length ws /\ a = RRaise).
Proof. intros H. apply nth_snoc_cases in H as [[_ H]|[H E]]; auto. Qed.
Lemma in_fm (l : list (qact * view)) a v o : In (a, v) l -> In o (qops (a, v)) -> In o (flat_map qops l).
Proof. intros H1 H2. apply in_flat_map. eauto. Qed.
(** a wait has one call of start() *)
Lemma one_call s tr l lr k a v j b u o : QI s tr l lr -> nth_error (q_act s) k = Some (a, v) -> In o (qops (a, v)) -> nth_error (q_act s) j = Some (b, u) -> In o (qops (b, u)) -> j = k.
Proof.
  intros J Hk Ho Hj Hob. destruct (Nat.eq_dec j k) as [->|Hn]; [congruence|]. exfalso.
  destruct (qi_here _ _ _ _ J _ _ o (nth_error_In _ _ Hk) Ho) as (_ & _ & _ & Hc).
  pose proof (cnt_flat_set qops o _ k (QEnd, vbot) _ Hk) as Hf. rewrite Hc in Hf. change (qops (QEnd, vbot)) with (@nil nat) in Hf. rewrite cnt_nil in Hf. apply cnt_pos in Ho. apply cnt_pos in Hob.
  assert (Hin : In (b, u) (set_nth (q_act s) k (QEnd, vbot))) by (apply (nth_error_In _ j); rewrite nth_error_set_nth_other; auto).
  pose proof (cnt_flat_in qops o _ _ Hin). lia.
Qed.

(** the k-th call, a start(), makes an access *)
Lemma JI_mark s tr l lr ws nt k a v o : QI s tr l lr -> JI s ws nt -> nth_error (q_act s) k = Some (a, v) -> qops (a, v) = [o] -> JI (q_mark s k (length ws)) (ws ++ [RWait o]) nt.
Proof.
  intros J Z Hk Ho. destruct (qmark_same s k (length ws)) as (E1 & E2 & E3 & E4 & E5 & E6).
  assert (Hoi : In o (qops (a, v))) by (rewrite Ho; left; reflexivity). pose proof (nth_error_In _ _ Hk) as Hin. destruct (qi_here _ _ _ _ J _ _ o Hin Hoi) as (Hst & _).
  assert (Hup : forall m (u u0 : view) (P : Prop), (u = u0 \/ (u = vadd u0 (TCall (length ws)) /\ P)) -> tc m u0 -> tc m u) by (intros m u u0 P [->|[-> _]] H; [exact H|right; exact H]).
  split; rewrite ?E1, ?E3, ?E5.
  - intros b u x m Hb Hx Hm. apply by_op_snoc in Hm as [Hm|[-> Hm]].
    + apply mark_in in Hb as (u0 & Hb & Hu). rewrite (qops_fst b u u0) in Hx. apply (Hup m u u0 _ Hu). exact (ji_o _ _ _ Z b u0 x m Hb Hx Hm).
    + injection Hm as <-. unfold q_mark in Hb. rewrite Hk in Hb. simpl in Hb. apply In_nth_error in Hb as [j Hj]. destruct (Nat.eq_dec j k) as [->|Hn].
      * rewrite (nth_error_set_nth_same _ _ _ _ Hk) in Hj. injection Hj as <- <-. left. reflexivity.
      * rewrite nth_error_set_nth_other in Hj by auto. destruct Hn. exact (one_call _ _ _ _ _ _ _ _ _ _ o J Hk Hoi Hj Hx).
  - intros x m Hm Hx Hnx. apply by_op_snoc in Hm as [Hm|[-> Hm]].
    + destruct (ji_p _ _ _ Z x m Hm Hx Hnx) as [A B]. split; [exact A|]. intros b u Hb Hr. apply mark_in in Hb as (u0 & Hb & Hu). apply (Hup m u u0 _ Hu). apply (B b u0 Hb). rewrite <- Hr. apply qrr_fst.
    + injection Hm as <-. destruct Hnx. exact (in_fm _ _ _ _ Hin Hoi).
  - intros m Hm. apply by_raise_snoc in Hm as [Hm|[_ Hm]]; [|discriminate]. destruct (ji_r _ _ _ Z m Hm) as (A & B & C & D). split; [exact A|]. split; [exact B|]. split.
    + intros b u Hb Hr. apply mark_in in Hb as (u0 & Hb & Hu). apply (Hup m u u0 _ Hu). apply (C b u0 Hb). rewrite <- Hr. apply qrr_fst.
    + intros x u Hb. apply mark_in in Hb as (u0 & Hb & Hu). apply (Hup m u u0 _ Hu). exact (D x u0 Hb).
  - intros x c m Hc [Hm|Hm].
    + apply by_op_snoc in Hm as [Hm|[-> Hm]]; [apply (ji_n _ _ _ Z x c m Hc); auto|]. injection Hm as <-. pose proof (ji_d _ _ _ Z o c Hc). congruence.
    + apply by_raise_snoc in Hm as [Hm|[_ Hm]]; [|discriminate]. apply (ji_n _ _ _ Z x c m Hc); auto.
  - exact (ji_d _ _ _ Z).
  - intros x m Hm. apply by_op_snoc in Hm as [Hm|[-> Hm]]; [exact (ji_i _ _ _ Z x m Hm)|]. injection Hm as <-. congruence.
Qed.

(** ** Steps *)
Lemma tc_see m acq v i w : tc m v -> tc m (q_see acq v i w).
Proof. unfold q_see, tc. destruct acq; simpl; rewrite ?in_app_iff; auto. Qed.
Lemma tc_see_w m v i w : tc m w -> tc m (q_see true v i w).
Proof. unfold q_see, tc. simpl. rewrite in_app_iff. auto. Qed.

(** a call goes on with a larger view *)
Lemma JI_move s ws nt k a v a' v' nx : JI s ws nt -> nth_error (q_act s) k = Some (a, v) -> qops (a', v') = qops (a, v) -> qrr (a', v') <= qrr (a, v) ->
  (forall m, tc m v -> tc m v') -> (forall o m, a' = QLoop o DFired -> by_raise ws m -> tc m v') ->
  JI (QS (q_h s) nx (q_op s) (set_nth (q_act s) k (a', v')) (q_acc s)) ws nt.
Proof.
  intros Z Hk Ho Hr Hv Hf. pose proof (nth_error_In _ _ Hk) as Hin. split; cbn [q_h q_op q_act]; rewrite ?(fm_set _ _ _ _ _ _ Hk Ho).
  - intros b u x m Hb Hx Hm. apply In_set_nth in Hb as [E|Hb]; [|exact (ji_o _ _ _ Z b u x m Hb Hx Hm)]. injection E as -> ->. rewrite Ho in Hx. apply Hv. exact (ji_o _ _ _ Z a v x m Hin Hx Hm).
  - intros x m Hm Hx Hnx. destruct (ji_p _ _ _ Z x m Hm Hx Hnx) as [A B]. split; [exact A|]. intros b u Hb Hr1. apply In_set_nth in Hb as [E|Hb]; [|exact (B b u Hb Hr1)].
    injection E as -> ->. apply Hv. apply (B a v Hin). destruct a; simpl in *; try reflexivity; unfold qrr in *; simpl in *; lia.
  - intros m Hm. destruct (ji_r _ _ _ Z m Hm) as (A & B & C & D). split; [exact A|]. split; [exact B|]. split.
    + intros b u Hb Hr1. apply In_set_nth in Hb as [E|Hb]; [|exact (C b u Hb Hr1)]. injection E as -> ->. apply Hv. apply (C a v Hin). destruct a; unfold qrr in *; simpl in *; try reflexivity; lia.
    + intros x u Hb. apply In_set_nth in Hb as [E|Hb]; [|exact (D x u Hb)]. injection E as E ->. apply (Hf x m); auto.
  - exact (ji_n _ _ _ Z).
  - exact (ji_d _ _ _ Z).
  - exact (ji_i _ _ _ Z).
Qed.

(** start() pushes its node *)
Lemma JI_push s tr l lr ws nt k o p v v1 c_acq nx x : QI s tr l lr -> JI s ws nt -> nth_error (q_act s) k = Some (QLoop o (DPtr p), v) -> q_last (q_h s) <> DFired -> (forall m, tc m v -> tc m v1) ->
  x <> DFired ->
  JI (QS (rmw c_acq true (q_h s) v1 x) nx (q_op s) (set_nth (q_act s) k (QEnd, rmw_view c_acq (q_h s) v1)) (q_acc s)) ws nt.
Proof.
  intros J Z Hk Hnf Hv Hx. pose proof (nth_error_In _ _ Hk) as Hin.
  assert (Hnr : forall m, ~ by_raise ws m) by (intros m Hm; destruct (ji_r _ _ _ Z m Hm) as (A & _); congruence).
  assert (Hz : forall b u, In (b, u) (q_act s) -> qrr (b, u) <> 1) by (intros b u Hb Hr; destruct (qi_rr_in _ _ _ _ J b u Hb Hr) as [_ A]; congruence).
  split; cbn [q_h q_op q_act]; unfold rmw; rewrite ?rel_snoc.
  - intros b u y m Hb Hy Hm. apply In_set_nth in Hb as [E|Hb]; [injection E as -> ->; destruct Hy|exact (ji_o _ _ _ Z b u y m Hb Hy Hm)].
  - intros y m Hm Hy Hny. split.
    + apply tc_join. destruct (Nat.eq_dec y o) as [->|Hn].
      * right. apply tc_rmw. left. apply Hv. exact (ji_o _ _ _ Z _ _ o m Hin (or_introl eq_refl) Hm).
      * left. apply (ji_p _ _ _ Z y m Hm Hy). intros H. apply Hny. apply in_flat_map in H as ([b u] & Hb & Hyb). apply In_nth_error in Hb as [j Hj]. apply in_flat_map. exists (b, u). split; [|exact Hyb].
        destruct (Nat.eq_dec j k) as [->|Hjk]; [rewrite Hk in Hj; injection Hj as <- <-; destruct Hyb as [E|[]]; congruence|]. apply (nth_error_In _ j). rewrite nth_error_set_nth_other; auto.
    + intros b u Hb Hr. apply In_set_nth in Hb as [E|Hb]; [injection E as -> ->; discriminate|]. destruct (Hz b u Hb Hr).
  - intros m Hm. destruct (Hnr m Hm).
  - exact (ji_n _ _ _ Z).
  - exact (ji_d _ _ _ Z).
  - exact (ji_i _ _ _ Z).
Qed.

(** a receiver is notified *)
Lemma JI_notify s tr l lr ws nt k o a v a' : QI s tr l lr -> JI s ws nt -> nth_error (q_act s) k = Some (a, v) -> qops (a', v) = [] -> qrr (a', v) = qrr (a, v) -> q_op s o = OStarted ->
  (forall x, In x (qops (a, v)) -> x = o) -> (forall m, by_op ws m o \/ by_raise ws m -> tc m v) ->
  JI (QS (q_h s) (q_next s) (upd (q_op s) o ODone) (set_nth (q_act s) k (a', v)) (q_acc s)) ws ((o, calls v) :: nt).
Proof.
  intros J Z Hk Ho' Hr Hst Ho Hm0. pose proof (nth_error_In _ _ Hk) as Hin. split; cbn [q_h q_op q_act].
  - intros b u x m Hb Hx Hm. apply In_set_nth in Hb as [E|Hb]; [injection E as -> ->; rewrite Ho' in Hx; destruct Hx|exact (ji_o _ _ _ Z b u x m Hb Hx Hm)].
  - intros x m Hm Hx Hnx. unfold upd in Hx. destruct (Nat.eqb_spec x o) as [->|Hn]; [discriminate|].
    assert (Hnx' : ~ In x (flat_map qops (q_act s))).
    { intros H. apply Hnx. apply in_flat_map in H as ([b u] & Hb & Hyb). apply In_nth_error in Hb as [j Hj]. apply in_flat_map. exists (b, u). split; [|exact Hyb].
      destruct (Nat.eq_dec j k) as [->|Hjk]; [rewrite Hk in Hj; injection Hj as <- <-; destruct (Hn (Ho x Hyb))|]. apply (nth_error_In _ j). rewrite nth_error_set_nth_other; auto. }
    destruct (ji_p _ _ _ Z x m Hm Hx Hnx') as [A B]. split; [exact A|]. intros b u Hb Hr1. apply In_set_nth in Hb as [E|Hb]; [|exact (B b u Hb Hr1)]. injection E as -> ->. apply (B a v Hin). congruence.
  - intros m Hm. destruct (ji_r _ _ _ Z m Hm) as (A & B & C & D). split; [exact A|]. split; [exact B|]. split.
    + intros b u Hb Hr1. apply In_set_nth in Hb as [E|Hb]; [|exact (C b u Hb Hr1)]. injection E as -> ->. apply (C a v Hin). congruence.
    + intros x u Hb. apply In_set_nth in Hb as [E|Hb]; [|exact (D x u Hb)]. injection E as E ->. subst a'. discriminate Ho'.
  - intros x c m [E|Hc] Hm; [injection E as <- <-; apply calls_spec; apply Hm0; exact Hm|exact (ji_n _ _ _ Z x c m Hc Hm)].
  - intros x c [E|Hc]; unfold upd; [injection E as -> _; now rewrite Nat.eqb_refl|]. destruct (x =? o); [reflexivity|exact (ji_d _ _ _ Z x c Hc)].
  - intros x m Hm. unfold upd. destruct (x =? o); [discriminate|exact (ji_i _ _ _ Z x m Hm)].
Qed.

(** raise() *)
Lemma JI_raise s tr l lr ws nt v p nx acc : QI s tr l lr -> JI s ws nt -> q_last (q_h s) = DPtr p -> tc (length ws) v ->
  JI (QS (rmw true true (q_h s) v DFired) nx (q_op s) (q_act s ++ [(QRead p, rmw_view true (q_h s) v)]) acc) (ws ++ [RRaise]) nt.
Proof.
  intros J Z Hlast Hv.
  assert (Hnf : q_last (q_h s) <> DFired) by congruence.
  assert (Hnr : forall m, ~ by_raise ws m) by (intros m Hm; destruct (ji_r _ _ _ Z m Hm) as (A & _); congruence).
  assert (Hz : forall b u, In (b, u) (q_act s) -> qrr (b, u) <> 1) by (intros b u Hb Hr; destruct (qi_rr_in _ _ _ _ J b u Hb Hr) as [_ A]; congruence).
  assert (Hm' : forall m o, by_op (ws ++ [RRaise]) m o -> by_op ws m o) by (intros m o H; apply by_op_snoc in H as [H|[_ H]]; [exact H|discriminate]).
  split; cbn [q_h q_op q_act]; unfold rmw; rewrite ?rel_snoc, ?q_last_snoc.
  - intros b u y m Hb Hy Hm. apply In_snoc in Hb as [Hb|E]; [exact (ji_o _ _ _ Z b u y m Hb Hy (Hm' _ _ Hm))|injection E as -> ->; destruct Hy].
  - intros y m Hm Hy Hny. rewrite flat_map_app, in_app_iff in Hny. destruct (ji_p _ _ _ Z y m (Hm' _ _ Hm) Hy) as [A _]; [tauto|]. split; [apply tc_join; left; exact A|].
    intros b u Hb Hr. apply In_snoc in Hb as [Hb|E]; [destruct (Hz b u Hb Hr)|]. injection E as -> ->. apply tc_rmw. auto.
  - intros m Hm. apply by_raise_snoc in Hm as [Hm|[-> _]]; [destruct (Hnr m Hm)|]. split; [reflexivity|]. split; [apply tc_join; right; apply tc_rmw; auto|]. split.
    + intros b u Hb Hr. apply In_snoc in Hb as [Hb|E]; [destruct (Hz b u Hb Hr)|]. injection E as -> ->. apply tc_rmw. auto.
    + intros x u Hb. apply In_snoc in Hb as [Hb|E]; [|discriminate]. destruct (qi_ff _ _ _ _ J x u Hb) as [A _]. congruence.
  - intros x c m Hc Hm. destruct Hm as [Hm|Hm]; [apply (ji_n _ _ _ Z x c m Hc); auto|]. apply by_raise_snoc in Hm as [Hm|[-> _]]; [destruct (Hnr m Hm)|]. exfalso.
    (* no wait is notified before raise() *)
    pose proof (ji_d _ _ _ Z x c Hc) as Hd. apply (proj2 (qi_done _ _ _ _ J)) in Hd.
    assert (exists b, In (QEDone x b) tr) as [b Hb]. { unfold q_done in Hd. apply in_flat_map in Hd as (e & He & Hx). destruct e; simpl in Hx; try tauto. destruct Hx as [->|[]]. eauto. }
    apply in_split in Hb as (t1 & t2 & E). destruct (proj1 (qi_vis _ _ _ _ J) t1 x b t2 E) as (n & Hn & _).
    pose proof (qi_raise _ _ _ _ J) as Hq. unfold qfired in Hq. rewrite Hlast in Hq. rewrite E, q_raises_app in Hq. apply in_split in Hn as (t3 & t4 & ->). rewrite q_raises_app in Hq. unfold q_raises in Hq. simpl in Hq. lia.
  - exact (ji_d _ _ _ Z).
  - intros x m Hm. exact (ji_i _ _ _ Z x m (Hm' _ _ Hm)).
Qed.

(** the call of start() *)
Lemma JI_start s ws nt o v nx acc : JI s ws nt -> q_op s o = OIdle ->
  JI (QS (q_h s) nx (upd (q_op s) o OStarted) (q_act s ++ [(QLoad o, v)]) acc) ws nt.
Proof.
  intros Z Ho. assert (Hno : forall m, ~ by_op ws m o) by (intros m Hm; exact (ji_i _ _ _ Z o m Hm Ho)).
  split; cbn [q_h q_op q_act].
  - intros b u y m Hb Hy Hm. apply In_snoc in Hb as [Hb|E]; [exact (ji_o _ _ _ Z b u y m Hb Hy Hm)|injection E as -> ->]. destruct Hy as [<-|[]]. destruct (Hno m Hm).
  - intros y m Hm Hy Hny. rewrite flat_map_app, in_app_iff in Hny. unfold upd in Hy. destruct (Nat.eqb_spec y o) as [->|Hn]; [destruct (Hno m Hm)|].
    destruct (ji_p _ _ _ Z y m Hm Hy) as [A B]; [tauto|]. split; [exact A|]. intros b u Hb Hr. apply In_snoc in Hb as [Hb|E]; [exact (B b u Hb Hr)|injection E as -> ->; discriminate].
  - intros m Hm. destruct (ji_r _ _ _ Z m Hm) as (A & B & C & D). split; [exact A|]. split; [exact B|]. split.
    + intros b u Hb Hr. apply In_snoc in Hb as [Hb|E]; [exact (C b u Hb Hr)|injection E as -> ->; discriminate].
    + intros x u Hb. apply In_snoc in Hb as [Hb|E]; [exact (D x u Hb)|discriminate].
  - exact (ji_n _ _ _ Z).
  - intros x c Hc. unfold upd. destruct (Nat.eqb_spec x o) as [->|]; [|exact (ji_d _ _ _ Z x c Hc)]. pose proof (ji_d _ _ _ Z o c Hc). congruence.
  - intros x m Hm. unfold upd. destruct (x =? o); [discriminate|exact (ji_i _ _ _ Z x m Hm)].
Qed.

Section Run.
Variable c_acq : bool.
Notation qstep := (q_step true true c_acq true true true).
Notation step := (j_step true true c_acq true true true).

Lemma JI_qstep s tr l lr ws nt k i spur a v s' es : QI s tr l lr -> JI s ws nt -> nth_error (q_act s) k = Some (a, v) -> qstep s (QStep k i spur) = Next s' es ->
  JI s' ws match a with QLoop o DFired | QCompl o _ => (o, calls v) :: nt | _ => nt end.
Proof.
  intros J Z Hk H. pose proof (nth_error_In _ _ Hk) as Hin. cbn [q_step] in H. rewrite Hk in H.
  assert (Hsee : forall u x w, rd (q_h s) u i = Some (x, w) -> x = DFired -> forall m, by_raise ws m -> tc m (q_see true u i w)).
  { intros u x w Hr -> m Hm. apply rd_some in Hr as (_ & Hi & _). destruct (qi_h _ _ _ _ J i _ w Hi) as [_ Hf]. specialize (Hf eq_refl). destruct (ji_r _ _ _ Z m Hm) as (_ & B & _).
    apply tc_see_w. unfold rel_of in B. rewrite <- Hf, Hi in B. exact B. }
  destruct a as [o|o [p|]|[o|]|o p|]; cbn [q_act_step] in H.
  - destruct (rd (q_h s) v i) as [[x w]|] eqn:Hr; [|discriminate]. injection H as <- <-. apply (JI_move s ws nt k (QLoad o) v); auto; [intros m; apply tc_see|].
    intros o' m E Hm. injection E as _ ->. exact (Hsee _ _ _ Hr eq_refl m Hm).
  - destruct (alive (q_op s) o); [|discriminate]. simpl negb in H. cbv iota in H. destruct (rd (q_h s) (vadd v (TObj o)) i) as [[x w]|] eqn:Hr; [|discriminate].
    assert (Hv : forall m, tc m v -> tc m (vadd v (TObj o))) by (intros m Hm; right; exact Hm).
    destruct (dval_eqb x (DPtr p) && (i =? newest (q_h s)) && negb spur) eqn:E; injection H as <- <-.
    + apply andb_true_iff in E as [E _]. apply andb_true_iff in E as [E1 E2]. apply dval_eqb_eq in E1. apply Nat.eqb_eq in E2. subst x.
      apply rd_some in Hr as (_ & Hi & _). pose proof (q_last_nth _ _ _ _ E2 Hi) as Hlast.
      apply (JI_push s tr l lr ws nt k o p v); auto; congruence.
    + apply (JI_move s ws nt k (QLoop o (DPtr p)) v); auto; [intros m Hm; apply tc_see; auto|]. intros o' m E' Hm. injection E' as _ ->. exact (Hsee _ _ _ Hr eq_refl m Hm).
  - unfold q_notify in H. destruct (alive (q_op s) o); [|discriminate]. injection H as <- <-. destruct (qi_here _ _ _ _ J _ _ o Hin (or_introl eq_refl)) as (Ho & _).
    apply (JI_notify s tr l lr ws nt k o (QLoop o DFired) v QEnd); auto.
    + intros x [E|[]]; auto.
    + intros m [Hm|Hm]; [exact (ji_o _ _ _ Z _ _ o m Hin (or_introl eq_refl) Hm)|]. destruct (ji_r _ _ _ Z m Hm) as (_ & _ & _ & D). exact (D o v Hin).
  - destruct (alive (q_op s) o); [|discriminate]. simpl negb in H. cbv iota in H. destruct (knows v o); [|discriminate]. simpl negb in H. cbv iota in H. injection H as <- <-.
    apply (JI_move s ws nt k (QRead (Some o)) v); auto. intros o' m E. discriminate.
  - injection H as <- <-. apply (JI_move s ws nt k (QRead None) v); auto; [unfold qrr; simpl; lia|]. intros o' m E. discriminate.
  - unfold q_notify in H. destruct (alive (q_op s) o); [|discriminate]. injection H as <- <-. destruct (qi_lr _ _ _ _ J _ _ Hin) as (l' & El & _).
    assert (Hol : In o lr) by (rewrite El; left; reflexivity). pose proof (qi_linked _ _ _ _ J o (or_intror Hol)) as Ho.
    apply (JI_notify s tr l lr ws nt k o (QCompl o p) v (QRead p)); auto; [intros x []|].
    intros m [Hm|Hm]; [|destruct (ji_r _ _ _ Z m Hm) as (_ & _ & C & _); exact (C _ _ Hin eq_refl)].
    refine (proj2 (ji_p _ _ _ Z o m Hm Ho _) _ _ Hin eq_refl). apply cnt_zero. pose proof (qi_place _ _ _ _ J o) as Hp. rewrite Ho in Hp. apply cnt_pos in Hol. lia.
  - discriminate.
Qed.

Record JJ (z : jst) (tr : list jevent) : Prop := {
  jj_q : QX (j_q z) (qev tr);
  jj_z : JI (j_q z) (j_who z) (j_not z);
  jj_ops : forall o, q_op (j_q z) o <> OIdle -> In o (j_ops z);
  jj_dead : j_dead z = true -> forall a v, In (a, v) (q_act (j_q z)) -> qops (a, v) = [] }.

Lemma JJ_init : JJ j_init [].
Proof. split; simpl; [exact qx_init|exact JI_init|congruence|discriminate]. Qed.
Lemma qev_app a b : qev (a ++ b) = qev a ++ qev b.
Proof. apply flat_map_app. Qed.
Lemma qev_map es : qev (map JE es) = es.
Proof. induction es as [|e es IH]; [reflexivity|]. simpl. now rewrite IH. Qed.
Lemma sub_spec c kn : sub c kn = true <-> incl c kn.
Proof. unfold sub. rewrite forallb_forall. split; intros H m Hm; apply memb_In; auto. Qed.

Lemma may_known z tr kn : JJ z tr -> j_may z kn = true -> (forall a v, In (a, v) (q_act (j_q z)) -> qops (a, v) = []) /\ incl (seq 0 (length (j_who z))) kn.
Proof.
  intros [(l & lr & J) Z Hop _] H. apply andb_true_iff in H as [H1 H2]. rewrite forallb_forall in H1, H2. split.
  - intros a v Hin. destruct (qops (a, v)) as [|o os] eqn:Eo; [reflexivity|]. exfalso. assert (Ho : In o (qops (a, v))) by (rewrite Eo; left; reflexivity).
    destruct (qi_here _ _ _ _ J a v o Hin Ho) as (Hst & _). specialize (H1 o (Hop o ltac:(congruence))). apply negb_true_iff in H1.
    assert (in_start (j_q z) o = true) as Ht; [|congruence]. unfold in_start. apply existsb_exists. exists (a, v). split; [exact Hin|]. destruct a; simpl in Ho; try tauto; destruct Ho as [->|[]]; apply Nat.eqb_refl.
  - intros m Hm. specialize (H2 m Hm). apply in_seq in Hm. destruct (nth_error (j_who z) m) as [w|] eqn:Ew; [|apply nth_error_None in Ew; lia].
    destruct w as [|o]; simpl in H2; apply orb_true_iff in H2 as [H2|H2]; try (apply memb_In; exact H2); apply existsb_exists in H2 as ([o' c] & Hc & H2); simpl in H2.
    + apply sub_spec in H2. apply H2. apply (ji_n _ _ _ Z o' c m Hc). right. exact Ew.
    + apply andb_true_iff in H2 as [E H2]. apply Nat.eqb_eq in E. subst o'. apply sub_spec in H2. apply H2. apply (ji_n _ _ _ Z o c m Hc). left. exact Ew.
Qed.

(** a step starts nothing *)
Lemma step_ops s tr l lr k i spur s' es o : QI s tr l lr -> qstep s (QStep k i spur) = Next s' es -> q_op s' o <> OIdle -> q_op s o <> OIdle.
Proof.
  intros J H Ho. cbn [q_step] in H. destruct (nth_error (q_act s) k) as [[a v]|] eqn:Hk; [|discriminate]. pose proof (nth_error_In _ _ Hk) as Hin.
  destruct a as [x|x [p|]|[x|]|x p|]; cbn [q_act_step] in H; unfold q_notify in H.
  - destruct (rd (q_h s) v i) as [[y w]|]; [|discriminate]. injection H as <- <-. exact Ho.
  - destruct (alive (q_op s) x); [|discriminate]. simpl in H. destruct (rd (q_h s) (vadd v (TObj x)) i) as [[y w]|]; [|discriminate].
    destruct (dval_eqb y (DPtr p) && (i =? newest (q_h s)) && negb spur); injection H as <- <-; exact Ho.
  - destruct (alive (q_op s) x); [|discriminate]. injection H as <- <-. simpl in Ho. unfold upd in Ho. destruct (Nat.eqb_spec o x) as [->|]; [|exact Ho].
    destruct (qi_here _ _ _ _ J _ _ x Hin (or_introl eq_refl)) as (E & _). congruence.
  - destruct (alive (q_op s) x); [|discriminate]. simpl in H. destruct (knows v x); [|discriminate]. injection H as <- <-. exact Ho.
  - injection H as <- <-. exact Ho.
  - destruct (alive (q_op s) x); [|discriminate]. injection H as <- <-. simpl in Ho. unfold upd in Ho. destruct (Nat.eqb_spec o x) as [->|]; [|exact Ho].
    destruct (qi_lr _ _ _ _ J _ _ Hin) as (l' & El & _). assert (Hol : In x lr) by (rewrite El; left; reflexivity). rewrite (qi_linked _ _ _ _ J x (or_intror Hol)). discriminate.
  - discriminate.
Qed.
(** raise() does not start anything *)
Lemma step_quiet s k i spur s' es : qstep s (QStep k i spur) = Next s' es -> (forall a v, In (a, v) (q_act s) -> qops (a, v) = []) -> forall a v, In (a, v) (q_act s') -> qops (a, v) = [].
Proof.
  intros H Hq. cbn [q_step] in H. destruct (nth_error (q_act s) k) as [[a v]|] eqn:Hk; [|discriminate]. pose proof (Hq a v (nth_error_In _ _ Hk)) as Ha.
  destruct a as [x|x [p|]|[x|]|x p|]; cbn [q_act_step] in H; unfold q_notify in H; try discriminate Ha.
  - destruct (alive (q_op s) x); [|discriminate]. simpl in H. destruct (knows v x); [|discriminate]. injection H as <- <-. simpl. intros b u Hb. apply In_set_nth in Hb as [E|Hb]; [injection E as -> ->; reflexivity|auto].
  - injection H as <- <-. simpl. intros b u Hb. apply In_set_nth in Hb as [E|Hb]; [injection E as -> ->; reflexivity|auto].
  - destruct (alive (q_op s) x) eqn:Ea; [|discriminate]. injection H as <- <-. simpl. intros b u Hb. apply In_set_nth in Hb as [E|Hb]; [injection E as -> ->; reflexivity|auto].
  - discriminate.
Qed.

Definition jok (tr : list jevent) (r : outcome jst jevent) : Prop :=
  match r with
  | Next z es => JJ z (tr ++ es)
  | Disabled => True
  | Fail f es => f = AssertFailed /\ 2 <= q_raises (qev (tr ++ es))
  end.
Lemma JJ_step z tr l : JJ z tr -> jok tr (step z l).
Proof.
  intros JZ. pose proof JZ as [(lk & lr & J) Z Hop Hd]. destruct l as [[o v|v|k i spur]|kn]; cbn [j_step].
  - destruct (j_dead z) eqn:Ed; [exact I|]. pose proof (q_ok c_acq _ _ _ _ J (QStart o v)) as Q. cbn [q_step] in *.
    destruct (q_op (j_q z) o) eqn:Ho; try exact I. destruct (v_ts v <? length (q_h (j_q z))); [|exact I]. simpl. split; simpl.
    + rewrite qev_app. exact Q.
    + apply JI_start; auto.
    + intros x Hx. apply in_or_app. unfold upd in Hx. destruct (Nat.eqb_spec x o) as [E|E]; [right; left; congruence|left; auto].
    + discriminate.
  - destruct (j_dead z) eqn:Ed; [exact I|]. pose proof (q_ok c_acq _ _ _ _ J (QRaise (vadd v (TCall (length (j_who z)))))) as Q. cbn [q_step] in *.
    destruct (v_ts (vadd v (TCall (length (j_who z)))) <? length (q_h (j_q z))); [|exact I]. destruct (q_last (q_h (j_q z))) as [p|] eqn:El; cbn [j_lift jok].
    + split; cbn [j_q j_who j_not j_ops j_dead].
      * rewrite qev_app. exact Q.
      * apply (JI_raise _ _ _ _ _ _ _ _ _ _ J Z El). right. left. reflexivity.
      * simpl. exact Hop.
      * discriminate.
    + rewrite qev_app. exact Q.
  - destruct (nth_error (q_act (j_q z)) k) as [[a v]|] eqn:Hk; [|cbn [q_step]; rewrite Hk; exact I].
    (* an access of start() *)
    assert (Acc : forall o, qops (a, v) = [o] -> match a with QLoop _ DFired | QCompl _ _ => False | _ => True end ->
      jok tr match qstep (q_mark (j_q z) k (length (j_who z))) (QStep k i spur) with
             | Disabled => Disabled
             | r => if j_dead z then Fail UseAfterFree [] else j_lift r (fun s' => JS s' (j_who z ++ [RWait o]) (j_ops z) (j_not z) false)
             end).
    { intros o Ho Hb. destruct (j_dead z) eqn:Ed; [rewrite (Hd eq_refl a v (nth_error_In _ _ Hk)) in Ho; discriminate|].
      pose proof (mark_QI _ k (length (j_who z)) _ _ _ J) as J'. pose proof (JI_mark _ _ _ _ _ _ _ _ _ _ J Z Hk Ho) as Z'.
      assert (Hk' : nth_error (q_act (q_mark (j_q z) k (length (j_who z)))) k = Some (a, vadd v (TCall (length (j_who z))))) by (unfold q_mark; rewrite Hk; simpl; exact (nth_error_set_nth_same _ _ _ _ Hk)).
      pose proof (q_ok c_acq _ _ _ _ J' (QStep k i spur)) as Q. destruct (qstep (q_mark (j_q z) k (length (j_who z))) (QStep k i spur)) as [s' es| |f es] eqn:Es; cbn [j_lift jok]; [|exact I|].
      - split; cbn [j_q j_who j_not j_ops j_dead].
        + rewrite qev_app, qev_map. exact Q.
        + pose proof (JI_qstep _ _ _ _ _ _ _ _ _ _ _ _ _ J' Z' Hk' Es) as Z2. destruct a as [x|x [p|]|[x|]|x p|]; try tauto; exact Z2.
        + intros x Hx. apply Hop. pose proof (step_ops _ _ _ _ _ _ _ _ _ x J' Es Hx) as H. destruct (qmark_same (j_q z) k (length (j_who z))) as (_ & _ & E & _). congruence.
        + discriminate.
      - rewrite qev_app, qev_map. exact Q. }
    (* other steps *)
    assert (Oth : forall nt, nt = match a with QLoop o DFired | QCompl o _ => (o, calls v) :: j_not z | _ => j_not z end ->
      jok tr (j_lift (qstep (j_q z) (QStep k i spur)) (fun s' => JS s' (j_who z) (j_ops z) nt (j_dead z)))).
    { intros nt ->. pose proof (q_ok c_acq _ _ _ _ J (QStep k i spur)) as Q. destruct (qstep (j_q z) (QStep k i spur)) as [s' es| |f es] eqn:Es; cbn [j_lift jok]; [|exact I|].
      - split; cbn [j_q j_who j_not j_ops j_dead].
        + rewrite qev_app, qev_map. exact Q.
        + exact (JI_qstep _ _ _ _ _ _ _ _ _ _ _ _ _ J Z Hk Es).
        + intros x Hx. apply Hop. exact (step_ops _ _ _ _ _ _ _ _ _ x J Es Hx).
        + intros Ed. exact (step_quiet _ _ _ _ _ _ Es (Hd Ed)).
      - rewrite qev_app, qev_map. exact Q. }
    destruct a as [x|x [p|]|[x|]|x p|]; [apply Acc; auto|apply Acc; auto|apply Oth; reflexivity..].
  - destruct (j_dead z) eqn:Ed; [exact I|]. destruct (j_may z kn) eqn:Em; [|exact I]. destruct (may_known z tr kn JZ Em) as [K1 K2]. apply sub_spec in K2. rewrite K2. split; simpl.
    + rewrite qev_app. simpl. rewrite app_nil_r. exists lk, lr. exact J.
    + exact Z.
    + exact Hop.
    + intros _. exact K1.
Qed.

Theorem j_inv ls z tr : run step j_init ls = Running z tr -> JJ z tr.
Proof. apply (run_inv step JJ j_init JJ_init). intros s1 tr1 l s2 es J Hs. pose proof (JJ_step s1 tr1 l J) as H. rewrite Hs in H. exact H. Qed.
Theorem j_fail ls f tr : run step j_init ls = Failed f tr -> f = AssertFailed /\ 2 <= q_raises (qev tr).
Proof.
  intros H. unfold run in H. apply run_from_failed in H as (ls1 & lb & s1 & tr1 & es & Hr & Hs & ->). pose proof (JJ_step s1 tr1 lb (j_inv ls1 s1 tr1 Hr)) as H. rewrite Hs in H. exact H.
Qed.
Theorem j_vis ls z tr : run step j_init ls = Running z tr -> sees_raise (qev tr) /\ sees_start (qev tr).
Proof. intros H. destruct (jj_q _ _ (j_inv ls z tr H)) as (l & lr & J). exact (qi_vis _ _ _ _ J). Qed.
Theorem j_over_thm ls z tr : run step j_init ls = Running z tr -> j_over z.
Proof. intros H o c Hc m Hm. destruct (j_inv ls z tr H) as [_ Z _ _]. apply (ji_n _ _ _ Z o c m Hc). unfold by_op, by_raise. tauto. Qed.
End Run.

(** ** The records are what the clients see *)
Section Record.
Variables x_acq x_rel c_acq c_rel l_acq f_acq : bool.
Notation qstep := (q_step x_acq x_rel c_acq c_rel l_acq f_acq).
Notation step := (j_step x_acq x_rel c_acq c_rel l_acq f_acq).

Definition started (o : nat) (tr : list qevent) : Prop := exists n, In (QEStart o n) tr.
Definition RJ (z : jst) (tr : list jevent) : Prop :=
  j_recorded z tr /\ forall a v o, In (a, v) (q_act (j_q z)) -> In o (qops (a, v)) -> In o (j_ops z).

Lemma qstep_ev s k i spur s' es a v : nth_error (q_act s) k = Some (a, v) -> qstep s (QStep k i spur) = Next s' es ->
  es = match a with QLoop o DFired | QCompl o _ => [QEDone o (accs v)] | _ => [] end /\
  forall b u o, In (b, u) (q_act s') -> In o (qops (b, u)) -> exists b0 u0, In (b0, u0) (q_act s) /\ In o (qops (b0, u0)).
Proof.
  intros Hk H. cbn [q_step] in H. rewrite Hk in H. pose proof (nth_error_In _ _ Hk) as Hin.
  assert (G : forall a' v', (forall o, In o (qops (a', v')) -> In o (qops (a, v))) -> forall b u o, In (b, u) (set_nth (q_act s) k (a', v')) -> In o (qops (b, u)) -> exists b0 u0, In (b0, u0) (q_act s) /\ In o (qops (b0, u0))).
  { intros a' v' Ho b u o Hb Hob. apply In_set_nth in Hb as [E|Hb]; [injection E as -> ->; eauto|eauto]. }
  destruct a as [x|x [p|]|[x|]|x p|]; cbn [q_act_step] in H; unfold q_notify in H.
  - destruct (rd (q_h s) v i) as [[y w]|]; [|discriminate]. injection H as <- <-. split; [reflexivity|]. apply G. auto.
  - destruct (alive (q_op s) x); [|discriminate]. simpl in H. destruct (rd (q_h s) (vadd v (TObj x)) i) as [[y w]|]; [|discriminate].
    destruct (dval_eqb y (DPtr p) && (i =? newest (q_h s)) && negb spur); injection H as <- <-; (split; [reflexivity|]; apply G; simpl; tauto).
  - destruct (alive (q_op s) x); [|discriminate]. injection H as <- <-. split; [reflexivity|]. apply G. simpl. tauto.
  - destruct (alive (q_op s) x); [|discriminate]. simpl in H. destruct (knows v x); [|discriminate]. injection H as <- <-. split; [reflexivity|]. apply G. auto.
  - injection H as <- <-. split; [reflexivity|]. apply G. auto.
  - destruct (alive (q_op s) x); [|discriminate]. injection H as <- <-. split; [reflexivity|]. apply G. auto.
  - discriminate.
Qed.

Lemma RJ_step z tr l z' es : RJ z tr -> step z l = Next z' es -> RJ z' (tr ++ es).
Proof.
  intros [(R1 & R2 & R3 & R4) R5] H. destruct l as [[o v|v|k i spur]|kn]; cbn [j_step] in H.
  - destruct (j_dead z); [discriminate|]. cbn [q_step] in H. destruct (q_op (j_q z) o); try discriminate. destruct (v_ts v <? length (q_h (j_q z))); [|discriminate]. injection H as <- <-.
    unfold RJ, j_recorded. cbn [j_q j_who j_not j_ops q_act]. rewrite qev_app. simpl. repeat split.
    + rewrite q_done_app. simpl. rewrite app_nil_r. exact R1.
    + intros Hx. apply in_app_or in Hx as [Hx|[<-|[]]]; [apply R2 in Hx as [n Hn]; exists n; apply in_or_app; auto|]. exists (q_acc (j_q z)). apply in_or_app. right. left. reflexivity.
    + intros [n Hn]. apply in_app_or in Hn as [Hn|[E|[]]]; apply in_or_app; [left; apply R2; eauto|]. injection E as -> _. right. left. reflexivity.
    + intros m Hm. rewrite q_raises_app. pose proof (R3 m Hm). lia.
    + intros m x Hm. apply in_or_app. left. exact (R4 m x Hm).
    + intros b u x Hb Hx. apply in_or_app. apply In_snoc in Hb as [Hb|E]; [left; eauto|]. injection E as -> ->. right. exact Hx.
  - destruct (j_dead z); [discriminate|]. cbn [q_step] in H. destruct (v_ts (vadd v (TCall (length (j_who z)))) <? length (q_h (j_q z))); [|discriminate].
    destruct (q_last (q_h (j_q z))) as [p|]; [|discriminate]. injection H as <- <-. unfold RJ, j_recorded. cbn [j_q j_who j_not j_ops q_act]. rewrite qev_app. simpl. repeat split.
    + rewrite q_done_app. simpl. rewrite app_nil_r. exact R1.
    + intros Hx. apply R2 in Hx as [n Hn]. exists n. apply in_or_app. auto.
    + intros [n Hn]. apply in_app_or in Hn as [Hn|[E|[]]]; [apply R2; eauto|discriminate].
    + intros m _. rewrite q_raises_app. unfold q_raises. simpl. lia.
    + intros m x Hm. apply nth_snoc_cases in Hm as [[_ Hm]|[_ Hm]]; [exact (R4 m x Hm)|discriminate].
    + intros b u x Hb Hx. apply In_snoc in Hb as [Hb|E]; [eauto|]. injection E as -> ->. destruct Hx.
  - destruct (nth_error (q_act (j_q z)) k) as [[a v]|] eqn:Hk; [|cbn [q_step] in H; rewrite Hk in H; discriminate].
    assert (Acc : forall o, qops (a, v) = [o] -> match a with QLoop _ DFired | QCompl _ _ => False | _ => True end ->
      match qstep (q_mark (j_q z) k (length (j_who z))) (QStep k i spur) with
             | Disabled => Disabled
             | r => if j_dead z then Fail UseAfterFree [] else j_lift r (fun s' => JS s' (j_who z ++ [RWait o]) (j_ops z) (j_not z) false)
             end = Next z' es -> RJ z' (tr ++ es)).
    { clear H. intros o Ho Hb H. assert (Hk' : nth_error (q_act (q_mark (j_q z) k (length (j_who z)))) k = Some (a, vadd v (TCall (length (j_who z))))) by (unfold q_mark; rewrite Hk; simpl; exact (nth_error_set_nth_same _ _ _ _ Hk)).
      destruct (qstep (q_mark (j_q z) k (length (j_who z))) (QStep k i spur)) as [s' es'| |f es'] eqn:Es; try discriminate; [|destruct (j_dead z); discriminate].
      destruct (j_dead z); [discriminate|]. injection H as <- <-. destruct (qstep_ev _ _ _ _ _ _ _ _ Hk' Es) as [E1 E2].
      assert (es' = []) as -> by (rewrite E1; destruct a as [x|x [p|]|[x|]|x p|]; tauto). simpl. rewrite app_nil_r. unfold RJ, j_recorded. cbn [j_q j_who j_not j_ops]. repeat split; auto.
      - intros Hx. apply R2. exact Hx.
      - intros Hx. apply R2. exact Hx.
      - intros m Hm. apply nth_snoc_cases in Hm as [[_ Hm]|[_ Hm]]; [exact (R3 m Hm)|discriminate].
      - intros m x Hm. apply nth_snoc_cases in Hm as [[_ Hm]|[_ Hm]]; [exact (R4 m x Hm)|]. injection Hm as ->. apply (R5 a v o (nth_error_In _ _ Hk)). rewrite Ho. left. reflexivity.
      - intros b u x Hbu Hx. destruct (E2 b u x Hbu Hx) as (b0 & u0 & Hb0 & Hx0). apply mark_in in Hb0 as (u1 & Hb1 & _). apply (R5 b0 u1 x Hb1). rewrite (qops_fst b0 u1 u0). exact Hx0. }
    assert (Oth : forall nt, nt = match a with QLoop o DFired | QCompl o _ => (o, calls v) :: j_not z | _ => j_not z end ->
      j_lift (qstep (j_q z) (QStep k i spur)) (fun s' => JS s' (j_who z) (j_ops z) nt (j_dead z)) = Next z' es -> RJ z' (tr ++ es)).
    { clear H. intros nt -> H. destruct (qstep (j_q z) (QStep k i spur)) as [s' es'| |f es'] eqn:Es; try discriminate. injection H as <- <-. destruct (qstep_ev _ _ _ _ _ _ _ _ Hk Es) as [E1 E2].
      assert (Hns : forall x n, ~ In (QEStart x n) es') by (intros x n Hx; rewrite E1 in Hx; destruct a as [y|y [p|]|[y|]|y p|]; simpl in Hx; try tauto; destruct Hx as [Hx|[]]; discriminate).
      unfold RJ, j_recorded. cbn [j_q j_who j_not j_ops]. rewrite qev_app, qev_map. repeat split.
      - rewrite q_done_app, rev_app_distr, E1. destruct a as [y|y [p|]|[y|]|y p|]; simpl; rewrite ?R1; reflexivity.
      - intros Hx. apply R2 in Hx as [n Hn]. exists n. apply in_or_app. auto.
      - intros [n Hn]. apply in_app_or in Hn as [Hn|Hn]; [apply R2; eauto|destruct (Hns _ _ Hn)].
      - intros m Hm. rewrite q_raises_app. pose proof (R3 m Hm). lia.
      - exact R4.
      - intros b u x Hb Hx. destruct (E2 b u x Hb Hx) as (b0 & u0 & Hb0 & Hx0). exact (R5 b0 u0 x Hb0 Hx0). }
    destruct a as [x|x [p|]|[x|]|x p|]; [exact (Acc x eq_refl I H)|exact (Acc x eq_refl I H)|exact (Oth _ eq_refl H)..].
  - destruct (j_dead z); [discriminate|]. destruct (j_may z kn); [|discriminate]. destruct (sub (seq 0 (length (j_who z))) kn); [|discriminate]. injection H as <- <-.
    unfold RJ, j_recorded. cbn [j_q j_who j_not j_ops]. rewrite qev_app. simpl. rewrite app_nil_r. repeat split; auto; [intros Hx; apply R2; exact Hx|intros Hx; apply R2; exact Hx].
Qed.
Theorem j_recorded_thm ls z tr : run step j_init ls = Running z tr -> j_recorded z tr.
Proof.
  intros H. assert (RJ z tr) as [H' _]; [|exact H']. revert H. apply (run_inv step RJ j_init); [|intros s1 tr1 l s2 es; exact (RJ_step s1 tr1 l s2 es)].
  assert (Hn : forall (A : Type) m (x : A), nth_error [] m = Some x -> False) by (intros A [|m] x H; discriminate).
  unfold RJ, j_recorded. simpl. repeat split; try tauto; [intros [n []]|intros m Hm; destruct (Hn _ _ _ Hm)|intros m o Hm; exact (Hn _ _ _ Hm)].
Qed.
End Record.
