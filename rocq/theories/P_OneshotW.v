(** oneshot_primitive under the C++ memory model. *)
From Coq Require Import List Arith Bool Lia.
From Verif Require Import Lts ListFacts M_Mutex P_Mutex M_Weak M_OneshotPrim P_OneshotPrim P_MutexW M_OneshotW S_OneshotW.
Import ListNotations.

Lemma q_raises_app a b : q_raises (a ++ b) = q_raises a + q_raises b.
Proof. unfold q_raises. now rewrite filter_app, app_length. Qed.
Lemma q_done_app a b : q_done (a ++ b) = q_done a ++ q_done b.
Proof. apply flat_map_app. Qed.

Definition saw_raise (tr : list qevent) (b : list nat) : Prop := exists n, In (QERaise n) tr /\ In n b.
Definition saw_start (o : nat) (tr : list qevent) (b : list nat) : Prop := exists n, In (QEStart o n) tr /\ In n b.
Lemma saw_raise_mono tr es b b' : saw_raise tr b -> (forall n, In n b -> In n b') -> saw_raise (tr ++ es) b'.
Proof. intros (n & H1 & H2) H. exists n. split; [apply in_or_app; auto|auto]. Qed.
Lemma saw_start_mono o tr es b b' : saw_start o tr b -> (forall n, In n b -> In n b') -> saw_start o (tr ++ es) b'.
Proof. intros (n & H1 & H2) H. exists n. split; [apply in_or_app; auto|auto]. Qed.
Lemma saw_raise_up tr b b' : saw_raise tr b -> (forall n, In n b -> In n b') -> saw_raise tr b'.
Proof. intros (n & H1 & H2) H. exists n. auto. Qed.
Lemma saw_start_up o tr b b' : saw_start o tr b -> (forall n, In n b -> In n b') -> saw_start o tr b'.
Proof. intros (n & H1 & H2) H. exists n. auto. Qed.

Definition vis (tr : list qevent) : Prop := sees_raise tr /\ sees_start tr.
Lemma vis_snoc tr e : vis tr -> (forall o b, e = QEDone o b -> saw_raise tr b /\ saw_start o tr b) -> vis (tr ++ [e]).
Proof.
  intros [H1 H2] H. split; intros t1 o b t2 E; (destruct t2 as [|e2 t2] using rev_ind;
    [apply app_inj_tail in E as [-> ->]; destruct (H o b eq_refl); assumption|rewrite app_comm_cons, app_assoc in E; apply app_inj_tail in E as [E _]]);
  [exact (H1 _ _ _ _ E)|exact (H2 _ _ _ _ E)].
Qed.

Definition qrr (p : qact * view) : nat := match fst p with QRead _ | QCompl _ _ => 1 | _ => 0 end.
Definition qops (p : qact * view) : list nat := match fst p with QLoad o | QLoop o _ => [o] | _ => [] end.
Definition qrest (nx : nat -> option nat) (lr : list nat) (a : qact) : Prop :=
  match a with QRead p => chain nx p lr | QCompl o p => exists l', lr = o :: l' /\ chain nx p l' | _ => True end.
Definition qfired (h : hist dval) : nat := match q_last h with DFired => 1 | _ => 0 end.

(** [l]: the nodes that are linked; [lr]: the nodes that raise() has still to complete *)
Record QI (s : qst) (tr : list qevent) (l lr : list nat) : Prop := {
  qi_ne : q_h s <> [];
  qi_h : forall i x w, nth_error (q_h s) i = Some (x, w) -> v_ts w <= i /\ (x = DFired -> i = newest (q_h s));
  qi_ts : forall a v, In (a, v) (q_act s) -> v_ts v < length (q_h s);
  qi_start : forall o, (exists n, In (QEStart o n) tr) <-> q_op s o <> OIdle;
  qi_done : NoDup (q_done tr) /\ forall o, In o (q_done tr) <-> q_op s o = ODone;
  qi_l : match q_last (q_h s) with DPtr p => chain (q_next s) p l | DFired => l = [] end;
  qi_lr : forall a v, In (a, v) (q_act s) -> qrest (q_next s) lr a;
  qi_rr : lr <> [] -> sum (map qrr (q_act s)) = 1;
  qi_r1 : sum (map qrr (q_act s)) <= qfired (q_h s);
  qi_raise : q_raises tr = qfired (q_h s);
  qi_place : forall o, cnt o l + cnt o lr + cnt o (flat_map qops (q_act s)) = match q_op s o with OStarted => 1 | _ => 0 end;
  qi_k : forall o, In o l -> knows (rel_of (q_h s)) o = true /\ saw_start o tr (accs (rel_of (q_h s)));
  qi_kr : forall a v, In (a, v) (q_act s) -> qrr (a, v) = 1 -> saw_raise tr (accs v) /\ forall o, In o lr -> knows v o = true /\ saw_start o tr (accs v);
  qi_f : q_last (q_h s) = DFired -> saw_raise tr (accs (rel_of (q_h s)));
  qi_ff : forall o v, In (QLoop o DFired, v) (q_act s) -> q_last (q_h s) = DFired /\ saw_raise tr (accs v);
  qi_o : forall a v o, In (a, v) (q_act s) -> In o (qops (a, v)) -> saw_start o tr (accs v);
  qi_vis : vis tr }.

Lemma qi_init : QI q_init [] [] [].
Proof.
  constructor; simpl; try tauto; try lia; try discriminate; try (intros; congruence); try (intros; contradiction).
  - intros [|[]] x w H; simpl in H; try discriminate. injection H as <- <-. split; [simpl; lia|discriminate].
  - intros o. split; [intros [n []]|congruence].
  - split; [constructor|]. intros o; split; [intros []|discriminate].
  - split; intros t1 o b t2 E; destruct t1; discriminate.
Qed.

Lemma q_last_nth h i x w : i = newest h -> nth_error h i = Some (x, w) -> q_last h = x.
Proof. intros -> H. unfold q_last. now rewrite H. Qed.
Lemma q_last_snoc h x w : q_last (h ++ [(x, w)]) = x.
Proof. unfold q_last. rewrite newest_snoc, nth_error_app2, Nat.sub_diag; auto. Qed.
Lemma newest_some {A} (h : hist A) : h <> [] -> exists x, nth_error h (newest h) = Some (x, rel_of h).
Proof.
  intros H. pose proof (newest_lt h H) as Hl. unfold rel_of. destruct (nth_error h (newest h)) as [[x w]|] eqn:E; [eauto|]. apply nth_error_None in E. lia.
Qed.
Lemma knows_add v o o' : knows (vadd v (TObj o')) o = (o' =? o) || knows v o.
Proof. reflexivity. Qed.
Lemma cnt_fm_snoc (o : nat) (l : list (qact * view)) p : cnt o (flat_map qops (l ++ [p])) = cnt o (flat_map qops l) + cnt o (qops p).
Proof. rewrite flat_map_app. simpl. rewrite app_nil_r. apply cnt_app. Qed.
Lemma sum_snoc (l : list (qact * view)) p : sum (map qrr (l ++ [p])) = sum (map qrr l) + qrr p.
Proof. induction l as [|a l IH]; simpl; lia. Qed.

Lemma cnt1 o : cnt o [o] = 1.
Proof. unfold cnt. simpl. destruct (Nat.eq_dec o o); congruence. Qed.

Section Step.
Variable c_acq : bool.
Notation step := (q_step true true c_acq true true true).
Variables (s : qst) (tr : list qevent) (l lr : list nat).
Hypothesis HI : QI s tr l lr.

Lemma qi_rel_ts : v_ts (rel_of (q_h s)) < length (q_h s).
Proof.
  destruct (newest_some _ (qi_ne _ _ _ _ HI)) as [x Hx]. pose proof (proj1 (qi_h _ _ _ _ HI _ _ _ Hx)). pose proof (newest_lt _ (qi_ne _ _ _ _ HI)). lia.
Qed.
Lemma qi_here a v o : In (a, v) (q_act s) -> In o (qops (a, v)) -> q_op s o = OStarted /\ ~ In o l /\ ~ In o lr /\ cnt o (flat_map qops (q_act s)) = 1.
Proof.
  intros Ha Ho. pose proof (qi_place _ _ _ _ HI o) as H. pose proof (cnt_flat_in qops o _ _ Ha). apply cnt_pos in Ho. destruct (q_op s o); try lia.
  repeat split; auto; try (apply cnt_zero; lia). lia.
Qed.
Lemma qi_linked o : In o l \/ In o lr -> q_op s o = OStarted.
Proof. intros H. pose proof (qi_place _ _ _ _ HI o) as Hp. destruct H as [H|H]; apply cnt_pos in H; destruct (q_op s o); auto; lia. Qed.
Lemma qi_rr_in a v : In (a, v) (q_act s) -> qrr (a, v) = 1 -> sum (map qrr (q_act s)) = 1 /\ q_last (q_h s) = DFired.
Proof.
  intros Ha Hr. pose proof (sum_map_le qrr _ _ Ha). pose proof (qi_r1 _ _ _ _ HI). unfold qfired in *. destruct (q_last (q_h s)); split; auto; lia.
Qed.
Lemma q_alive o : q_op s o = OStarted -> alive (q_op s) o = true.
Proof. unfold alive. now intros ->. Qed.

Definition qok (r : outcome qst qevent) : Prop :=
  match r with
  | Next s' es => exists l' lr', QI s' (tr ++ es) l' lr'
  | Disabled => True
  | Fail f es => f = AssertFailed /\ 2 <= q_raises (tr ++ es)
  end.

Lemma qok_notify k a v o a' lr' : nth_error (q_act s) k = Some (a, v) -> q_op s o = OStarted -> q_last (q_h s) = DFired ->
  (forall x, cnt x lr' + cnt x (qops (a', v)) + (if Nat.eq_dec o x then 1 else 0) = cnt x lr + cnt x (qops (a, v))) ->
  qrest (q_next s) lr' a' -> incl lr' lr -> qrr (a', v) = qrr (a, v) -> qops (a', v) = [] ->
  (forall j b, j <> k -> nth_error (q_act s) j = Some b -> qrest (q_next s) lr' (fst b)) ->
  saw_raise tr (accs v) -> saw_start o tr (accs v) ->
  qok (q_notify s k o v a').
Proof.
  intros Hk Ho Hst Hp Hl Hr Hrr Hops Hoth Hsr Hss. unfold q_notify. rewrite (q_alive o Ho). simpl. exists l, lr'.
  pose proof (sum_map_set_nth qrr _ k (a', v) _ Hk) as Srr. rewrite Hrr in Srr.
  assert (Hnd : ~ In o (q_done tr)) by (intros H; apply (proj2 (qi_done _ _ _ _ HI)) in H; congruence).
  assert (Hno : forall e0 : qevent, (forall o b, e0 <> QEDone o b) -> In e0 (tr ++ [QEDone o (accs v)]) -> In e0 tr).
  { intros e0 He H. apply in_app_or in H as [H|[H|[]]]; [exact H|]. destruct (He _ _ (eq_sym H)). }
  pose proof (nth_error_In _ _ Hk) as Hin.
  constructor; cbn [q_h q_next q_op q_act q_acc]; try apply HI.
  - intros b w Hb. apply In_set_nth in Hb as [E|Hb]; [injection E as -> ->; exact (qi_ts _ _ _ _ HI _ _ Hin)|exact (qi_ts _ _ _ _ HI _ _ Hb)].
  - intros x. unfold upd. assert ((exists n, In (QEStart x n) (tr ++ [QEDone o (accs v)])) <-> exists n, In (QEStart x n) tr) as ->.
    { split; intros [n H]; exists n; [apply Hno; [discriminate|exact H]|apply in_or_app; auto]. }
    rewrite (qi_start _ _ _ _ HI). destruct (Nat.eqb_spec x o) as [->|]; [|tauto]. rewrite Ho. split; congruence.
  - rewrite q_done_app. simpl. split; [apply NoDup_snoc; [apply HI|auto]|]. intros x. rewrite In_snoc, (proj2 (qi_done _ _ _ _ HI)). unfold upd. destruct (Nat.eqb_spec x o) as [->|]; [tauto|].
    split; [intros [H|H]; congruence|auto].
  - intros b w Hb. apply In_nth_error in Hb as [j Hj]. destruct (Nat.eq_dec j k) as [->|Hne].
    + rewrite (nth_error_set_nth_same _ _ _ _ Hk) in Hj. injection Hj as <- <-. exact Hl.
    + rewrite nth_error_set_nth_other in Hj by auto. exact (Hoth _ _ Hne Hj).
  - intros H. assert (lr <> []) as H' by (intros E; rewrite E in Hr; destruct lr' as [|y ?]; [congruence|destruct (Hr y (or_introl eq_refl))]).
    pose proof (qi_rr _ _ _ _ HI H'). lia.
  - pose proof (qi_r1 _ _ _ _ HI). lia.
  - rewrite q_raises_app, (qi_raise _ _ _ _ HI). unfold q_raises. simpl. lia.
  - intros x. pose proof (qi_place _ _ _ _ HI x) as H. pose proof (cnt_flat_set qops x _ k (a', v) _ Hk) as Hf. specialize (Hp x). unfold upd. destruct (Nat.eqb_spec x o) as [->|Hne].
    + rewrite Ho in H. destruct (Nat.eq_dec o o); [lia|congruence].
    + destruct (Nat.eq_dec o x); [congruence|]. lia.
  - intros x Hx. destruct (qi_k _ _ _ _ HI x Hx) as [A B]. split; [exact A|]. apply (saw_start_mono _ _ _ _ _ B). auto.
  - intros b w Hb Hr1. assert (HH : saw_raise tr (accs w) /\ forall x, In x lr -> knows w x = true /\ saw_start x tr (accs w)).
    { apply In_set_nth in Hb as [E|Hb]; [|exact (qi_kr _ _ _ _ HI b w Hb Hr1)]. injection E as -> ->. apply (qi_kr _ _ _ _ HI a v Hin). congruence. }
    destruct HH as [A B]. split; [apply (saw_raise_mono _ _ _ _ A); auto|]. intros x Hx. destruct (B x (Hr x Hx)) as [B1 B2]. split; [exact B1|]. apply (saw_start_mono _ _ _ _ _ B2). auto.
  - intros E. apply (saw_raise_mono _ _ _ _ (qi_f _ _ _ _ HI E)). auto.
  - intros x w Hb. apply In_set_nth in Hb as [E|Hb]; [injection E as <- <-; discriminate Hops|]. destruct (qi_ff _ _ _ _ HI x w Hb) as [A B]. split; [exact A|].
    apply (saw_raise_mono _ _ _ _ B). auto.
  - intros b w x Hb Hx. apply In_set_nth in Hb as [E|Hb]; [injection E as -> ->; rewrite Hops in Hx; destruct Hx|]. apply (saw_start_mono _ _ _ _ _ (qi_o _ _ _ _ HI b w x Hb Hx)). auto.
  - apply vis_snoc; [apply HI|]. intros o' b' E. injection E as <- <-. auto.
Qed.

(** a move of call [k] without effect on the rest, except perhaps on next_ of its operation *)
Lemma qi_move k a v a' v' nx : nth_error (q_act s) k = Some (a, v) -> qrr (a', v') = qrr (a, v) -> qops (a', v') = qops (a, v) ->
  (forall x, nx x = q_next s x \/ In x (qops (a, v))) -> qrest nx lr a' ->
  (forall n, In n (accs v) -> In n (accs v')) -> (forall o, knows v o = true -> knows v' o = true) -> v_ts v' < length (q_h s) ->
  (forall x, a' = QLoop x DFired -> q_last (q_h s) = DFired /\ saw_raise tr (accs v')) ->
  QI (QS (q_h s) nx (q_op s) (set_nth (q_act s) k (a', v')) (q_acc s)) (tr ++ []) l lr.
Proof.
  intros Hk Hrr Hops Hnx Hl Hac Hkn Hts Hloop. rewrite app_nil_r. pose proof (sum_map_set_nth qrr _ k (a', v') _ Hk) as Srr. rewrite Hrr in Srr. pose proof (nth_error_In _ _ Hk) as Hin.
  assert (Hch : forall m p, incl m l \/ incl m lr -> chain (q_next s) p m -> chain nx p m).
  { intros m. induction m as [|x m IH]; intros p Hm Hc; [exact Hc|]. destruct Hc as [-> Hc]. split; [reflexivity|].
    assert (Hx : In x l \/ In x lr) by (destruct Hm as [Hm|Hm]; [left|right]; apply Hm; left; reflexivity).
    destruct (Hnx x) as [-> |Ho]; [|destruct (qi_here _ _ _ Hin Ho) as (_ & A & B & _); tauto].
    apply IH; [|exact Hc]. destruct Hm as [Hm|Hm]; [left|right]; intros y Hy; apply Hm; right; exact Hy. }
  constructor; cbn [q_h q_next q_op q_act q_acc]; try apply HI.
  - intros b w Hb. apply In_set_nth in Hb as [E|Hb]; [injection E as -> ->; exact Hts|exact (qi_ts _ _ _ _ HI _ _ Hb)].
  - pose proof (qi_l _ _ _ _ HI) as H. destruct (q_last (q_h s)); [|exact H]. apply Hch; [left; apply incl_refl|exact H].
  - intros b w Hb. apply In_set_nth in Hb as [E|Hb]; [injection E as -> ->; exact Hl|]. pose proof (qi_lr _ _ _ _ HI b w Hb) as H. destruct b as [x|x c|p|x p|]; simpl in *; auto.
    + apply Hch; [right; apply incl_refl|exact H].
    + destruct H as (l' & -> & H). exists l'. split; [reflexivity|]. apply Hch; [right; intros y Hy; right; exact Hy|exact H].
  - intros H. pose proof (qi_rr _ _ _ _ HI H). lia.
  - pose proof (qi_r1 _ _ _ _ HI). lia.
  - intros x. pose proof (qi_place _ _ _ _ HI x) as H. pose proof (cnt_flat_set qops x _ k (a', v') _ Hk) as Hf. rewrite Hops in Hf. lia.
  - intros b w Hb Hr1. apply In_set_nth in Hb as [E|Hb]; [|exact (qi_kr _ _ _ _ HI b w Hb Hr1)]. injection E as -> ->.
    destruct (qi_kr _ _ _ _ HI a v Hin ltac:(congruence)) as [A B]. split; [exact (saw_raise_up _ _ _ A Hac)|]. intros x Hx. destruct (B x Hx) as [B1 B2]. split; [auto|exact (saw_start_up _ _ _ _ B2 Hac)].
  - intros x w Hb. apply In_set_nth in Hb as [E|Hb]; [|exact (qi_ff _ _ _ _ HI x w Hb)]. injection E as E ->. apply (Hloop x). symmetry. exact E.
  - intros b w x Hb Hx. apply In_set_nth in Hb as [E|Hb]; [|exact (qi_o _ _ _ _ HI b w x Hb Hx)]. injection E as -> ->. rewrite Hops in Hx. exact (saw_start_up _ _ _ _ (qi_o _ _ _ _ HI a v x Hin Hx) Hac).
Qed.

(** what an acquire load gives *)
Lemma see_facts v i x w : rd (q_h s) v i = Some (x, w) -> v_ts (q_see true v i w) < length (q_h s) /\ (forall n, In n (accs v) -> In n (accs (q_see true v i w))) /\
  (forall o, knows v o = true -> knows (q_see true v i w) o = true) /\ (x = DFired -> q_last (q_h s) = DFired /\ saw_raise tr (accs (q_see true v i w))).
Proof.
  intros Hr. apply rd_some in Hr as (Hle & Hi & Hl). destruct (qi_h _ _ _ _ HI i x w Hi) as [Hw Hf]. split; [unfold q_see; simpl; lia|]. split.
  { intros n Hn. apply (proj2 (accs_join v w n)). auto. }
  split; [intros o Ho; unfold q_see; rewrite knows_see, knows_join, Ho; reflexivity|].
  intros ->. specialize (Hf eq_refl). pose proof (q_last_nth _ _ _ _ Hf Hi) as E. split; [exact E|].
  assert (rel_of (q_h s) = w) as Hrel by (unfold rel_of; rewrite <- Hf, Hi; reflexivity).
  apply (saw_raise_up _ _ _ (qi_f _ _ _ _ HI E)). rewrite Hrel. intros n Hn. apply (proj2 (accs_join v w n)). auto.
Qed.

(** a message is appended by a read-modify-write operation of a thread with view v *)
Lemma push_h acq v x w : v_ts v < length (q_h s) -> q_last (q_h s) <> DFired -> w = vjoin (rel_of (q_h s)) (rmw_view acq (q_h s) v) ->
  forall i y u, nth_error (q_h s ++ [(x, w)]) i = Some (y, u) -> v_ts u <= i /\ (y = DFired -> i = newest (q_h s ++ [(x, w)])).
Proof.
  intros Hv Hnf -> i y u Hi. apply nth_snoc_cases in Hi as [[Hl Hi]|[-> E]].
  - destruct (qi_h _ _ _ _ HI i y u Hi) as [A B]. split; [exact A|]. intros ->. specialize (B eq_refl). destruct Hnf. exact (q_last_nth _ _ _ _ B Hi).
  - injection E as -> ->. rewrite newest_snoc. split; [|reflexivity]. change (Nat.max (v_ts (rel_of (q_h s))) (v_ts (rmw_view acq (q_h s) v)) <= length (q_h s)).
    rewrite (rmw_ts acq _ _ Hv qi_rel_ts). pose proof qi_rel_ts. lia.
Qed.

Lemma qi_push k o p v i w : nth_error (q_act s) k = Some (QLoop o (DPtr p), v) -> rd (q_h s) (vadd v (TObj o)) i = Some (DPtr p, w) -> i = newest (q_h s) ->
  QI (QS (rmw c_acq true (q_h s) (vadd v (TObj o)) (DPtr (Some o))) (upd (q_next s) o p) (q_op s)
         (set_nth (q_act s) k (QEnd, rmw_view c_acq (q_h s) (vadd v (TObj o)))) (q_acc s)) (tr ++ []) (o :: l) lr.
Proof.
  intros Hk Hr Hnew. rewrite app_nil_r. apply rd_some in Hr as (_ & Hi & _). pose proof (q_last_nth _ _ _ _ Hnew Hi) as Hlast. pose proof (nth_error_In _ _ Hk) as Hin.
  pose proof (qi_ts _ _ _ _ HI _ _ Hin) as Hv. destruct (qi_here _ _ o Hin (or_introl eq_refl)) as (Ho & Hnl & Hnlr & _). set (v1 := vadd v (TObj o)) in *.
  assert (Hv1 : v_ts v1 < length (q_h s)) by exact Hv. pose proof (rmw_ts c_acq _ _ Hv1 qi_rel_ts) as Hts. unfold rmw. set (m := vjoin (rel_of (q_h s)) (rmw_view c_acq (q_h s) v1)).
  assert (Hnf : q_last (q_h s) <> DFired) by congruence. assert (H0 : sum (map qrr (q_act s)) = 0) by (pose proof (qi_r1 _ _ _ _ HI) as H; unfold qfired in H; rewrite Hlast in H; lia).
  pose proof (sum_map_set_nth qrr _ k (QEnd, rmw_view c_acq (q_h s) v1) _ Hk) as Srr. change (qrr (QEnd, rmw_view c_acq (q_h s) v1)) with 0 in Srr. change (qrr (QLoop o (DPtr p), v)) with 0 in Srr.
  assert (Hlr : lr = []) by (destruct lr eqn:E; [reflexivity|]; assert (lr <> []) as H by congruence; rewrite <- E in HI; pose proof (qi_rr _ _ _ _ HI H); lia).
  constructor; cbn [q_h q_next q_op q_act q_acc]; rewrite ?rel_snoc; unfold qfired; rewrite ?q_last_snoc; try apply HI.
  - intros E. apply app_eq_nil in E as [_ E]. discriminate.
  - apply push_h with (acq := c_acq) (v := v1); auto.
  - intros b u Hb. rewrite app_length. simpl length. apply In_set_nth in Hb as [E|Hb]; [injection E as -> ->; lia|]. pose proof (qi_ts _ _ _ _ HI _ _ Hb). lia.
  - simpl. split; [reflexivity|]. rewrite upd_same. apply chain_upd; [exact Hnl|]. pose proof (qi_l _ _ _ _ HI) as H. rewrite Hlast in H. exact H.
  - intros b u Hb. apply In_set_nth in Hb as [E|Hb]; [injection E as -> ->; exact I|]. assert (qrr (b, u) = 0) as Hz by (pose proof (sum_map_le qrr _ _ Hb); lia). destruct b; simpl; auto; discriminate Hz.
  - rewrite Hlr. congruence.
  - lia.
  - rewrite (qi_raise _ _ _ _ HI). unfold qfired. rewrite Hlast. reflexivity.
  - intros x. pose proof (qi_place _ _ _ _ HI x) as H. pose proof (cnt_flat_set qops x _ k (QEnd, rmw_view c_acq (q_h s) v1) _ Hk) as Hf. change (qops (QEnd, rmw_view c_acq (q_h s) v1)) with (@nil nat) in Hf.
    change (qops (QLoop o (DPtr p), v)) with [o] in Hf. rewrite cnt_nil in Hf. change (o :: l) with ([o] ++ l). rewrite cnt_app. lia.
  - intros x [<-|Hx].
    + split; [unfold m; rewrite knows_join, (rmw_knows c_acq (q_h s) v1 o), orb_true_r; [reflexivity|]; unfold v1; rewrite knows_add, Nat.eqb_refl; reflexivity|].
      apply (saw_start_up _ _ _ _ (qi_o _ _ _ _ HI _ _ o Hin (or_introl eq_refl))). intros n Hn. apply accs_join. right. apply rmw_accs. left. exact Hn.
    + destruct (qi_k _ _ _ _ HI x Hx) as [A B]. split; [unfold m; rewrite knows_join, A; reflexivity|]. apply (saw_start_up _ _ _ _ B). intros n Hn. apply accs_join. auto.
  - intros b u Hb Hr1. apply In_set_nth in Hb as [E|Hb]; [injection E as -> ->; discriminate|]. pose proof (sum_map_le qrr _ _ Hb). lia.
  - discriminate.
  - intros x u Hb. apply In_set_nth in Hb as [E|Hb]; [discriminate|]. destruct (qi_ff _ _ _ _ HI x u Hb) as [A _]. congruence.
  - intros b u x Hb Hx. apply In_set_nth in Hb as [E|Hb]; [injection E as -> ->; destruct Hx|]. exact (qi_o _ _ _ _ HI b u x Hb Hx).
Qed.

Lemma qi_raise_step v p : v_ts v < length (q_h s) -> q_last (q_h s) = DPtr p ->
  let v1 := vadd v (TData (q_acc s)) in
  QI (QS (rmw true true (q_h s) v1 DFired) (q_next s) (q_op s) (q_act s ++ [(QRead p, rmw_view true (q_h s) v1)]) (S (q_acc s))) (tr ++ [QERaise (q_acc s)]) [] l.
Proof.
  intros Hv Hlast v1. assert (Hv1 : v_ts v1 < length (q_h s)) by exact Hv. pose proof (rmw_ts true _ _ Hv1 qi_rel_ts) as Hts. unfold rmw. set (m := vjoin (rel_of (q_h s)) (rmw_view true (q_h s) v1)).
  assert (Hnf : q_last (q_h s) <> DFired) by congruence. assert (H0 : sum (map qrr (q_act s)) = 0) by (pose proof (qi_r1 _ _ _ _ HI) as H; unfold qfired in H; rewrite Hlast in H; lia).
  assert (Hlr : lr = []) by (destruct lr eqn:E; [reflexivity|]; assert (lr <> []) as H by congruence; rewrite <- E in HI; pose proof (qi_rr _ _ _ _ HI H); lia).
  assert (Hno : forall e0 : qevent, (forall n, e0 <> QERaise n) -> In e0 (tr ++ [QERaise (q_acc s)]) -> In e0 tr).
  { intros e0 He H. apply in_app_or in H as [H|[H|[]]]; [exact H|]. destruct (He _ (eq_sym H)). }
  assert (Hsr : forall b, In (q_acc s) b -> saw_raise (tr ++ [QERaise (q_acc s)]) b) by (intros b Hb; exists (q_acc s); split; [apply in_or_app; right; left; reflexivity|exact Hb]).
  assert (Hacc : In (q_acc s) (accs (rmw_view true (q_h s) v1))) by (apply rmw_accs; left; left; reflexivity).
  assert (Hb0 : forall b u, In (b, u) (q_act s) -> qrr (b, u) = 0) by (intros b u Hb; pose proof (sum_map_le qrr _ _ Hb); lia).
  constructor; cbn [q_h q_next q_op q_act q_acc]; rewrite ?rel_snoc; unfold qfired; rewrite ?q_last_snoc; try apply HI.
  - intros E. apply app_eq_nil in E as [_ E]. discriminate.
  - apply push_h with (acq := true) (v := v1); auto.
  - intros b u Hb. rewrite app_length. simpl length. apply In_snoc in Hb as [Hb|E]; [|injection E as -> ->; lia]. pose proof (qi_ts _ _ _ _ HI _ _ Hb). lia.
  - intros x. rewrite <- (qi_start _ _ _ _ HI). split; intros [n H]; exists n; [apply Hno; [discriminate|exact H]|apply in_or_app; auto].
  - rewrite q_done_app. simpl. rewrite app_nil_r. apply HI.
  - reflexivity.
  - intros b u Hb. apply In_snoc in Hb as [Hb|E]; [|injection E as -> ->; simpl; pose proof (qi_l _ _ _ _ HI) as H; rewrite Hlast in H; exact H].
    specialize (Hb0 b u Hb). destruct b; simpl; auto; discriminate Hb0.
  - intros _. rewrite sum_snoc, H0. reflexivity.
  - rewrite sum_snoc, H0. apply le_n.
  - rewrite q_raises_app, (qi_raise _ _ _ _ HI). unfold qfired, q_raises. rewrite Hlast. reflexivity.
  - intros x. pose proof (qi_place _ _ _ _ HI x) as H. rewrite cnt_fm_snoc. rewrite Hlr in H. change (qops (QRead p, rmw_view true (q_h s) v1)) with (@nil nat). rewrite !cnt_nil in *. lia.
  - intros x [].
  - intros b u Hb Hr1. apply In_snoc in Hb as [Hb|E]; [specialize (Hb0 b u Hb); lia|]. injection E as -> ->. split; [apply Hsr; exact Hacc|].
    intros x Hx. destruct (qi_k _ _ _ _ HI x Hx) as [A B]. split; [unfold rmw_view; rewrite knows_see, knows_join, A; apply orb_true_r|].
    apply (saw_start_mono _ _ _ _ _ B). intros n Hn. apply rmw_accs. auto.
  - intros _. apply Hsr. apply accs_join. auto.
  - intros x u Hb. apply In_snoc in Hb as [Hb|E]; [|discriminate]. destruct (qi_ff _ _ _ _ HI x u Hb) as [A B]. congruence.
  - intros b u x Hb Hx. apply In_snoc in Hb as [Hb|E]; [|injection E as -> ->; destruct Hx]. apply (saw_start_mono _ _ _ _ _ (qi_o _ _ _ _ HI b u x Hb Hx)). auto.
  - apply vis_snoc; [apply HI|discriminate].
Qed.

Lemma qi_start_step o v : q_op s o = OIdle -> v_ts v < length (q_h s) ->
  QI (QS (q_h s) (q_next s) (upd (q_op s) o OStarted) (q_act s ++ [(QLoad o, vadd v (TData (q_acc s)))]) (S (q_acc s))) (tr ++ [QEStart o (q_acc s)]) l lr.
Proof.
  intros Ho Hv. set (v1 := vadd v (TData (q_acc s))).
  constructor; cbn [q_h q_next q_op q_act q_acc]; try apply HI.
  - intros b u Hb. apply In_snoc in Hb as [Hb|E]; [exact (qi_ts _ _ _ _ HI _ _ Hb)|injection E as -> ->; exact Hv].
  - intros x. unfold upd. destruct (Nat.eqb_spec x o) as [->|Hn].
    + split; [discriminate|]. intros _. exists (q_acc s). apply in_or_app. right. left. reflexivity.
    + rewrite <- (qi_start _ _ _ _ HI). split; intros [n H]; exists n; [|apply in_or_app; auto]. apply in_app_or in H as [H|[H|[]]]; [exact H|congruence].
  - rewrite q_done_app. simpl. rewrite app_nil_r. split; [apply HI|]. intros x. rewrite (proj2 (qi_done _ _ _ _ HI)). unfold upd. destruct (Nat.eqb_spec x o) as [->|Hn]; [|tauto].
    rewrite Ho. split; discriminate.
  - intros b u Hb. apply In_snoc in Hb as [Hb|E]; [exact (qi_lr _ _ _ _ HI _ _ Hb)|injection E as -> ->; exact I].
  - intros H. rewrite sum_snoc, (qi_rr _ _ _ _ HI H). reflexivity.
  - rewrite sum_snoc. change (qrr (QLoad o, v1)) with 0. pose proof (qi_r1 _ _ _ _ HI). lia.
  - rewrite q_raises_app, (qi_raise _ _ _ _ HI). unfold q_raises. simpl. lia.
  - intros x. pose proof (qi_place _ _ _ _ HI x) as H. rewrite cnt_fm_snoc. change (qops (QLoad o, v1)) with [o]. unfold upd. destruct (Nat.eqb_spec x o) as [->|Hn].
    + rewrite Ho in H. rewrite cnt1. lia.
    + assert (cnt x [o] = 0) as -> by (apply cnt_zero; intros [E|[]]; congruence). lia.
  - intros x Hx. destruct (qi_k _ _ _ _ HI x Hx) as [A B]. split; [exact A|]. apply (saw_start_mono _ _ _ _ _ B). auto.
  - intros b u Hb Hr1. apply In_snoc in Hb as [Hb|E]; [|injection E as -> ->; discriminate]. destruct (qi_kr _ _ _ _ HI b u Hb Hr1) as [A B]. split; [apply (saw_raise_mono _ _ _ _ A); auto|].
    intros x Hx. destruct (B x Hx) as [B1 B2]. split; [exact B1|]. apply (saw_start_mono _ _ _ _ _ B2). auto.
  - intros E. apply (saw_raise_mono _ _ _ _ (qi_f _ _ _ _ HI E)). auto.
  - intros x u Hb. apply In_snoc in Hb as [Hb|E]; [|discriminate]. destruct (qi_ff _ _ _ _ HI x u Hb) as [A B]. split; [exact A|]. apply (saw_raise_mono _ _ _ _ B). auto.
  - intros b u x Hb Hx. apply In_snoc in Hb as [Hb|E].
    + apply (saw_start_mono _ _ _ _ _ (qi_o _ _ _ _ HI b u x Hb Hx)). auto.
    + injection E as -> ->. destruct Hx as [<-|[]]. exists (q_acc s). split; [apply in_or_app; right; left; reflexivity|left; reflexivity].
  - apply vis_snoc; [apply HI|discriminate].
Qed.

Lemma q_ok lb : qok (step s lb).
Proof.
  destruct lb as [o v|v|k i spur]; cbn [q_step].
  - destruct (q_op s o) eqn:Ho; simpl; auto. destruct (Nat.ltb_spec (v_ts v) (length (q_h s))) as [Hv|Hv]; simpl; auto. exists l, lr. exact (qi_start_step o v Ho Hv).
  - destruct (Nat.ltb_spec (v_ts v) (length (q_h s))) as [Hv|Hv]; simpl; auto. destruct (q_last (q_h s)) as [p|] eqn:E; simpl.
    + exists [], l. exact (qi_raise_step v p Hv E).
    + split; [reflexivity|]. rewrite q_raises_app, (qi_raise _ _ _ _ HI). unfold qfired. rewrite E. unfold q_raises. simpl. lia.
  - destruct (nth_error (q_act s) k) as [[a v]|] eqn:Hk; [|exact I]. pose proof (nth_error_In _ _ Hk) as Hin. destruct a as [o|o [p|]|[o|]|o p|]; cbn [q_act_step].
    + destruct (rd (q_h s) v i) as [[x w]|] eqn:Hr; [|exact I]. destruct (see_facts v i x w Hr) as (A & B & C & D). exists l, lr.
      apply (qi_move k (QLoad o) v); auto. { exact I. } intros y E. injection E as _ ->. auto.
    + destruct (qi_here _ _ o Hin (or_introl eq_refl)) as (Ho & _). rewrite (q_alive o Ho). simpl negb. cbv iota.
      destruct (rd (q_h s) (vadd v (TObj o)) i) as [[x w]|] eqn:Hr; [|exact I]. destruct (dval_eqb x (DPtr p) && (i =? newest (q_h s)) && negb spur) eqn:E.
      * apply andb_true_iff in E as [E _]. apply andb_true_iff in E as [E1 E2]. apply dval_eqb_eq in E1. apply Nat.eqb_eq in E2. subst x. exists (o :: l), lr. exact (qi_push k o p v i w Hk Hr E2).
      * destruct (see_facts _ i x w Hr) as (A & B & C & D). exists l, lr. apply (qi_move k (QLoop o (DPtr p)) v); auto.
        -- intros y. unfold upd. destruct (Nat.eqb_spec y o) as [->|]; [right; left; reflexivity|auto].
        -- exact I.
        -- intros y Hy. apply C. rewrite knows_add, Hy. apply orb_true_r.
        -- intros y Ey. injection Ey as _ ->. auto.
    + destruct (qi_here _ _ o Hin (or_introl eq_refl)) as (Ho & _ & Hnlr & _). destruct (qi_ff _ _ _ _ HI o v Hin) as [Hf Hs].
      apply (qok_notify k (QLoop o DFired) v o QEnd lr); auto.
      * exact I.
      * apply incl_refl.
      * intros j b _ Hj. destruct b as [b u]. exact (qi_lr _ _ _ _ HI b u (nth_error_In _ _ Hj)).
      * exact (qi_o _ _ _ _ HI _ _ o Hin (or_introl eq_refl)).
    + pose proof (qi_lr _ _ _ _ HI _ _ Hin) as Hc. destruct (chain_some _ _ _ Hc) as (l' & El & Hc'). assert (Ho : In o lr) by (rewrite El; left; reflexivity).
      rewrite (q_alive o (qi_linked o (or_intror Ho))). simpl negb. cbv iota. destruct (qi_kr _ _ _ _ HI _ _ Hin eq_refl) as [_ Hkn]. rewrite (proj1 (Hkn o Ho)). simpl negb. cbv iota.
      exists l, lr. apply (qi_move k (QRead (Some o)) v); auto.
      * exists l'. auto.
      * exact (qi_ts _ _ _ _ HI _ _ Hin).
      * discriminate.
    + exists l, lr. pose proof (qi_lr _ _ _ _ HI _ _ Hin) as Hc. simpl in Hc. apply chain_none in Hc. destruct (qi_rr_in _ _ Hin eq_refl) as [H1 Hf].
      assert (Hoth : forall b u, In (b, u) (set_nth (q_act s) k (QEnd, v)) -> qrr (b, u) = 0).
      { intros b u Hb. pose proof (sum_map_set_nth qrr _ k (QEnd, v) _ Hk) as Srr. change (qrr (QEnd, v)) with 0 in Srr. change (qrr (QRead None, v)) with 1 in Srr. pose proof (sum_map_le qrr _ _ Hb). lia. }
      rewrite app_nil_r. constructor; cbn [q_set q_h q_next q_op q_act q_acc]; try apply HI.
      * intros b u Hb. apply In_set_nth in Hb as [E|Hb]; [injection E as -> ->; exact (qi_ts _ _ _ _ HI _ _ Hin)|exact (qi_ts _ _ _ _ HI _ _ Hb)].
      * intros b u Hb. specialize (Hoth b u Hb). destruct b; simpl; auto; discriminate Hoth.
      * rewrite Hc. congruence.
      * pose proof (sum_map_set_nth qrr _ k (QEnd, v) _ Hk) as Srr. change (qrr (QEnd, v)) with 0 in Srr. pose proof (qi_r1 _ _ _ _ HI). lia.
      * intros x. pose proof (qi_place _ _ _ _ HI x) as H. pose proof (cnt_flat_set qops x _ k (QEnd, v) _ Hk) as Hf'. change (qops (QEnd, v)) with (@nil nat) in Hf'.
        change (qops (QRead None, v)) with (@nil nat) in Hf'. lia.
      * intros b u Hb Hr1. specialize (Hoth b u Hb). lia.
      * intros x u Hb. apply In_set_nth in Hb as [E|Hb]; [discriminate|exact (qi_ff _ _ _ _ HI x u Hb)].
      * intros b u x Hb Hx. apply In_set_nth in Hb as [E|Hb]; [injection E as -> ->; destruct Hx|exact (qi_o _ _ _ _ HI b u x Hb Hx)].
    + pose proof (qi_lr _ _ _ _ HI _ _ Hin) as Hc. destruct Hc as (l' & El & Hc'). assert (Ho : In o lr) by (rewrite El; left; reflexivity).
      destruct (qi_kr _ _ _ _ HI _ _ Hin eq_refl) as [Hs Hkn]. destruct (qi_rr_in _ _ Hin eq_refl) as [H1 Hf].
      apply (qok_notify k (QCompl o p) v o (QRead p) l'); auto.
      * exact (qi_linked o (or_intror Ho)).
      * intros x. rewrite El. change (qops (QRead p, v)) with (@nil nat). change (qops (QCompl o p, v)) with (@nil nat). change (o :: l') with ([o] ++ l'). rewrite cnt_app, cnt_nil.
        destruct (Nat.eq_dec o x) as [->|Hn].
        -- rewrite cnt1. lia.
        -- assert (cnt x [o] = 0) as -> by (apply cnt_zero; intros [E|[]]; congruence). lia.
      * rewrite El. intros y Hy. right. exact Hy.
      * intros j [b u] Hj Hb. assert (qrr (b, u) = 0) as H0 by (apply (sum_others qrr _ k _ Hk ltac:(change (qrr (QCompl o p, v)) with 1; lia) j (b, u) Hj Hb)).
        destruct b; simpl; auto; discriminate H0.
      * exact (proj2 (Hkn o Ho)).
    + exact I.
Qed.
End Step.

Section Runs.
Variable c_acq : bool.
Notation step := (q_step true true c_acq true true true).
Definition QX (s : qst) (tr : list qevent) : Prop := exists l lr, QI s tr l lr.
Lemma qx_init : QX q_init [].
Proof. exists [], []. exact qi_init. Qed.
Theorem q_inv ls s tr : run step q_init ls = Running s tr -> QX s tr.
Proof.
  apply (run_inv step QX q_init qx_init). intros s1 tr1 lb s2 es (l & lr & J) Hs. pose proof (q_ok c_acq s1 tr1 l lr J lb) as H. rewrite Hs in H. exact H.
Qed.
Theorem q_fail ls f tr : run step q_init ls = Failed f tr -> f = AssertFailed /\ 2 <= q_raises tr.
Proof.
  intros H. unfold run in H. apply run_from_failed in H as (ls1 & lb & s1 & tr1 & es & Hr & Hs & ->). destruct (q_inv ls1 s1 tr1 Hr) as (l & lr & J).
  pose proof (q_ok c_acq s1 tr1 l lr J lb) as H. rewrite Hs in H. exact H.
Qed.
Theorem q_complete ls s tr : run step q_init ls = Running s tr -> q_quiet s -> q_raises tr <> 0 -> forall o n, In (QEStart o n) tr -> In o (q_done tr).
Proof.
  intros Hr Hq Hra o n Ho. destruct (q_inv ls s tr Hr) as (l & lr & J). apply (proj2 (qi_done _ _ _ _ J)).
  assert (q_op s o <> OIdle) as Hi by (apply (qi_start _ _ _ _ J); eauto). pose proof (qi_place _ _ _ _ J o) as Hp.
  assert (Ha : flat_map qops (q_act s) = []).
  { clear -Hq. unfold q_quiet in Hq. induction (q_act s) as [|[a v] m IH]; [reflexivity|]. simpl. rewrite (Hq a v (or_introl eq_refl)). simpl. apply IH. intros b u Hb. apply (Hq b u). right. exact Hb. }
  assert (Hz : sum (map qrr (q_act s)) = 0).
  { clear -Hq. unfold q_quiet in Hq. induction (q_act s) as [|[a v] m IH]; [reflexivity|]. simpl. rewrite (Hq a v (or_introl eq_refl)). simpl. apply IH. intros b u Hb. apply (Hq b u). right. exact Hb. }
  assert (lr = []) as -> by (destruct lr as [|y m]; [reflexivity|]; pose proof (qi_rr _ _ _ _ J ltac:(discriminate)); lia).
  rewrite (qi_raise _ _ _ _ J) in Hra. unfold qfired in Hra. pose proof (qi_l _ _ _ _ J) as Hl. destruct (q_last (q_h s)); [congruence|]. subst l. rewrite Ha, !cnt_nil in Hp.
  destruct (q_op s o); [congruence|simpl in Hp; lia|reflexivity].
Qed.
End Runs.

(** ** No value is written twice *)
Section Aba.
Variable c_acq : bool.
Notation step := (q_step true true c_acq true true true).
Definition AB (s : qst) (tr : list qevent) : Prop :=
  QX s tr /\ NoDup (map fst (q_h s)) /\ forall o, In (DPtr (Some o)) (map fst (q_h s)) -> q_op s o <> OIdle /\ cnt o (flat_map qops (q_act s)) = 0.
Lemma fst_rmw acq rel (h : hist dval) v x : map fst (rmw acq rel h v x) = map fst h ++ [x].
Proof. unfold rmw. rewrite map_app. reflexivity. Qed.
Lemma ops_le s k p p' o : nth_error (q_act s) k = Some p -> incl (qops p') (qops p) -> NoDup (qops p') -> cnt o (flat_map qops (q_act s)) = 0 -> cnt o (flat_map qops (set_nth (q_act s) k p')) = 0.
Proof.
  intros Hk Hi Hn H0. pose proof (cnt_flat_set qops o _ k p' _ Hk) as H. pose proof (cnt_flat_in qops o _ _ (nth_error_In _ _ Hk)) as H1.
  assert (cnt o (qops p') = 0) by (apply cnt_zero; intros Ho; apply Hi in Ho; apply cnt_pos in Ho; lia). lia.
Qed.
Lemma ab_step s tr lb s' es : AB s tr -> step s lb = Next s' es -> AB s' (tr ++ es).
Proof.
  intros ((l & lr & J) & Hn & Hv) Hs. split.
  { pose proof (q_ok c_acq s tr l lr J lb) as H. rewrite Hs in H. exact H. }
  destruct lb as [o v|v|k i spur]; cbn [q_step] in Hs.
  - destruct (q_op s o) eqn:Ho; try discriminate. destruct (v_ts v <? length (q_h s)); [|discriminate]. injection Hs as <- <-. cbn [q_h q_op q_act]. split; [exact Hn|].
    intros x Hx. destruct (Hv x Hx) as [A B]. unfold upd. destruct (Nat.eqb_spec x o) as [->|Hne]; [congruence|]. split; [exact A|]. rewrite cnt_fm_snoc, B.
    apply cnt_zero. intros [E|[]]. congruence.
  - destruct (v_ts v <? length (q_h s)); [|discriminate]. destruct (q_last (q_h s)) as [p|] eqn:E; [|discriminate]. injection Hs as <- <-. cbn [q_h q_op q_act]. rewrite fst_rmw. split.
    + apply NoDup_snoc; [exact Hn|]. intros Hin. apply in_map_iff in Hin as ([x w] & E' & Hin). simpl in E'. subst x. apply In_nth_error in Hin as [i Hi].
      pose proof (proj2 (qi_h _ _ _ _ J i _ _ Hi) eq_refl) as Hi'. rewrite (q_last_nth _ _ _ _ Hi' Hi) in E. discriminate.
    + intros x Hx. apply In_snoc in Hx as [Hx|Hx]; [|discriminate]. destruct (Hv x Hx) as [A B]. split; [exact A|]. rewrite cnt_fm_snoc, B. reflexivity.
  - destruct (nth_error (q_act s) k) as [[a v]|] eqn:Hk; [|discriminate]. destruct a as [o|o [p|]|[o|]|o p|]; cbn [q_act_step] in Hs; unfold q_notify in Hs.
    + destruct (rd (q_h s) v i) as [[x w]|]; [|discriminate]. injection Hs as <- <-. cbn [q_set q_h q_op q_act]. split; [exact Hn|]. intros y Hy. destruct (Hv y Hy) as [A B]. split; [exact A|].
      apply (ops_le _ _ _ _ _ Hk); [apply incl_refl|repeat constructor; intros []|exact B].
    + destruct (alive (q_op s) o); [|discriminate]. cbn [negb] in Hs. destruct (rd (q_h s) (vadd v (TObj o)) i) as [[x w]|]; [|discriminate].
      destruct (dval_eqb x (DPtr p) && (i =? newest (q_h s)) && negb spur); injection Hs as <- <-; cbn [q_h q_op q_act].
      * destruct (qi_here _ _ _ _ J _ _ o (nth_error_In _ _ Hk) (or_introl eq_refl)) as (Ho & _ & _ & Hc). rewrite fst_rmw. split.
        -- apply NoDup_snoc; [exact Hn|]. intros Hin. destruct (Hv o Hin) as [_ B]. lia.
        -- intros y Hy. apply In_snoc in Hy as [Hy|Hy].
           ++ destruct (Hv y Hy) as [A B]. split; [exact A|]. apply (ops_le _ _ _ _ _ Hk); [intros z []|constructor|exact B].
           ++ injection Hy as ->. split; [congruence|]. pose proof (cnt_flat_set qops o _ k (QEnd, rmw_view c_acq (q_h s) (vadd v (TObj o))) _ Hk) as Hf.
              change (qops (QLoop o (DPtr p), v)) with [o] in Hf. change (qops (QEnd, rmw_view c_acq (q_h s) (vadd v (TObj o)))) with (@nil nat) in Hf. rewrite cnt1, cnt_nil in Hf. lia.
      * split; [exact Hn|]. intros y Hy. destruct (Hv y Hy) as [A B]. split; [exact A|]. apply (ops_le _ _ _ _ _ Hk); [apply incl_refl|repeat constructor; intros []|exact B].
    + destruct (alive (q_op s) o); [|discriminate]. injection Hs as <- <-. cbn [q_h q_op q_act]. split; [exact Hn|]. intros y Hy. destruct (Hv y Hy) as [A B].
      split; [unfold upd; destruct (y =? o); [discriminate|exact A]|]. apply (ops_le _ _ _ _ _ Hk); [intros z []|constructor|exact B].
    + destruct (alive (q_op s) o); [|discriminate]. cbn [negb] in Hs. destruct (knows v o); [|discriminate]. cbn [negb] in Hs. injection Hs as <- <-. cbn [q_set q_h q_op q_act]. split; [exact Hn|].
      intros y Hy. destruct (Hv y Hy) as [A B]. split; [exact A|]. apply (ops_le _ _ _ _ _ Hk); [intros z []|constructor|exact B].
    + injection Hs as <- <-. cbn [q_set q_h q_op q_act]. split; [exact Hn|]. intros y Hy. destruct (Hv y Hy) as [A B]. split; [exact A|]. apply (ops_le _ _ _ _ _ Hk); [intros z []|constructor|exact B].
    + destruct (alive (q_op s) o); [|discriminate]. injection Hs as <- <-. cbn [q_h q_op q_act]. split; [exact Hn|]. intros y Hy. destruct (Hv y Hy) as [A B].
      split; [unfold upd; destruct (y =? o); [discriminate|exact A]|]. apply (ops_le _ _ _ _ _ Hk); [intros z []|constructor|exact B].
    + discriminate.
Qed.
Theorem q_nodup ls s tr : run step q_init ls = Running s tr -> NoDup (map fst (q_h s)).
Proof.
  intros H. assert (AB s tr) as (_ & H' & _); [|exact H']. revert H. apply (run_inv step AB q_init); [|intros s1 tr1 lb s2 es; exact (ab_step s1 tr1 lb s2 es)].
  split; [exact qx_init|]. split; [repeat constructor; intros []|]. intros o [E|[]]. discriminate.
Qed.
End Aba.
