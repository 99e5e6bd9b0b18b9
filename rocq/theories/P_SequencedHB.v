(** Proofs about sequenced_event with cancellation under the C++ memory model. *)
From Coq Require Import List Arith Bool Lia.
From Verif Require Import Lts ListFacts M_Wait S_Wait P_Wait M_WaitHB S_WaitHB P_WaitHB P_WaitVis P_WaitUse M_WaitLocks M_Recurring S_Recurring P_Recurring M_SequencedHB S_SequencedHB.
Import ListNotations.

Section Proofs.
Variable eager : bool. Variables r_acq r_rel ld_acq : bool.
Notation P := sequenced_c.
Notation U := seqc_user.
Notation lk := (recurring_lk seqc_user).
Notation hstep := (M_WaitHB.hstep P eager lk true true).
Notation hrun := (run (M_WaitHB.hstep P eager lk true true) (h_init P)).
Notation step := (M_Wait.step P eager).
Notation qstep := (q_step eager r_acq r_rel ld_acq).
Notation W := (recurring_laws U).
Notation TL := (recurring_tlaws U).

Lemma seqc_lk_taken ps l ps' tk es : lk ps l = false -> p_step P ps l = POk ps' tk es -> tk = [].
Proof. destruct l as [|[]]; [discriminate|]. intros _ [= _ <- _]. reflexivity. Qed.
Lemma seqc_norace e ls tr : run (M_Wait.step P e) (c_init P) ls <> Failed DataRace tr.
Proof.
  apply (base_norace _ W e TL); unfold recurring_prim, p_start, p_step, p_try, p_resume, r_start, r_step, r_try, r_resume; try solve [nofail].
Qed.

(** ** Runs of this model are runs of M_WaitHB *)
Lemma hapi_app a b : hapi (a ++ b) = hapi a ++ hapi b.
Proof. induction a as [|e a IH]; simpl; auto. destruct e; simpl; now rewrite ?IH. Qed.
Lemma hapi_qe es : hapi (map QE es) = es.
Proof. induction es as [|e es IH]; simpl; auto. now rewrite IH. Qed.
Lemma raises_app a b : q_raises (a ++ b) = q_raises a + q_raises b.
Proof. induction a as [|e a IH]; simpl; auto. destruct e; simpl; auto. Qed.
Lemma raises_qe es : q_raises (map QE es) = 0.
Proof. induction es; simpl; auto. Qed.

(** the label of M_WaitHB *)
Definition hlab (s : qst) (l : qlabel) : option (hlabel P) :=
  match l with
  | QRaise v => Some (HPrim (P := P) (RUserStep (tt : UL U)) v)
  | QLock k => match nth_error (q_rs s) k with Some (Some (_, w)) => Some (HPrim (P := P) (RRaise : rlabel U) w) | _ => None end
  | QWait o tok t v i => Some (HStart (P := P) o tok (t, i) v)
  | QPath o x _ => Some (HPath o x)
  | QCancel e v => Some (HCancel e v)
  | QCanNext k => Some (HCanNext k)
  | QWakeNext k => Some (HWakeNext k)
  | QDestroy o => Some (HDestroy o)
  | QNext _ _ => None
  end.

Ltac inner H :=
  match type of H with context [match ?b with _ => _ end] => lazymatch b with context [match _ with _ => _ end] => fail | _ => destruct b eqn:? end end.

Lemma q_next s l s' es : qstep s l = Next s' es ->
  (exists hl hes, hlab s l = Some hl /\ hstep (q_h s) hl = Next (q_h s') hes /\ hapi es = hes /\ forall e, In e es -> (exists h, e = QE h) \/ e = last es e) \/
  (exists v i, l = QNext v i /\ s' = s /\ es = [QENext (S i) (if ld_acq then closure (q_log s) v ++ q_rel s i else closure (q_log s) v)] /\
     q_can s (q_known s (closure (q_log s) v)) i = true).
Proof.
  assert (Hqe : forall (hes : list (hevent P)) e, In e (map QE hes) -> (exists h, e = QE h) \/ e = last (map QE hes) e).
  { intros hes e Hi. apply in_map_iff in Hi as (h & <- & _). eauto. }
  assert (Hqs : forall (hes : list (hevent P)) e0 e, In e (map QE hes ++ [e0]) -> (exists h, e = QE h) \/ e = last (map QE hes ++ [e0]) e).
  { intros hes e0 e Hi. rewrite last_last. apply in_app_or in Hi as [Hi|[<-|[]]]; [|auto]. apply in_map_iff in Hi as (h & <- & _). eauto. }
  intros Hs. destruct l as [v|k|o tok t v i|o x i|e v|k|k|o|v i]; cbn [q_step hlab] in Hs |- *; unfold q_lift, q_hstep in Hs.
  - left. destruct (hstep (q_h s) _) as [h hes| |] eqn:E; try discriminate. injection Hs as <- <-. eexists _, hes. split; [reflexivity|]. split; [exact E|].
    rewrite hapi_app, hapi_qe. cbn. rewrite app_nil_r. auto.
  - left. destruct (nth_error (q_rs s) k) as [[[j w]|]|]; try discriminate. destruct (hstep (q_h s) _) as [h hes| |] eqn:E; try discriminate. injection Hs as <- <-.
    eexists _, hes. split; [reflexivity|]. split; [exact E|]. rewrite hapi_app, hapi_qe. cbn. rewrite app_nil_r. auto.
  - left. destruct ((t <=? _) && _); try discriminate. destruct (hstep (q_h s) _) as [h hes| |] eqn:E; try discriminate. injection Hs as <- <-.
    eexists _, hes. split; [reflexivity|]. split; [exact E|]. rewrite hapi_qe. auto.
  - left. destruct (hstep (q_h s) _) as [h hes| |] eqn:E; try discriminate. destruct (q_done hes) as [[r w]|].
    + destruct (q_can _ _ _ && _); try discriminate. injection Hs as <- <-. eexists _, hes. split; [reflexivity|]. split; [exact E|]. rewrite hapi_app, hapi_qe. cbn. rewrite app_nil_r. auto.
    + injection Hs as <- <-. eexists _, hes. split; [reflexivity|]. split; [exact E|]. rewrite hapi_qe. auto.
  - left. destruct (hstep (q_h s) _) as [h hes| |] eqn:E; try discriminate. injection Hs as <- <-. eexists _, hes. split; [reflexivity|]. split; [exact E|]. rewrite hapi_qe. auto.
  - left. destruct (hstep (q_h s) _) as [h hes| |] eqn:E; try discriminate. injection Hs as <- <-. eexists _, hes. split; [reflexivity|]. split; [exact E|]. rewrite hapi_qe. auto.
  - left. destruct (hstep (q_h s) _) as [h hes| |] eqn:E; try discriminate. injection Hs as <- <-. eexists _, hes. split; [reflexivity|]. split; [exact E|]. rewrite hapi_qe. auto.
  - left. destruct (hstep (q_h s) _) as [h hes| |] eqn:E; try discriminate. injection Hs as <- <-. eexists _, hes. split; [reflexivity|]. split; [exact E|]. rewrite hapi_qe. auto.
  - right. destruct (q_can _ _ _) eqn:E; try discriminate. injection Hs as <- <-. eauto 8.
Qed.

Lemma q_failed s l f es : qstep s l = Fail f es -> exists hl hes, hlab s l = Some hl /\ hstep (q_h s) hl = Fail f hes /\ es = map QE hes /\
  (forall o tok t v i, l = QWait o tok t v i -> t <= i).
Proof.
  intros Hs. destruct l as [v|k|o tok t v i|o x i|e v|k|k|o|v i]; cbn [q_step hlab] in Hs |- *; unfold q_lift, q_hstep in Hs.
  all: try (destruct (hstep (q_h s) _) as [h hes| |f' hes] eqn:E; try discriminate; injection Hs as <- <-; eexists _, hes; repeat split; auto; intros; discriminate).
  - destruct (nth_error (q_rs s) k) as [[[j w]|]|]; try discriminate. destruct (hstep (q_h s) _) as [h hes| |f' hes] eqn:E; try discriminate. injection Hs as <- <-.
    eexists _, hes. repeat split; auto. intros; discriminate.
  - destruct ((t <=? _) && _) eqn:Hg; try discriminate. destruct (hstep (q_h s) _) as [h hes| |f' hes] eqn:E; try discriminate. injection Hs as <- <-.
    eexists _, hes. repeat split; auto. intros o' tok' t' v' i' [= <- <- <- <- <-]. apply andb_prop in Hg as [H1 H2]. apply andb_prop in H2 as [H2 _].
    apply Nat.leb_le in H1, H2. assert (q_known s (closure (q_log s) v) <= q_known s (closure (q_log s) v ++ m_mu (h_m (q_h s)))); [|lia].
    unfold q_known. apply list_max_le, Forall_forall. intros y Hy. apply in_map_iff in Hy as (j & <- & Hj).
    transitivity (match nth_error (q_msg s) j with Some (d, _) => if memb d (closure (q_log s) v ++ m_mu (h_m (q_h s))) then S j else 0 | None => 0 end).
    + destruct (nth_error (q_msg s) j) as [[d w]|]; auto. destruct (memb d (closure (q_log s) v)) eqn:Hd; [|lia].
      assert (Hd' : memb d (closure (q_log s) v ++ m_mu (h_m (q_h s))) = true) by (apply memb_In, in_or_app; left; now apply memb_In). now rewrite Hd'.
    + assert (HF := proj1 (list_max_le _ _) (le_n (list_max (map (fun j => match nth_error (q_msg s) j with Some (d, _) => if memb d (closure (q_log s) v ++ m_mu (h_m (q_h s))) then S j else 0 | None => 0 end) (seq 0 (q_num s)))))).
      rewrite Forall_forall in HF. apply HF. apply in_map_iff. eauto.
  - destruct (hstep (q_h s) _) as [h hes| |f' hes] eqn:E; try discriminate; [destruct (q_done hes) as [[r w]|]; [destruct (q_can _ _ _ && _)|]; discriminate|].
    injection Hs as <- <-. eexists _, hes. repeat split; auto. intros; discriminate.
  - destruct (q_can _ _ _); discriminate.
Qed.

(** ** Numbers *)
Lemma list_max_in l : 0 < list_max l -> In (list_max l) l.
Proof. induction l as [|x l IH]; simpl; [lia|]. intros H. destruct (Nat.max_dec x (list_max l)) as [E|E]; rewrite E in *; auto. Qed.
Lemma known_ge s v j d w : nth_error (q_msg s) j = Some (d, w) -> In d v -> S j <= q_known s v.
Proof.
  intros Hj Hd. unfold q_known.
  assert (HF := proj1 (list_max_le _ _) (le_n (list_max (map (fun j => match nth_error (q_msg s) j with Some (d, _) => if memb d v then S j else 0 | None => 0 end) (seq 0 (q_num s)))))).
  rewrite Forall_forall in HF. apply HF. apply in_map_iff. exists j. rewrite Hj, (proj2 (memb_In _ _) Hd). split; auto. apply in_seq. split; [lia|]. unfold q_num. apply nth_error_Some. congruence.
Qed.
Lemma known_in s v : 0 < q_known s v -> exists j d w, q_known s v = S j /\ nth_error (q_msg s) j = Some (d, w) /\ In d v.
Proof.
  intros H. pose proof (list_max_in _ H) as Hi. apply in_map_iff in Hi as (j & E & _). fold (q_known s v) in E.
  destruct (nth_error (q_msg s) j) as [[d w]|] eqn:Hj; [|lia]. destruct (memb d v) eqn:Hd; [|lia]. exists j, d, w. rewrite <- E. split; auto. split; auto. now apply memb_In.
Qed.
Lemma known_mono s v v' : incl v v' -> q_known s v <= q_known s v'.
Proof. intros H. destruct (Nat.eq_0_gt_0_cases (q_known s v)) as [E|E]; [lia|]. destruct (known_in _ _ E) as (j & d & w & -> & Hj & Hd). eapply known_ge; eauto. Qed.

Lemma closure_in g v d : In d v -> d < length g -> In d (closure g v).
Proof. intros H1 H2. unfold closure. apply in_or_app. left. apply filter_In. split; auto. now apply Nat.ltb_lt. Qed.

(** ** Steps of M_WaitHB *)
Lemma h_mono h l h' es : hstep h l = Next h' es -> grows (h_m h) (h_m h') /\ incl (m_mu (h_m h)) (m_mu (h_m h')).
Proof.
  intros Hs. destruct (hstep_next _ _ _ _ _ _ _ _ _ Hs) as (s' & bes & m' & v & _ & Hx & -> & _). rewrite store_m. split.
  - exact (proj1 (exec_grows _ _ _ _ _ _ _ Hx)).
  - exact (proj1 (exec_mu _ _ _ false _ _ _ _ (acts_lockok P lk h l) ltac:(discriminate) Hx)).
Qed.
Lemma grows_len m m' : grows m m' -> length (m_log m) <= length (m_log m').
Proof.
  intros H. destruct (Nat.le_gt_cases (length (m_log m)) (length (m_log m'))) as [L|L]; auto. exfalso.
  destruct (nth_error (m_log m) (length (m_log m'))) as [a|] eqn:E; [|apply nth_error_None in E; lia]. apply H in E. assert (length (m_log m') < length (m_log m')) by (apply nth_error_Some; congruence). lia.
Qed.

Lemma h_user h v h' es : hstep h (HPrim (P := P) (RUserStep (tt : UL U)) v) = Next h' es ->
  exists w, w = length (m_log (h_m h)) :: closure (m_log (h_m h)) v /\ last (h_wk h') [] = w /\
  m_log (h_m h') = m_log (h_m h) ++ [(ACall KFree [], closure (m_log (h_m h)) v)] /\
  r_q (c_prim (h_s h')) = r_q (c_prim (h_s h)) /\ r_g (c_prim (h_s h')) = Sq (S (sq_seq (r_g (c_prim (h_s h))))) (S (sq_pend (r_g (c_prim (h_s h))))).
Proof.
  intros Hs. destruct (hstep_next _ _ _ _ _ _ _ _ _ Hs) as (s' & bes & m' & w & Hb & Hx & -> & _). cbn in Hb. injection Hb as <- <-. cbn in Hx. injection Hx as <- <-.
  eexists. split; [reflexivity|]. cbn [store h_wk h_m m_log h_s c_prim r_q r_g]. rewrite last_last. auto.
Qed.
Lemma h_raise h v h' es : hstep h (HPrim (P := P) (RRaise : rlabel U) v) = Next h' es ->
  nth_error (m_log (h_m h')) (length (m_log (h_m h))) = Some (ACall KLocked (r_q (c_prim (h_s h))), closure (m_log (h_m h)) v) /\
  In (HCall KLocked (length (m_log (h_m h))) (r_q (c_prim (h_s h)))) es /\ r_q (c_prim (h_s h')) = [] /\
  exists n, r_g (c_prim (h_s h)) = Sq (sq_seq (r_g (c_prim (h_s h)))) (S n) /\ r_g (c_prim (h_s h')) = Sq (sq_seq (r_g (c_prim (h_s h)))) n.
Proof.
  intros Hs. destruct (hstep_next _ _ _ _ _ _ _ _ _ Hs) as (s' & bes & m' & w & Hb & Hx & -> & ->).
  cbn [base M_Wait.step p_step recurring_prim r_step u_raise seqc_user] in Hb.
  destruct (r_g (c_prim (h_s h))) as [a [|n]] eqn:Eg; cbn [sq_pend sq_seq] in *; [discriminate|].
  destruct (forallb _ _) eqn:Ef; [|discriminate]. injection Hb as <- <-.
  assert (Et : taken (h_s h) (RRaise : PL P) = r_q (c_prim (h_s h))).
  { unfold taken. cbn [p_step recurring_prim r_step u_raise seqc_user]. rewrite Eg. cbn [sq_pend]. now rewrite Ef. }
  cbn [acts exec exec1 call_kind recurring_lk] in Hx. unfold call_kind in Hx. cbn [recurring_lk] in Hx. rewrite Et in Hx. destruct (exec_grows _ _ _ _ _ _ _ Hx) as [Hg _].
  cbn [store h_m h_s c_prim r_q r_g]. split; [apply Hg; cbn [m_log]; apply nth_error_snoc_last|]. split; [left; cbn; unfold call_kind; cbn [recurring_lk]; now rewrite Et|].
  split; auto. exists n. auto.
Qed.

(** ** The invariant *)
Definition is_some {A} (x : option A) : bool := match x with Some _ => true | None => false end.
Record QI (s : qst) (tr : list qevent) : Prop := mkQI {
  qi_run : exists ls, hrun ls = Running (q_h s) (hapi tr);
  qi_num : q_num s = q_raises tr;
  qi_seq : sq_seq (r_g (c_prim (h_s (q_h s)))) = q_num s;
  qi_cnt : sq_pend (r_g (c_prim (h_s (q_h s)))) = length (filter is_some (q_rs s));
  qi_msg : forall j d w, nth_error (q_msg s) j = Some (d, w) -> d < length (q_log s);
  qi_raise : forall j v, In (QERaise j v) tr -> exists i d w, j = S i /\ nth_error (q_msg s) i = Some (d, w) /\ In d v /\
    (r_rel = true -> forall i', i <= i' -> i' < q_num s -> incl v (q_rel s (S i')));
  qi_pend : forall j w, In (Some (j, w)) (q_rs s) -> exists i d w', j = S i /\ nth_error (q_msg s) i = Some (d, w') /\ In d w;
  qi_lock : forall j d w, nth_error (q_msg s) j = Some (d, w) -> (exists w', In (Some (S j, w')) (q_rs s)) \/ In d (m_mu (h_m (q_h s)));
  qi_start : forall o tok t i, In (EStart (P := P) o tok (t, i)) (qapi tr) -> q_lo s o = i /\ t <= i /\ i <= q_num s /\
    (t = 0 \/ exists n p j d w, nth_error (q_log s) n = Some (AObj o FNew, p) /\ nth_error (q_msg s) j = Some (d, w) /\ t <= S j /\ In d p);
  qi_queue : forall o tok t i, In o (r_q (c_prim (h_s (q_h s)))) -> In (EStart (P := P) o tok (t, i)) (qapi tr) ->
    q_num s <= t \/ exists w, In (Some (S t, w)) (q_rs s);
  qi_elock : forall j os, In (QELock j os) tr -> exists i d w dc, j = S i /\ nth_error (q_msg s) i = Some (d, w) /\ In (HCall KLocked dc os) (hapi tr) /\ In d (before (q_log s) dc);
  qi_done : forall o r x v, In (QEDone o r x v) tr -> x <= q_num s /\ (ld_acq = true -> incl (q_rel s x) v);
  qi_next : forall x v, In (QENext x v) tr -> exists i, x = S i /\ i <= q_num s /\ (ld_acq = true -> incl (q_rel s i) v)
}.

Lemma QI_init : QI q_init [].
Proof.
  constructor; cbn; try (intros; tauto); try reflexivity.
  - exists []. reflexivity.
  - intros [|j] d w; discriminate.
  - intros [|j] d w; discriminate.
Qed.

Lemma base_run ls h tr : hrun ls = Running h tr -> run step (c_init P) (map base ls) = Running (h_s h) (api tr).
Proof. exact (hrun_base P eager lk true true ls _ _ _ _). Qed.
Lemma hrun_vi ls h tr : hrun ls = Running h tr -> VI P h tr.
Proof. exact (run_inv _ (VI P) _ (vi_init P) (vi_step P eager lk seqc_lk_taken) ls h tr). Qed.
Lemma run_snoc' {S L E} (st : S -> L -> outcome S E) i ls s tr l s' es : run st i ls = Running s tr -> st s l = Next s' es -> run st i (ls ++ [l]) = Running s' (tr ++ es).
Proof. unfold run. intros Hr Hs. rewrite run_from_app, Hr. cbn. now rewrite Hs. Qed.

(** an operation is started once *)
Lemma start_once ls s tr o tok a tok' a' : run step (c_init P) ls = Running s tr -> forall t1 t2, tr = t1 ++ t2 -> In (EStart o tok a) t1 -> In (EStart o tok' a') t2 -> False.
Proof.
  intros Hr t1 t2 -> H1 H2. apply in_split in H2 as (u1 & u2 & ->). rewrite app_assoc in Hr.
  destruct (t_start_event _ _ _ TL _ _ _ _ _ _ _ Hr) as (_ & _ & _ & _ & Hn & _). apply Hn. apply in_split in H1 as (w1 & w2 & ->). rewrite <- !app_assoc. cbn.
  clear. induction w1 as [|e w1 IH]; cbn; [now left|]. destruct e; cbn; auto.
Qed.
Lemma start_unique ls s tr o tok a tok' a' : run step (c_init P) ls = Running s tr -> In (EStart o tok a) tr -> In (EStart o tok' a') tr -> a = a'.
Proof.
  intros Hr H1 H2. apply in_split in H1 as (u1 & u2 & ->). apply in_app_or in H2 as [H2|[H2|H2]]; [exfalso|congruence|exfalso].
  - eapply (start_once _ _ _ o tok' a' tok a Hr u1 (EStart o tok a :: u2) eq_refl); [exact H2|now left].
  - eapply (start_once _ _ _ o tok a tok' a' Hr (u1 ++ [EStart o tok a]) u2); [now rewrite <- app_assoc|apply in_or_app; right; now left|exact H2].
Qed.

(** what each step leaves alone *)
Record qkeep (s s' : qst) (tr es : list qevent) : Prop := QK {
  qk_run : exists ls, hrun ls = Running (q_h s') (hapi (tr ++ es));
  qk_log : grows (h_m (q_h s)) (h_m (q_h s'));
  qk_mu : incl (m_mu (h_m (q_h s))) (m_mu (h_m (q_h s')));
  qk_vi : VI P (q_h s') (hapi (tr ++ es))
}.
Lemma q_keep s tr l s' es : QI s tr -> qstep s l = Next s' es -> qkeep s s' tr es.
Proof.
  intros HI Hs. destruct (qi_run _ _ HI) as (ls & Hr). assert (Hrun : exists ls, hrun ls = Running (q_h s') (hapi (tr ++ es))).
  { destruct (q_next _ _ _ _ Hs) as [(hl & hes & _ & Hh & He & _)|(v & i & _ & -> & -> & _)].
    - exists (ls ++ [hl]). rewrite hapi_app, He. eapply run_snoc'; eauto.
    - exists ls. rewrite hapi_app. cbn. now rewrite app_nil_r. }
  constructor; auto.
  - destruct (q_next _ _ _ _ Hs) as [(hl & hes & _ & Hh & He & _)|(v & i & _ & -> & -> & _)]; [exact (proj1 (h_mono _ _ _ _ Hh))|]. intros j a Hj. exact Hj.
  - destruct (q_next _ _ _ _ Hs) as [(hl & hes & _ & Hh & He & _)|(v & i & _ & -> & -> & _)]; [exact (proj2 (h_mono _ _ _ _ Hh))|]. apply incl_refl.
  - destruct Hrun as (ls' & Hr'). eapply hrun_vi; eauto.
Qed.

Lemma rel_app s s' i : (exists r, q_msg s' = q_msg s ++ r) -> i <= q_num s -> q_rel s' i = q_rel s i.
Proof. intros (r & E) Hi. destruct i as [|j]; [reflexivity|]. unfold q_rel. rewrite E, nth_error_app1; [reflexivity|]. unfold q_num in Hi. lia. Qed.

(** a step that neither increments the number nor locks *)
Lemma qi_same s tr l s' es : QI s tr -> qstep s l = Next s' es -> q_msg s' = q_msg s -> q_rs s' = q_rs s ->
  (forall j v, ~ In (QERaise j v) es) -> (forall j os, ~ In (QELock j os) es) -> q_raises es = 0 ->
  r_g (c_prim (h_s (q_h s'))) = r_g (c_prim (h_s (q_h s))) ->
  (forall o, In o (r_q (c_prim (h_s (q_h s')))) -> In o (r_q (c_prim (h_s (q_h s)))) \/
       exists tok a, qapi es = [EStart (P := P) o tok a] /\ u_cond U (r_g (c_prim (h_s (q_h s)))) a = Some true) ->
  (forall o, q_lo s' o = q_lo s o \/ exists tok a, In (EStart (P := P) o tok a) (qapi es)) ->
  (forall o tok t i, In (EStart (P := P) o tok (t, i)) (qapi es) -> q_lo s' o = i /\ t <= i /\ i <= q_num s /\
    (t = 0 \/ exists n p j d w, nth_error (q_log s') n = Some (AObj o FNew, p) /\ nth_error (q_msg s) j = Some (d, w) /\ t <= S j /\ In d p) /\
    (i <= t -> q_num s <= t \/ exists w, In (Some (S t, w)) (q_rs s))) ->
  (forall o r x v, In (QEDone o r x v) es -> x <= q_num s /\ (ld_acq = true -> incl (q_rel s x) v)) ->
  (forall x v, In (QENext x v) es -> exists i, x = S i /\ i <= q_num s /\ (ld_acq = true -> incl (q_rel s i) v)) -> QI s' (tr ++ es).
Proof.
  intros HI Hs Em Er Hnr Hnl Hz Hg Hq Hlo Hst Hdn Hnx. destruct (q_keep _ _ _ _ _ HI Hs) as [Kr Kl Km Kv].
  assert (Hn : q_num s' = q_num s) by (unfold q_num; now rewrite Em).
  assert (Hrel : forall i, q_rel s' i = q_rel s i) by (intros [|i]; unfold q_rel; [reflexivity|now rewrite Em]).
  pose proof (grows_len _ _ Kl) as Hlen. destruct Kr as (ls' & Hr'). pose proof (base_run _ _ _ Hr') as Hb. fold (qapi (tr ++ es)) in Hb.
  assert (Eapi : qapi (tr ++ es) = qapi tr ++ qapi es) by (unfold qapi; now rewrite hapi_app, api_app).
  constructor.
  - eauto.
  - rewrite Hn, raises_app, Hz, (qi_num _ _ HI). lia.
  - rewrite Hg, Hn. apply (qi_seq _ _ HI).
  - rewrite Hg, Er. apply (qi_cnt _ _ HI).
  - rewrite Em. intros j d w Hj. pose proof (qi_msg _ _ HI _ _ _ Hj). unfold q_log in *. lia.
  - intros j v Hi. apply in_app_or in Hi as [Hi|Hi]; [|now apply Hnr in Hi]. rewrite Em. destruct (qi_raise _ _ HI _ _ Hi) as (i & d & w & E & Hj & Hd & Hx).
    exists i, d, w. repeat (split; [assumption|]). intros Hrr i' H1 H2. rewrite Hn in H2. rewrite Hrel. auto.
  - rewrite Er, Em. apply (qi_pend _ _ HI).
  - rewrite Em, Er. intros j d w Hj. destruct (qi_lock _ _ HI _ _ _ Hj) as [H|H]; auto.
  - intros o tok t i Hi. rewrite Eapi in Hi. apply in_app_or in Hi as [Hi|Hi].
    + destruct (qi_start _ _ HI _ _ _ _ Hi) as (H1 & H2 & H3 & H4). rewrite Hn, Em. split; [|split; [exact H2|split; [exact H3|]]].
      * destruct (Hlo o) as [->|(tok' & a & Ha)]; [exact H1|]. exfalso. eapply (start_once _ _ _ o _ _ _ _ Hb); eauto.
      * destruct H4 as [H4|(n & p & j & d & w & G1 & G2 & G3 & G4)]; [auto|]. right. exists n, p, j, d, w. split; [now apply Kl|auto].
    + destruct (Hst _ _ _ _ Hi) as (H1 & H2 & H3 & H4 & _). rewrite Hn, Em. auto.
  - intros o tok t i Ho Hi. rewrite Eapi in Hi. rewrite Hn, Er. destruct (Hq o Ho) as [Ho'|(tok' & a & Ee & Hc)].
    + apply in_app_or in Hi as [Hi|Hi]; [exact (qi_queue _ _ HI _ _ _ _ Ho' Hi)|]. exfalso. destruct (qi_run _ _ HI) as (ls & Hr). pose proof (recurring_inv U eager _ _ _ (base_run _ _ _ Hr)) as (HJT & _).
      destruct (queued_started U eager _ _ _ HJT Ho') as [Hst' _]. fold (qapi tr) in Hst'. clear - Hb Hi Hst' Eapi.
      assert (Hx : exists tok a, In (EStart (P := P) o tok a) (qapi tr)).
      { revert Hst'. generalize (qapi tr). induction l as [|e l IH]; cbn; [tauto|]. destruct e; cbn; intros H; try (destruct (IH H) as (t' & a' & Ha); exists t', a'; now right).
        destruct H as [<-|H]; [eauto|]. destruct (IH H) as (t' & a' & Ha); exists t', a'; now right. }
      destruct Hx as (t' & a' & Ha). eapply (start_once _ _ _ o _ _ _ _ Hb); eauto.
    + assert (Hin : In (EStart (P := P) o tok' a) (qapi es)) by (rewrite Ee; now left).
      assert (a = (t, i)). { eapply (start_unique _ _ _ o tok' a tok (t, i) Hb); rewrite Eapi; apply in_or_app; [now right|]. apply in_app_or in Hi. tauto. }
      subst a. destruct (Hst _ _ _ _ Hin) as (_ & H2 & _ & _ & H5). apply H5. cbn in Hc. destruct (t <=? i); [|discriminate]. injection Hc as Hc. now apply Nat.leb_le.
  - intros j os Hi. apply in_app_or in Hi as [Hi|Hi]; [|now apply Hnl in Hi]. rewrite Em. destruct (qi_elock _ _ HI _ _ Hi) as (i & d & w & dc & E & Hj & Hc & Hd).
    exists i, d, w, dc. repeat (split; [assumption|]). split; [rewrite hapi_app; apply in_or_app; auto|].
    unfold before in *. unfold q_log in Hd. destruct (nth_error (m_log (h_m (q_h s))) dc) as [[a p]|] eqn:En; [|destruct Hd]. unfold q_log. now rewrite (Kl _ _ En).
  - intros o r x v Hi. rewrite Hn, Hrel. apply in_app_or in Hi as [Hi|Hi]; [exact (qi_done _ _ HI _ _ _ _ Hi)|eauto].
  - intros x v Hi. apply in_app_or in Hi as [Hi|Hi]; [destruct (qi_next _ _ HI _ _ Hi) as (i & H)|destruct (Hnx _ _ Hi) as (i & H)]; exists i; now rewrite Hn, Hrel.
Qed.

Lemma nonprim s l s' bes : step s l = Next s' bes -> (forall pl, l <> LPrim pl) -> existsb (is_prim U) bes = false.
Proof.
  intros Hs Hl. destruct l as [o tok a|o x|e|k|k|pl|o]; [| | | | |now exfalso; apply (Hl pl)|].
  1: { cbn [M_Wait.step p_start recurring_prim] in Hs. unfold r_start in Hs. repeat inner Hs; try discriminate; injection Hs as <- <-; reflexivity. }
  all: cbn [M_Wait.step] in Hs; unfold path_step in Hs; repeat inner Hs; try discriminate; injection Hs as <- <-; reflexivity.
Qed.
Lemma nonprim_eff s tr l s' bes : RInv U eager s tr -> step s l = Next s' bes -> (forall pl, l <> LPrim pl) -> r_g (c_prim s') = r_g (c_prim s) /\
  (forall o, In o (r_q (c_prim s')) -> In o (r_q (c_prim s)) \/ exists tok a, bes = [EStart (P := P) o tok a] /\ u_cond U (r_g (c_prim s)) a = Some true).
Proof.
  intros HR Hs Hl. pose proof (nonprim _ _ _ _ Hs Hl) as Hn. destruct (r_ueff U eager _ _ _ _ _ HR Hs) as [H1 H2 H3|H1 H2 H3|[] ges H1 H2 H3]; [auto| |].
  - rewrite H2 in Hn. discriminate.
  - cbn in H1. injection H1 as _ <-. rewrite H2 in Hn. discriminate.
Qed.
Lemma qe_only (hes : list (hevent P)) e : In e (map QE hes) -> exists h, e = QE h.
Proof. intros H. apply in_map_iff in H as (h & <- & _). eauto. Qed.
Lemma api_call_ev h l v bes : api (P := P) (call_event P lk h l ++ map (fun e => HE e v) bes) = bes.
Proof. rewrite api_app, api_map. destruct l; reflexivity. Qed.

(** the steps that are those of M_WaitHB, apart from start() *)
Lemma qi_lift s tr l hl s' es : QI s tr -> qstep s l = Next s' es -> hlab s l = Some hl -> (forall pl v, hl <> HPrim pl v) -> (forall o tok a v, hl <> HStart o tok a v) ->
  q_msg s' = q_msg s -> q_rs s' = q_rs s -> q_lo s' = q_lo s ->
  (forall j v, ~ In (QERaise j v) es) -> (forall j os, ~ In (QELock j os) es) -> q_raises es = 0 ->
  (forall o r x v, In (QEDone o r x v) es -> x <= q_num s /\ (ld_acq = true -> incl (q_rel s x) v)) -> (forall x v, ~ In (QENext x v) es) -> QI s' (tr ++ es).
Proof.
  intros HI Hs Hl Hp Hst Em Er Elo Hnr Hnl Hz Hdn Hnx.
  destruct (q_next _ _ _ _ Hs) as [(hl' & hes & Hl' & Hh & He & _)|(v & i & -> & _)]; [|discriminate]. rewrite Hl in Hl'. injection Hl' as <-.
  destruct (hstep_next _ _ _ _ _ _ _ _ _ Hh) as (b' & bes & m' & v & Hb & Hx & Hsto & Ees).
  assert (Eapi : qapi es = bes) by (unfold qapi; rewrite He, Ees; apply api_call_ev).
  destruct (qi_run _ _ HI) as (ls & Hr). pose proof (recurring_inv U eager _ _ _ (base_run _ _ _ Hr)) as HR.
  assert (Hnp : forall pl, base hl <> LPrim pl) by (intros pl E; destruct hl; try discriminate E; now apply (Hp l0 v0)).
  destruct (nonprim_eff _ _ _ _ _ HR Hb Hnp) as [Hg Hq].
  assert (Hnst : forall o tok a, ~ In (EStart (P := P) o tok a) (qapi es)).
  { intros o tok a Hi. rewrite Eapi in Hi. pose proof (start_event P eager _ _ _ _ _ _ _ Hb Hi) as E. destruct hl; try discriminate E. now apply (Hst o0 tok0 a0 v0). }
  assert (Eb : h_s (q_h s') = b') by (rewrite Hsto; apply store_s).
  apply (qi_same _ _ _ _ _ HI Hs Em Er Hnr Hnl Hz).
  - now rewrite Eb.
  - intros o Ho. rewrite Eb in Ho. rewrite Eapi. auto.
  - intros o. left. now rewrite Elo.
  - intros o tok t i Hi. now apply Hnst in Hi.
  - exact Hdn.
  - intros x w Hi. now apply Hnx in Hi.
Qed.

Lemma filter_set_none {A} (l : list (option A)) k x : nth_error l k = Some (Some x) -> length (filter is_some l) = S (length (filter is_some (set_nth l k None))).
Proof.
  revert k. induction l as [|y l IH]; intros [|k]; cbn; try discriminate.
  - intros [= ->]. reflexivity.
  - intros H. destruct y; cbn; now rewrite (IH _ H).
Qed.
Lemma in_set_none {A} (l : list (option A)) k x y : nth_error l k = Some (Some x) -> In (Some y) l -> y = x \/ In (Some y) (set_nth l k None).
Proof.
  revert k. induction l as [|z l IH]; intros [|k]; cbn; try discriminate.
  - intros [= ->] [[= ->]|H]; auto.
  - intros H [->|H']; auto. destruct (IH _ H H'); auto.
Qed.
Lemma q_can_true s p i : q_can s p i = true -> p <= i /\ i <= q_num s.
Proof. unfold q_can. intros H. apply andb_prop in H as [H1 H2]. apply Nat.leb_le in H1, H2. auto. Qed.
Ltac noqe := repeat split; intros;
  repeat match goal with
  | H : In _ (map QE _) |- _ => let h := fresh in apply qe_only in H as (h & H); discriminate H
  | H : In _ (map QE _ ++ [_]) |- _ => let H1 := fresh in apply in_app_or in H as [H|[H1|[]]]; [|discriminate H1]
  | |- ~ _ => intro
  end.

Lemma QI_step s tr l s' es : QI s tr -> qstep s l = Next s' es -> QI s' (tr ++ es).
Proof.
  intros HI Hs. pose proof (q_keep _ _ _ _ _ HI Hs) as HK. pose proof Hs as Hs0.
  destruct l as [v|k|o tok t v i|o x i|e v|k|k|o|v i]; cbn [q_step] in Hs; unfold q_lift, q_hstep in Hs.
  - (* QRaise *)
    destruct (hstep (q_h s) _) as [h hes| |] eqn:Hh; try discriminate. destruct (h_user _ _ _ _ Hh) as (w & Ew & Elast & Elog & Eq & Eg).
    destruct (hstep_next _ _ _ _ _ _ _ _ _ Hh) as (b' & bes & m' & v' & Hb & _ & _ & Ees). cbn in Hb. injection Hb as Hb Hbes.
    rewrite Elast in Hs. injection Hs as <- <-. destruct HK as [Kr Kl Km Kv]. cbn [q_h] in *. pose proof (grows_len _ _ Kl) as Hlen.
    set (m := q_rel s (q_num s)) in *. set (ent := (length (q_log s), if r_rel then w ++ m else m)) in *.
    assert (Eapi : qapi (map QE hes ++ [QERaise (S (q_num s)) w]) = bes).
    { unfold qapi. rewrite hapi_app, hapi_qe, Ees. cbn [hapi]. rewrite app_nil_r. apply api_call_ev. }
    assert (Hnst : forall o tok a, ~ In (EStart (P := P) o tok a) bes) by (rewrite <- Hbes; intros o tok a [[=]|[]]).
    assert (Eall : forall e, In e (qapi (tr ++ map QE hes ++ [QERaise (S (q_num s)) w])) -> In e (qapi tr) \/ In e bes).
    { intros e Hi. unfold qapi in Hi. rewrite hapi_app, api_app in Hi. apply in_app_or in Hi as [Hi|Hi]; [now left|right]. unfold qapi in Eapi. now rewrite Eapi in Hi. }
    set (s' := QS h (q_msg s ++ [ent]) _ _) in *.
    assert (En : q_num s' = S (q_num s)) by (unfold s', q_num; cbn; rewrite app_length; cbn; lia).
    assert (Erel : forall i, i <= q_num s -> q_rel s' i = q_rel s i) by (intros i Hi; apply rel_app; [unfold s'; cbn; eauto|exact Hi]).
    assert (Hlast : nth_error (q_msg s') (q_num s) = Some ent) by (unfold s', q_num; cbn; apply nth_error_snoc_last).
    assert (Erel2 : q_rel s' (S (q_num s)) = snd ent) by (unfold q_rel; rewrite Hlast; reflexivity).
    assert (Hold : forall j e, nth_error (q_msg s) j = Some e -> nth_error (q_msg s') j = Some e) by (intros j e Hj; unfold s'; cbn; now apply nth_error_snoc_old).
    assert (Hcase : forall j e, nth_error (q_msg s') j = Some e -> nth_error (q_msg s) j = Some e \/ (j = q_num s /\ e = ent)).
    { intros j e Hj. unfold s' in Hj. cbn in Hj. destruct (Nat.lt_ge_cases j (q_num s)) as [L|L]; unfold q_num in L; [rewrite nth_error_app1 in Hj by auto; auto|].
      rewrite nth_error_app2 in Hj by auto. destruct (j - length (q_msg s)) as [|n] eqn:E; cbn in Hj; [|destruct n; discriminate]. injection Hj as <-. right. split; [unfold q_num; lia|reflexivity]. }
    constructor.
    + exact Kr.
    + rewrite En, !raises_app, raises_qe, (qi_num _ _ HI). cbn. lia.
    + rewrite En. cbn [s' q_h]. rewrite Eg. cbn [sq_seq]. now rewrite (qi_seq _ _ HI).
    + cbn [s' q_h q_rs]. rewrite Eg, filter_app, app_length. cbn [sq_pend]. rewrite (qi_cnt _ _ HI). cbn. lia.
    + intros j d w' Hj. unfold q_log. cbn [s' q_h]. rewrite Elog, app_length. cbn. destruct (Hcase _ _ Hj) as [Hj'|[_ [= -> _]]]; [pose proof (qi_msg _ _ HI _ _ _ Hj')|]; unfold q_log in *; lia.
    + intros j u Hi. rewrite app_assoc in Hi. apply in_app_or in Hi as [Hi|[Hi|[]]].
      * apply in_app_or in Hi as [Hi|Hi]; [|apply qe_only in Hi as (? & [=])]. destruct (qi_raise _ _ HI _ _ Hi) as (i & d & w' & E & Hj & Hd & Hx).
        exists i, d, w'. split; [exact E|]. split; [auto|]. split; [exact Hd|]. intros Hrr i' H1 H2. rewrite En in H2.
        assert (Hi' : i < q_num s) by (unfold q_num; apply nth_error_Some; congruence).
        destruct (Nat.eq_dec i' (q_num s)) as [->|Hne]; [|rewrite Erel by lia; apply Hx; auto; lia].
        rewrite Erel2. unfold ent. cbn. rewrite Hrr. apply incl_appr. unfold m. specialize (Hx Hrr (pred (q_num s)) ltac:(lia) ltac:(lia)). now replace (S (pred (q_num s))) with (q_num s) in Hx by lia.
      * injection Hi as <- <-. exists (q_num s), (length (q_log s)), (snd ent). split; [reflexivity|]. split; [exact Hlast|]. split; [rewrite Ew; now left|].
        intros Hrr i' H1 H2. assert (i' = q_num s) by lia. subst i'. rewrite Erel2. unfold ent. cbn. rewrite Hrr. apply incl_appl, incl_refl.
    + intros j u Hi. cbn in Hi. apply in_app_or in Hi as [Hi|[[= <- <-]|[]]].
      * destruct (qi_pend _ _ HI _ _ Hi) as (i & d & w' & H1 & H2 & H3). exists i, d, w'. auto.
      * exists (q_num s), (length (q_log s)), (snd ent). split; [reflexivity|]. split; [exact Hlast|]. destruct r_acq; [apply in_or_app; left|]; rewrite Ew; now left.
    + intros j d w' Hj. destruct (Hcase _ _ Hj) as [Hj'|[-> _]].
      * destruct (qi_lock _ _ HI _ _ _ Hj') as [(u & Hu)|Hu]; [left; exists u; cbn; apply in_or_app; auto|right; cbn; auto].
      * left. eexists. cbn. apply in_or_app. right. left. reflexivity.
    + intros o tok t i Hi. apply Eall in Hi as [Hi|Hi]; [|now apply Hnst in Hi]. destruct (qi_start _ _ HI _ _ _ _ Hi) as (H1 & H2 & H3 & H4). rewrite En.
      split; [exact H1|]. split; [exact H2|]. split; [lia|]. destruct H4 as [H4|(n & p & j & d & w' & G1 & G2 & G3 & G4)]; [auto|]. right. exists n, p, j, d, w'. split; [now apply Kl|]. auto.
    + intros o tok t i Ho Hi. cbn in Ho. rewrite Eq in Ho. apply Eall in Hi as [Hi|Hi]; [|now apply Hnst in Hi]. rewrite En. cbn [s' q_rs].
      destruct (qi_queue _ _ HI _ _ _ _ Ho Hi) as [H|(u & Hu)]; [|right; exists u; apply in_or_app; auto].
      destruct (Nat.eq_dec (q_num s) t) as [<-|]; [|left; lia]. right. eexists. apply in_or_app. right. left. reflexivity.
    + intros j os Hi. rewrite app_assoc in Hi. apply in_app_or in Hi as [Hi|[[=]|[]]]. apply in_app_or in Hi as [Hi|Hi]; [|apply qe_only in Hi as (? & [=])].
      destruct (qi_elock _ _ HI _ _ Hi) as (i & d & w' & dc & E & Hj & Hc & Hd). exists i, d, w', dc. split; [exact E|]. split; [auto|]. split; [rewrite hapi_app; apply in_or_app; auto|].
      unfold before in *. unfold q_log in *. destruct (nth_error (m_log (h_m (q_h s))) dc) as [[a p]|] eqn:Ed; [|destruct Hd]. cbn [s' q_h]. now rewrite (Kl _ _ Ed).
    + intros o r x u Hi. rewrite app_assoc in Hi. apply in_app_or in Hi as [Hi|[[=]|[]]]. apply in_app_or in Hi as [Hi|Hi]; [|apply qe_only in Hi as (? & [=])].
      destruct (qi_done _ _ HI _ _ _ _ Hi) as [H1 H2]. rewrite En, Erel by exact H1. split; [lia|exact H2].
    + intros x u Hi. rewrite app_assoc in Hi. apply in_app_or in Hi as [Hi|[[=]|[]]]. apply in_app_or in Hi as [Hi|Hi]; [|apply qe_only in Hi as (? & [=])].
      destruct (qi_next _ _ HI _ _ Hi) as (i & H0 & H1 & H2). exists i. rewrite En, Erel by exact H1. split; [exact H0|]. split; [lia|exact H2].
  - (* QLock *)
    destruct (nth_error (q_rs s) k) as [[[j0 w0]|]|] eqn:Hk; try discriminate. destruct (hstep (q_h s) _) as [h hes| |] eqn:Hh; try discriminate.
    destruct (h_raise _ _ _ _ Hh) as (Hent & Hcall & Eq & n & Eg & Eg'). destruct (hstep_next _ _ _ _ _ _ _ _ _ Hh) as (b' & bes & m' & v' & Hb & _ & _ & Ees).
    assert (Hnst : forall o tok a, ~ In (EStart (P := P) o tok a) bes).
    { intros o tok a Hi. pose proof (start_event P eager _ _ _ _ _ _ _ Hb Hi). discriminate. }
    injection Hs as <- <-. destruct HK as [Kr Kl Km Kv]. cbn [q_h] in *. pose proof (grows_len _ _ Kl) as Hlen.
    set (os0 := r_q (c_prim (h_s (q_h s)))) in *. set (dc0 := length (m_log (h_m (q_h s)))) in *.
    assert (Eall : forall e, In e (qapi (tr ++ map QE hes ++ [QELock j0 os0])) -> In e (qapi tr) \/ In e bes).
    { intros e Hi. unfold qapi in Hi. rewrite hapi_app, api_app in Hi. apply in_app_or in Hi as [Hi|Hi]; [now left|right]. rewrite hapi_app, hapi_qe in Hi. cbn [hapi] in Hi. now rewrite app_nil_r, Ees, api_call_ev in Hi. }
    assert (Hmu : forall d, In d (closure (m_log (h_m (q_h s))) w0) -> In d (m_mu (h_m h))).
    { intros d Hd. assert (Hdc : In dc0 (m_mu (h_m h))).
      { apply (vi_mu _ _ _ Kv). exists os0. rewrite !hapi_app, hapi_qe. apply in_or_app. right. apply in_or_app. now left. }
      destruct (vi_m _ _ _ Kv) as (_ & Hm & _). destruct (Hm _ Hdc) as [_ Hbf]. apply Hbf. unfold before. now rewrite Hent. }
    assert (Hrs : forall j w, In (Some (j, w)) (set_nth (q_rs s) k None) -> In (Some (j, w)) (q_rs s)).
    { intros j w Hi. apply In_set_nth in Hi as [Hi|Hi]; [discriminate|exact Hi]. }
    constructor.
    + exact Kr.
    + rewrite !raises_app, raises_qe. cbn. rewrite Nat.add_0_r. exact (qi_num _ _ HI).
    + cbn [q_h]. rewrite Eg'. cbn [sq_seq]. exact (qi_seq _ _ HI).
    + cbn [q_h q_rs]. rewrite Eg'. cbn [sq_pend]. pose proof (filter_set_none _ _ _ Hk) as Hf. rewrite <- (qi_cnt _ _ HI), Eg in Hf. cbn in Hf. lia.
    + intros j d w Hj. cbn in Hj. pose proof (qi_msg _ _ HI _ _ _ Hj). unfold q_log in *. cbn [q_h]. lia.
    + intros j u Hi. rewrite app_assoc in Hi. apply in_app_or in Hi as [Hi|[[=]|[]]]. apply in_app_or in Hi as [Hi|Hi]; [|apply qe_only in Hi as (? & [=])]. exact (qi_raise _ _ HI _ _ Hi).
    + intros j w Hi. cbn in Hi. apply Hrs in Hi. exact (qi_pend _ _ HI _ _ Hi).
    + intros j d w Hj. cbn in Hj |- *. destruct (qi_lock _ _ HI _ _ _ Hj) as [(u & Hu)|Hu]; [|auto]. destruct (in_set_none _ _ _ _ Hk Hu) as [E|Hi]; [|eauto]. right.
      injection E as <- <-. destruct (qi_pend _ _ HI _ _ Hu) as (i & d' & w' & E & Hj' & Hd). injection E as <-. rewrite Hj in Hj'. injection Hj' as <- <-.
      apply Hmu, closure_in; [exact Hd|]. exact (qi_msg _ _ HI _ _ _ Hj).
    + intros o tok t i Hi. apply Eall in Hi as [Hi|Hi]; [|now apply Hnst in Hi]. destruct (qi_start _ _ HI _ _ _ _ Hi) as (H1 & H2 & H3 & H4).
      split; [exact H1|]. split; [exact H2|]. split; [exact H3|]. destruct H4 as [H4|(n' & p & j & d & w' & G1 & G2 & G3 & G4)]; [auto|]. right. exists n', p, j, d, w'. split; [now apply Kl|]. auto.
    + intros o tok t i Ho. cbn in Ho. rewrite Eq in Ho. destruct Ho.
    + intros j os Hi. rewrite app_assoc in Hi. apply in_app_or in Hi as [Hi|[Hi|[]]].
      * apply in_app_or in Hi as [Hi|Hi]; [|apply qe_only in Hi as (? & [=])].
        destruct (qi_elock _ _ HI _ _ Hi) as (i & d & w' & dc & E & Hj & Hc & Hd). exists i, d, w', dc. split; [exact E|]. split; [auto|]. split; [rewrite hapi_app; apply in_or_app; auto|].
        unfold before in *. unfold q_log in *. destruct (nth_error (m_log (h_m (q_h s))) dc) as [[a p]|] eqn:Ed; [|destruct Hd]. cbn [q_h]. now rewrite (Kl _ _ Ed).
      * injection Hi as <- <-. destruct (qi_pend _ _ HI j0 w0) as (i & d & w' & E & Hj & Hd); [eapply nth_error_In; exact Hk|]. exists i, d, w', dc0. split; [exact E|]. split; [exact Hj|].
        split; [rewrite !hapi_app, hapi_qe; apply in_or_app; right; apply in_or_app; now left|]. unfold before, q_log. cbn [q_h]. rewrite Hent. apply closure_in; [exact Hd|]. exact (qi_msg _ _ HI _ _ _ Hj).
    + intros o r x u Hi. rewrite app_assoc in Hi. apply in_app_or in Hi as [Hi|[[=]|[]]]. apply in_app_or in Hi as [Hi|Hi]; [|apply qe_only in Hi as (? & [=])]. exact (qi_done _ _ HI _ _ _ _ Hi).
    + intros x u Hi. rewrite app_assoc in Hi. apply in_app_or in Hi as [Hi|[[=]|[]]]. apply in_app_or in Hi as [Hi|Hi]; [|apply qe_only in Hi as (? & [=])]. exact (qi_next _ _ HI _ _ Hi).
  - (* QWait *)
    destruct ((t <=? _) && _) eqn:Hg; try discriminate. apply andb_prop in Hg as [Ht Hcan]. apply Nat.leb_le in Ht. apply q_can_true in Hcan as [Hki Hin].
    destruct (hstep (q_h s) _) as [h hes| |] eqn:Hh; try discriminate. destruct (hstep_next _ _ _ _ _ _ _ _ _ Hh) as (b' & bes & m' & v' & Hb & Hx & Hsto & Ees).
    injection Hs as <- <-. destruct (qi_run _ _ HI) as (ls & Hr). pose proof (recurring_inv U eager _ _ _ (base_run _ _ _ Hr)) as HR.
    destruct (nonprim_eff _ _ _ _ _ HR Hb ltac:(discriminate)) as [Hgg Hq]. assert (Eapi : qapi (map QE hes) = bes) by (unfold qapi; rewrite hapi_qe, Ees; apply api_call_ev).
    assert (Eb : h_s h = b') by (rewrite Hsto; apply store_s).
    assert (Hst : forall o' tok' a', In (EStart (P := P) o' tok' a') bes -> o' = o /\ tok' = tok /\ a' = (t, i)).
    { intros o' tok' a' Hi. pose proof (start_event P eager _ _ _ _ _ _ _ Hb Hi) as E. injection E as -> -> ->. auto. }
    assert (Hst2 : In (EStart (P := P) o tok (t, i)) bes).
    { cbn [base M_Wait.step p_start recurring_prim] in Hb. unfold r_start in Hb. repeat inner Hb; try discriminate; injection Hb as _ <-; now left. }
    pose proof (known_mono s (closure (q_log s) v) (closure (q_log s) v ++ m_mu (h_m (q_h s))) ltac:(apply incl_appl, incl_refl)) as Hmono.
    apply (qi_same _ _ _ _ _ HI Hs0); try reflexivity; try (now noqe).
    + apply raises_qe.
    + cbn. now rewrite Eb.
    + intros o' Ho. cbn in Ho. rewrite Eb in Ho. rewrite Eapi. auto.
    + intros o'. cbn. unfold upd. destruct (Nat.eqb_spec o' o) as [->|]; [|auto]. right. rewrite Eapi. eauto.
    + intros o' tok' t' i' Hi. rewrite Eapi in Hi. destruct (Hst _ _ _ Hi) as (-> & -> & [= -> ->]). cbn [q_lo]. unfold upd. rewrite Nat.eqb_refl.
      split; [reflexivity|]. split; [lia|]. split; [exact Hin|]. split.
      * destruct (Nat.eq_0_gt_0_cases t) as [E|E]; [auto|right]. destruct (known_in s (closure (q_log s) v)) as (j & d & w & Ej & Hj & Hd); [lia|].
        destruct (exec_touch _ _ _ _ _ _ _ o FNew Hx) as (n & p & Hn & Hp); [now left|]. exists n, p, j, d, w. cbn [q_h]. unfold q_log at 1. cbn [q_h]. rewrite Hsto, store_m. repeat (split; [assumption||lia|]). apply Hp. exact Hd.
      * intros Hit. destruct (Nat.le_gt_cases (q_num s) t) as [L|L]; [auto|right]. destruct (nth_error (q_msg s) t) as [[d w]|] eqn:Hj; [|apply nth_error_None in Hj; unfold q_num in L; lia].
        destruct (qi_lock _ _ HI _ _ _ Hj) as [H|H]; [exact H|]. exfalso.
        pose proof (known_ge s (closure (q_log s) v ++ m_mu (h_m (q_h s))) _ _ _ Hj ltac:(apply in_or_app; auto)). lia.
  - (* QPath *)
    destruct (hstep (q_h s) _) as [h hes| |] eqn:Hh; try discriminate. destruct (q_done hes) as [[r w]|] eqn:Ed.
    + destruct (q_can _ _ _ && _) eqn:Hc; try discriminate. apply andb_prop in Hc as [Hc _]. apply q_can_true in Hc as [_ Hc]. injection Hs as <- <-.
      apply (qi_lift _ _ _ _ _ _ HI Hs0 eq_refl); try reflexivity; try discriminate; try (now noqe).
      * rewrite raises_app, raises_qe. reflexivity.
      * intros o' r' x' v' Hi. apply in_app_or in Hi as [Hi|[Hi|[]]]; [apply qe_only in Hi as (? & [=])|]. injection Hi as <- <- <- <-. split; [exact Hc|]. intros ->. apply incl_appr, incl_refl.
    + injection Hs as <- <-. apply (qi_lift _ _ _ _ _ _ HI Hs0 eq_refl); try reflexivity; try discriminate; try apply raises_qe; now noqe.
  - destruct (hstep (q_h s) _) as [h hes| |] eqn:Hh; try discriminate. injection Hs as <- <-. apply (qi_lift _ _ _ _ _ _ HI Hs0 eq_refl); try reflexivity; try discriminate; try apply raises_qe; now noqe.
  - destruct (hstep (q_h s) _) as [h hes| |] eqn:Hh; try discriminate. injection Hs as <- <-. apply (qi_lift _ _ _ _ _ _ HI Hs0 eq_refl); try reflexivity; try discriminate; try apply raises_qe; now noqe.
  - destruct (hstep (q_h s) _) as [h hes| |] eqn:Hh; try discriminate. injection Hs as <- <-. apply (qi_lift _ _ _ _ _ _ HI Hs0 eq_refl); try reflexivity; try discriminate; try apply raises_qe; now noqe.
  - destruct (hstep (q_h s) _) as [h hes| |] eqn:Hh; try discriminate. injection Hs as <- <-. apply (qi_lift _ _ _ _ _ _ HI Hs0 eq_refl); try reflexivity; try discriminate; try apply raises_qe; now noqe.
  - destruct (q_can _ _ _) eqn:Hc; try discriminate. apply q_can_true in Hc as [_ Hc]. injection Hs as <- <-.
    apply (qi_same _ _ _ _ _ HI Hs0); try reflexivity; auto.
    + intros j u [[=]|[]].
    + intros j os [[=]|[]].
    + intros o tok t i' [].
    + intros o r x u [[=]|[]].
    + intros x u [[= <- <-]|[]]. exists i. split; [reflexivity|]. split; [exact Hc|]. intros ->. apply incl_appr, incl_refl.
Qed.

(** ** Results *)
Notation qrun ls := (run (q_step eager r_acq r_rel ld_acq) q_init ls).
Lemma qi_of ls s tr : qrun ls = Running s tr -> QI s tr.
Proof. exact (run_inv _ QI _ QI_init QI_step ls s tr). Qed.

Lemma q_sees_of ls s tr : r_rel && ld_acq = true -> qrun ls = Running s tr -> q_sees tr /\ q_next_sees tr.
Proof.
  intros E Hr. apply andb_prop in E as [E1 E2]. apply qi_of in Hr as HI. split.
  - intros o r x w Hd j v Hj Hv. destruct (qi_done _ _ HI _ _ _ _ Hd) as [Hx Hi]. destruct (qi_raise _ _ HI _ _ Hv) as (i & d & w' & -> & _ & _ & H).
    destruct x as [|x]; [lia|]. eapply incl_tran; [apply (H E1 x); lia|auto].
  - intros x w Hd j v Hj Hv. destruct (qi_next _ _ HI _ _ Hd) as (i0 & -> & Hx & Hi). destruct (qi_raise _ _ HI _ _ Hv) as (i & d & w' & -> & _ & _ & H).
    destruct i0 as [|i0]; [lia|]. eapply incl_tran; [apply (H E1 i0); lia|auto].
Qed.

Lemma done_fast s o y s' : step s (LPath o y) = Next s' [EDone (P := P) o CondFailed] -> get_pc y (c_op s o) = PFast.
Proof.
  cbn [M_Wait.step]. unfold path_step. cbn [p_resume p_try recurring_prim]. unfold r_resume. intros H. destruct (get_pc y (c_op s o)) eqn:E; auto; repeat inner H; try discriminate; injection H as _ H.
  all: cbn in H; destruct (r_st (c_prim s) o); discriminate.
Qed.

Lemma q_done_in hes r w : q_done hes = Some (r, w) -> exists o, hes = [HE (EDone (P := P) o r) w].
Proof. unfold q_done. destruct hes as [|[[]|] [|]]; try discriminate. intros [= <- <-]. eauto. Qed.

Lemma q_done_step s tr l s' es e1 o r x v e2 : QI s tr -> qstep s l = Next s' es -> es = e1 ++ QEDone o r x v :: e2 ->
  exists y w, l = QPath o y x /\ e1 = [QE (HE (EDone (P := P) o r) w)] /\ e2 = [] /\ hstep (q_h s) (HPath o y) = Next (q_h s') [HE (EDone (P := P) o r) w] /\
    q_known s w <= x /\ x <= q_num s /\ (y = PathL -> q_lo s o <= x) /\ incl w v.
Proof.
  intros HI Hs He. assert (Hin : In (QEDone o r x v) es) by (rewrite He; apply in_or_app; right; now left).
  destruct l as [v0|k|o0 tok t v0 i|o0 y i|e v0|k|k|o0|v0 i]; cbn [q_step] in Hs; unfold q_lift, q_hstep in Hs.
  all: try (destruct (hstep (q_h s) _) as [h hes| |] eqn:E; try discriminate; injection Hs as <- <-; exfalso; (try (apply in_app_or in Hin as [Hin|[[=]|[]]])); apply qe_only in Hin as (? & [=]); fail).
  - exfalso. destruct (nth_error (q_rs s) k) as [[[j w]|]|]; try discriminate. destruct (hstep (q_h s) _) as [h hes| |] eqn:E; try discriminate. injection Hs as <- <-.
    apply in_app_or in Hin as [Hin|[[=]|[]]]; apply qe_only in Hin as (? & [=]).
  - exfalso. destruct ((t <=? _) && _); try discriminate. destruct (hstep (q_h s) _) as [h hes| |] eqn:E; try discriminate. injection Hs as <- <-. apply qe_only in Hin as (? & [=]).
  - destruct (hstep (q_h s) _) as [h hes| |] eqn:E; try discriminate. destruct (q_done hes) as [[r' w]|] eqn:Ed; [|exfalso; injection Hs as <- <-; apply qe_only in Hin as (? & [=])].
    destruct (q_can _ _ _ && _) eqn:Hc; try discriminate. apply andb_prop in Hc as [Hc Hlo]. apply q_can_true in Hc as [Hc1 Hc2]. injection Hs as <- <-.
    apply q_done_in in Ed as (o1 & ->). cbn in He. assert (o1 = o0).
    { destruct (hstep_next _ _ _ _ _ _ _ _ _ E) as (b' & bes & m' & v' & Hb & _ & _ & Ees). cbn [call_event app] in Ees. destruct bes as [|e bes]; [discriminate|]. injection Ees as <- _ _.
      destruct (done_path _ _ _ _ _ _ _ _ Hb (or_introl eq_refl)) as (_ & y' & Ey). injection Ey as <- _. reflexivity. }
    subst o1. destruct e1 as [|e e1]; cbn in He; [discriminate|]. injection He as <- He. destruct e1 as [|e e1]; cbn in He; [|destruct e1; discriminate]. injection He as <- <- -> Hv <-.
    exists y, w. repeat (split; [reflexivity|]). split; [exact E|]. split; [exact Hc1|]. split; [exact Hc2|]. split; [intros ->; now apply Nat.leb_le in Hlo|].
    rewrite <- Hv. destruct ld_acq; [apply incl_appl|]; apply incl_refl.
  - exfalso. destruct (q_can _ _ _); try discriminate. injection Hs as <- <-. destruct Hin as [[=]|[]].
Qed.

Lemma q_value ls s t1 o r x v t2 t : qrun ls = Running s (t1 ++ QEDone o r x v :: t2) -> q_waits o t t1 ->
  t <= x /\ x <= q_raises t1 /\ (r = CondFailed -> t < x) /\ forall j os, In (QELock j os) t1 -> In o os -> j <= x.
Proof.
  intros Hr (tok & i0 & Hst). destruct (run_split_event _ _ _ _ _ _ _ Hr) as (ls1 & l & ls2 & s1 & s2 & tr1 & e1 & e2 & _ & Hr1 & Hs & Et & _).
  apply qi_of in Hr1 as HI. destruct (q_done_step _ _ _ _ _ _ _ _ _ _ _ HI Hs eq_refl) as (y & w & -> & -> & -> & Hh & Hk & Hn & Hlo & _). subst t1.
  destruct (hstep_next _ _ _ _ _ _ _ _ _ Hh) as (b' & bes & m' & v' & Hb & Hx & Hsto & Ees). cbn [call_event app base] in Ees, Hb.
  destruct bes as [|e bes]; [discriminate|]. destruct bes; [|discriminate]. injection Ees as <- <-.
  destruct (qi_run _ _ HI) as (hls & Hhr). pose proof (hrun_vi _ _ _ Hhr) as Hvi. pose proof (vi_m _ _ _ Hvi) as Hm.
  destruct (exec_ok _ _ _ _ _ _ _ Hm (tview_ok P eager _ (HPath o y) Hm (vi_v _ _ _ Hvi)) Hx) as [_ Hcl].
  destruct (exec_grows _ _ _ _ _ _ _ Hx) as [Hg Hvw].
  assert (Hst1 : In (EStart (P := P) o tok (t, i0)) (qapi tr1)).
  { unfold qapi in *. rewrite hapi_app, api_app in Hst. apply in_app_or in Hst as [Hst|Hst]; [exact Hst|]. destruct Hst as [[=]|[]]. }
  destruct (qi_start _ _ HI _ _ _ _ Hst1) as (Elo & Hti & Hin & Hnew).
  assert (Hhr2 : hrun (hls ++ [HPath o y]) = Running (q_h s2) (hapi tr1 ++ [HE (EDone (P := P) o r) w])) by (eapply run_snoc'; eauto).
  split; [|split; [|split]].
  - destruct Hnew as [->|(n & p & j & d & w' & Hnn & Hj & Htj & Hd)]; [lia|]. enough (S j <= q_known s1 w) by lia. eapply known_ge; [exact Hj|].
    cbn [acts] in Hx. unfold path_acts in Hx. cbn [exec exec1 tview] in Hx. destruct (ordered _ _ _ _) eqn:Eo in Hx; [|discriminate].
    pose proof (proj1 (ordered_know _ _ _ _) Eo FNew eq_refl n p Hnn) as Hnv. destruct (Hcl n (Hvw _ Hnv)) as [_ Hbf]. apply Hbf. unfold before. unfold q_log in Hnn. now rewrite (Hg _ _ Hnn).
  - rewrite raises_app, <- (qi_num _ _ HI). cbn. lia.
  - intros ->. assert (Ey : y = PathL).
    { pose proof (recurring_inv U eager _ _ _ (base_run _ _ _ Hhr)) as (HJT & _). destruct HJT as [[HG _] _]. apply done_fast in Hb. now destruct (fast_facts _ _ _ _ _ _ HG Hb) as (_ & _ & H & _). }
    specialize (Hlo Ey). pose proof (base_run _ _ _ Hhr2) as Hbr. rewrite api_app in Hbr. apply in_split in Hst1 as (u1 & u2 & Eu). unfold qapi in Eu. rewrite Eu in Hbr. cbn [api] in Hbr. rewrite <- app_assoc in Hbr. cbn [app] in Hbr.
    destruct (r_result U eager _ _ _ _ _ _ _ _ _ Hbr) as (? & ? & ? & ? & _ & _ & [([=] & _)|[([=] & _)|(_ & Hc)]]). cbn in Hc. destruct (t <=? i0); [|discriminate]. injection Hc as Hc. apply Nat.leb_gt in Hc. lia.
  - intros j os Hl Ho. apply in_app_or in Hl as [Hl|[[=]|[]]]. destruct (qi_elock _ _ HI _ _ Hl) as (i & d & w' & dc & -> & Hj & Hc & Hd).
    destruct (h_visible P W eager TL lk seqc_lk_taken _ _ _ _ _ _ _ Hhr2) as (Hvis & _). specialize (Hvis _ _ _ Hc Ho). destruct (Hcl _ Hvis) as [_ Hbf].
    enough (S i <= q_known s1 w) by lia. eapply known_ge; [exact Hj|]. apply Hbf. unfold before, q_log in *.
    destruct (nth_error (m_log (h_m (q_h s1))) dc) as [[a p]|] eqn:Ed; [|destruct Hd]. now rewrite (Hg _ _ Ed).
Qed.

(** each result is that of a notification of M_Wait, and vice versa *)
Lemma q_results ls s tr o r : qrun ls = Running s tr -> In (EDone (P := P) o r) (qapi tr) <-> exists x v, In (QEDone o r x v) tr.
Proof.
  intros Hr. revert Hr. apply (run_inv _ (fun s tr => QI s tr /\ (In (EDone (P := P) o r) (qapi tr) <-> exists x v, In (QEDone o r x v) tr)) q_init).
  - split; [apply QI_init|]. cbn. split; [tauto|intros (? & ? & [])].
  - clear s tr. intros s tr l s' es [HI IH] Hs. split; [eapply QI_step; eauto|].
    assert (Eapi : qapi (tr ++ es) = qapi tr ++ qapi es) by (unfold qapi; now rewrite hapi_app, api_app). rewrite Eapi.
    assert (Hes : In (EDone (P := P) o r) (qapi es) <-> exists x v, In (QEDone o r x v) es).
    { split.
      - intros Hi. destruct (q_next _ _ _ _ Hs) as [(hl & hes & Hl & Hh & He & _)|(v & i & -> & -> & -> & _)]; [|destruct Hi].
        destruct (hstep_next _ _ _ _ _ _ _ _ _ Hh) as (b' & bes & m' & w & Hb & _ & _ & Ees). unfold qapi in Hi. rewrite He, Ees, api_call_ev in Hi.
        destruct (done_path _ _ _ _ _ _ _ _ Hb Hi) as (_ & y & El). pose proof (step_done_only _ _ _ _ _ _ _ _ Hb Hi) as Eb.
        destruct hl as [| o' y' | | | | |]; try discriminate. injection El as -> ->. subst bes. cbn in Ees.
        destruct l as [v0|k|o0 tok t v0 i|o0 y0 i|e v0|k|k|o0|v0 i]; cbn [hlab] in Hl; try discriminate Hl; try (destruct (nth_error (q_rs s) k) as [[[]|]|]; discriminate Hl).
        injection Hl as -> ->. cbn [q_step] in Hs. unfold q_hstep in Hs. rewrite Hh, Ees in Hs. cbn [q_done] in Hs.
        destruct (q_can _ _ _ && _); [|discriminate]. injection Hs as _ <-. eexists _, _. cbn. right. left. reflexivity.
      - intros (x & v & Hi). apply in_split in Hi as (e1 & e2 & ->). destruct (q_done_step _ _ _ _ _ _ _ _ _ _ _ HI Hs eq_refl) as (y & w & -> & -> & -> & _). left. reflexivity. }
    rewrite in_app_iff, IH, Hes. split.
    + intros [(x & v & H)|(x & v & H)]; exists x, v; apply in_or_app; auto.
    + intros (x & v & H). apply in_app_or in H as [H|H]; [left|right]; eauto.
Qed.

Lemma q_live ls s tr o t : qrun ls = Running s tr -> q_quiet s -> q_waits o t tr -> t < q_raises tr -> notified o (qapi tr) = 1.
Proof.
  intros Hr [Hq Hn] (tok & i & Hst) Ht. apply qi_of in Hr as HI. destruct (qi_run _ _ HI) as (hls & Hhr). pose proof (base_run _ _ _ Hhr) as Hb. fold (qapi tr) in Hb.
  destruct (r_pending U eager _ _ _ o Hb Hq) as [H|(H & _)]; [|exact H|].
  - apply in_split in Hst as (u1 & u2 & ->). clear. unfold started. induction u1 as [|e u1 IH]; cbn; [now left|]. destruct e; cbn; auto.
  - exfalso. destruct (qi_queue _ _ HI _ _ _ _ H Hst) as [Hx|(w & Hw)]; [rewrite (qi_num _ _ HI) in Hx; lia|]. apply Hn in Hw. discriminate.
Qed.

Lemma q_functional ls s tr : qrun ls = Running s tr -> exists ls', run step (c_init P) ls' = Running (h_s (q_h s)) (qapi tr).
Proof. intros Hr. apply qi_of in Hr as HI. destruct (qi_run _ _ HI) as (hls & Hhr). eexists. exact (base_run _ _ _ Hhr). Qed.

Lemma q_calls ls s tr : qrun ls = Running s tr -> calls_visible (hapi tr) /\ earlier_visible (hapi tr).
Proof.
  intros Hr. apply qi_of in Hr as HI. destruct (qi_run _ _ HI) as (hls & Hhr). split.
  - exact (h_vis_calls _ W eager TL lk seqc_lk_taken _ _ _ Hhr).
  - exact (h_vis_earlier _ W eager TL lk seqc_lk_taken _ _ _ Hhr).
Qed.

Lemma start_fail s l f es o tok a : step s l = Fail f es -> In (EStart (P := P) o tok a) es -> l = LStart o tok a.
Proof.
  intros Hs Hi. destruct l as [o' tok' a'|o' y|e|k|k|pl|o']; cbn [M_Wait.step] in Hs; unfold path_step in Hs.
  6: { destruct (p_step P (c_prim s) pl) as [ps tk pes| |f' pes]; try discriminate. injection Hs as _ <-. apply in_map_iff in Hi as (? & [=] & _). }
  1: { cbn [p_start recurring_prim] in Hs. unfold r_start in Hs. repeat inner Hs; try discriminate; injection Hs as _ <-; destruct Hi as [[= -> -> ->]|[]]; reflexivity. }
  all: repeat inner Hs; try discriminate; injection Hs as _ <-; destruct Hi.
Qed.

Lemma q_failures ls f tr : qrun ls = Failed f tr -> eager = true /\ (f = UseAfterFree \/ f = DataRace) /\ exists o, destroyed_early o (hapi tr).
Proof.
  intros Hr. destruct (run_from_failed _ _ _ _ _ _ Hr) as (ls1 & l & s1 & tr1 & es & Hr1 & Hs & ->). apply qi_of in Hr1 as HI. destruct (qi_run _ _ HI) as (hls & Hhr).
  destruct (q_failed _ _ _ _ Hs) as (hl & hes & Hl & Hh & -> & Hw). rewrite hapi_app, hapi_qe.
  assert (Hhf : hrun (hls ++ [hl]) = Failed f (hapi tr1 ++ hes)) by (unfold run in *; rewrite run_from_app, Hhr; cbn [run_from]; now rewrite Hh).
  destruct (step (h_s (q_h s1)) (base hl)) as [b' bes| |f' bes] eqn:Hb.
  - assert (f = DataRace). { unfold M_WaitHB.hstep in Hh. rewrite Hb in Hh. destruct (exec _ _ _ _) as [[m' v]|] in Hh; [discriminate|]. now injection Hh as <- _. }
    subst f. destruct (h_race P W eager TL lk seqc_lk_taken _ _ Hhf (seqc_norace eager)) as (E & _ & o & _ & _ & _ & _ & H1 & H2). split; [exact E|]. split; [auto|]. exists o. split; auto.
  - exfalso. unfold M_WaitHB.hstep in Hh. now rewrite Hb in Hh.
  - assert (f' = f /\ hes = map (fun e => HE e []) bes) as [-> ->]. { unfold M_WaitHB.hstep in Hh. rewrite Hb in Hh. now injection Hh as <- <-. }
    pose proof (base_run _ _ _ Hhr) as Hbr. assert (Hbf : run step (c_init P) (map base hls ++ [base hl]) = Failed f (qapi tr1 ++ bes)) by (unfold run in *; rewrite run_from_app, Hbr; cbn [run_from]; now rewrite Hb).
    destruct (r_fail U eager _ _ _ Hbf) as [(ls2 & s2 & tr2 & o & tok & [t i] & _ & _ & Et & Hc)|[(? & ? & ? & [] & ges & _ & Hg & _)|(E & Ef & o & _ & H1 & H2)]].
    + exfalso. cbn in Hc. destruct (Nat.leb_spec t i) as [L|L]; [discriminate|].
      assert (Hi : In (EStart (P := P) o tok (t, i)) (qapi tr1 ++ bes)) by (rewrite Et; apply in_or_app; right; now left). apply in_app_or in Hi as [Hi|Hi].
      * destruct (qi_start _ _ HI _ _ _ _ Hi) as (_ & H & _). lia.
      * pose proof (start_fail _ _ _ _ _ _ _ Hb Hi) as El. destruct hl as [o' tok' a' v'| | | | | |]; try discriminate. injection El as -> -> ->.
        destruct l as [v0|k|o0 tok0 t0 v0 i0|o0 y0 i0|e v0|k|k|o0|v0 i0]; cbn [hlab] in Hl; try discriminate Hl; try (destruct (nth_error (q_rs s1) k) as [[[]|]|]; discriminate Hl).
        injection Hl as -> -> -> -> _. specialize (Hw _ _ _ _ _ eq_refl). lia.
    + discriminate.
    + split; [exact E|]. split; [auto|]. exists o. unfold destroyed_early. rewrite api_app, api_map. split; auto.
Qed.
End Proofs.

(** A call of raise() is never blocked *)
Lemma q_lock_enabled r_acq r_rel ld_acq ls s tr k y : run (q_step false r_acq r_rel ld_acq) q_init ls = Running s tr -> nth_error (q_rs s) k = Some (Some y) ->
  exists s' es, q_step false r_acq r_rel ld_acq s (QLock k) = Next s' es.
Proof.
  intros Hr Hk. apply qi_of in Hr as HI. destruct (qi_run _ _ _ _ _ HI) as (hls & Hhr). pose proof (base_run _ _ _ _ Hhr) as Hb.
  cbn [q_step]. unfold q_hstep. rewrite Hk. destruct y as [j w].
  destruct (hstep _ _ _ _ _ _ _) as [h hes| |f hes] eqn:Hh; [eauto| |]; exfalso.
  - pose proof (filter_set_none _ _ _ Hk) as Hf. rewrite <- (qi_cnt _ _ _ _ _ HI) in Hf.
    destruct (r_raise_enabled seqc_user false _ _ _ (Sq (sq_seq (r_g (c_prim (h_s (q_h s))))) (length (filter is_some (set_nth (q_rs s) k None)))) Hb) as (b' & Hs).
    { cbn. now rewrite Hf. }
    unfold hstep in Hh. cbn [base] in Hh. rewrite Hs in Hh. destruct (exec _ _ _ _ _) as [[m' v]|] in Hh; discriminate.
  - assert (Hq : run (q_step false r_acq r_rel ld_acq) q_init (ls ++ [QLock k]) = Failed f (tr ++ map QE hes)).
    { unfold run in *. rewrite run_from_app, Hr. cbn [run_from q_step]. unfold q_hstep. now rewrite Hk, Hh. }
    apply q_failures in Hq as [[=] _].
Qed.
