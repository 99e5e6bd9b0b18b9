(** The happens-before invariant of M_PostAckHB: whatever a step is not about keeps it. *)
From Coq Require Import List Arith Bool Lia.
From Verif Require Import Lts ListFacts M_HB P_HB M_PostAckHB S_PostAckHB P_PostAckHB P_PostAckHB2.
Import ListNotations.

Notation v_ h t := (mv_cur (ms_view h t)).
Notation lg h := (mm_log (ms_mem h)).
Notation rl h x := (mm_rel (ms_mem h) x).
Notation st h := (ms_base h).
Notation trace := (list (kevent * hbs)).

(** The accesses to the members of p, and whatever happens before an event about p *)
Definition intr (g : mlog) (tr : trace) (p i : nat) : Prop :=
  (exists a q, nth_error g i = Some (a, q) /\ In (ma_loc a) (plocs p)) \/ exists e w, In (e, w) tr /\ about p e = true /\ In i w.
Definition hold (s : kst) (o p : nat) : Prop := at_of s o = PHas p \/ at_of s o = PErase p.
Definition cov (h : mst (S := kst)) (p i : nat) : Prop := In i (rl h x_mtx) \/ In i (rl h (x_acks p)) \/ exists o, hold (st h) o p /\ In i (v_ h (t_o o)).
Definition C0 (g : mlog) (u : hbs) (p : nat) : Prop := kw g u (l_obj p) /\ kw g u (l_acks p) /\ kw g u (l_rcv p).
Definition seen (tr : trace) (p : nat) (u : hbs) : Prop := forall w, In (EPost p, w) tr -> incl w u.

Definition NV (h : mst (S := kst)) (tr : trace) (p : nat) (n : nd) : Prop :=
  (n_q n = true -> kn (lg h) (rl h x_mtx) (l_hook p) /\ C0 (lg h) (rl h x_mtx) p /\ seen tr p (rl h x_mtx) /\ forall i, intr (lg h) tr p i -> cov h p i) /\
  (n_fast n || n_done n = true -> forall i, intr (lg h) tr p i -> In i (v_ h (t_p p))).
Definition OV (h : mst (S := kst)) (tr : trace) (o : nat) (r : po) : Prop :=
  let k u := kn (lg h) u (l_ag (o_ag r)) in
  match o_at r with
  | PQueued => k (v_ h (t_l o)) /\ k (rl h x_mtx)
  | PTaken p => C0 (lg h) (v_ h (t_o o)) p /\ seen tr p (v_ h (t_o o)) /\ if o_try r then k (v_ h (t_c o)) else k (v_ h (t_l o)) /\ k (v_ h (t_o o))
  | PCanc => k (v_ h (t_c o))
  | PHas p => C0 (lg h) (v_ h (t_o o)) p /\ seen tr p (v_ h (t_o o))
  | PErase p => incl (rl h (x_acks p)) (v_ h (t_o o))
  | PComp p => forall i, intr (lg h) tr p i -> In i (v_ h (t_o o))
  | _ => True
  end.
Definition AV (h : mst (S := kst)) (tr : trace) (a : nat) (g : ag) : Prop :=
  (g_poll g = false -> kn (lg h) (v_ h (t_a a)) (l_ag a)) /\
  match g_det g with Some (_, Some p) => forall i, intr (lg h) tr p i -> In i (v_ h (t_a a)) | _ => True end.
Definition ev_ok (t1 : trace) (e : kevent) (v : hbs) : Prop :=
  match e with EGot _ p | ERead _ p => sees_post p t1 v | EPostDone p => sees_all p t1 v | _ => True end.
Record Inv (h : mst (S := kst)) (tr : trace) : Prop := {
  w_base : BI (st h);
  w_mech : kn (lg h) (rl h x_mtx) l_mech;
  w_nd : forall p n, nth_error (k_nd (st h)) p = Some n -> NV h tr p n;
  w_po : forall o r, nth_error (k_po (st h)) o = Some r -> OV h tr o r;
  w_ag : forall a g, nth_error (k_ag (st h)) a = Some g -> AV h tr a g;
  w_new : forall p i, length (k_nd (st h)) <= p -> ~ intr (lg h) tr p i;
  w_newa : forall a, length (k_ag (st h)) <= a -> kn (lg h) [] (l_ag a);
  w_ex : forall p, p < length (k_nd (st h)) -> exists u, In (EPost p, u) tr;
  w_fin : forall t1 p v t2, tr = t1 ++ (EPostDone p, v) :: t2 -> (exists n, nth_error (k_nd (st h)) p = Some n /\ n_done n = true) /\ forall e u, In (e, u) t2 -> about p e = false;
  w_vis : forall t1 e v t2, tr = t1 ++ (e, v) :: t2 -> ev_ok t1 e v }.

Lemma plocs_inj p q x : In x (plocs p) -> In x (plocs q) -> p = q.
Proof. unfold plocs. simpl. intros H1 H2. repeat (destruct H1 as [H1|H1]; [repeat (destruct H2 as [H2|H2]; [lne|]); destruct H2|]). destruct H1. Qed.
Lemma plocs_mech p : ~ In l_mech (plocs p).
Proof. unfold plocs. simpl. intros H1. repeat (destruct H1 as [H1|H1]; [lne|]). destruct H1. Qed.
Lemma plocs_ag p a : ~ In (l_ag a) (plocs p).
Proof. unfold plocs. simpl. intros H1. repeat (destruct H1 as [H1|H1]; [lne|]). destruct H1. Qed.
Lemma plocs_hook p : In (l_hook p) (plocs p). Proof. simpl. auto. Qed.

Section Base.
Context {s : kst} {l : klabel} {s' : kst} {es : list kevent}.
Hypothesis B : BI s.
Hypothesis Hs : k_step s l = Next s' es.
Lemma es_one : es = [] \/ exists e, es = [e].
Proof. destruct l; kinv Hs; eauto. Qed.
Lemma nd_len : length (k_nd s') = length (k_nd s) /\ l <> LPost \/ l = LPost /\ length (k_nd s') = S (length (k_nd s)) /\ es = [EPost (length (k_nd s))].
Proof. destruct l; kinv Hs; cbn [k_nd with_nd with_ag with_po]; rewrite ?set_nth_length, ?app_length; simpl; try (left; split; [reflexivity|discriminate]); right; repeat split; lia. Qed.
Lemma ag_len : length (k_ag s) <= length (k_ag s').
Proof. destruct l; kinv Hs; cbn [k_ag with_nd with_ag with_po]; rewrite ?set_nth_length, ?app_length; simpl; lia. Qed.
Lemma done_keep p n : nth_error (k_nd s) p = Some n -> n_done n = true -> exists n', nth_error (k_nd s') p = Some n' /\ n_done n' = true.
Proof.
  assert (K : forall nds q n1 n2, nth_error nds q = Some n1 -> (n_done n1 = true -> n_done n2 = true) -> nth_error nds p = Some n -> n_done n = true -> exists n', nth_error (set_nth nds q n2) p = Some n' /\ n_done n' = true).
  { intros nds q n1 n2 Hq H12 Hn Hd. destruct (Nat.eq_dec q p) as [->|Hne]; [|exists n; rewrite nth_ne by auto; auto]. exists n2. rewrite (nth_error_set_nth_same _ _ _ _ Hq). rewrite Hq in Hn. injection Hn as ->. auto. }
  intros Hn Hd. destruct l; kinv Hs; cbn [k_nd with_nd with_ag with_po]; try (eauto; fail); try (eapply K; eauto; fail); (exists n; split; [|exact Hd]; rewrite nth_error_app1; [exact Hn|apply nth_error_Some; congruence]).
Qed.
Lemma done_ev p : In (EPostDone p) es -> (exists n, nth_error (k_nd s') p = Some n /\ n_done n = true) /\ In p (sp s l).
Proof.
  unfold sp, det_of, at_of. destruct l; kinv Hs; cbn [In]; intros H; try tauto; destruct H as [H|[]]; try discriminate; injection H as ->; cbn [k_nd with_nd with_ag with_po]; 
    repeat (match goal with H : nth_error _ _ = Some _ |- _ => rewrite H end); repeat (match goal with H : g_det _ = _ |- _ => rewrite H | H : o_at _ = _ |- _ => rewrite H end);
    (split; [eexists; split; [eapply nth_error_set_nth_same; eassumption|reflexivity]|left; reflexivity]).
Qed.
Lemma hold_so o p : hold s o p -> In o (so s l) -> In p (sp s l).
Proof.
  unfold hold. intros H Ho. destruct l as [|a|a| |q|a|o'|o'|o'|o'|o'|q]; cbn [so sp] in *; try (destruct Ho; fail).
  - destruct (k_act s =? 0); [destruct Ho|]. apply waiting_iff in Ho. destruct Ho as (r & Hr & E). rewrite (at_po _ _ _ Hr), E in H. destruct H; discriminate.
  - destruct Ho as [<-|[]]. unfold at_of in H. rewrite (proj2 (nth_error_None _ _)) in H by auto. destruct H; discriminate.
  - destruct Ho as [<-|[]]. unfold at_of in H. kinv Hs; simpl in H; rewrite ?Heqo0, ?Heqp0 in H; rewrite ?Heqp1 in H; destruct H; discriminate.
  - destruct Ho as [<-|[]]. destruct H as [-> | ->]; left; reflexivity.
  - destruct Ho as [<-|[]]. destruct H as [-> | ->]; left; reflexivity.
  - destruct Ho as [<-|[]]. destruct H as [-> | ->]; left; reflexivity.
  - destruct Ho as [<-|[]]. destruct H as [-> | ->]; left; reflexivity.
Qed.
Lemma busy_sa o r : nth_error (k_po s) o = Some r -> busy r = true -> ~ In o (so s l) -> ~ In (o_ag r) (sa s l).
Proof.
  intros Ho Hb No. destruct (busy_ag _ _ _ B Ho Hb) as (g & Hg & Hon & Hp & Hd). destruct l as [|a|a| |q|a|o'|o'|o'|o'|o'|q]; cbn [so sa] in *; try (intros []; fail).
  - intros [E|[]]. assert (o_ag r < length (k_ag s)) by (apply nth_error_Some; congruence). lia.
  - intros [E|[]]. subst a. simpl in Hs. rewrite Hg, Hon, Hp in Hs. discriminate.
  - intros [E|[]]. subst a. simpl in Hs. rewrite Hg, Hd in Hs. discriminate.
  - intros [E|[]]. subst a. simpl in Hs. rewrite Hg, Hon, Hp in Hs. discriminate.
  - intros [E|[]]. unfold ag_of in E. destruct (nth_error (k_po s) o') as [r'|] eqn:Ho'; [|simpl in Hs; rewrite Ho' in Hs; discriminate]. apply No. left. symmetry. apply (busy_uniq _ _ _ _ _ B Ho Ho'); auto.
    simpl in Hs. rewrite Ho' in Hs. unfold busy. destruct (o_try r'); [discriminate|]. destruct (o_at r'); try discriminate; reflexivity.
  - intros [E|[]]. unfold ag_of in E. destruct (nth_error (k_po s) o') as [r'|] eqn:Ho'; [|simpl in Hs; rewrite Ho' in Hs; discriminate]. apply No. left. symmetry. apply (busy_uniq _ _ _ _ _ B Ho Ho'); auto.
    simpl in Hs. rewrite Ho' in Hs. unfold busy. destruct (o_at r'); try discriminate; reflexivity.
Qed.
Lemma sa_lt a : In a (sa s l) -> a < length (k_ag s').
Proof.
  pose proof ag_len as L. destruct l as [|b|b| |q|b|o|o|o|o|o|q]; cbn [sa]; try (intros []; fail); intros [<-|[]].
  - kinv Hs. simpl. rewrite app_length. simpl. lia.
  - assert (b < length (k_ag s)); [|lia]. apply nth_error_Some. intros E. simpl in Hs. rewrite E in Hs. discriminate.
  - assert (b < length (k_ag s)); [|lia]. apply nth_error_Some. intros E. simpl in Hs. rewrite E in Hs. discriminate.
  - assert (b < length (k_ag s)); [|lia]. apply nth_error_Some. intros E. simpl in Hs. rewrite E in Hs. discriminate.
  - assert (ag_of s o < length (k_ag s)); [|lia]. unfold ag_of. destruct (nth_error (k_po s) o) as [r'|] eqn:Ho'; [|simpl in Hs; rewrite Ho' in Hs; discriminate]. destruct (busy_ag _ _ _ B Ho') as (g & Hg & _); [|apply nth_error_Some; congruence].
    simpl in Hs. rewrite Ho' in Hs. unfold busy. destruct (o_try r'); [discriminate|]. destruct (o_at r'); try discriminate; reflexivity.
  - assert (ag_of s o < length (k_ag s)); [|lia]. unfold ag_of. destruct (nth_error (k_po s) o) as [r'|] eqn:Ho'; [|simpl in Hs; rewrite Ho' in Hs; discriminate]. destruct (busy_ag _ _ _ B Ho') as (g & Hg & _); [|apply nth_error_Some; congruence].
    simpl in Hs. rewrite Ho' in Hs. unfold busy. destruct (o_at r'); try discriminate; reflexivity.
Qed.
End Base.

Lemma split_app {A} (l1 l2 : list A) : forall t1 x t2, l1 ++ l2 = t1 ++ x :: t2 -> (exists t, l1 = t1 ++ x :: t /\ t2 = t ++ l2) \/ (exists e1 e2, l2 = e1 ++ x :: e2 /\ t1 = l1 ++ e1 /\ t2 = e2).
Proof.
  induction l1 as [|a l1 IH]; intros t1 x t2 E; simpl in E; [right; exists t1, t2; auto|]. destruct t1 as [|b t1]; simpl in E; injection E as <- E.
  - left. exists l1. auto.
  - destruct (IH _ _ _ E) as [(t & -> & ->)|(e1 & e2 & -> & -> & ->)]; [left; exists t; auto|right; exists e1, e2; auto].
Qed.

Section Orders.
Variables k_acq k_rel d_acq d_rel : bool.
Notation acts := (kh_acts k_acq k_rel d_acq d_rel).
Notation hv := (hview kh_src).

Section Step.
Context {h : mst (S := kst)} {tr : trace} {l : klabel} {v : hbs} {m' : mmem} {v' : mview} {s' : kst} {es : list kevent}.
Hypothesis W : Inv h tr.
Hypothesis Hs : k_step (st h) l = Next s' es.
Hypothesis He : m_exec (ms_mem h) (hv h l v) (acts (st h) l) = Some (m', v').
Notation B := (w_base _ _ W).
Definition nxt : mst (S := kst) := MS s' m' (m_set (ms_view h) (kh_dst (st h) l) v').
Definition ntr : trace := tr ++ map (fun e => (e, mv_cur v')) es.
Notation h' := nxt. Notation tr' := ntr.
Let Ef : eff (ms_mem h) (hv h l v) (acts (st h) l) m' v' := eff_exec _ _ _ _ _ He.

Definition tch (p : nat) : Prop := (exists x w, In (Touch x w) (acts (st h) l) /\ In x (plocs p)) \/ exists e, In e es /\ about p e = true.
Lemma ntr_in e w : In (e, w) tr' -> In (e, w) tr \/ (In e es /\ w = mv_cur v').
Proof. unfold ntr. intros H. apply in_app_or in H. destruct H as [H|H]; [auto|]. apply in_map_iff in H. destruct H as (e' & [= <- <-] & H). auto. Qed.
Lemma intr_step p i : intr (lg h') tr' p i -> intr (lg h) tr p i \/ (In i (mv_cur v') /\ tch p).
Proof.
  intros [(a & q & Hn & Hl)|(e & w & Hi & Ha & Hw)].
  - simpl in Hn. destruct (eff_cases Ef _ _ _ Hn) as [[_ Ho]|(_ & Hi & Ht)]; [left; left; eauto|]. right. split; [auto|]. left. eauto.
  - apply ntr_in in Hi. destruct Hi as [Hi|[Hi ->]]; [left; right; eauto|]. right. split; [auto|]. right. eauto.
Qed.
Lemma tch_cases p : tch p -> (isq (st h) p /\ cr (st h) l = true) \/
  (In p (sp (st h) l) /\ ((p = length (k_nd (st h)) /\ l = LPost) \/ isq (st h) p \/ isf (st h) p \/ (exists o, In o (so (st h) l) /\ isc (st h) o p) \/ (exists a, In a (sa (st h) l) /\ isd (st h) a p))).
Proof.
  intros [(x & w & Ht & Hx)|(e & Hi & Ha)].
  - destruct (touch_cases _ _ _ _ B Hs x w Ht) as [[-> _]|[(a & -> & _)|[(q & Hq & -> & Hc)|(q & Hq & Hxq & P)]]].
    + destruct (plocs_mech _ Hx).
    + destruct (plocs_ag _ _ Hx).
    + assert (p = q) as -> by (eapply plocs_inj; eauto using plocs_hook). auto.
    + assert (p = q) as -> by (eapply plocs_inj; eauto). right. split; [auto|]. destruct P as [P|[(n & Hn & Hd)|(_ & _ & P)]]; [auto| |tauto]. right. right. left. exists n. rewrite Hd, orb_true_r. auto.
  - destruct (event_cases B Hs e p Hi Ha) as [H1 [(_ & H2 & H3)|[H2 _]]]; auto.
Qed.
Lemma crv : cr (st h) l = true -> incl (rl h x_mtx) (mv_cur v') /\ incl (mv_cur v') (mm_rel m' x_mtx).
Proof.
  intros Hc. destruct (crit_shape k_acq k_rel d_acq d_rel Hs Hc) as (l1 & l2 & E & Ht & _). pose proof He as He'. rewrite E in He'. split; [eapply mid_lock; eauto|].
  rewrite app_comm_cons, app_assoc in He'. eapply exec_unlock; eauto.
Qed.
Lemma rel_mono x : incl (rl h x) (rl h' x). Proof. apply (ef_rel _ _ _ _ _ Ef). Qed.
Lemma rel_acks p : (forall n, nth_error (k_nd (st h)) p = Some n -> n_acks n = 0) -> rl h' (x_acks p) = rl h (x_acks p).
Proof.
  intros H. simpl. eapply exec_rel_other; [|exact He]. intros a r Hi. destruct (rmw_cases _ _ _ _ B Hs _ _ _ Hi) as (n & Hn & K). rewrite (H _ Hn) in K. lia.
Qed.
Lemma view_in t : In t (kh_dst (st h) l) -> v_ h' t = mv_cur v'. Proof. intros H. simpl. rewrite set_in; auto. Qed.
Lemma view_out t : ~ In t (kh_dst (st h) l) -> v_ h' t = v_ h t. Proof. intros H. simpl. rewrite set_out; auto. Qed.
Lemma view_p p : ~ In p (sp (st h) l) -> v_ h' (t_p p) = v_ h (t_p p).
Proof. intros N. apply view_out. intros H. apply (dst_cases Hs) in H. destruct H as [(q & Hq & E)|[(o & _ & E)|(a & _ & E)]]; [|tne|tne]. assert (p = q) by tne. congruence. Qed.
Lemma view_l o : ~ In o (so (st h) l) -> v_ h' (t_l o) = v_ h (t_l o).
Proof. intros N. apply view_out. intros H. apply (dst_cases Hs) in H. destruct H as [(q & _ & E)|[(o' & Ho & E)|(a & _ & E)]]; [tne| |tne]. assert (o = o') by tne. congruence. Qed.
Lemma view_o o : ~ In o (so (st h) l) -> v_ h' (t_o o) = v_ h (t_o o).
Proof. intros N. apply view_out. intros H. apply (dst_cases Hs) in H. destruct H as [(q & _ & E)|[(o' & Ho & E)|(a & _ & E)]]; [tne| |tne]. assert (o = o') by tne. congruence. Qed.
Lemma view_c o : ~ In o (so (st h) l) -> v_ h' (t_c o) = v_ h (t_c o).
Proof. intros N. apply view_out. intros H. apply (dst_cases Hs) in H. destruct H as [(q & _ & E)|[(o' & Ho & E)|(a & _ & E)]]; [tne| |tne]. assert (o = o') by tne. congruence. Qed.
Lemma view_a a : ~ In a (sa (st h) l) -> v_ h' (t_a a) = v_ h (t_a a).
Proof. intros N. apply view_out. intros H. apply (dst_cases Hs) in H. destruct H as [(q & _ & E)|[(o' & _ & E)|(a' & Ha & E)]]; [tne|tne|]. assert (a = a') by tne. congruence. Qed.

Lemma nowrite p x : p < length (k_nd (st h)) -> ~ isf (st h) p -> In x [l_obj p; l_acks p; l_rcv p] -> ~ In (Touch x true) (acts (st h) l).
Proof.
  intros Hp Nf Hx Ht. assert (Hx' : In x (plocs p)) by (simpl in *; tauto). destruct (touch_cases _ _ _ _ B Hs x true Ht) as [[-> _]|[(a & -> & _)|[(q & Hq & -> & Hc)|(q & Hq & Hxq & P)]]].
  - destruct (plocs_mech _ Hx').
  - destruct (plocs_ag _ _ Hx').
  - simpl in Hx. repeat (destruct Hx as [Hx|Hx]; [lne|]). destruct Hx.
  - assert (p = q) as <- by (eapply plocs_inj; eauto). destruct P as [[P _]|[(n & Hn & Hd)|([=] & _)]]; [lia|]. apply Nf. exists n. rewrite Hd, orb_true_r. auto.
Qed.
Lemma C0_keep u u' p : p < length (k_nd (st h)) -> ~ isf (st h) p -> incl u u' -> C0 (lg h) u p -> C0 (lg h') u' p.
Proof.
  intros Hp Nf Hi (K1 & K2 & K3). repeat split; (eapply kw_incl; [|exact Hi]); (eapply (eff_kw_other Ef); [assumption|]); eapply nowrite; eauto; simpl; auto.
Qed.
Lemma C0_own p : p < length (k_nd (st h)) -> ~ isf (st h) p -> C0 (lg h) (mv_cur v') p -> C0 (lg h') (mv_cur v') p.
Proof. intros. eapply C0_keep; eauto. apply incl_refl. Qed.
Lemma seen_keep u u' p : p < length (k_nd (st h)) -> incl u u' -> seen tr p u -> seen tr' p u'.
Proof.
  intros Hp Hi H w Hw. apply ntr_in in Hw. destruct Hw as [Hw|[Hw ->]]; [eapply incl_tran; eauto|]. destruct (event_cases B Hs _ p Hw) as [_ [(_ & E & _)|[Hq _]]]; [simpl; apply Nat.eqb_refl|lia|].
  exfalso. destruct (nd_len Hs) as [[_ N]|(El & _ & Ee)].
  - destruct l; kinv Hs; cbn [In] in Hw; try tauto; destruct Hw as [Hw|[]]; try discriminate; congruence.
  - rewrite Ee in Hw. destruct Hw as [[= Hw]|[]]. lia.
Qed.
Lemma hook_keep p : isq (st h) p -> kn (lg h) (rl h x_mtx) (l_hook p) -> kn (lg h') (rl h' x_mtx) (l_hook p).
Proof.
  intros Hq K. destruct (cr (st h) l) eqn:Hc.
  - destruct (crit_shape k_acq k_rel d_acq d_rel Hs Hc) as (l1 & l2 & E & _ & _ & N). pose proof He as He'. rewrite E in He'. eapply P_HB.crit; [| |exact He'|exact K]; [|intros b []]. intros b. apply N. now apply lt_isq.
  - eapply kn_incl; [|apply rel_mono]. apply (eff_kn_other Ef _ _ K). intros w Ht. destruct (touch_cases _ _ _ _ B Hs _ w Ht) as [[E _]|[(a & E & _)|[(q & _ & _ & Hc')|(q & Hqs & Hx & P)]]]; [lne|lne|congruence|].
    assert (p = q) as <- by (eapply plocs_inj; [apply plocs_hook|exact Hx]). destruct P as [[P _]|[(n & Hn & Hd)|(_ & P & _)]]; [apply (lt_isq (s := st h)) in Hq; lia| |congruence]. apply (isq_isf B p Hq). exists n. rewrite Hd, orb_true_r. auto.
Qed.
Lemma mech_keep : kn (lg h') (rl h' x_mtx) l_mech.
Proof.
  pose proof (w_mech _ _ W) as K. destruct (cr (st h) l) eqn:Hc.
  - destruct (crit_shape k_acq k_rel d_acq d_rel Hs Hc) as (l1 & l2 & E & _ & N & _). pose proof He as He'. rewrite E in He'. eapply P_HB.crit; [| |exact He'|exact K]; [exact N|intros b []].
  - eapply kn_incl; [|apply rel_mono]. apply (eff_kn_other Ef _ _ K). intros w Ht. destruct (touch_cases _ _ _ _ B Hs _ w Ht) as [[_ Hc']|[(a & E & _)|[(q & _ & E & Hc')|(q & Hqs & Hx & P)]]]; [congruence|lne|lne|]. destruct (plocs_mech _ Hx).
Qed.
Lemma cov_mono p i : (forall o, hold (st h) o p -> ~ In o (so (st h) l)) -> cov h p i -> cov h' p i.
Proof.
  intros Hh [H|[H|(o & Ho & H)]]; [left; now apply rel_mono|right; left; now apply rel_mono|]. right. right. exists o. specialize (Hh _ Ho). rewrite view_o by auto. split; [|auto]. unfold hold, at_of in *. simpl. rewrite (po_keep Hs o Hh). exact Ho.
Qed.

(** ** Whatever the step is not about *)
Lemma NV_keep p n : ~ In p (sp (st h) l) -> nth_error (k_nd (st h)) p = Some n -> NV h' tr' p n.
Proof.
  intros Np Hn. assert (Hp : p < length (k_nd (st h))) by (apply nth_error_Some; congruence). destruct (w_nd _ _ W _ _ Hn) as [V1 V2]. split.
  - intros Eq. destruct (V1 Eq) as (K1 & K2 & K3 & K4). assert (Hq : isq (st h) p) by (exists n; auto). assert (Nf : ~ isf (st h) p) by (intros F; exact (isq_isf B _ Hq F)).
    split; [now apply hook_keep|]. split; [eapply C0_keep; eauto; apply rel_mono|]. split; [eapply seen_keep; eauto; apply rel_mono|]. intros i Hi. apply intr_step in Hi. destruct Hi as [Hi|[Hi T]].
    + apply cov_mono; auto. intros o Ho Hso. apply Np. eapply hold_so; eauto.
    + apply tch_cases in T. destruct T as [[_ Hc]|[T _]]; [|contradiction]. left. now apply crv.
  - intros Eq i Hi. rewrite view_p by auto. apply intr_step in Hi. destruct Hi as [Hi|[_ T]]; [auto|]. apply tch_cases in T. destruct T as [[Hq _]|[T _]]; [|contradiction]. exfalso. apply (isq_isf B p Hq). exists n. auto.
Qed.
Lemma OV_keep o r : ~ In o (so (st h) l) -> nth_error (k_po (st h)) o = Some r -> OV h' tr' o r.
Proof.
  intros No Ho. pose proof (w_po _ _ W _ _ Ho) as V. unfold OV in *. cbv zeta in *. rewrite view_l, view_o, view_c by auto.
  assert (KA : busy r = true -> forall u u', incl u u' -> kn (lg h) u (l_ag (o_ag r)) -> kn (lg h') u' (l_ag (o_ag r))).
  { intros Hb u u' Hi K. eapply kn_incl; [|exact Hi]. apply (eff_kn_other Ef _ _ K). intros w Ht. destruct (touch_cases _ _ _ _ B Hs _ w Ht) as [[E _]|[(a & E & Ha)|[(q & _ & E & _)|(q & _ & Hx & _)]]]; [lne| |lne|destruct (plocs_ag _ _ Hx)].
    assert (o_ag r = a) as <- by lne. exact (busy_sa B Hs _ _ Ho Hb No Ha). }
  destruct (o_at r) as [|p| | |p|p|p|p] eqn:Er; auto.
  - assert (Hb : busy r = true) by (unfold busy; now rewrite Er). destruct V as [V1 V2]. split; eapply KA; eauto using incl_refl, rel_mono.
  - assert (Hb : busy r = true) by (unfold busy; now rewrite Er). pose proof (taken_isq B _ _ _ Ho Er) as Hq. assert (Nf : ~ isf (st h) p) by (intros F; exact (isq_isf B _ Hq F)). destruct V as (V1 & V2 & V3).
    split; [eapply C0_keep; eauto using incl_refl, lt_isq|]. split; [eapply seen_keep; eauto using incl_refl, lt_isq|]. destruct (o_try r); [eapply KA; eauto using incl_refl|]. destruct V3. split; eapply KA; eauto using incl_refl.
  - assert (Hb : busy r = true) by (unfold busy; now rewrite Er). eapply KA; eauto using incl_refl.
  - pose proof (has_isq B _ _ _ Ho Er) as Hq. assert (Nf : ~ isf (st h) p) by (intros F; exact (isq_isf B _ Hq F)). destruct V as (V1 & V2). split; [eapply C0_keep; eauto using incl_refl, lt_isq|eapply seen_keep; eauto using incl_refl, lt_isq].
  - destruct (erase_isq B _ _ _ Ho Er) as [Hq H0]. rewrite rel_acks by auto. exact V.
  - intros i Hi. apply intr_step in Hi. destruct Hi as [Hi|[_ T]]; [auto|]. assert (Hc : isc (st h) o p) by (unfold isc; now rewrite (at_po _ _ _ Ho)). exfalso. apply tch_cases in T. destruct T as [[Hq _]|[_ [[E _]|[Hq|[Hf|[(o' & Ho' & Hc')|(a & _ & Hd)]]]]]].
    + exact (isq_isc B _ _ Hq Hc).
    + pose proof (lt_isc B _ _ Hc). lia.
    + exact (isq_isc B _ _ Hq Hc).
    + exact (isf_isc B _ _ Hf Hc).
    + rewrite (isc_uniq B _ _ _ Hc Hc') in No. contradiction.
    + exact (isc_isd B _ _ _ Hc Hd).
Qed.
Lemma AV_keep a g : ~ In a (sa (st h) l) -> nth_error (k_ag (st h)) a = Some g -> AV h' tr' a g.
Proof.
  intros Na Ha. destruct (w_ag _ _ W _ _ Ha) as [V1 V2]. unfold AV. rewrite view_a by auto. split.
  - intros Hp. apply (eff_kn_other Ef _ _ (V1 Hp)). intros w Ht. destruct (touch_cases _ _ _ _ B Hs _ w Ht) as [[E _]|[(a' & E & Ha')|[(q & _ & E & _)|(q & _ & Hx & _)]]]; [lne| |lne|destruct (plocs_ag _ _ Hx)]. assert (a = a') as <- by lne. contradiction.
  - destruct (g_det g) as [[r [p|]]|] eqn:Ed; auto. intros i Hi. apply intr_step in Hi. destruct Hi as [Hi|[_ T]]; [auto|]. assert (Hc : isd (st h) a p) by (exists r; unfold det_of; now rewrite Ha). exfalso.
    apply tch_cases in T. destruct T as [[Hq _]|[_ [[E _]|[Hq|[Hf|[(o' & _ & Hc')|(a' & Ha' & Hd)]]]]]].
    + exact (isq_isd B _ _ Hq Hc).
    + pose proof (lt_isd B _ _ Hc). lia.
    + exact (isq_isd B _ _ Hq Hc).
    + exact (isf_isd B _ _ Hf Hc).
    + exact (isc_isd B _ _ _ Hc' Hc).
    + rewrite (isd_uniq B _ _ _ Hc Hd) in Na. contradiction.
Qed.

Lemma Inv_step :
  (forall p n, In p (sp (st h) l) -> nth_error (k_nd s') p = Some n -> NV h' tr' p n) ->
  (forall o r, In o (so (st h) l) -> nth_error (k_po s') o = Some r -> OV h' tr' o r) ->
  (forall a g, In a (sa (st h) l) -> nth_error (k_ag s') a = Some g -> AV h' tr' a g) ->
  (forall e, In e es -> ev_ok tr e (mv_cur v')) -> Inv h' tr'.
Proof.
  intros HN HO HA HV. assert (B' : BI s') by (pose proof (BI_good _ l B) as G; unfold good in G; rewrite Hs in G; exact G). constructor; simpl; auto.
  - exact mech_keep.
  - intros p n Hn. destruct (in_dec Nat.eq_dec p (sp (st h) l)) as [Hi|Hi]; [auto|]. rewrite (nd_keep Hs p Hi) in Hn. now apply NV_keep.
  - intros o r Ho. destruct (in_dec Nat.eq_dec o (so (st h) l)) as [Hi|Hi]; [auto|]. rewrite (po_keep Hs o Hi) in Ho. now apply OV_keep.
  - intros a g Ha. destruct (in_dec Nat.eq_dec a (sa (st h) l)) as [Hi|Hi]; [auto|]. rewrite (ag_keep Hs a Hi) in Ha. now apply AV_keep.
  - intros p i Hp Hi. assert (Hl : length (k_nd (st h)) <= p) by (destruct (nd_len Hs) as [[E _]|(_ & E & _)]; lia). apply intr_step in Hi. destruct Hi as [Hi|[_ T]]; [exact (w_new _ _ W _ _ Hl Hi)|].
    apply tch_cases in T. destruct T as [[Hq _]|[_ [[E El]|[Hq|[Hf|[(o' & _ & Hc')|(a' & Ha' & Hd)]]]]]].
    + apply (lt_isq (s := st h)) in Hq. lia.
    + destruct (nd_len Hs) as [[_ N]|(_ & E' & _)]; [auto|lia].
    + apply (lt_isq (s := st h)) in Hq. lia.
    + apply (lt_isf (s := st h)) in Hf. lia.
    + apply (lt_isc B) in Hc'. lia.
    + apply (lt_isd B) in Hd. lia.
  - intros a Ha. pose proof (ag_len Hs) as La. apply (eff_kn_other Ef); [apply (w_newa _ _ W); lia|]. intros w Ht. destruct (touch_cases _ _ _ _ B Hs _ w Ht) as [[E _]|[(a' & E & Ha')|[(q & _ & E & _)|(q & _ & Hx & _)]]]; [lne| |lne|destruct (plocs_ag _ _ Hx)].
    assert (a = a') as <- by lne. pose proof (sa_lt B Hs _ Ha'). lia.
  - intros p Hp. unfold ntr. destruct (nd_len Hs) as [[E _]|(_ & E & ->)].
    + destruct (w_ex _ _ W p) as [u Hu]; [lia|]. exists u. apply in_or_app. auto.
    + destruct (Nat.eq_dec p (length (k_nd (st h)))) as [->|Hne].
      * exists (mv_cur v'). apply in_or_app. right. left. reflexivity.
      * destruct (w_ex _ _ W p) as [u Hu]; [lia|]. exists u. apply in_or_app. auto.
  - unfold ntr. intros t1 p w t2 E. apply split_app in E. destruct E as [(t & E & ->)|(e1 & e2 & E & -> & ->)].
    + destruct (w_fin _ _ W _ _ _ _ E) as [(n & Hn & Hd) K]. split; [eapply done_keep; eauto|]. intros e u Hu. apply in_app_or in Hu. destruct Hu as [Hu|Hu]; [eauto|]. apply in_map_iff in Hu. destruct Hu as (e' & [= <- <-] & Hu).
      destruct (about p e') eqn:Ea; [|reflexivity]. exfalso. destruct (event_cases B Hs e' p Hu Ea) as [_ [(_ & Q & _)|[Q _]]]; [assert (p < length (k_nd (st h))) by (apply nth_error_Some; congruence); lia|].
      apply (isq_isf B p Q). exists n. rewrite Hd, orb_true_r. auto.
    + destruct (es_one Hs) as [E1|[e E1]]; rewrite E1 in E; [destruct e1; discriminate|]. destruct e1 as [|x [|y e1]]; try discriminate. injection E as -> <- <-. split; [|intros ? ? []]. apply (done_ev Hs). rewrite E1. left. reflexivity.
  - unfold ntr. intros t1 e w t2 E. apply split_app in E. destruct E as [(t & E & ->)|(e1 & e2 & E & -> & ->)]; [exact (w_vis _ _ W _ _ _ _ E)|].
    destruct (es_one Hs) as [E1|[e' E1]]; rewrite E1 in E; [destruct e1; discriminate|]. destruct e1 as [|x [|y e1]]; try discriminate. injection E as -> <- <-. rewrite app_nil_r. apply HV. rewrite E1. left. reflexivity.
Qed.
End Step.
End Orders.
