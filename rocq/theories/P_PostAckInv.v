(** The invariant of post_ack_mechanism for well-behaved clients. *)
From Coq Require Import List Arith Bool Lia.
From Verif Require Import Lts ListFacts M_Wait S_Wait P_Wait M_PostAck S_PostAck P_PostAck.
Import ListNotations.

(** what the wait machine knows about an operation *)
Record os := OS { fa : option (option nat); nd_ : nst; dn : bool }.
Definition ag_of (ops : list (nat * nat)) (o : nat) : option nat := option_map snd (find (fun x => Nat.eqb (fst x) o) ops).
(** who is about to unlink or complete a post *)
Inductive worker := WH (o : nat) | WA (a : nat).

Section Inv.
Variable T : Type.
Notation node := (node T).

Definition act (st : nat -> os) (ops : list (nat * nat)) (o a : nat) : Prop := ag_of ops o = Some a /\ dn (st o) = false.

Definition G1 (ag : nat -> agent) (active : nat) (att det : list nat) : Prop :=
  NoDup att /\ NoDup det /\ (forall a, In a att <-> g_mech (ag a) = true /\ g_det (ag a) = None) /\
  (forall a, In a det <-> g_det (ag a) <> None) /\ (forall a, g_det (ag a) <> None -> g_mech (ag a) = true) /\ active = length att.

Definition G2 (nds : nat -> option node) (kseq : nat) (posts : list (nat * T)) : Prop :=
  length posts = kseq /\
  forall i p x, nth_error posts i = Some (p, x) <-> exists nd, nds p = Some nd /\ n_seq nd = i /\ n_obj nd = x.

Definition G3 (st : nat -> os) (ops : list (nat * nat)) (busy : list nat) (agt : nat -> nat) (att : list nat) : Prop :=
  (forall o a, ag_of ops o = Some a -> agt o = a) /\
  (forall o, ag_of ops o = None -> st o = OS None NFresh false) /\
  NoDup busy /\ (forall a, In a busy <-> exists o, act st ops o a) /\
  (forall o1 o2 a, act st ops o1 a -> act st ops o2 a -> o1 = o2) /\
  (forall o a, act st ops o a -> In a att).

Definition G4 (st : nat -> os) (agt : nat -> nat) (pnd : nat -> option nat) (hd : nat -> hpc) (ag : nat -> agent)
    (kseq : nat) (posts : list (nat * T)) : Prop :=
  forall o,
    (nd_ (st o) = NQueued -> dn (st o) = false /\ g_seq (ag (agt o)) = kseq /\ pnd o = None /\ hd o = HNone) /\
    (nd_ (st o) = NTaken -> dn (st o) = false ->
       exists p x, pnd o = Some p /\ nth_error posts (g_seq (ag (agt o))) = Some (p, x) /\ hd o = HNone) /\
    (nd_ (st o) = NCancelled -> pnd o = None /\ hd o = HNone) /\
    (hd o <> HNone -> dn (st o) = true \/ fa (st o) <> None) /\
    (forall v, fa (st o) = Some v -> dn (st o) = false -> exists p, v = Some p /\ hd o = HHas p) /\
    (fa (st o) <> None -> nd_ (st o) = NFresh).

Definition due_ok (st : nat -> os) (ops : list (nat * nat)) (a : nat) (later due : list nat) : Prop :=
  (due = later /\ forall o, act st ops o a -> fa (st o) = None) \/
  (exists o p, due = p :: later /\ act st ops o a /\ fa (st o) = Some (Some p)).

Definition G5 (st : nat -> os) (ops : list (nat * nat)) (ag : nat -> agent) (kseq : nat) (posts : list (nat * T))
    (att : list nat) (due : list (nat * nat)) : Prop :=
  forall a, (g_mech (ag a) = true -> g_seq (ag a) <= kseq) /\
    (In a att -> due_ok st ops a (skipn (g_seq (ag a)) (map fst posts)) (dl a due)) /\
    (~ In a att -> dl a due = []).

Definition G6 (st : nat -> os) (hd : nat -> hpc) (held : list (nat * nat)) : Prop :=
  NoDup (map fst held) /\ forall o p, In (o, p) held <-> hd o = HHas p /\ dn (st o) = true.

(** agent [a] still has to retire the post with number [i] *)
Definition ret (ag : nat -> agent) (i a : nat) : bool :=
  match g_det (ag a) with Some (r, _) => Nat.leb (g_seq (ag a)) i && Nat.ltb i r | None => false end.

Definition G7 (nds : nat -> option node) (ag : nat -> agent) (kseq : nat) (due held : list (nat * nat)) (det : list nat) : Prop :=
  (forall p nd, nds p = Some nd -> n_acks nd = cp p due + cp p held + length (filter (ret ag (n_seq nd)) det)) /\
  (forall a p, In (a, p) due -> nds p <> None) /\ (forall o p, In (o, p) held -> nds p <> None) /\
  (forall a r w, g_det (ag a) = Some (r, w) -> r <= kseq /\ g_seq (ag a) <= r).

Definition works (hd : nat -> hpc) (ag : nat -> agent) (w : worker) (p : nat) : Prop :=
  match w with
  | WH o => hd o = HErase p \/ hd o = HComp p
  | WA a => exists r, g_det (ag a) = Some (r, Some p)
  end.
Definition erases (hd : nat -> hpc) (w : worker) (p : nat) : Prop := exists o, w = WH o /\ hd o = HErase p.

Definition phase (nds : nat -> option node) (q : list nat) (hd : nat -> hpc) (ag : nat -> agent) (p : nat) (nd : node) : Prop :=
  (n_acks nd > 0 /\ In p q /\ n_done nd = false /\ forall w, ~ works hd ag w p) \/
  (n_acks nd = 0 /\ n_done nd = false /\
     exists w, works hd ag w p /\ (forall w', works hd ag w' p -> w' = w) /\ (In p q <-> erases hd w p)) \/
  (n_acks nd = 0 /\ n_done nd = true /\ ~ In p q /\ forall w, ~ works hd ag w p).

Definition G8 (nds : nat -> option node) (q : list nat) (hd : nat -> hpc) (ag : nat -> agent) : Prop :=
  NoDup q /\ (forall p, In p q -> nds p <> None) /\ (forall w p, works hd ag w p -> nds p <> None) /\
  (forall p nd, nds p = Some nd -> phase nds q hd ag p nd).

Definition KI (k : kst T) (st : nat -> os) (s : @sp T) : Prop :=
  G1 (k_ag k) (k_active k) (sp_att s) (sp_det s) /\
  G2 (k_nd k) (k_seq k) (sp_posts s) /\
  G3 st (sp_ops s) (sp_busy s) (k_agt k) (sp_att s) /\
  G4 st (k_agt k) (k_pnd k) (k_hd k) (k_ag k) (k_seq k) (sp_posts s) /\
  G5 st (sp_ops s) (k_ag k) (k_seq k) (sp_posts s) (sp_att s) (sp_due s) /\
  G6 st (k_hd k) (sp_held s) /\
  G7 (k_nd k) (k_ag k) (k_seq k) (sp_due s) (sp_held s) (sp_det s) /\
  G8 (k_nd k) (k_q k) (k_hd k) (k_ag k).

(** ** Facts *)
Lemma g2_nth nds kseq posts i p nd : G2 nds kseq posts -> nth_error (map fst posts) i = Some p -> nds p = Some nd -> n_seq nd = i.
Proof.
  intros (_ & H) Hn Hp. rewrite nth_error_map in Hn. destruct (nth_error posts i) as [[p' x]|] eqn:E; [|discriminate]. simpl in Hn. injection Hn as ->.
  apply H in E. destruct E as (nd' & E1 & E2 & _). congruence.
Qed.
Lemma g2_ex nds kseq posts i : G2 nds kseq posts -> i < kseq -> exists p x, nth_error posts i = Some (p, x).
Proof. intros (H & _) Hi. destruct (nth_error posts i) as [[p x]|] eqn:E; eauto. apply nth_error_None in E. lia. Qed.
Lemma g2_lt nds kseq posts p nd : G2 nds kseq posts -> nds p = Some nd -> n_seq nd < kseq.
Proof.
  intros (H & H') Hp. assert (E : nth_error posts (n_seq nd) = Some (p, n_obj nd)) by (apply H'; eauto).
  rewrite <- H. apply nth_error_Some. congruence.
Qed.
Lemma g2_inj nds kseq posts p p' nd nd' : G2 nds kseq posts -> nds p = Some nd -> nds p' = Some nd' -> n_seq nd = n_seq nd' -> p = p'.
Proof.
  intros (_ & H) Hp Hp' He. assert (E : nth_error posts (n_seq nd) = Some (p, n_obj nd)) by (apply H; eauto).
  assert (E' : nth_error posts (n_seq nd) = Some (p', n_obj nd')) by (apply H; eauto). congruence.
Qed.
Lemma g2_cnt nds kseq posts p nd n : G2 nds kseq posts -> nds p = Some nd ->
  cnt p (skipn n (map fst posts)) = if Nat.leb n (n_seq nd) then 1 else 0.
Proof.
  intros HG Hp. assert (Hn : nth_error (map fst posts) (n_seq nd) = Some p).
  { destruct HG as [_ H]. rewrite nth_error_map. rewrite (proj2 (H (n_seq nd) p (n_obj nd))); eauto. }
  assert (HND : NoDup (map fst posts)).
  { apply NoDup_nth_error. intros i j Hi Hij. destruct (nth_error (map fst posts) i) as [p'|] eqn:E; [|apply nth_error_None in E; lia].
    assert (E' : exists nd', nds p' = Some nd'). { rewrite nth_error_map in E. destruct (nth_error posts i) as [[q x]|] eqn:E2; [|discriminate].
      simpl in E. injection E as ->. apply HG in E2. destruct E2 as (nd' & E2 & _). eauto. }
    destruct E' as [nd' E']. rewrite <- (g2_nth _ _ _ _ _ _ HG E E'). symmetry in Hij. apply (g2_nth _ _ _ _ _ _ HG Hij E'). }
  destruct (Nat.leb_spec n (n_seq nd)) as [Hle|Hlt].
  - assert (Hle1 : cnt p (skipn n (map fst posts)) <= 1).
    { apply NoDup_cnt. rewrite <- (firstn_skipn n (map fst posts)) in HND. clear - HND. induction (firstn n (map fst posts)); simpl in *; auto. inversion HND; auto. }
    assert (Hin : In p (skipn n (map fst posts))).
    { apply (nth_error_In _ (n_seq nd - n)). rewrite nth_error_skipn. now replace (n + (n_seq nd - n)) with (n_seq nd) by lia. }
    apply cnt_pos in Hin. lia.
  - apply cnt_zero. intros Hin. apply In_nth_error in Hin. destruct Hin as [j Hj]. rewrite nth_error_skipn in Hj.
    pose proof (g2_nth _ _ _ _ _ _ HG Hj Hp). lia.
Qed.
Lemma g2_upd nds kseq posts p nd nd' : G2 nds kseq posts -> nds p = Some nd -> n_seq nd' = n_seq nd -> n_obj nd' = n_obj nd ->
  G2 (upd nds p (Some nd')) kseq posts.
Proof.
  intros (H & H') Hp H1 H2. split; auto. intros i q x. rewrite H'. unfold upd. destruct (Nat.eqb_spec q p) as [->|Hne]; [|tauto].
  split; [intros (n & Hn & E1 & E2); exists nd'; rewrite Hp in Hn; injection Hn as <-; split; [auto|split; congruence]|].
  intros (n & [= <-] & E1 & E2). exists nd. split; [auto|split; congruence].
Qed.


(** ** Operations *)
Lemma ag_of_snoc ops o a o' : ag_of ops o = None -> ag_of (ops ++ [(o, a)]) o' = if Nat.eqb o' o then Some a else ag_of ops o'.
Proof.
  unfold ag_of. induction ops as [|[b c] ops IH]; simpl.
  - intros _. destruct (Nat.eqb_spec o o') as [->|Hne]; [now rewrite Nat.eqb_refl|]. destruct (Nat.eqb_spec o' o); [congruence|auto].
  - destruct (Nat.eqb_spec b o) as [->|Hb]; [discriminate|]. intros H. destruct (Nat.eqb_spec b o') as [->|Hb'].
    + destruct (Nat.eqb_spec o' o); [congruence|auto].
    + auto.
Qed.

Section Start.
Variables (st st' : nat -> os) (ops : list (nat * nat)) (o a : nat) (fv : option (option nat)) (n : nst).
Hypothesis Hno : ag_of ops o = None.
Hypothesis Hst : forall o', st' o' = if Nat.eqb o' o then OS fv n false else st o'.

Lemma start_act o' a' : act st' (ops ++ [(o, a)]) o' a' <-> (o' = o /\ a' = a) \/ (o' <> o /\ act st ops o' a').
Proof.
  unfold act. rewrite ag_of_snoc by auto. rewrite Hst. destruct (Nat.eqb_spec o' o) as [->|Hne]; simpl.
  - split; [intros [[= ->] _]; auto|]. intros [[_ ->]|[H _]]; [auto|congruence].
  - tauto.
Qed.
Lemma start_g3 busy agt att : G3 st ops busy agt att -> In a att -> ~ In a busy ->
  G3 st' (ops ++ [(o, a)]) (a :: busy) (upd agt o a) att.
Proof.
  intros (H1 & H2 & H3 & H4 & H5 & H6) Ha Hb. split; [|split; [|split; [|split; [|split]]]].
  - intros o' a'. rewrite ag_of_snoc by auto. unfold upd. destruct (Nat.eqb o' o); [congruence|apply H1].
  - intros o'. rewrite ag_of_snoc by auto. rewrite Hst. destruct (Nat.eqb o' o); [discriminate|apply H2].
  - now constructor.
  - intros a'. simpl. rewrite H4. split.
    + intros [<-|[o' Ho']]; [exists o; apply start_act; auto|]. exists o'. apply start_act. right. split; auto. intros ->. destruct Ho' as [Ho' _]. congruence.
    + intros [o' Ho']. apply start_act in Ho'. destruct Ho' as [[-> ->]|[_ Ho']]; eauto.
  - intros o1 o2 a'. rewrite !start_act. intros [[-> ->]|[Hn1 Ha1]] [[-> E]|[Hn2 Ha2]]; auto.
    + exfalso. apply Hb, H4. eauto.
    + exfalso. subst a'. apply Hb, H4. eauto.
    + eauto.
  - intros o' a'. rewrite start_act. intros [[-> ->]|[_ H]]; eauto.
Qed.
End Start.

Lemma not_busy st ops busy agt att a : G3 st ops busy agt att -> ~ In a busy -> forall o, ~ act st ops o a.
Proof. intros (_ & _ & _ & H4 & _) Hb o Ho. apply Hb, H4. eauto. Qed.

(** the operation is known if its node is in use *)
Lemma node_known st ops busy agt att o : G3 st ops busy agt att -> nd_ (st o) <> NFresh \/ fa (st o) <> None \/ dn (st o) = true ->
  ag_of ops o = Some (agt o).
Proof.
  intros (H1 & H2 & _) H. destruct (ag_of ops o) as [a|] eqn:E; [now rewrite (H1 _ _ E)|]. rewrite (H2 _ E) in H. simpl in H. intuition congruence.
Qed.

Lemma works_ext hd hd' ag ag' w p : (forall o, hd' o = hd o \/ (forall q, hd o <> HErase q /\ hd o <> HComp q) /\ (forall q, hd' o <> HErase q /\ hd' o <> HComp q)) ->
  (forall a, g_det (ag' a) = g_det (ag a) \/ (forall r q, g_det (ag a) <> Some (r, Some q)) /\ (forall r q, g_det (ag' a) <> Some (r, Some q))) ->
  (works hd' ag' w p <-> works hd ag w p).
Proof.
  intros Hh Ha. destruct w as [o|a]; simpl.
  - destruct (Hh o) as [->|[H1 H2]]; [tauto|]. specialize (H1 p). specialize (H2 p). tauto.
  - destruct (Ha a) as [->|[H1 H2]]; [tauto|]. split; intros [r Hr]; exfalso; [apply (H2 r p Hr)|apply (H1 r p Hr)].
Qed.
Lemma erases_ext hd hd' w p : (forall o, hd' o = HErase p <-> hd o = HErase p) -> (erases hd' w p <-> erases hd w p).
Proof. intros H. split; intros (o & -> & Ho); exists o; split; auto; now apply H. Qed.

(** nothing changes for the nodes *)
Lemma g8_ext nds q hd hd' ag ag' : G8 nds q hd ag ->
  (forall o, hd' o = hd o \/ (forall p, hd o <> HErase p /\ hd o <> HComp p) /\ (forall p, hd' o <> HErase p /\ hd' o <> HComp p)) ->
  (forall a, g_det (ag' a) = g_det (ag a) \/ (forall r q, g_det (ag a) <> Some (r, Some q)) /\ (forall r q, g_det (ag' a) <> Some (r, Some q))) ->
  G8 nds q hd' ag'.
Proof.
  intros (H1 & H2 & H3 & H4) Hh Ha. assert (HW : forall w p, works hd' ag' w p <-> works hd ag w p) by (intros; now apply works_ext).
  assert (HE : forall w p, erases hd' w p <-> erases hd w p).
  { intros w p. apply erases_ext. intros o. destruct (Hh o) as [->|[E1 E2]]; [tauto|]. specialize (E1 p). specialize (E2 p). tauto. }
  split; [auto|]. split; [auto|]. split; [intros w p Hw; apply (H3 w p); now apply HW|].
  intros p nd Hp. destruct (H4 p nd Hp) as [(A & B & C & D)|[(A & B & w & C & D & E)|(A & B & C & D)]].
  - left. repeat split; auto. intros w Hw. apply (D w). now apply HW.
  - right; left. repeat split; auto. exists w. split; [now apply HW|]. split; [intros w' Hw'; apply D; now apply HW|]. rewrite E. symmetry. apply HE.
  - right; right. repeat split; auto. intros w Hw. apply (D w). now apply HW.
Qed.

Lemma g7_ext nds ag ag' kseq due held det : G7 nds ag kseq due held det ->
  (forall a, g_det (ag' a) = g_det (ag a) /\ (g_det (ag a) <> None -> g_seq (ag' a) = g_seq (ag a))) -> G7 nds ag' kseq due held det.
Proof.
  intros (H1 & H2 & H3 & H4) Ha. assert (Hr : forall i a, ret ag' i a = ret ag i a).
  { intros i a. unfold ret. destruct (Ha a) as [-> E]. destruct (g_det (ag a)) as [[r w]|]; auto. now rewrite E by discriminate. }
  split; [|split; [auto|split; [auto|]]].
  - intros p nd Hp. rewrite (filter_ext _ _ (Hr (n_seq nd))). auto.
  - intros a r w Hd. destruct (Ha a) as [E1 E2]. rewrite E1 in Hd. rewrite E2 by congruence. eauto.
Qed.
Lemma g1_ext ag ag' active att det : G1 ag active att det -> (forall a, g_mech (ag' a) = g_mech (ag a) /\ g_det (ag' a) = g_det (ag a)) -> G1 ag' active att det.
Proof.
  intros (H1 & H2 & H3 & H4 & H5 & H6) Ha. split; [auto|]. split; [auto|]. split; [|split; [|split; [|auto]]]; intros a; destruct (Ha a) as [E1 E2]; rewrite ?E1, ?E2; auto.
Qed.

(** ** The slow path of poll() *)
Lemma ki_start_q (k : kst T) st st' s o a tok : KI k st s -> ag_of (sp_ops s) o = None -> In a (sp_att s) -> ~ In a (sp_busy s) ->
  (forall o', st' o' = if Nat.eqb o' o then OS None NQueued false else st o') -> k_seq k <= g_seq (k_ag k a) ->
  KI (KS (k_seq k) (k_active k) (k_q k) (k_nd k) (k_pq k ++ [o]) (upd (k_pend k) o false) (upd (k_pnd k) o None) (upd (k_agt k) o a) (k_hd k) (k_ag k))
     st' (sp_step s (EStart (P := post_ack T) o tok a)).
Proof.
  intros (K1 & K2 & K3 & K4 & K5 & K6 & K7 & K8) Hno Ha Hb Hst Hle.
  assert (Hmech : g_mech (k_ag k a) = true) by (destruct K1 as (_ & _ & H & _); apply H in Ha; tauto).
  assert (Hseq : g_seq (k_ag k a) = k_seq k) by (destruct (K5 a) as (H & _); specialize (H Hmech); lia).
  assert (Hold : st o = OS None NFresh false) by (destruct K3 as (_ & H & _); auto).
  assert (Hhd : k_hd k o = HNone).
  { destruct (K4 o) as (_ & _ & _ & H & _). rewrite Hold in H. simpl in H. destruct (k_hd k o); auto; destruct H; congruence. }
  unfold KI. cbn [sp_step sp_att sp_det sp_ops sp_busy sp_posts sp_due sp_held k_seq k_active k_q k_nd k_pq k_pend k_pnd k_agt k_hd k_ag].
  split; [exact K1|]. split; [exact K2|]. split; [eapply start_g3; eauto|]. split; [|split; [|split; [|split; [exact K7|exact K8]]]].
  - intros o'. rewrite Hst. unfold upd. destruct (Nat.eqb_spec o' o) as [->|Hne]; [|apply K4]. simpl. repeat split; auto; try discriminate; try congruence.
  - intros a'. destruct (K5 a') as (H1 & H2 & H3). split; [auto|]. split; [|auto]. intros Ha'. destruct (H2 Ha') as [(E1 & E2)|(o1 & p & E1 & E2 & E3)].
    + left. split; [auto|]. intros o' Ho'. apply (start_act _ _ _ _ _ _ _ Hno Hst) in Ho'. rewrite Hst. destruct (Nat.eqb_spec o' o) as [->|Hne]; [auto|].
      destruct Ho' as [[E _]|[_ Ho']]; [congruence|]. auto.
    + right. exists o1, p. split; [auto|]. assert (Hne : o1 <> o) by (intros ->; destruct E2; congruence). split.
      * apply (start_act _ _ _ _ _ _ _ Hno Hst). auto.
      * rewrite Hst. destruct (Nat.eqb_spec o1 o); [congruence|auto].
  - destruct K6 as [H1 H2]. split; auto. intros o' p. rewrite H2, Hst. destruct (Nat.eqb_spec o' o) as [->|Hne]; [|tauto]. rewrite Hold, Hhd. simpl. intuition congruence.
Qed.

(** ** The fast path of poll() *)
Lemma ki_start_f (k : kst T) st st' s o a tok p x : KI k st s -> ag_of (sp_ops s) o = None -> In a (sp_att s) -> ~ In a (sp_busy s) ->
  (forall o', st' o' = if Nat.eqb o' o then OS (Some (Some p)) NFresh false else st o') -> nth_error (sp_posts s) (g_seq (k_ag k a)) = Some (p, x) ->
  KI (KS (k_seq k) (k_active k) (k_q k) (k_nd k) (k_pq k) (upd (k_pend k) o true) (upd (k_pnd k) o (Some p)) (upd (k_agt k) o a) (upd (k_hd k) o (HHas p))
         (upd (k_ag k) a (Ag (g_mech (k_ag k a)) (g_seq (k_ag k a) + 1) (g_det (k_ag k a)))))
     st' (sp_step s (EStart (P := post_ack T) o tok a)).
Proof.
  intros (K1 & K2 & K3 & K4 & K5 & K6 & K7 & K8) Hno Ha Hb Hst Hp.
  assert (Hmd : g_mech (k_ag k a) = true /\ g_det (k_ag k a) = None) by (destruct K1 as (_ & _ & H & _); apply H in Ha; tauto).
  destruct Hmd as [Hmech Hdet].
  assert (Hold : st o = OS None NFresh false) by (destruct K3 as (_ & H & _); auto).
  assert (Hhd : k_hd k o = HNone).
  { destruct (K4 o) as (_ & _ & _ & H & _). rewrite Hold in H. simpl in H. destruct (k_hd k o); auto; destruct H; congruence. }
  pose proof (not_busy _ _ _ _ _ _ K3 Hb) as Hnb.
  assert (Hlt : g_seq (k_ag k a) < k_seq k).
  { destruct K2 as [<- _]. apply nth_error_Some. congruence. }
  unfold KI. cbn [sp_step sp_att sp_det sp_ops sp_busy sp_posts sp_due sp_held k_seq k_active k_q k_nd k_pq k_pend k_pnd k_agt k_hd k_ag].
  split; [|split; [exact K2|split; [eapply start_g3; eauto|split; [|split; [|split; [|split]]]]]].
  - apply (g1_ext _ _ _ _ _ K1). intros a'. unfold upd. destruct (Nat.eqb_spec a' a) as [->|]; auto.
  - intros o'. rewrite Hst. destruct (Nat.eqb_spec o' o) as [->|Hne].
    + rewrite !upd_same. simpl. split; [discriminate|]. split; [discriminate|]. split; [discriminate|]. split; [right; discriminate|]. split; [|auto].
      intros v [= <-] _. exists p. auto.
    + rewrite !(upd_other _ o _ o' Hne). destruct (K4 o') as (A & B & C & D & E & F). split; [|split; [|split; [exact C|split; [|split; [|exact F]]]]].
      * intros HQ. destruct (A HQ) as (A1 & A2 & A3 & A4). split; auto. unfold upd. destruct (Nat.eqb_spec (k_agt k o') a) as [Hag|]; auto.
        exfalso. apply (Hnb o'). split; [|auto]. rewrite <- Hag. apply (node_known _ _ _ _ _ _ K3). left. congruence.
      * intros HQ Hd. destruct (B HQ Hd) as (q & y & B1 & B2 & B3). exists q, y. split; auto. split; auto. unfold upd. destruct (Nat.eqb_spec (k_agt k o') a) as [Hag|]; auto.
        exfalso. apply (Hnb o'). split; [|auto]. rewrite <- Hag. apply (node_known _ _ _ _ _ _ K3). left. congruence.
      * exact D.
      * exact E.
  - intros a'. destruct (K5 a') as (H1 & H2 & H3). destruct (Nat.eq_dec a' a) as [->|Hne].
    + rewrite !upd_same. simpl. split; [lia|]. split; [|auto]. intros _. right. exists o, p. split; [|split].
      * destruct (H2 Ha) as [(E1 & E2)|(o1 & q & _ & E2 & _)]; [|exfalso; exact (Hnb _ E2)]. rewrite E1, Nat.add_1_r. apply skipn_nth. rewrite nth_error_map, Hp. reflexivity.
      * apply (start_act _ _ _ _ _ _ _ Hno Hst). auto.
      * rewrite Hst, Nat.eqb_refl. reflexivity.
    + rewrite !(upd_other _ a _ a' Hne). split; [auto|]. split; [|auto]. intros Ha'. destruct (H2 Ha') as [(E1 & E2)|(o1 & q & E1 & E2 & E3)].
      * left. split; [auto|]. intros o' Ho'. apply (start_act _ _ _ _ _ _ _ Hno Hst) in Ho'. rewrite Hst.
        destruct Ho' as [[-> E]|[Hn Ho']]; [congruence|]. destruct (Nat.eqb_spec o' o); [congruence|auto].
      * right. exists o1, q. split; [auto|]. assert (Hn : o1 <> o) by (intros ->; destruct E2; congruence). split.
        -- apply (start_act _ _ _ _ _ _ _ Hno Hst). auto.
        -- rewrite Hst. destruct (Nat.eqb_spec o1 o); [congruence|auto].
  - destruct K6 as [H1 H2]. split; auto. intros o' q. rewrite H2, Hst. unfold upd. destruct (Nat.eqb_spec o' o) as [->|Hne]; [|tauto].
    rewrite Hold, Hhd. simpl. intuition congruence.
  - apply (g7_ext _ _ _ _ _ _ _ K7). intros a'. unfold upd. destruct (Nat.eqb_spec a' a) as [->|]; simpl; auto. split; auto. congruence.
  - apply (g8_ext _ _ _ _ _ _ K8).
    + intros o'. unfold upd. destruct (Nat.eqb_spec o' o) as [->|]; auto. right. rewrite Hhd. split; intros; split; discriminate.
    + intros a'. unfold upd. destruct (Nat.eqb_spec a' a) as [->|]; auto.
Qed.

(** ** Cancelling a poll *)
Lemma ki_try (k : kst T) st st' s o : KI k st s -> nd_ (st o) = NQueued ->
  (forall o', st' o' = if Nat.eqb o' o then OS (fa (st o)) NCancelled (dn (st o)) else st o') ->
  KI (KS (k_seq k) (k_active k) (k_q k) (k_nd k) (remove1 o (k_pq k)) (upd (k_pend k) o true) (k_pnd k) (k_agt k) (k_hd k) (k_ag k)) st' s.
Proof.
  intros (K1 & K2 & K3 & K4 & K5 & K6 & K7 & K8) Hq Hst.
  assert (Hdn : forall o', dn (st' o') = dn (st o')) by (intros o'; rewrite Hst; destruct (Nat.eqb_spec o' o) as [->|]; auto).
  assert (Hfa : forall o', fa (st' o') = fa (st o')) by (intros o'; rewrite Hst; destruct (Nat.eqb_spec o' o) as [->|]; auto).
  assert (Hact : forall o' a, act st' (sp_ops s) o' a <-> act st (sp_ops s) o' a) by (intros; unfold act; now rewrite Hdn).
  destruct (K4 o) as (A & _ & _ & _ & _ & F). destruct (A Hq) as (A1 & A2 & A3 & A4).
  assert (Hf0 : fa (st o) = None) by (destruct (fa (st o)) eqn:E; auto; exfalso; assert (nd_ (st o) = NFresh) by (apply F; discriminate); congruence).
  unfold KI. cbn [k_seq k_active k_q k_nd k_pq k_pend k_pnd k_agt k_hd k_ag].
  split; [exact K1|]. split; [exact K2|]. split; [|split; [|split; [|split; [|split; [exact K7|exact K8]]]]].
  - destruct K3 as (H1 & H2 & H3 & H4 & H5 & H6). split; [auto|]. split; [|split; [auto|split; [|split]]].
    + intros o' E. rewrite Hst. destruct (Nat.eqb_spec o' o) as [->|]; auto. specialize (H2 _ E). rewrite H2 in Hq. discriminate.
    + intros a. rewrite H4. split; intros [o' H]; exists o'; now apply Hact.
    + intros o1 o2 a. rewrite !Hact. eauto.
    + intros o' a. rewrite Hact. eauto.
  - intros o'. rewrite Hst. destruct (Nat.eqb_spec o' o) as [->|]; [|apply K4]. simpl. rewrite Hf0. repeat split; auto; try discriminate; try congruence.
  - intros a. destruct (K5 a) as (H1 & H2 & H3). split; [auto|]. split; [|auto]. intros Ha. destruct (H2 Ha) as [(E1 & E2)|(o1 & p & E1 & E2 & E3)].
    + left. split; auto. intros o' Ho'. rewrite Hfa. apply E2. now apply Hact.
    + right. exists o1, p. rewrite Hfa. split; [auto|]. split; auto. now apply Hact.
  - destruct K6 as [H1 H2]. split; auto. intros o' p. rewrite H2, Hdn. tauto.
Qed.

(** ** A poll returns *)
Section Done.
Variables (st st' : nat -> os) (ops : list (nat * nat)) (o a : nat).
Hypothesis Hao : act st ops o a.
Hypothesis Hst : forall o', st' o' = if Nat.eqb o' o then OS (fa (st o)) (nd_ (st o)) true else st o'.

Lemma done_act o' a' : act st' ops o' a' <-> act st ops o' a' /\ o' <> o.
Proof.
  unfold act. rewrite Hst. destruct (Nat.eqb_spec o' o) as [->|Hne]; simpl; intuition congruence.
Qed.
Lemma done_g3 busy agt att : G3 st ops busy agt att -> G3 st' ops (remove1 a busy) agt att.
Proof.
  intros (H1 & H2 & H3 & H4 & H5 & H6). split; [auto|]. split; [|split; [now apply NoDup_remove1|split; [|split]]].
  - intros o' E. rewrite Hst. destruct (Nat.eqb_spec o' o) as [->|]; auto. destruct Hao. congruence.
  - intros a'. rewrite In_remove1_NoDup, H4 by auto. split.
    + intros [[o' Ho'] Hne]. exists o'. apply done_act. split; auto. intros ->. destruct Ho' as [E _]. destruct Hao as [E' _]. congruence.
    + intros [o' Ho']. apply done_act in Ho'. destruct Ho' as [Ho' Hne]. split; [eauto|]. intros ->. apply Hne. eauto.
  - intros o1 o2 a'. rewrite !done_act. intros [? _] [? _]. eauto.
  - intros o' a'. rewrite done_act. intros [? _]. eauto.
Qed.
(** the other agents do not notice *)
Lemma done_due a' later due : a' <> a -> due_ok st ops a' later due -> due_ok st' ops a' later due.
Proof.
  intros Hne [(E1 & E2)|(o1 & p & E1 & E2 & E3)].
  - left. split; auto. intros o' Ho'. apply done_act in Ho'. destruct Ho' as [Ho' Hn]. rewrite Hst. destruct (Nat.eqb_spec o' o); [congruence|auto].
  - right. exists o1, p. split; auto. assert (Hn : o1 <> o) by (intros ->; destruct E2 as [E2 _]; destruct Hao as [E4 _]; congruence). split.
    + apply done_act. auto.
    + rewrite Hst. destruct (Nat.eqb_spec o1 o); [congruence|auto].
Qed.
Lemma done_g6 hd held : G6 st hd held -> (forall p, hd o <> HHas p) -> G6 st' hd held.
Proof.
  intros [H1 H2] Hhd. split; auto. intros o' p. rewrite H2, Hst. destruct (Nat.eqb_spec o' o) as [->|]; simpl; [|tauto].
  split; [intros [E _]; destruct (Hhd _ E)|intros [E _]; destruct (Hhd _ E)].
Qed.
Lemma done_g6_new hd hd' held p : G6 st hd held -> hd' o = HHas p -> (forall o', o' <> o -> hd' o' = hd o') -> G6 st' hd' (held ++ [(o, p)]).
Proof.
  intros [H1 H2] Hhd Hoth. destruct Hao as [_ Hd]. split.
  - rewrite map_app. apply NoDup_snoc; auto. intros Hin. apply in_map_iff in Hin. destruct Hin as ([o' q] & E1 & E2). simpl in E1. subst o'.
    apply H2 in E2. destruct E2. congruence.
  - intros o' q. rewrite In_snoc, Hst, H2. destruct (Nat.eqb_spec o' o) as [->|Hne]; simpl.
    + rewrite Hhd, Hd. split; [intros [[_ H]|[= ->]]; [discriminate|auto]|]. intros [[= <-] _]. auto.
    + rewrite (Hoth o' Hne). split; [intros [H|[= E _]]; [auto|congruence]|auto].
Qed.
End Done.

(** ... on the fast path *)
Lemma ki_done_fast (k : kst T) st st' s o v : KI k st s -> fa (st o) = Some v -> dn (st o) = false ->
  (forall o', st' o' = if Nat.eqb o' o then OS (fa (st o)) (nd_ (st o)) true else st o') ->
  exists p later, v = Some p /\ agent_of o s = Some (k_agt k o) /\ due_of (k_agt k o) s = p :: later /\ KI k st' (sp_step s (EDone (P := post_ack T) o v)).
Proof.
  intros (K1 & K2 & K3 & K4 & K5 & K6 & K7 & K8) Hf Hd Hst.
  destruct (K4 o) as (_ & _ & _ & _ & E & F). destruct (E _ Hf Hd) as (p & -> & Hhd).
  assert (Hag : ag_of (sp_ops s) o = Some (k_agt k o)) by (apply (node_known _ _ _ _ _ _ K3); right; left; congruence).
  set (a := k_agt k o) in *. assert (Hao : act st (sp_ops s) o a) by (split; auto).
  assert (Ha : In a (sp_att s)) by (destruct K3 as (_ & _ & _ & _ & _ & H); eauto).
  assert (Hdue : dl a (sp_due s) = p :: skipn (g_seq (k_ag k a)) (map fst (sp_posts s))).
  { destruct (K5 a) as (_ & H & _). destruct (H Ha) as [(_ & E2)|(o1 & q & E1 & E2 & E3)]; [rewrite (E2 o Hao) in Hf; discriminate|].
    destruct K3 as (_ & _ & _ & _ & H5 & _). rewrite (H5 o1 o a E2 Hao) in E3. rewrite Hf in E3. injection E3 as <-. exact E1. }
  exists p, (skipn (g_seq (k_ag k a)) (map fst (sp_posts s))). split; [auto|]. split; [exact Hag|]. split; [exact Hdue|].
  assert (Hin : In (a, p) (sp_due s)) by (apply dl_In; rewrite Hdue; now left).
  cbn [sp_step]. change (agent_of o s) with (ag_of (sp_ops s) o). rewrite Hag.
  unfold KI. cbn [sp_att sp_det sp_ops sp_busy sp_posts sp_due sp_held].
  split; [exact K1|]. split; [exact K2|]. split; [eapply done_g3; eauto|]. split; [|split; [|split; [|split; [|exact K8]]]].
  - intros o'. rewrite Hst. destruct (Nat.eqb_spec o' o) as [->|]; [|apply K4]. simpl. rewrite (F ltac:(congruence)). repeat split; try discriminate; auto.
  - intros a'. destruct (K5 a') as (H1 & H2 & H3). split; [auto|]. destruct (Nat.eq_dec a' a) as [->|Hne].
    + split; [|tauto]. intros _. rewrite (drop_dl_same _ _ _ _ Hdue). left. split; auto. intros o' Ho'. exfalso. apply (done_act _ _ _ _ Hst) in Ho'.
      destruct Ho' as [Ho' Hne]. apply Hne. destruct K3 as (_ & _ & _ & _ & H5 & _). eauto.
    + rewrite drop_dl_other by auto. split; [|auto]. intros Ha'. eapply done_due; eauto.
  - eapply done_g6_new; eauto.
  - destruct K7 as (H1 & H2 & H3 & H4). split; [|split; [|split; [|auto]]].
    + intros q nd Hq. rewrite (H1 q nd Hq), cp_app, cp_cons. pose proof (drop_cp (a, p) q _ Hin) as Hc. cbn [snd] in *. change (cp q []) with 0. lia.
    + intros a' q Hq. apply drop_In in Hq. eauto.
    + intros o' q Hq. apply In_snoc in Hq. destruct Hq as [Hq|[= -> ->]]; eauto.
Qed.

(** ... by resume_fn *)
Lemma ki_resume_none (k : kst T) st st' s o : KI k st s -> (nd_ (st o) = NTaken \/ nd_ (st o) = NCancelled) -> dn (st o) = false ->
  (forall o', st' o' = if Nat.eqb o' o then OS (fa (st o)) (nd_ (st o)) true else st o') -> k_pnd k o = None ->
  KI k st' (sp_step s (EDone (P := post_ack T) o None)).
Proof.
  intros (K1 & K2 & K3 & K4 & K5 & K6 & K7 & K8) Hn Hd Hst Hp.
  destruct (K4 o) as (_ & B & C & _ & _ & F). destruct Hn as [Hn|Hn]; [destruct (B Hn Hd) as (q & x & B1 & _); congruence|].
  destruct (C Hn) as [_ Hhd].
  assert (Hag : ag_of (sp_ops s) o = Some (k_agt k o)) by (apply (node_known _ _ _ _ _ _ K3); left; congruence).
  set (a := k_agt k o) in *. assert (Hao : act st (sp_ops s) o a) by (split; auto).
  assert (Hf0 : fa (st o) = None) by (destruct (fa (st o)) eqn:E; auto; exfalso; assert (nd_ (st o) = NFresh) by (apply F; discriminate); congruence).
  cbn [sp_step]. change (agent_of o s) with (ag_of (sp_ops s) o). rewrite Hag.
  unfold KI. cbn [sp_att sp_det sp_ops sp_busy sp_posts sp_due sp_held].
  split; [exact K1|]. split; [exact K2|]. split; [eapply done_g3; eauto|]. split; [|split; [|split; [|split; [exact K7|exact K8]]]].
  - intros o'. rewrite Hst. destruct (Nat.eqb_spec o' o) as [->|]; [|apply K4]. simpl. rewrite Hn, Hf0. repeat split; try discriminate; auto; congruence.
  - intros a'. destruct (K5 a') as (H1 & H2 & H3). split; [auto|]. split; [|auto]. intros Ha'. destruct (Nat.eq_dec a' a) as [->|Hne]; [|eapply done_due; eauto].
    destruct (H2 Ha') as [(E1 & E2)|(o1 & q & E1 & E2 & E3)].
    + left. split; auto. intros o' Ho'. apply (done_act _ _ _ _ Hst) in Ho'. destruct Ho' as [Ho' Hne]. rewrite Hst. destruct (Nat.eqb_spec o' o); [congruence|auto].
    + exfalso. destruct K3 as (_ & _ & _ & _ & H5 & _). rewrite (H5 o1 o a E2 Hao) in E3. congruence.
  - eapply done_g6; eauto. intros q. congruence.
Qed.

Lemma ki_resume_some (k : kst T) st st' s o p : KI k st s -> (nd_ (st o) = NTaken \/ nd_ (st o) = NCancelled) -> dn (st o) = false ->
  (forall o', st' o' = if Nat.eqb o' o then OS (fa (st o)) (nd_ (st o)) true else st o') -> k_pnd k o = Some p ->
  exists later, agent_of o s = Some (k_agt k o) /\ due_of (k_agt k o) s = p :: later /\
  KI (with_hd (with_ag k (k_agt k o) (Ag (g_mech (k_ag k (k_agt k o))) (g_seq (k_ag k (k_agt k o)) + 1) (g_det (k_ag k (k_agt k o))))) o (HHas p))
     st' (sp_step s (EDone (P := post_ack T) o (Some p))).
Proof.
  intros (K1 & K2 & K3 & K4 & K5 & K6 & K7 & K8) Hn Hd Hst Hp.
  destruct (K4 o) as (_ & B & C & _ & _ & F). destruct Hn as [Hn|Hn]; [|destruct (C Hn); congruence].
  destruct (B Hn Hd) as (p' & x & B1 & B2 & Hhd). rewrite Hp in B1. injection B1 as <-.
  assert (Hag : ag_of (sp_ops s) o = Some (k_agt k o)) by (apply (node_known _ _ _ _ _ _ K3); left; congruence).
  set (a := k_agt k o) in *. assert (Hao : act st (sp_ops s) o a) by (split; auto).
  assert (Hf0 : fa (st o) = None) by (destruct (fa (st o)) eqn:E; auto; exfalso; assert (nd_ (st o) = NFresh) by (apply F; discriminate); congruence).
  assert (Ha : In a (sp_att s)) by (destruct K3 as (_ & _ & _ & _ & _ & H); eauto).
  assert (Hmd : g_mech (k_ag k a) = true /\ g_det (k_ag k a) = None) by (destruct K1 as (_ & _ & H & _); apply H in Ha; tauto).
  destruct Hmd as [Hmech Hdet].
  assert (Hlt : g_seq (k_ag k a) < k_seq k) by (destruct K2 as [<- _]; apply nth_error_Some; congruence).
  assert (Huniq : forall o', act st (sp_ops s) o' a -> o' = o) by (destruct K3 as (_ & _ & _ & _ & H5 & _); eauto).
  assert (Hdue : dl a (sp_due s) = p :: skipn (g_seq (k_ag k a) + 1) (map fst (sp_posts s))).
  { destruct (K5 a) as (_ & H & _). destruct (H Ha) as [(E1 & _)|(o1 & q & E1 & E2 & E3)].
    - rewrite E1, Nat.add_1_r. apply skipn_nth. rewrite nth_error_map, B2. reflexivity.
    - rewrite (Huniq o1 E2) in E3. congruence. }
  exists (skipn (g_seq (k_ag k a) + 1) (map fst (sp_posts s))). split; [exact Hag|]. split; [exact Hdue|].
  assert (Hin : In (a, p) (sp_due s)) by (apply dl_In; rewrite Hdue; now left).
  cbn [sp_step]. change (agent_of o s) with (ag_of (sp_ops s) o). rewrite Hag.
  unfold KI, with_hd, with_ag. cbn [sp_att sp_det sp_ops sp_busy sp_posts sp_due sp_held k_seq k_active k_q k_nd k_pq k_pend k_pnd k_agt k_hd k_ag].
  split; [|split; [exact K2|split; [eapply done_g3; eauto|split; [|split; [|split; [|split]]]]]].
  - apply (g1_ext _ _ _ _ _ K1). intros a'. unfold upd. destruct (Nat.eqb_spec a' a) as [->|]; auto.
  - intros o'. rewrite Hst. destruct (Nat.eqb_spec o' o) as [->|Hne].
    + rewrite !(upd_same (k_hd k)). simpl. rewrite Hn, Hf0. repeat split; try discriminate; auto; congruence.
    + rewrite !(upd_other _ o _ o' Hne). destruct (K4 o') as (A & B' & C' & D' & E' & F'). assert (Hk : forall x, nd_ (st o') = x -> x <> NFresh -> dn (st o') = false -> k_agt k o' <> a).
      { intros y Hy Hne1 Hd' E1. apply Hne, Huniq. split; auto. rewrite <- E1. apply (node_known _ _ _ _ _ _ K3). left. congruence. }
      split; [|split; [|split; [exact C'|split; [exact D'|split; [exact E'|exact F']]]]].
      * intros HQ. destruct (A HQ) as (A1 & A2 & A3 & A4). rewrite upd_other; auto. apply (Hk _ HQ); [discriminate|auto].
      * intros HQ Hd'. destruct (B' HQ Hd') as (q & y & B1' & B2' & B3'). exists q, y. rewrite upd_other; auto. apply (Hk _ HQ); [discriminate|auto].
  - intros a'. destruct (K5 a') as (H1 & H2 & H3). unfold upd. destruct (Nat.eqb_spec a' a) as [->|Hne].
    + simpl. split; [lia|]. split; [|tauto]. intros _. rewrite (drop_dl_same _ _ _ _ Hdue). left. split; auto. intros o' Ho'. exfalso.
      apply (done_act _ _ _ _ Hst) in Ho'. destruct Ho' as [Ho' Hne]. auto.
    + rewrite drop_dl_other by auto. split; [auto|]. split; [|auto]. intros Ha'. eapply done_due; eauto.
  - eapply done_g6_new; eauto; [apply upd_same|]. intros o' Hne. now apply upd_other.
  - assert (K7' : G7 (k_nd k) (upd (k_ag k) a (Ag (g_mech (k_ag k a)) (g_seq (k_ag k a) + 1) (g_det (k_ag k a)))) (k_seq k) (sp_due s) (sp_held s) (sp_det s)).
    { apply (g7_ext _ _ _ _ _ _ _ K7). intros a'. unfold upd. destruct (Nat.eqb_spec a' a) as [->|]; simpl; auto. split; auto. congruence. }
    clear K7. destruct K7' as (H1 & H2 & H3 & H4). split; [|split; [|split; [|auto]]].
    + intros q nd Hq. rewrite (H1 q nd Hq), cp_app, cp_cons. pose proof (drop_cp (a, p) q _ Hin) as Hc. cbn [snd] in *. change (cp q []) with 0. lia.
    + intros a' q Hq. apply drop_In in Hq. eauto.
    + intros o' q Hq. apply In_snoc in Hq. destruct Hq as [Hq|[= -> ->]]; eauto.
  - apply (g8_ext _ _ _ _ _ _ K8).
    + intros o'. unfold upd. destruct (Nat.eqb_spec o' o) as [->|]; auto. right. rewrite Hhd. split; intros; split; discriminate.
    + intros a'. unfold upd. destruct (Nat.eqb_spec a' a) as [->|]; auto.
Qed.

End Inv.
