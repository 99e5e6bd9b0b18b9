(** Race freedom and visibility for suspend_indefinitely. *)
From Coq Require Import List Arith Bool Lia.
From Verif Require Import Lts ListFacts M_Suspend S_Suspend P_Suspend P_Result M_HB P_HB M_SuspendHB S_SuspendHB.
Import ListNotations.

Section Toks.
Variable toks : list (option nat).
Notation N := (u_n toks).
Notation tk := (M_Suspend.tk toks).
Notation debt := (P_Suspend.debt toks).
Notation UI := (P_Suspend.UI toks).
Notation hstep := (uh_step toks true true true true).
Notation acts := (uh_acts toks true true true true).
Notation v_ h t := (mv_cur (ms_view h t)).
Notation lg h := (mm_log (ms_mem h)).
Notation rl h x := (mm_rel (ms_mem h) x).
Notation st h := (ms_base h).
Notation hv := (hview uh_src).

(** ** Observers that a call of cancel() has taken and not yet called *)
Definition plistk (k : ucont) : list nat := match k with KLoop r => r | _ => [] end.
Definition plist (a : uact) : list nat := match a with ULoop r => r | UOr _ k | UTry _ _ k | USub _ k => plistk k | _ => [] end.
Record PI (s : ust) : Prop := {
  p_tk : forall w a i, u_act s w = Some a -> In i (plist a) -> i < N /\ u_ph s i = OTaken /\ exists e, tk i = Some e;
  p_dj : forall w w' a a' i, w <> w' -> u_act s w = Some a -> u_act s w' = Some a' -> In i (plist a) -> ~ In i (plist a') }.

Lemma plist_ret k : plist (uret k) = plistk k. Proof. destruct k; reflexivity. Qed.
Lemma PI_move s s' w a a' : PI s -> u_act s w = Some a -> (forall w' b, u_act s' w' = Some b -> (w = w' /\ b = a') \/ (w <> w' /\ u_act s w' = Some b)) ->
  incl (plist a') (plist a) -> (forall i e, tk i = Some e -> u_ph s i = OTaken -> u_ph s' i = OTaken) -> PI s'.
Proof.
  intros [P1 P2] Ha Hb Hl Hp.
  assert (Hx : forall w' b, u_act s' w' = Some b -> exists c, u_act s w' = Some c /\ incl (plist b) (plist c)).
  { intros w' b Hw. destruct (Hb _ _ Hw) as [[<- ->]|[_ H]]; eauto using incl_refl. }
  constructor.
  - intros w' b i Hw Hi. destruct (Hx _ _ Hw) as (c & Hc & Hic). destruct (P1 _ _ _ Hc (Hic _ Hi)) as (Q1 & Q2 & e & Q3). split; [exact Q1|]. split; [|eauto]. eauto.
  - intros w1 w2 b1 b2 i Hn H1 H2 Hi1 Hi2. destruct (Hx _ _ H1) as (c1 & Hc1 & Hic1). destruct (Hx _ _ H2) as (c2 & Hc2 & Hic2). exact (P2 _ _ _ _ i Hn Hc1 Hc2 (Hic1 _ Hi1) (Hic2 _ Hi2)).
Qed.

(** The shape of a step of a call *)
Lemma step_shape s w a s' es : u_act s w = Some a -> uact_step toks s w a = Next s' es -> exists a' d i c n ph, s' = u_with_act (US d i c n ph (u_req s) (u_main s) (u_acts s)) w a'.
Proof.
  intros Ha. destruct a as [|i|c k|i c k|c k|r|]; cbn [uact_step]; try discriminate.
  - destruct (u_dead s); [discriminate|]. destruct (i <? N).
    + destruct (tk i) as [e|]; [destruct (u_ph s i); try discriminate; destruct (u_req s e)|]; intros [= <- <-]; unfold u_with_ph; repeat eexists.
    + intros [= <- <-]. destruct s. repeat eexists.
  - destruct (u_dead s); [discriminate|]. intros [= <- <-]. repeat eexists.
  - destruct (i <? N).
    + destruct (u_dead s); [discriminate|]. destruct (tk i) as [e|], (u_ph s i); try discriminate; try (destruct (u_req s e)); try discriminate; intros [= <- <-]; unfold u_with_ph; destruct s; repeat eexists.
    + intros [= <- <-]. destruct s. repeat eexists.
  - destruct (u_dead s); [discriminate|]. destruct (u_ctr s <? c); [discriminate|]. destruct (u_ctr s =? c); [destruct (negb _ || _); [discriminate|]|]; intros [= <- <-]; repeat eexists.
  - destruct r; [|destruct (u_dead s); [discriminate|]]; intros [= <- <-]; destruct s; repeat eexists.
Qed.
Lemma with_inv s s0 w a a' : u_act s w = Some a -> u_main s0 = u_main s -> u_acts s0 = u_acts s ->
  forall w' b, u_act (u_with_act s0 w a') w' = Some b -> (w = w' /\ b = a') \/ (w <> w' /\ u_act s w' = Some b).
Proof.
  intros Ha E1 E2 w' b Hb. assert (Ha0 : u_act s0 w = Some a) by (destruct w; simpl in *; congruence).
  destruct (act_with_inv _ _ _ _ _ _ Ha0 Hb) as [|[H1 H2]]; [auto|right]. split; [exact H1|]. destruct w'; simpl in *; congruence.
Qed.
Lemma PI_step s l s' es : PI s -> u_step toks s l = Next s' es -> PI s'.
Proof.
  intros HP Hs. destruct l as [|e|w]; cbn [u_step] in Hs.
  - destruct (u_main s) eqn:Em; try discriminate. injection Hs as <- <-. apply (PI_move s _ None UIdle (USet 0) HP); [simpl; congruence|apply (with_inv s s None UIdle); simpl; congruence|apply incl_refl|auto].
  - cbv zeta in Hs. destruct (u_dead s && _); [discriminate|]. injection Hs as <- <-. destruct HP as [P1 P2].
    set (tak := filter (linked toks s e) (seq 0 N)). set (ph' := fun i => if (i <? N) && linked toks s e i then OTaken else u_ph s i).
    set (s' := US (u_dead s) (u_init s) (u_canc s) (u_ctr s) ph' (upd (u_req s) e true) (u_main s) (u_acts s ++ [ULoop tak])).
    assert (Hx : forall w b, u_act s' w = Some b -> u_act s w = Some b \/ (w = Some (length (u_acts s)) /\ b = ULoop tak)).
    { intros [k|] b Hb; simpl in *; auto. apply nth_snoc in Hb. destruct Hb as [|[-> ->]]; auto. }
    assert (Ht : forall i, In i tak -> i < N /\ linked toks s e i = true). { intros i Hi. apply filter_In in Hi. destruct Hi as [Hi Hl]. apply in_seq in Hi. split; [lia|exact Hl]. }
    assert (Hlk : forall i, linked toks s e i = true -> u_ph s i = OSet /\ tk i = Some e).
    { intros i Hl. unfold linked in Hl. apply andb_true_iff in Hl. destruct Hl as [H1 H2]. split; [destruct (u_ph s i); simpl in H1; congruence|]. destruct (tk i); [|discriminate]. apply Nat.eqb_eq in H2. congruence. }
    constructor.
    + intros w b i Hw Hi. destruct (Hx _ _ Hw) as [H|[-> ->]].
      * destruct (P1 _ _ _ H Hi) as (Q1 & Q2 & Q3). split; [exact Q1|]. split; [|exact Q3]. simpl. unfold ph'. destruct (_ && _); auto.
      * simpl in Hi. destruct (Ht _ Hi) as [Q1 Q2]. split; [exact Q1|]. split; [|exists e; apply Hlk, Q2]. simpl. unfold ph'. rewrite Q2. destruct (Nat.ltb_spec i N); [reflexivity|lia].
    + assert (Hold : forall w a i, u_act s w = Some a -> In i (plist a) -> ~ In i tak).
      { intros w a i H1 H2 H3. destruct (P1 _ _ _ H1 H2) as (_ & Q & _). destruct (Ht _ H3) as [_ H4]. destruct (Hlk _ H4). congruence. }
      intros w1 w2 b1 b2 i Hn H1 H2 Hi1 Hi2. destruct (Hx _ _ H1) as [H3|[-> ->]], (Hx _ _ H2) as [H4|[-> ->]]; simpl in Hi1, Hi2; try congruence.
      * exact (P2 _ _ _ _ i Hn H3 H4 Hi1 Hi2).
      * exact (Hold _ _ _ H3 Hi1 Hi2).
      * exact (Hold _ _ _ H4 Hi2 Hi1).
  - destruct (u_act s w) as [a|] eqn:Ha; [|discriminate].
    assert (K : forall a' d i c n ph, incl (plist a') (plist a) -> (forall j e, tk j = Some e -> u_ph s j = OTaken -> ph j = OTaken) -> PI (u_with_act (US d i c n ph (u_req s) (u_main s) (u_acts s)) w a')).
    { intros a' d i c n ph Hl Hp. apply (PI_move s _ w a a' HP Ha); auto; [apply (with_inv s _ w a); auto|]. destruct w; simpl; auto. }
    assert (Ks : forall a', incl (plist a') (plist a) -> PI (u_with_act s w a')). { intros a' Hl. destruct s. apply K; auto. }
    assert (Kp : forall a' i x, incl (plist a') (plist a) -> (forall e, tk i = Some e -> u_ph s i <> OTaken) -> PI (u_with_act (u_with_ph s i x) w a')).
    { intros a' i x Hl Hi. apply K; auto. intros j e Hj Hp. unfold upd. destruct (Nat.eqb_spec j i) as [->|]; [destruct (Hi _ Hj Hp)|exact Hp]. }
    destruct a as [|i|c k|i c k|c k|r|]; cbn [uact_step] in Hs; try discriminate.
    + destruct (u_dead s); [discriminate|]. destruct (i <? N).
      * destruct (tk i) as [e|] eqn:Et; [destruct (u_ph s i) eqn:Ep; try discriminate; destruct (u_req s e)|]; injection Hs as <- <-; apply Kp; simpl; try apply incl_refl; try congruence.
      * injection Hs as <- <-. apply Ks. apply incl_refl.
    + destruct (u_dead s); [discriminate|]. injection Hs as <- <-. apply K; auto. destruct (_ && _); simpl; apply incl_refl.
    + destruct (i <? N).
      * destruct (u_dead s); [discriminate|]. destruct (tk i) as [e|] eqn:Et, (u_ph s i) eqn:Ep; try discriminate; try (destruct (u_req s e)); try discriminate; injection Hs as <- <-;
          first [apply Ks; simpl; apply incl_refl|apply Kp; simpl; [apply incl_refl|congruence]].
      * injection Hs as <- <-. apply Ks. apply incl_refl.
    + destruct (u_dead s); [discriminate|]. destruct (u_ctr s <? c); [discriminate|]. destruct (u_ctr s =? c); [destruct (negb _ || _); [discriminate|]|]; injection Hs as <- <-; apply K; auto; rewrite plist_ret; apply incl_refl.
    + destruct r; [|destruct (u_dead s); [discriminate|]]; injection Hs as <- <-; apply Ks; simpl; intros x Hx; [destruct Hx|]; simpl; auto.
Qed.

(** ** The invariant *)
(** A location of the operation; all accesses to the operation are in v *)
Definition opl (x : nat) : Prop := forall e, x <> l_req e.
Definition ko (g : mlog) (v : hbs) : Prop := forall i a p, nth_error g i = Some (a, p) -> opl (ma_loc a) -> In i v.
Lemma opl_ev i : opl (l_ev i). Proof. unfold opl, l_ev, l_req. lia. Qed.
Lemma opl_hook i : opl (l_hook i). Proof. unfold opl, l_hook, l_req. lia. Qed.
Lemma opl_fn i : opl (l_fn i). Proof. unfold opl, l_fn, l_req. lia. Qed.
Lemma opl_st : opl l_st. Proof. unfold opl, l_st, l_req. lia. Qed.
Lemma opl_op : opl l_op. Proof. unfold opl, l_op, l_req. lia. Qed.
Lemma ko_kn g v x : ko g v -> opl x -> kn g v x. Proof. intros H Hx i a p Hn Hl. apply (H i a p Hn). now rewrite Hl. Qed.
Lemma ko_incl g v w : ko g v -> incl v w -> ko g w. Proof. intros H Hi i a p Hn Ho. apply Hi. eauto. Qed.
#[local] Hint Resolve opl_ev opl_hook opl_fn opl_st opl_op ko_kn : core.
(** The access x is known to a call that has yet to decrement the counter, or released *)
Definition T (h : mst (S := ust)) (x : nat) : Prop :=
  In x (rl h x_st) \/ exists w a, u_act (st h) w = Some a /\ debt a > 0 /\ In x (v_ h (t_of w)).
(** What the thread that calls start() knows *)
Definition Mk (g : mlog) (v : hbs) : Prop := kw g v l_op /\ (forall i, kw g v (l_ev i)) /\ (forall i, kw g v (l_fn i)).
(** What is known about a linked observer *)
Definition Lk (g : mlog) (v : hbs) (i : nat) : Prop := kn g v (l_hook i) /\ kw g v (l_fn i) /\ kw g v l_st.

Record Inv (h : mst (S := ust)) : Prop := In_ {
  v_all : forall x a p, nth_error (lg h) x = Some (a, p) -> opl (ma_loc a) -> T h x;
  v_st : forall w a, u_act (st h) w = Some a -> debt a > 0 -> kw (lg h) (v_ h (t_of w)) l_st;
  v_main : debt (u_main (st h)) > 0 -> Mk (lg h) (v_ h 0);
  v_ev0 : u_init (st h) = false -> forall i, kn (lg h) (v_ h 0) (l_ev i);
  v_ev1 : u_init (st h) = true -> forall i, kw (lg h) (rl h x_st) (l_ev i);
  v_try : forall w j c k, u_act (st h) w = Some (UTry j c k) -> forall i, kw (lg h) (v_ h (t_of w)) (l_ev i);
  v_unset : forall i, i < N -> u_ph (st h) i = OUnset -> kn (lg h) (v_ h 0) (l_hook i);
  v_set : forall i e, i < N -> tk i = Some e -> u_ph (st h) i = OSet -> Lk (lg h) (rl h (x_mtx e)) i;
  v_list : forall w a i, u_act (st h) w = Some a -> In i (plist a) -> kn (lg h) (v_ h (t_of w)) (l_hook i) /\ kw (lg h) (v_ h (t_of w)) (l_fn i) }.
(** _was_requested is protected by the mutex. *)
Definition RI (h : mst (S := ust)) : Prop := forall e, kn (lg h) (rl h (x_mtx e)) (l_req e).
Definition WI (h : mst (S := ust)) : Prop :=
  (u_main (st h) = UIdle -> (forall x a p, nth_error (lg h) x = Some (a, p) -> ~ opl (ma_loc a)) /\ forall k a, nth_error (u_acts (st h)) k = Some a -> debt a = 0) /\
  (u_main (st h) <> UIdle -> u_dead (st h) = false -> Inv h).

Lemma t_of_inj w w' : t_of w = t_of w' -> w = w'.
Proof. destruct w, w'; simpl; congruence. Qed.
Lemma Mk_incl g v w : Mk g v -> incl v w -> Mk g w.
Proof. intros (A & B & C) H. repeat split; eauto using kw_incl. Qed.
Lemma Lk_incl g v w i : Lk g v i -> incl v w -> Lk g w i.
Proof. intros (A & B & C) H. repeat split; eauto using kn_incl, kw_incl. Qed.
Lemma Mk_ka g v : ko g v -> Mk g v.
Proof. intros H. repeat split; intros; apply kn_kw; auto. Qed.
Lemma eff_new_in {m v l m' v'} (He : eff m v l m' v') x a p : nth_error (mm_log m') x = Some (a, p) -> nth_error (mm_log m) x = Some (a, p) \/ In x (mv_cur v').
Proof. intros Hx. destruct (eff_cases He _ _ _ Hx) as [[_ H]|(_ & H & _)]; auto. Qed.
Lemma loc_ne : (forall i j, l_hook i <> l_ev j) /\ (forall i j, l_hook i <> l_fn j) /\ (forall i, l_hook i <> l_st) /\ (forall i, l_hook i <> l_op) /\
  (forall i j, l_ev i <> l_fn j) /\ (forall i, l_ev i <> l_st) /\ (forall i, l_ev i <> l_op) /\ (forall i j, l_ev i = l_ev j -> i = j) /\ (forall i j, l_hook i = l_hook j -> i = j).
Proof. unfold l_hook, l_ev, l_fn, l_st, l_op. repeat split; intros; lia. Qed.

(** Writes of a step: to hooks, start() to _event, cancel() to _was_requested *)
Definition wr_ok (w : option nat) (init : bool) (l : list mact) : Prop :=
  forall x, In (Touch x true) l -> (exists i, x = l_hook i) \/ (w = None /\ init = false /\ exists i, x = l_ev i) \/ ~ opl x.
Definition nohook (l : list mact) (i : nat) : Prop := ~ In (Touch (l_hook i) true) l.
Definition hk_wr (l : list mact) : Prop := forall i, ~ In (Touch (l_hook i) false) l.

Section Move.
Context {mem : mmem} {v0 : mview} {l : list mact} {m' : mmem} {v' : mview} {w : option nat} {init : bool}.
Hypothesis Ef : eff mem v0 l m' v'.
Hypothesis Hw : wr_ok w init l.
Lemma ow_st u : kw (mm_log mem) u l_st -> kw (mm_log m') u l_st.
Proof. intros H. apply (eff_kw_other Ef); [exact H|]. intros Hi. apply Hw in Hi. destruct loc_ne as (A & B & C & D & E & F & G & _). destruct Hi as [[i Hi]|[(_ & _ & i & Hi)|Hi]]; [symmetry in Hi; exact (C _ Hi)|symmetry in Hi; exact (F _ Hi)|apply Hi; auto]. Qed.
Lemma ow_fn u j : kw (mm_log mem) u (l_fn j) -> kw (mm_log m') u (l_fn j).
Proof. intros H. apply (eff_kw_other Ef); [exact H|]. intros Hi. apply Hw in Hi. destruct loc_ne as (A & B & C & D & E & F & G & _). destruct Hi as [[i Hi]|[(_ & _ & i & Hi)|Hi]]; [symmetry in Hi; exact (B _ _ Hi)|symmetry in Hi; exact (E _ _ Hi)|apply Hi; auto]. Qed.
Lemma ow_op u : kw (mm_log mem) u l_op -> kw (mm_log m') u l_op.
Proof. intros H. apply (eff_kw_other Ef); [exact H|]. intros Hi. apply Hw in Hi. destruct loc_ne as (A & B & C & D & E & F & G & _). destruct Hi as [[i Hi]|[(_ & _ & i & Hi)|Hi]]; [symmetry in Hi; exact (D _ Hi)|symmetry in Hi; exact (G _ Hi)|apply Hi; auto]. Qed.
Lemma ow_ev u j : kw (mm_log mem) u (l_ev j) -> w <> None \/ init = true -> kw (mm_log m') u (l_ev j).
Proof. intros H Hn. apply (eff_kw_other Ef); [exact H|]. intros Hi. apply Hw in Hi. destruct loc_ne as (A & B & C & D & E & F & G & _). destruct Hi as [[i Hi]|[(H1 & H2 & i & Hi)|Hi]]; [symmetry in Hi; exact (A _ _ Hi)|destruct Hn; congruence|apply Hi; auto]. Qed.
Lemma ow_hk u j : kn (mm_log mem) u (l_hook j) -> hk_wr l -> nohook l j -> kn (mm_log m') u (l_hook j).
Proof. intros H Hl Hn. apply (eff_kn_other Ef); [exact H|]. intros [] Hi; [exact (Hn Hi)|exact (Hl _ Hi)]. Qed.
Lemma ow_Lk u j : Lk (mm_log mem) u j -> hk_wr l -> nohook l j -> Lk (mm_log m') u j.
Proof. intros (A & B & C) H1 H2. repeat split; [now apply ow_hk|now apply ow_fn|now apply ow_st]. Qed.
Lemma ow_Mk u : Mk (mm_log mem) u -> w <> None -> Mk (mm_log m') u.
Proof. intros (A & B & C) H. repeat split; intros; [now apply ow_op|apply ow_ev; auto|now apply ow_fn]. Qed.
Lemma own_Mk : Mk (mm_log mem) (mv_cur v0) -> Mk (mm_log m') (mv_cur v').
Proof. intros (A & B & C). repeat split; intros; apply (eff_kw Ef); auto. Qed.
Lemma own_Lk j : Lk (mm_log mem) (mv_cur v0) j -> Lk (mm_log m') (mv_cur v') j.
Proof. intros (A & B & C). repeat split; [now apply (eff_kn Ef)|now apply (eff_kw Ef)..]. Qed.
End Move.

Lemma T_move h s' w a a' m' v' : u_act (st h) w = Some a -> u_act s' w = Some a' -> (forall w' b, w <> w' -> u_act (st h) w' = Some b -> u_act s' w' = Some b) ->
  incl (v_ h (t_of w)) (mv_cur v') -> incl (rl h x_st) (mm_rel m' x_st) -> (debt a' > 0 \/ incl (mv_cur v') (mm_rel m' x_st)) ->
  let h' := MS s' m' (m_set (ms_view h) [t_of w] v') in (forall x, T h x -> T h' x) /\ (forall x, In x (mv_cur v') -> T h' x).
Proof.
  intros Ha Ha' Ho Hv Hr Hd. cbv zeta. unfold T at 2 3. cbn [ms_base ms_mem ms_view].
  assert (Hown : forall x, In x (mv_cur v') -> In x (mm_rel m' x_st) \/ exists w0 b, u_act s' w0 = Some b /\ debt b > 0 /\ In x (mv_cur (m_set (ms_view h) [t_of w] v' (t_of w0)))).
  { intros x Hx. destruct Hd as [Hd|Hd]; [right|left; auto]. exists w, a'. rewrite set_in by (simpl; auto). auto. }
  split; [|exact Hown]. intros x [H|(w' & b & H1 & H2 & H3)]; [auto|]. destruct (Nat.eq_dec (t_of w) (t_of w')) as [E|E].
  - apply Hown, Hv. now rewrite E.
  - right. exists w', b. rewrite set_out by (simpl; intuition). split; [|auto]. apply Ho; auto. congruence.
Qed.

(** A step of call w that does not destroy the operation *)
Lemma inv_move h w a l v0 m' v' a' s' : Inv h -> u_act (st h) w = Some a -> debt a > 0 -> eff (ms_mem h) v0 l m' v' -> incl (v_ h (t_of w)) (mv_cur v0) ->
  u_act s' w = Some a' -> (forall w' b, w <> w' -> u_act (st h) w' = Some b -> u_act s' w' = Some b) ->
  (forall w' b, u_act s' w' = Some b -> (w = w' /\ b = a') \/ (w <> w' /\ u_act (st h) w' = Some b)) ->
  (debt a' > 0 \/ incl (mv_cur v') (mm_rel m' x_st)) ->
  wr_ok w (u_init (st h)) l -> hk_wr l -> (w = None \/ u_init (st h) = true \/ forall i, ~ In (Touch (l_ev i) false) l) ->
  (u_init s' = u_init (st h) \/ (w = None /\ u_init s' = true /\ incl (mv_cur v') (mm_rel m' x_st))) ->
  (forall j c k, a' = UTry j c k -> istry a = 1 \/ (u_init s' = true /\ (w = None \/ (u_init (st h) = true /\ incl (rl h x_st) (mv_cur v'))))) ->
  (istry a = 1 -> u_init (st h) = true) ->
  (forall w' j c k, u_act (st h) w' = Some (UTry j c k) -> u_init (st h) = true) ->
  (forall i, i < N -> u_ph s' i = OUnset -> u_ph (st h) i = OUnset /\ (w = None \/ nohook l i)) ->
  (forall i e, i < N -> tk i = Some e -> u_ph s' i = OSet -> (u_ph (st h) i = OSet /\ nohook l i) \/ (Lk (mm_log m') (mv_cur v') i /\ incl (mv_cur v') (mm_rel m' (x_mtx e)))) ->
  incl (plist a') (plist a) -> (forall w' b i, w <> w' -> u_act (st h) w' = Some b -> In i (plist b) -> nohook l i) ->
  Inv (MS s' m' (m_set (ms_view h) [t_of w] v')).
Proof.
  intros HI Ha Hda Ef Hv0 Ha' Ho Hi' HT Hwr Hhk Hevr Hin Htry Htry0 Htry1 Hun Hset Hpl Hpo.
  assert (Hv : incl (v_ h (t_of w)) (mv_cur v')) by (eapply incl_tran; [exact Hv0|exact (ef_cur _ _ _ _ _ Ef)]).
  destruct (T_move h s' w a a' m' v' Ha Ha' Ho Hv (ef_rel _ _ _ _ _ Ef x_st) HT) as [T1 T2].
  assert (Hmain : debt (u_main s') > 0 -> (w = None /\ u_main (st h) = a) \/ (w <> None /\ u_main s' = u_main (st h))).
  { intros Hd. destruct (Hi' None (u_main s') eq_refl) as [[E1 E2]|[E1 E2]]; [left|right]; (split; [exact E1|]); [|simpl in E2; congruence]. rewrite E1 in Ha. simpl in Ha. congruence. }
  assert (Hm0 : w = None -> mv_cur (m_set (ms_view h) [t_of w] v' 0) = mv_cur v'). { intros ->. rewrite set_in by (simpl; auto). reflexivity. }
  assert (Hmo : forall w', w <> w' -> m_set (ms_view h) [t_of w] v' (t_of w') = ms_view h (t_of w')).
  { intros w' Hn. apply set_out. simpl. intros [E|[]]. apply Hn, t_of_inj, E. }
  assert (Hs0 : m_set (ms_view h) [t_of w] v' (t_of w) = v') by (apply set_in; simpl; auto).
  destruct HI as [A B C D E F G H J]. constructor; cbn [ms_base ms_mem ms_view].
  - intros x b p Hx Hop. destruct (eff_new_in Ef x b p Hx) as [K|K]; eauto.
  - intros w' b Hb Hd. destruct (Hi' _ _ Hb) as [[<- ->]|[Hn Hb']].
    + rewrite Hs0. apply (eff_kw Ef). apply (kw_incl _ _ _ _ (B _ _ Ha Hda) Hv0).
    + rewrite (Hmo _ Hn). apply (ow_st Ef Hwr). eauto.
  - intros Hd. destruct (Hmain Hd) as [[-> E2]|[E1 E2]].
    + rewrite (Hm0 eq_refl). apply (own_Mk Ef). apply (Mk_incl _ (v_ h 0)); [|exact Hv0]. apply C. rewrite E2. exact Hda.
    + change 0 with (t_of None). rewrite (Hmo None E1). apply (ow_Mk Ef Hwr); [apply C; congruence|exact E1].
  - intros E0 i. destruct Hin as [Hin|(_ & Hin & _)]; [|congruence]. rewrite Hin in E0. destruct w as [k|].
    + change 0 with (t_of None). rewrite (Hmo None) by discriminate. apply (eff_kn_other Ef); [apply D, E0|]. intros b Hb. destruct b.
      * apply Hwr in Hb. destruct loc_ne as (L & _). destruct Hb as [[j Hj]|[[Hj _]|Hj]]; [symmetry in Hj; exact (L _ _ Hj)|discriminate|apply Hj; auto].
      * destruct Hevr as [Hx|[Hx|Hx]]; [discriminate|congruence|exact (Hx _ Hb)].
    + rewrite (Hm0 eq_refl). apply (eff_kn Ef). apply (kn_incl _ (v_ h 0)); [apply D, E0|exact Hv0].
  - intros E1 i. destruct Hin as [Hin|(-> & _ & Hin)].
    + rewrite Hin in E1. apply (ow_ev Ef Hwr); [|right; exact E1]. apply (kw_incl _ (rl h x_st)); [apply E, E1|apply (ef_rel _ _ _ _ _ Ef)].
    + apply (kw_incl _ (mv_cur v')); [|exact Hin]. apply (eff_kw Ef). apply (kw_incl _ (v_ h 0)); [|exact Hv0]. apply C. simpl in Ha. congruence.
  - intros w' j c k Hb i. destruct (Hi' _ _ Hb) as [[<- <-]|[Hn Hb']].
    + rewrite Hs0. destruct (Htry _ _ _ eq_refl) as [K|[K1 [K2|[K2 K3]]]].
      * destruct a; try discriminate. apply (eff_kw Ef). apply (kw_incl _ (v_ h (t_of w))); [|exact Hv0]. eauto.
      * subst w. apply (eff_kw Ef). apply (kw_incl _ (v_ h 0)); [|exact Hv0]. apply C. simpl in Ha. congruence.
      * apply (kw_incl _ (rl h x_st)); [|exact K3]. apply (ow_ev Ef Hwr); [apply E, K2|right; exact K2].
    + rewrite (Hmo _ Hn). apply (ow_ev Ef Hwr); [eauto|]. right. eauto.
  - intros i Hi Hp. destruct (Hun i Hi Hp) as [Hp0 Hx]. destruct w as [k|].
    + change 0 with (t_of None). rewrite (Hmo None) by discriminate. destruct Hx as [Hx|Hx]; [discriminate|]. apply (ow_hk Ef); auto.
    + rewrite (Hm0 eq_refl). apply (eff_kn Ef). apply (kn_incl _ (v_ h 0)); [apply G; auto|exact Hv0].
  - intros i e Hi Ht Hp. destruct (Hset i e Hi Ht Hp) as [[Hp0 Hx]|[Hx Hy]].
    + apply (Lk_incl _ (rl h (x_mtx e))); [|apply (ef_rel _ _ _ _ _ Ef)]. apply (ow_Lk Ef Hwr); auto.
    + apply (Lk_incl _ (mv_cur v')); auto.
  - intros w' b i Hb Hi. destruct (Hi' _ _ Hb) as [[<- ->]|[Hn Hb']].
    + rewrite Hs0. destruct (J _ _ i Ha (Hpl _ Hi)) as [K1 K2]. split; [apply (eff_kn Ef)|apply (eff_kw Ef)]; [apply (kn_incl _ _ _ _ K1 Hv0)|apply (kw_incl _ _ _ _ K2 Hv0)].
    + rewrite (Hmo _ Hn). destruct (J _ _ i Hb' Hi) as [K1 K2]. split; [apply (ow_hk Ef); eauto|apply (ow_fn Ef Hwr); exact K2].
Qed.

Lemma own_Lk2 {m v l m' v'} (Ef : eff m v l m' v') R i : incl R (mv_cur v') -> Lk (mm_log m) (mv_cur v ++ R) i -> Lk (mm_log m') (mv_cur v') i.
Proof. intros HR (A & B & C). split; [|split]; [eapply own_kn|eapply own_kw|eapply own_kw]; eauto. Qed.
Lemma ko_exec (m : mmem) v l : ko (mm_log m) (mv_cur v) -> (forall x b, In (Touch x b) l -> opl x) -> m_exec m v l <> None.
Proof. intros H Hl. apply exec_ok; intros x Hx; [|apply kn_kw]; eauto. Qed.

Lemma in_hooks y b l : In (Touch y b) (u_hooks l) <-> b = true /\ exists i, In i l /\ y = l_hook i.
Proof.
  unfold u_hooks. rewrite in_map_iff. split.
  - intros (i & [= <- <-] & Hi). eauto.
  - intros (-> & i & Hi & ->). eauto.
Qed.
Lemma in_linked s e i : In i (u_linked toks s e) <-> i < N /\ u_ph s i = OSet /\ tk i = Some e.
Proof.
  unfold u_linked. rewrite filter_In, in_seq. unfold linked. rewrite andb_true_iff. split.
  - intros ([_ H1] & H2 & H3). split; [lia|]. split; [destruct (u_ph s i); simpl in H2; congruence|]. destruct (tk i); [|discriminate]. apply Nat.eqb_eq in H3. congruence.
  - intros (H1 & H2 & H3). rewrite H2, H3, Nat.eqb_refl. simpl. split; [lia|auto].
Qed.
Lemma not_rmw_hooks x a b l : ~ In (Rmw x a b) (u_hooks l).
Proof. unfold u_hooks. rewrite in_map_iff. intros (i & [=] & _). Qed.
Lemma hooks_touch l : forallb is_touch (u_hooks l) = true.
Proof. unfold u_hooks. induction l; simpl; auto. Qed.

(** ** Base facts *)
Lemma try_both s tr w j c k : UI s tr -> u_act s w = Some (UTry j c k) -> u_init s = true /\ u_canc s = true.
Proof.
  intros HI Ha. apply andb_true_iff. destruct (u_init s && u_canc s) eqn:E; auto. destruct (i_try0 _ _ _ HI E) as [H _]. pose proof (total_le istry _ _ _ Ha). simpl in *. lia.
Qed.
Lemma act_inv h tr w a : UI (st h) tr -> WI h -> u_act (st h) w = Some a -> a <> UIdle -> debt a > 0 -> u_dead (st h) = false /\ Inv h.
Proof.
  intros HA [H1 H2] Ha Hn Hd. pose proof (ui_alive _ _ _ _ _ HA Ha Hd) as Hal. split; [exact Hal|]. apply H2; [|exact Hal]. intros Em. destruct w as [k|]; simpl in Ha; [|congruence].
  destruct (H1 Em) as [_ H]. rewrite (H _ _ Ha) in Hd. lia.
Qed.
Lemma set_inv h tr i : UI (st h) tr -> WI h -> i < N -> u_ph (st h) i = OSet -> u_dead (st h) = false /\ Inv h.
Proof.
  intros HA [H1 H2] Hi Hp. pose proof (ui_alive_set _ _ _ _ HA Hi Hp) as Hal. split; [exact Hal|]. apply H2; [|exact Hal]. intros Em.
  pose proof (i_pos _ _ _ HA i Hi) as Hx. rewrite Em in Hx. simpl in Hx. rewrite Hp in Hx. assert (0 <= i) by lia. apply Hx in H. discriminate.
Qed.
Lemma debt_pos s tr w a : UI s tr -> u_act s w = Some a -> a <> UEnd -> a <> ULoop [] -> debt a > 0.
Proof.
  intros HI Ha H1 H2. pose proof (i_shape _ _ _ HI _ _ Ha) as Hs. destruct a as [|i|c k|i c k|c k|[|j r]|]; cbn [P_Suspend.debt length]; try congruence; try lia.
  - destruct w; simpl in Hs; [destruct Hs|lia].
  - rewrite shape_try in Hs. apply sub_ctr in Hs. lia.
  - apply sub_ctr in Hs. lia.
Qed.

Lemma main_set s tr w i : UI s tr -> u_act s w = Some (USet i) -> w = None /\ u_init s = false /\ (i < N -> u_ph s i = OUnset).
Proof.
  intros HI Ha. pose proof (i_shape _ _ _ HI _ _ Ha) as Hs. destruct w as [k|]; simpl in Hs; [destruct Hs|]. simpl in Ha. injection Ha as Em. split; [reflexivity|].
  split; [rewrite (i_init _ _ _ HI), Em; reflexivity|]. intros Hi. apply (i_pos _ _ _ HI i Hi). rewrite Em. simpl. lia.
Qed.
Lemma req_unlinked s tr e : UI s tr -> u_req s e = true -> u_linked toks s e = [].
Proof.
  intros HI Hr. destruct (u_linked toks s e) as [|i l] eqn:E; [reflexivity|]. exfalso. assert (Hi : In i (u_linked toks s e)) by (rewrite E; simpl; auto). apply in_linked in Hi. destruct Hi as (H1 & H2 & H3).
  rewrite (i_set _ _ _ HI i e H1 H2 H3) in Hr. discriminate.
Qed.

(** ** What a step touches is ordered. *)
Lemma all_true x b : In (Touch x b) (u_all toks) -> b = true.
Proof. unfold u_all. rewrite in_map_iff. intros (y & [= _ <-] & _). reflexivity. Qed.
Lemma all_opl x b : In (Touch x b) (u_all toks) -> opl x.
Proof.
  unfold u_all. rewrite in_map_iff. intros (y & [= <- _] & Hy). destruct Hy as [<-|[<-|Hy]]; auto. apply in_flat_map in Hy. destruct Hy as (i & _ & Hy). simpl in Hy.
  destruct Hy as [<-|[<-|[<-|[]]]]; auto.
Qed.
(** At the last decrement nobody else is in flight *)
Lemma last_ka h tr w c k : UI (st h) tr -> Inv h -> u_act (st h) w = Some (USub c k) -> u_ctr (st h) = c -> ko (lg h) (v_ h (t_of w) ++ rl h x_st).
Proof.
  intros HA HI Ha Hc x a p Hx Hop. destruct (v_all _ HI x a p Hx Hop) as [H|(w' & b & H1 & H2 & H3)]; apply in_or_app; [auto|left].
  destruct (Nat.eq_dec (t_of w) (t_of w')) as [E|E]; [congruence|]. exfalso. assert (Hn : w <> w') by congruence. pose proof (total_two debt _ _ _ _ _ Ha H1 Hn) as L.
  pose proof (i_ctr _ _ _ HA) as Hct. cbn [P_Suspend.debt] in L. lia.
Qed.

Lemma req_kn h e v : RI h -> kn (lg h) (v ++ rl h (x_mtx e)) (l_req e).
Proof. intros H. apply (kn_incl _ _ _ _ (H e)). apply incl_appr, incl_refl. Qed.
Lemma WI_ok h tr l v : UI (st h) tr -> PI (st h) -> RI h -> WI h -> forall s' es, u_step toks (st h) l = Next s' es -> m_exec (ms_mem h) (hv h l v) (acts (st h) l) <> None.
Proof.
  intros HA HP HR HI s' es Hs. destruct l as [|e|w]; cbn [u_step] in Hs.
  - destruct (u_main (st h)) eqn:Em; try discriminate. destruct HI as [HI _]. destruct (HI Em) as [Hlg _]. apply ko_exec; [|exact all_opl]. intros x a p Hx Hop. destruct (Hlg _ _ _ Hx Hop).
  - cbn [uh_acts]. apply lock_ok; intros y Hy; (destruct Hy as [Hy|Hy]; [first [discriminate Hy|injection Hy as <-; now apply req_kn]|]); apply in_app_or in Hy; (destruct Hy as [Hy|[[=]|[]]]); apply in_hooks in Hy; destruct Hy as (Hb & i & Hi & ->); [|discriminate].
    apply in_linked in Hi. destruct Hi as (H1 & H2 & H3). destruct (set_inv _ _ _ HA HI H1 H2) as [_ J]. destruct (v_set _ J i e H1 H3 H2) as (K & _).
    apply (kn_incl _ _ _ _ K). apply incl_appr, incl_refl.
  - destruct (u_act (st h) w) as [a|] eqn:Ha; [|discriminate]. cbn [uh_acts]. rewrite Ha.
    assert (Hv : incl (v_ h (t_of w)) (mv_cur (hv h (LStep w) v))) by (apply in_hview; simpl; auto).
    destruct a as [|i|c k|i c k|c k|[|i r]|]; try discriminate;
      (destruct (act_inv h tr w _ HA HI Ha ltac:(discriminate) (debt_pos _ _ _ _ HA Ha ltac:(discriminate) ltac:(discriminate))) as [Hal J]).
    + destruct (main_set _ _ _ _ HA Ha) as (-> & Hin & Hun). destruct (Nat.ltb_spec i N) as [Hi|Hi]; [|discriminate]. specialize (Hun Hi).
      assert (Hd : debt (u_main (st h)) > 0) by (replace (u_main (st h)) with (USet i) by (simpl in Ha; congruence); apply (debt_pos (st h) tr None); auto; discriminate).
      destruct (v_main _ J Hd) as (M1 & M2 & M3). destruct (tk i) as [e|] eqn:Et.
      * change (m_exec (ms_mem h) (hv h (LStep None) v) ([Touch l_op false; Touch (l_ev i) true] ++ Lock (x_mtx e) :: [Touch (l_req e) false] ++ (if u_req (st h) e then [] else u_hooks (i :: u_linked toks (st h) e)) ++ [Unlock (x_mtx e)] ++ (if u_req (st h) e then [Touch (l_fn i) false] else [])) <> None).
        apply mid_ok; [reflexivity|intros y Hy|intros y Hy|intros y [Hy|Hy]; [discriminate Hy|]; cbn [app] in Hy|intros y [Hy|Hy]; [injection Hy as <-; now apply kn_kw, req_kn|]; cbn [app] in Hy].
        -- simpl in Hy. destruct Hy as [[=]|[[= <-]|[]]]. apply (kn_incl _ (v_ h 0)); [|exact Hv]. now apply (v_ev0 _ J).
        -- simpl in Hy. destruct Hy as [[= <-]|[[=]|[]]]. apply (kw_incl _ (v_ h 0)); auto.
        -- destruct (u_req (st h) e); [simpl in Hy; intuition discriminate|]. apply in_app_or in Hy. destruct Hy as [Hy|Hy]; [|simpl in Hy; intuition discriminate].
           apply in_hooks in Hy. destruct Hy as (_ & j & [<-|Hj] & ->).
           ++ apply (kn_incl _ (v_ h 0)); [now apply (v_unset _ J)|]. apply incl_appl, Hv.
           ++ apply in_linked in Hj. destruct Hj as (H1 & H2 & H3). destruct (v_set _ J j e H1 H3 H2) as (K & _). apply (kn_incl _ _ _ _ K). apply incl_appr, incl_refl.
        -- destruct (u_req (st h) e).
           ++ simpl in Hy. destruct Hy as [[=]|[[= <-]|[]]]. apply (kw_incl _ (v_ h 0)); [apply M3|]. apply incl_appl, Hv.
           ++ apply in_app_or in Hy. destruct Hy as [Hy|Hy]; [|simpl in Hy; intuition discriminate]. apply in_hooks in Hy. destruct Hy as [Hy _]. discriminate.
      * apply exec_ok; intros y Hy; simpl in Hy; [intuition discriminate|]. destruct Hy as [[= <-]|[[= <-]|[]]]; apply (kw_incl _ (v_ h 0)); auto.
    + pose proof (debt_pos _ _ _ _ HA Ha ltac:(discriminate) ltac:(discriminate)) as Hd. pose proof (v_st _ J _ _ Ha Hd) as K.
      apply exec_ok; intros y Hy; simpl in Hy; [intuition discriminate|]. destruct Hy as [[= <-]|[[=]|[]]]. exact (kw_incl _ _ _ _ K Hv).
    + destruct (Nat.ltb_spec i N) as [Hi|Hi]; [|discriminate]. pose proof (v_try _ J _ _ _ _ Ha i) as K. destruct (tk i) as [e|] eqn:Et.
      * change (m_exec (ms_mem h) (hv h (LStep w) v) ([Touch (l_ev i) false] ++ Lock (x_mtx e) :: [Touch (l_req e) false] ++ (if u_req (st h) e then [] else u_hooks (u_linked toks (st h) e)) ++ [Unlock (x_mtx e)]) <> None).
        apply mid_ok; [reflexivity|intros y Hy|intros y Hy|intros y [Hy|Hy]; [discriminate Hy|]; cbn [app] in Hy|intros y [Hy|Hy]; [injection Hy as <-; now apply kn_kw, req_kn|]; cbn [app] in Hy].
        -- simpl in Hy. intuition discriminate.
        -- simpl in Hy. destruct Hy as [[= <-]|[]]. exact (kw_incl _ _ _ _ K Hv).
        -- destruct (u_req (st h) e); [simpl in Hy; intuition discriminate|]. apply in_app_or in Hy. destruct Hy as [Hy|Hy]; [|simpl in Hy; intuition discriminate].
           apply in_hooks in Hy. destruct Hy as (_ & j & Hj & ->).
           apply in_linked in Hj. destruct Hj as (H1 & H2 & H3). destruct (v_set _ J j e H1 H3 H2) as (K' & _). apply (kn_incl _ _ _ _ K'). apply incl_appr, incl_refl.
        -- destruct (u_req (st h) e); [simpl in Hy; intuition discriminate|]. apply in_app_or in Hy. destruct Hy as [Hy|Hy]; [|simpl in Hy; intuition discriminate].
           apply in_hooks in Hy. destruct Hy as [Hy _]. discriminate.
      * apply exec_ok; intros y Hy; simpl in Hy; [intuition discriminate|]. destruct Hy as [[= <-]|[]]. exact (kw_incl _ _ _ _ K Hv).
    + pose proof (debt_pos _ _ _ _ HA Ha ltac:(discriminate) ltac:(discriminate)) as Hd. pose proof (v_st _ J _ _ Ha Hd) as K. destruct (Nat.eqb_spec (u_ctr (st h)) c) as [Ec|Ec].
      * pose proof (last_ka _ _ _ _ _ HA J Ha Ec) as Hka.
        assert (Hka' : ko (lg h) (mv_cur (hv h (LStep w) v) ++ rl h x_st)). { apply (ko_incl _ _ _ Hka). apply incl_app; [apply incl_appl, Hv|apply incl_appr, incl_refl]. }
        rewrite exec_app. assert (H1 : m_exec (ms_mem h) (hv h (LStep w) v) ([Touch l_st false] ++ [Rmw x_st true true]) <> None).
        { apply exec_ok; intros y Hy; simpl in Hy; [intuition discriminate|]. destruct Hy as [[= <-]|[[=]|[]]]. exact (kw_incl _ _ _ _ K Hv). }
        change [Touch l_st false; Rmw x_st true true] with ([Touch l_st false] ++ [Rmw x_st true true]).
        destruct (m_exec (ms_mem h) (hv h (LStep w) v) ([Touch l_st false] ++ [Rmw x_st true true])) as [[m1 v1]|] eqn:E1; [|congruence]. clear H1.
        destruct (exec_rmw _ _ [Touch l_st false] _ _ _ _ _ eq_refl E1) as (_ & R2 & _). pose proof (eff_exec _ _ _ _ _ E1) as Ef. apply ko_exec; [|intros x b [[= <- _]|Hx]; [auto|exact (all_opl _ _ Hx)]].
        intros x a p Hx Hop. destruct (eff_new_in Ef x a p Hx) as [H|H]; [|exact H]. specialize (Hka' _ _ _ H Hop). clear H. rename Hka' into H. apply in_app_or in H. destruct H; [now apply (ef_cur _ _ _ _ _ Ef)|now apply (R2 eq_refl)].
      * apply exec_ok; intros y Hy; simpl in Hy; [intuition discriminate|]. destruct Hy as [[= <-]|[[=]|[]]]. exact (kw_incl _ _ _ _ K Hv).
    + apply exec_ok; intros y Hy; apply in_app_or in Hy; (destruct Hy as [Hy|Hy]; [apply in_hooks in Hy; destruct Hy as (Hb & j & Hj & ->)|simpl in Hy; destruct Hy as [[= <-]|[]]]); try discriminate.
      * destruct (v_list _ J _ _ j Ha Hj) as [K _]. exact (kn_incl _ _ _ _ K Hv).
      * destruct (v_list _ J _ _ i Ha (or_introl eq_refl)) as [_ K]. exact (kw_incl _ _ _ _ K Hv).
Qed.

(** ** The invariant is kept. *)
Lemma inv_with h tr w a l v0 m' v' a' d ini c n ph : UI (st h) tr -> PI (st h) ->
  let s' := u_with_act (US d ini c n ph (u_req (st h)) (u_main (st h)) (u_acts (st h))) w a' in
  Inv h -> u_act (st h) w = Some a -> debt a > 0 -> eff (ms_mem h) v0 l m' v' -> incl (v_ h (t_of w)) (mv_cur v0) ->
  (debt a' > 0 \/ incl (mv_cur v') (mm_rel m' x_st)) ->
  wr_ok w (u_init (st h)) l -> hk_wr l -> (w = None \/ u_init (st h) = true \/ forall i, ~ In (Touch (l_ev i) false) l) ->
  (ini = u_init (st h) \/ (w = None /\ ini = true /\ incl (mv_cur v') (mm_rel m' x_st))) ->
  (forall j c k, a' = UTry j c k -> istry a = 1 \/ (ini = true /\ (w = None \/ (u_init (st h) = true /\ incl (rl h x_st) (mv_cur v'))))) ->
  (forall i, i < N -> ph i = OUnset -> u_ph (st h) i = OUnset /\ (w = None \/ nohook l i)) ->
  (forall i e, i < N -> tk i = Some e -> ph i = OSet -> (u_ph (st h) i = OSet /\ nohook l i) \/ (Lk (mm_log m') (mv_cur v') i /\ incl (mv_cur v') (mm_rel m' (x_mtx e)))) ->
  incl (plist a') (plist a) -> (forall i, nohook l i \/ In i (plist a) \/ u_ph (st h) i <> OTaken) ->
  Inv (MS s' m' (m_set (ms_view h) [t_of w] v')).
Proof.
  intros HA HP s' HI Ha Hda Ef Hv0 HT Hwr Hhk Hevr Hin Htry Hun Hset Hpl Hpo. set (s0 := US d ini c n ph (u_req (st h)) (u_main (st h)) (u_acts (st h))) in *.
  assert (Ha0 : u_act s0 w = Some a) by (destruct w; exact Ha).
  assert (Hph : u_ph s' = ph /\ u_init s' = ini) by (destruct w; split; reflexivity). destruct Hph as [Hph Hini].
  apply (inv_move h w a l v0 m' v' a' s'); rewrite ?Hph, ?Hini; auto.
  - exact (act_with_same _ _ _ _ Ha0).
  - intros w' b Hn Hb. unfold s'. rewrite (act_with_other _ _ _ _ Hn). destruct w'; exact Hb.
  - apply (with_inv (st h) s0 w a); auto.
  - destruct a; simpl; try discriminate. intros _. exact (proj1 (try_both _ _ _ _ _ _ HA Ha)).
  - intros w' j c0 k Hb. exact (proj1 (try_both _ _ _ _ _ _ HA Hb)).
  - intros w' b i Hn Hb Hi. destruct (p_tk _ HP _ _ _ Hb Hi) as (_ & Hp & _). destruct (Hpo i) as [H|[H|H]]; [exact H| |congruence]. destruct (p_dj _ HP _ _ _ _ i Hn Ha Hb H Hi).
Qed.

Lemma WI_idle h w mem' v' : WI h -> u_act (st h) w = Some (ULoop []) -> w <> None -> mm_log mem' = lg h -> mm_rel mem' = mm_rel (ms_mem h) -> incl (v_ h (t_of w)) (mv_cur v') ->
  WI (MS (u_with_act (st h) w UEnd) mem' (m_set (ms_view h) [t_of w] v')).
Proof.
  intros [W1 W2] Ha Hn Hlg Hrl Hv. destruct w as [k|]; [|congruence]. clear Hn.
  assert (Hx : forall w' b, u_act (u_with_act (st h) (Some k) UEnd) w' = Some b -> (Some k = w' /\ b = UEnd) \/ (Some k <> w' /\ u_act (st h) w' = Some b)).
  { intros w' b. apply (with_inv (st h) (st h) (Some k) (ULoop []) UEnd); auto. }
  split; cbn [ms_base ms_mem ms_view u_with_act u_main u_acts u_dead].
  - intros Em. destruct (W1 Em) as [H1 H2]. split; [rewrite Hlg; exact H1|]. intros j b Hj. destruct (Hx (Some j) b Hj) as [[_ ->]|[_ H]]; [reflexivity|eauto].
  - intros Em Hd. destruct (W2 Em Hd) as [A B C D E F G H J].
    assert (Hmo : forall w', Some k <> w' -> m_set (ms_view h) [t_of (Some k)] v' (t_of w') = ms_view h (t_of w')).
    { intros w' Hw. apply set_out. simpl. intros [Q|[]]. apply Hw, t_of_inj, Q. }
    assert (Hm0 : m_set (ms_view h) [t_of (Some k)] v' 0 = ms_view h 0) by (apply set_out; simpl; intros [Q|[]]; discriminate).
    constructor; cbn [ms_base ms_mem ms_view u_with_act u_main u_acts u_dead u_init u_ph] in *; rewrite ?Hlg, ?Hrl, ?Hm0; auto.
    + intros x ac p Hx0 Hop. destruct (A x ac p Hx0 Hop) as [Q|(w' & b & Q1 & Q2 & Q3)]; [left; cbn [ms_mem]; now rewrite Hrl|right]. exists w', b. assert (Hw : Some k <> w') by (intros <-; rewrite Ha in Q1; injection Q1 as <-; simpl in Q2; lia).
      cbn [ms_base ms_view]. rewrite (Hmo _ Hw). split; [|auto]. exact (eq_trans (act_with_other (st h) (Some k) w' UEnd Hw) Q1).
    + intros w' b Hb Hdb. destruct (Hx _ _ Hb) as [[_ ->]|[Hw Hb']]; [simpl in Hdb; lia|]. rewrite (Hmo _ Hw). eauto.
    + intros w' j c0 k0 Hb. destruct (Hx _ _ Hb) as [[_ Q]|[Hw Hb']]; [discriminate|]. rewrite (Hmo _ Hw). eauto.
    + intros w' b i Hb Hi. destruct (Hx _ _ Hb) as [[_ ->]|[Hw Hb']]; [destruct Hi|]. rewrite (Hmo _ Hw). eauto.
Qed.

Lemma debt0_plist s tr w a : UI s tr -> u_act s w = Some a -> debt a = 0 -> plist a = [] /\ istry a = 0.
Proof.
  intros HA Ha Hd. assert (Hx : a = UEnd \/ a = ULoop []).
  { destruct a as [|i|c k|i c k|c k|[|j r]|]; auto; exfalso; pose proof (debt_pos _ _ _ _ HA Ha ltac:(discriminate) ltac:(discriminate)); lia. }
  destruct Hx as [->| ->]; auto.
Qed.

Ltac notin := let H := fresh in intros H; simpl in H; repeat (destruct H as [H|H]; [discriminate H|]); destruct H.
(** Splits a membership in a list of touches *)
Ltac tin H := repeat first [rewrite in_app_iff in H|rewrite in_hooks in H|progress cbn [In app] in H]; repeat match type of H with _ \/ _ => destruct H as [H|H] end; try discriminate H; try (destruct H; fail);
  try match type of H with Touch (l_req _) _ = Touch (_ _) _ => exfalso; injection H; unfold l_req, l_hook, l_ev, l_fn; intros; lia end.

Lemma cancel_inv h tr e v m' v' s' es : UI (st h) tr -> PI (st h) -> WI h -> u_step toks (st h) (LCancel e) = Next s' es ->
  m_exec (ms_mem h) (hv h (LCancel e) v) (acts (st h) (LCancel e)) = Some (m', v') -> WI (MS s' m' (m_set (ms_view h) [t_of (Some (length (u_acts (st h))))] v')).
Proof.
  intros HA HP HI Hs He. pose proof (eff_exec _ _ _ _ _ He) as Ef. cbn [u_step] in Hs. cbv zeta in Hs. destruct (u_dead (st h) && _); [discriminate|]. injection Hs as <- <-. cbn [uh_acts] in *.
  fold (u_linked toks (st h) e). set (tak := u_linked toks (st h) e) in *. set (k0 := length (u_acts (st h))).
  assert (Hrl : incl (rl h (x_mtx e)) (mv_cur v')) by exact (exec_lock _ _ _ _ _ _ _ He).
  assert (Hul : incl (mv_cur v') (mm_rel m' (x_mtx e))). { rewrite app_assoc in He. exact (exec_unlock _ _ _ _ _ _ _ He). }
  assert (Hst : mm_rel m' x_st = rl h x_st). { revert He. apply exec_rel_other. intros a r Hi. rewrite !in_app_iff in Hi. destruct Hi as [[Hi|[Hi|[]]]|[Hi|[Hi|[]]]]; try (unfold Lock, Unlock, x_mtx, x_st in Hi; congruence). exact (not_rmw_hooks _ _ _ _ Hi). }
  assert (Hnew : forall x a p, nth_error (mm_log m') x = Some (a, p) -> opl (ma_loc a) -> nth_error (lg h) x = Some (a, p) \/ (In x (mv_cur v') /\ tak <> [])).
  { intros x a p Hni Hop. destruct (eff_cases Ef _ _ _ Hni) as [[_ H]|(_ & H & Ht)]; [auto|right]. split; [exact H|].
    rewrite !in_app_iff in Ht. destruct Ht as [[Ht|[Ht|[]]]|[Ht|[Ht|[]]]]; try discriminate; [injection Ht as Ht _; symmetry in Ht; destruct (Hop _ Ht)|]. apply in_hooks in Ht. destruct Ht as (_ & i & Hi & _). intros E. rewrite E in Hi. destruct Hi. }
  assert (Hx : forall w b, u_act (US (u_dead (st h)) (u_init (st h)) (u_canc (st h)) (u_ctr (st h)) (fun i => if (i <? N) && linked toks (st h) e i then OTaken else u_ph (st h) i) (upd (u_req (st h)) e true) (u_main (st h)) (u_acts (st h) ++ [ULoop tak])) w = Some b ->
     (u_act (st h) w = Some b /\ Some k0 <> w) \/ (w = Some k0 /\ b = ULoop tak)).
  { intros [k|] b Hb; simpl in *; [|left; split; [exact Hb|discriminate]]. apply nth_snoc in Hb. destruct Hb as [Hb|[-> ->]]; [left|auto]. split; [exact Hb|]. assert (k < length (u_acts (st h))) by (apply nth_error_Some; congruence). unfold k0. intros [= Q]. lia. }
  assert (Hmo : forall w', Some k0 <> w' -> m_set (ms_view h) [t_of (Some k0)] v' (t_of w') = ms_view h (t_of w')).
  { intros w' Hw. apply set_out. simpl. intros [Q|[]]. apply Hw, t_of_inj, Q. }
  assert (Hm0 : m_set (ms_view h) [t_of (Some k0)] v' 0 = ms_view h 0) by (apply set_out; simpl; intros [Q|[]]; discriminate).
  assert (Hs0 : m_set (ms_view h) [t_of (Some k0)] v' (t_of (Some k0)) = v') by (apply set_in; simpl; auto).
  split; cbn [ms_base ms_mem ms_view u_main u_acts u_dead].
  - intros Em. destruct HI as [W1 _]. destruct (W1 Em) as [H1 H2]. assert (Htk : tak = []).
    { destruct tak as [|i t] eqn:Etk; [reflexivity|]. exfalso. assert (Hi : In i (u_linked toks (st h) e)) by (fold tak; rewrite Etk; simpl; auto). apply in_linked in Hi. destruct Hi as (Q1 & Q2 & Q3).
      pose proof (i_pos _ _ _ HA i Q1) as Q. rewrite Em, Q2 in Q. simpl in Q. destruct Q as [_ Q]. discriminate (Q (Nat.le_0_l i)). }
    split.
    + intros x a p Hni Hop. destruct (Hnew x a p Hni Hop) as [Q|[_ Q]]; [exact (H1 _ _ _ Q Hop)|congruence].
    + intros k b Hk. apply nth_snoc in Hk. destruct Hk as [Hk|[_ ->]]; [eauto|]. rewrite Htk. reflexivity.
  - intros Em Hd. destruct HI as [_ W2]. destruct (W2 Em Hd) as [A B C D E F G H J].
    assert (Hwr : wr_ok (Some k0) true ([Lock (x_mtx e); Touch (l_req e) true] ++ u_hooks tak ++ [Unlock (x_mtx e)])).
    { intros x Hi. rewrite !in_app_iff in Hi. destruct Hi as [[Hi|[Hi|[]]]|[Hi|[Hi|[]]]]; try discriminate; [injection Hi as <-; right; right; intros Q; exact (Q e eq_refl)|left]. apply in_hooks in Hi. destruct Hi as (_ & i & _ & ->). eauto. }
    assert (Hhk : hk_wr ([Lock (x_mtx e); Touch (l_req e) true] ++ u_hooks tak ++ [Unlock (x_mtx e)])).
    { intros i Hi. rewrite !in_app_iff in Hi. destruct Hi as [[Hi|[Hi|[]]]|[Hi|[Hi|[]]]]; try discriminate. apply in_hooks in Hi. destruct Hi as (Q & _). discriminate. }
    assert (Hno : forall i, (u_ph (st h) i <> OSet \/ tk i <> Some e) -> nohook ([Lock (x_mtx e); Touch (l_req e) true] ++ u_hooks tak ++ [Unlock (x_mtx e)]) i).
    { intros i Hn Hi. rewrite !in_app_iff in Hi. destruct Hi as [[Hi|[Hi|[]]]|[Hi|[Hi|[]]]]; try discriminate; [injection Hi as Hi; symmetry in Hi; destruct (opl_hook _ _ Hi)|]. apply in_hooks in Hi. destruct Hi as (_ & j & Hj & Q).
      apply loc_ne in Q. subst j. apply in_linked in Hj. destruct Hj as (_ & Q1 & Q2). destruct Hn; congruence. }
    assert (Hlk : forall i, In i tak -> Lk (mm_log m') (mv_cur v') i).
    { intros i Hi. apply in_linked in Hi. destruct Hi as (Q1 & Q2 & Q3). apply (own_Lk2 Ef (rl h (x_mtx e))); [exact Hrl|]. apply (Lk_incl _ _ _ _ (H i e Q1 Q3 Q2)). apply incl_appr, incl_refl. }
    constructor; cbn [ms_base ms_mem ms_view u_main u_acts u_dead u_init u_ph]; rewrite ?Hm0, ?Hst.
    + intros x ac p Hxl Hop. destruct (Hnew x ac p Hxl Hop) as [Q|[Q1 Q2]].
      * destruct (A x ac p Q Hop) as [Q'|(w' & b & Q1 & Q2 & Q3)]; [left; cbn [ms_mem]; now rewrite Hst|right]. exists w', b. cbn [ms_base ms_view].
        assert (Hw : Some k0 <> w'). { intros <-. simpl in Q1. assert (k0 < length (u_acts (st h))) by (apply nth_error_Some; congruence). unfold k0 in *. lia. }
        rewrite (Hmo _ Hw). split; [|auto]. destruct w' as [k|]; simpl in *; [|exact Q1]. rewrite nth_error_app1; [exact Q1|]. apply nth_error_Some. congruence.
      * right. exists (Some k0), (ULoop tak). cbn [ms_base ms_view]. rewrite Hs0. split; [simpl; unfold k0; rewrite nth_error_app2, Nat.sub_diag by lia; reflexivity|]. split; [|exact Q1].
        cbn [P_Suspend.debt]. destruct tak; [congruence|simpl; lia].
    + intros w b Hb Hdb. destruct (Hx _ _ Hb) as [[Q1 Q2]|[-> ->]].
      * rewrite (Hmo _ Q2). apply (ow_st Ef Hwr). eauto.
      * rewrite Hs0. destruct tak as [|i t] eqn:Etk; [simpl in Hdb; lia|]. apply (Hlk i). simpl. auto.
    + intros Hdb. apply (ow_Mk Ef Hwr); [auto|discriminate].
    + intros Ei i. apply (eff_kn_other Ef); [auto|]. intros b Hi. destruct loc_ne as (L & _). rewrite !in_app_iff in Hi. destruct Hi as [[Hi|[Hi|[]]]|[Hi|[Hi|[]]]]; try discriminate; [injection Hi as Hi _; symmetry in Hi; destruct (opl_ev _ _ Hi)|]. apply in_hooks in Hi.
      destruct Hi as (_ & j & _ & Q). symmetry in Q. exact (L _ _ Q).
    + intros Ei i. apply (ow_ev Ef Hwr); auto.
    + intros w j c k Hb i. destruct (Hx _ _ Hb) as [[Q1 Q2]|[_ Q]]; [|discriminate]. rewrite (Hmo _ Q2). apply (ow_ev Ef Hwr); [eauto|auto].
    + intros i Hi Hp. apply (ow_hk Ef); [apply G; auto|exact Hhk|apply Hno; left]; destruct (_ && _); congruence.
    + intros i e' Hi Ht Hp. destruct (Nat.ltb_spec i N) as [_|Q]; [|lia]. cbn [andb] in Hp. destruct (linked toks (st h) e i) eqn:El; [discriminate|].
      apply (Lk_incl _ (rl h (x_mtx e'))); [|apply (ef_rel _ _ _ _ _ Ef)]. apply (ow_Lk Ef Hwr); [eauto|exact Hhk|]. apply Hno. right. intros Q. unfold linked in El. rewrite Hp, Q, Nat.eqb_refl in El. discriminate.
    + intros w b i Hb Hi. destruct (Hx _ _ Hb) as [[Q1 Q2]|[-> ->]].
      * rewrite (Hmo _ Q2). destruct (J _ _ _ Q1 Hi) as [K1 K2]. destruct (p_tk _ HP _ _ _ Q1 Hi) as (_ & Hp & _). split; [apply (ow_hk Ef); [exact K1|exact Hhk|apply Hno; left; congruence]|apply (ow_fn Ef Hwr); exact K2].
      * rewrite Hs0. destruct (Hlk i Hi) as (K1 & K2 & _). auto.
Qed.

Lemma start_inv h tr v m' v' s' es : UI (st h) tr -> WI h -> u_step toks (st h) LStart = Next s' es ->
  m_exec (ms_mem h) (hv h LStart v) (acts (st h) LStart) = Some (m', v') -> WI (MS s' m' (m_set (ms_view h) [t_of None] v')).
Proof.
  intros HA [W1 _] Hs He. pose proof (eff_exec _ _ _ _ _ He) as Ef. cbn [u_step] in Hs. destruct (u_main (st h)) eqn:Em; try discriminate. injection Hs as <- <-.
  destruct (W1 eq_refl) as [H1 H2]. assert (Hka : ko (mm_log m') (mv_cur v')). { intros x a p Hx Hop. destruct (eff_new_in Ef x a p Hx) as [H|H]; [destruct (H1 _ _ _ H Hop)|exact H]. }
  assert (Hin : u_init (st h) = false) by (rewrite (i_init _ _ _ HA), Em; reflexivity).
  assert (Hun : forall i, i < N -> u_ph (st h) i = OUnset) by (intros i Hi; apply (i_pos _ _ _ HA i Hi); rewrite Em; simpl; lia).
  assert (Hs0 : m_set (ms_view h) [t_of None] v' 0 = v') by (apply set_in; simpl; auto).
  assert (Hx : forall w b, u_act (u_with_act (st h) None (USet 0)) w = Some b -> (w = None /\ b = USet 0) \/ (exists k, w = Some k /\ nth_error (u_acts (st h)) k = Some b)).
  { intros [k|] b Hb; simpl in *; [right; eauto|left; split; congruence]. }
  split; cbn [ms_base ms_mem ms_view u_with_act u_main]; [discriminate|]. intros _ _. constructor; cbn [ms_base ms_mem ms_view u_with_act u_main u_init u_ph u_acts]; rewrite ?Hs0.
  - intros x a p Hxl Hop. right. exists None, (USet 0). cbn [ms_base ms_view]. change (t_of None) with 0 in *. rewrite Hs0. split; [reflexivity|]. split; [simpl; lia|eauto].
  - intros w b Hb Hd. destruct (Hx _ _ Hb) as [[-> ->]|(k & -> & Hk)]; [rewrite set_in by (simpl; auto); apply kn_kw; auto|]. rewrite (H2 _ _ Hk) in Hd. lia.
  - intros _. now apply Mk_ka.
  - intros _ i. auto.
  - rewrite Hin. discriminate.
  - intros w j c k Hb. destruct (Hx _ _ Hb) as [[_ Q]|(q & -> & Hk)]; [discriminate|]. destruct (debt0_plist _ _ (Some q) _ HA Hk (H2 _ _ Hk)) as [_ Q]. discriminate.
  - intros i Hi _. auto.
  - intros i e Hi _ Hp. rewrite (Hun i Hi) in Hp. discriminate.
  - intros w b i Hb Hi. destruct (Hx _ _ Hb) as [[-> ->]|(q & -> & Hk)]; [destruct Hi|]. destruct (debt0_plist _ _ (Some q) _ HA Hk (H2 _ _ Hk)) as [Q _]. rewrite Q in Hi. destruct Hi.
Qed.

Lemma wr_nil w b : wr_ok w b []. Proof. intros x []. Qed.
Lemma hk_nil : hk_wr []. Proof. intros x []. Qed.

Lemma call_inv h tr w a v m' v' s' es : UI (st h) tr -> PI (st h) -> WI h -> u_act (st h) w = Some a -> uact_step toks (st h) w a = Next s' es ->
  m_exec (ms_mem h) (hv h (LStep w) v) (acts (st h) (LStep w)) = Some (m', v') -> a <> ULoop [] -> u_dead s' = false -> Inv (MS s' m' (m_set (ms_view h) [t_of w] v')).
Proof.
  intros HA HP HW Ha Hs He Hne Hal'. pose proof (eff_exec _ _ _ _ _ He) as Ef.
  assert (Hend : a <> UEnd) by (intros ->; discriminate). assert (Hidle : a <> UIdle) by (intros ->; discriminate).
  pose proof (debt_pos _ _ _ _ HA Ha Hend Hne) as Hd. destruct (act_inv _ _ _ _ HA HW Ha Hidle Hd) as [Hal J].
  assert (Hv : incl (v_ h (t_of w)) (mv_cur (hv h (LStep w) v))) by (apply in_hview; simpl; auto).
  cbn [uh_acts] in He, Ef. rewrite Ha in He, Ef. destruct loc_ne as (L1 & L2 & L3 & L4 & L5 & L6 & L7 & L8 & L9).
  destruct a as [|i|c k|i c k|c k|[|i r]|]; cbn [uact_step] in Hs; try congruence; rewrite ?Hal in Hs.
  - (* start() *)
    destruct (main_set _ _ _ _ HA Ha) as (-> & Hin & Hun). destruct (Nat.ltb_spec i N) as [Hi|Hi].
    2:{ injection Hs as <- <-. destruct (st h) as [dd ii cc nn pp rr mm aa] eqn:Est. replace (u_with_act _ _ _) with (u_with_act (US dd ii cc nn pp (u_req (st h)) (u_main (st h)) (u_acts (st h))) None (UOr false KRet)) by (rewrite Est; reflexivity).
        rewrite <- Est in *. eapply (inv_with h tr None (USet i)); eauto using wr_nil, hk_nil; rewrite ?Est; simpl; auto; try discriminate; try lia.
        - intros j e Hj He' Hp. left. split; [exact Hp|intros []].
        - intros x [].
        - intros j. left. intros []. }
    specialize (Hun Hi).
    assert (Hd0 : debt (u_main (st h)) > 0) by (replace (u_main (st h)) with (USet i) by (simpl in Ha; congruence); exact Hd).
    destruct (v_main _ J Hd0) as (M1 & M2 & M3).
    assert (HdS : debt (USet (S i)) > 0) by (cbn [P_Suspend.debt]; lia).
    destruct (tk i) as [e|] eqn:Et.
    + rewrite Hun in Hs. destruct (u_req (st h) e) eqn:Er; injection Hs as <- <-.
      * apply (inv_with h tr None (USet i) _ _ m' v' (UOr true (KStart (S i))) (u_dead (st h)) (u_init (st h)) (u_canc (st h)) (u_ctr (st h)) (upd (u_ph (st h)) i OTaken) HA HP J Ha Hd Ef Hv); auto.
        -- left. cbn [P_Suspend.debt P_Suspend.debtk]. lia.
        -- intros x Hx. tin Hx. injection Hx as <-. right. left. split; [reflexivity|]. split; [exact Hin|eauto].
        -- intros x Hx. tin Hx; injection Hx as Hx; symmetry in Hx; [destruct (L4 _ Hx)|destruct (L2 _ _ Hx)].
        -- intros j c' k' [=].
        -- intros j Hj Hp. split; [|auto]. revert Hp. unfold upd. destruct (Nat.eqb_spec j i) as [->|]; [discriminate|auto].
        -- intros j e' Hj Ht Hp. left. split; [|intros Hx; tin Hx; injection Hx as Hx; symmetry in Hx; destruct (L1 _ _ Hx)]. revert Hp. unfold upd. destruct (Nat.eqb_spec j i) as [->|]; [discriminate|auto].
        -- simpl. apply incl_refl.
        -- intros j. left. intros Hx. tin Hx. injection Hx as Hx. symmetry in Hx. destruct (L1 _ _ Hx).
      * set (l2 := Touch (l_req e) false :: u_hooks (i :: u_linked toks (st h) e) ++ [Unlock (x_mtx e)]).
        assert (He2 : m_exec (ms_mem h) (hv h (LStep None) v) ([Touch l_op false; Touch (l_ev i) true] ++ Lock (x_mtx e) :: l2) = Some (m', v')).
        { rewrite <- He. unfold l2. cbn [app]. rewrite ?app_nil_r. reflexivity. }
        pose proof (mid_lock _ _ _ _ _ _ _ (eq_refl : forallb is_touch [Touch l_op false; Touch (l_ev i) true] = true) He2) as Hrl.
        assert (Hul : incl (mv_cur v') (mm_rel m' (x_mtx e))).
        { unfold l2 in He2. rewrite 2 app_comm_cons, app_assoc in He2. exact (exec_unlock _ _ _ _ _ _ _ He2). }
        clear He He2. clear l2.
        apply (inv_with h tr None (USet i) _ _ m' v' (USet (S i)) (u_dead (st h)) (u_init (st h)) (u_canc (st h)) (u_ctr (st h)) (upd (u_ph (st h)) i OSet) HA HP J Ha Hd Ef Hv); auto.
        -- intros x Hx. tin Hx; [injection Hx as <-; right; left; split; [reflexivity|]; split; [exact Hin|eauto]|]. destruct Hx as (_ & j & _ & ->). eauto.
        -- intros x Hx. tin Hx; [injection Hx as Hx; symmetry in Hx; destruct (L4 _ Hx)|destruct Hx; discriminate].
        -- intros j c' k' [=].
        -- intros j Hj Hp. split; [|auto]. revert Hp. unfold upd. destruct (Nat.eqb_spec j i) as [->|]; [discriminate|auto].
        -- intros j e' Hj Ht Hp. destruct (Nat.eq_dec j i) as [->|Hn].
           ++ right. assert (e' = e) by congruence. subst e'. split; [|exact Hul]. apply (own_Lk Ef). split; [|split].
              ** apply (kn_incl _ (v_ h 0)); [now apply (v_unset _ J)|exact Hv].
              ** apply (kw_incl _ (v_ h 0)); [apply M3|exact Hv].
              ** apply (kw_incl _ (v_ h 0)); [exact (v_st _ J None _ eq_refl Hd0)|exact Hv].
           ++ rewrite upd_other in Hp by auto. destruct (Nat.eq_dec e' e) as [->|Hne'].
              ** right. split; [|exact Hul]. apply (own_Lk2 Ef (rl h (x_mtx e)) j Hrl). apply (Lk_incl _ _ _ _ (v_set _ J j e Hj Ht Hp)). apply incl_appr, incl_refl.
              ** left. split; [exact Hp|]. intros Hx. tin Hx; [injection Hx as Hx; symmetry in Hx; destruct (L1 _ _ Hx)|]. destruct Hx as (_ & q & Hq & Hx). apply L9 in Hx. subst q.
                 destruct Hq as [Hq|Hq]; [congruence|]. apply in_linked in Hq. destruct Hq as (_ & _ & Hq). congruence.
        -- simpl. apply incl_refl.
        -- intros j. destruct (u_ph (st h) j) eqn:Ep; try (right; right; discriminate). left. intros Hx. tin Hx; [injection Hx as Hx; symmetry in Hx; destruct (L1 _ _ Hx)|].
           destruct Hx as (_ & q & Hq & Hx). apply L9 in Hx. subst q. destruct Hq as [Hq|Hq]; [congruence|]. apply in_linked in Hq. destruct Hq as (_ & Hq & _). congruence.
    + injection Hs as <- <-.
      apply (inv_with h tr None (USet i) _ _ m' v' (USet (S i)) (u_dead (st h)) (u_init (st h)) (u_canc (st h)) (u_ctr (st h)) (upd (u_ph (st h)) i OSet) HA HP J Ha Hd Ef Hv); auto.
      * intros x Hx. tin Hx.
      * intros x Hx. tin Hx; injection Hx as Hx; symmetry in Hx; [destruct (L4 _ Hx)|destruct (L1 _ _ Hx)].
      * intros j c' k' [=].
      * intros j Hj Hp. split; [|auto]. revert Hp. unfold upd. destruct (Nat.eqb_spec j i) as [->|]; [discriminate|auto].
      * intros j e' Hj Ht Hp. left. split; [|intros Hx; tin Hx]. rewrite upd_other in Hp by congruence. exact Hp.
      * simpl. apply incl_refl.
      * intros j. left. intros Hx. tin Hx.
  - (* fetch_or() *)
    change [Touch l_st false; Rmw x_st true true] with ([Touch l_st false] ++ [Rmw x_st true true]) in He. destruct (exec_rmw _ _ [Touch l_st false] _ _ _ _ _ eq_refl He) as (R1 & R2 & _).
    specialize (R1 eq_refl). specialize (R2 eq_refl). injection Hs as <- <-.
    eapply (inv_with h tr w (UOr c k)); eauto.
    + intros x Hx. tin Hx.
    + intros x Hx. tin Hx. injection Hx as Hx. symmetry in Hx. destruct (L3 _ Hx).
    + right. right. intros j Hx. tin Hx. injection Hx as Hx. symmetry in Hx. destruct (L6 _ Hx).
    + pose proof (i_shape _ _ _ HA _ _ Ha) as Hsh. destruct c; [left; rewrite orb_false_r; reflexivity|]. right. destruct w as [q|]; simpl in Hsh; [destruct k; try discriminate; destruct Hsh|].
      split; [reflexivity|]. split; [apply orb_true_r|exact R1].
    + intros j c' k' Hx. right. destruct (negb (u_init (st h) && u_canc (st h)) && _) eqn:Eb; [|discriminate]. apply andb_true_iff in Eb. destruct Eb as [_ Eb]. apply andb_true_iff in Eb. destruct Eb as [Eb1 Eb2].
      split; [exact Eb1|]. destruct w as [q|]; [right|auto]. pose proof (i_shape _ _ _ HA _ _ Ha) as Hsh. simpl in Hsh. destruct k; try (destruct Hsh; fail). subst c. simpl in Eb1. rewrite orb_false_r in Eb1. auto.
    + intros j Hj Hp. split; [exact Hp|]. right. intros Hx. tin Hx.
    + intros j e Hj Ht Hp. left. split; [exact Hp|]. intros Hx. tin Hx.
    + destruct (negb _ && _); simpl; apply incl_refl.
    + intros j. left. intros Hx. tin Hx.
  - (* try_reset() *)
    destruct (try_both _ _ _ _ _ _ HA Ha) as [Hin Hcan].
    assert (Hds : forall j c', c' >= c -> debt (UTry j c' k) > 0) by (intros j c' Hc; cbn [P_Suspend.debt] in *; lia).
    destruct (Nat.ltb_spec i N) as [Hi|Hi].
    2:{ injection Hs as <- <-. replace (u_with_act (st h) w (USub c k)) with (u_with_act (US (u_dead (st h)) (u_init (st h)) (u_canc (st h)) (u_ctr (st h)) (u_ph (st h)) (u_req (st h)) (u_main (st h)) (u_acts (st h))) w (USub c k)) by (destruct (st h); reflexivity).
        eapply (inv_with h tr w (UTry i c k)); eauto using wr_nil, hk_nil, incl_refl; try discriminate.
        - intros j Hj Hp. split; [exact Hp|right; intros []].
        - intros j e Hj Ht Hp. left. split; [exact Hp|intros []].
        - intros j. left. intros []. }
    assert (Hpos : u_ph (st h) i <> OUnset).
    { intros E. apply (i_pos _ _ _ HA i Hi) in E. assert (Hb : u_init (st h) && u_canc (st h) = true) by (rewrite Hin, Hcan; reflexivity). pose proof (both_past _ _ _ HA Hb) as H. destruct (u_main (st h)) as [|?|? []|? ? []|? []|?|]; simpl in *; try discriminate; lia. }
    destruct (tk i) as [e|] eqn:Et.
    + destruct (u_req (st h) e) eqn:Er.
      * assert (Hs2 : s' = u_with_act (US (u_dead (st h)) (u_init (st h)) (u_canc (st h)) (u_ctr (st h)) (u_ph (st h)) (u_req (st h)) (u_main (st h)) (u_acts (st h))) w (UTry (S i) c k)).
        { destruct (u_ph (st h) i); try congruence; injection Hs as <- <-; destruct (st h); reflexivity. }
        rewrite Hs2. eapply (inv_with h tr w (UTry i c k)); eauto using incl_refl.
        -- intros x Hx. tin Hx.
        -- intros x Hx. tin Hx. injection Hx as Hx. symmetry in Hx. destruct (L1 _ _ Hx).
        -- intros j Hj Hp. split; [exact Hp|right; intros Hx; tin Hx].
        -- intros j e' Hj Ht Hp. left. split; [exact Hp|intros Hx; tin Hx].
        -- intros j. left. intros Hx. tin Hx.
      * assert (Hs2 : u_ph (st h) i = OSet /\ s' = u_with_act (US (u_dead (st h)) (u_init (st h)) (u_canc (st h)) (u_ctr (st h)) (upd (u_ph (st h)) i OGone) (u_req (st h)) (u_main (st h)) (u_acts (st h))) w (UTry (S i) (S c) k)).
        { destruct (u_ph (st h) i); try congruence. injection Hs as <- <-. split; reflexivity. }
        destruct Hs2 as [Hp0 Hs2]. rewrite Hs2.
        assert (He2 : m_exec (ms_mem h) (hv h (LStep w) v) ([Touch (l_ev i) false] ++ Lock (x_mtx e) :: (Touch (l_req e) false :: u_hooks (u_linked toks (st h) e) ++ [Unlock (x_mtx e)])) = Some (m', v')) by exact He.
        pose proof (mid_lock _ _ _ _ _ _ _ (eq_refl : forallb is_touch [Touch (l_ev i) false] = true) He2) as Hrl.
        assert (Hul : incl (mv_cur v') (mm_rel m' (x_mtx e))).
        { rewrite 2 app_comm_cons, app_assoc in He2. exact (exec_unlock _ _ _ _ _ _ _ He2). }
        clear He He2. eapply (inv_with h tr w (UTry i c k)); eauto using incl_refl.
        -- intros x Hx. tin Hx. destruct Hx as (_ & j & _ & ->). eauto.
        -- intros x Hx. tin Hx; [injection Hx as Hx; symmetry in Hx; destruct (L1 _ _ Hx)|destruct Hx; discriminate].
        -- intros j Hj Hp. assert (Hp' : u_ph (st h) j = OUnset) by (revert Hp; unfold upd; destruct (Nat.eqb_spec j i) as [->|]; [discriminate|auto]). split; [exact Hp'|]. right.
           intros Hx. tin Hx. destruct Hx as (_ & q & Hq & Hx). apply L9 in Hx. subst q. apply in_linked in Hq. destruct Hq as (_ & Hq & _). congruence.
        -- intros j e' Hj Ht Hp. assert (Hp' : u_ph (st h) j = OSet) by (revert Hp; unfold upd; destruct (Nat.eqb_spec j i) as [->|]; [discriminate|auto]). destruct (Nat.eq_dec e' e) as [->|Hne'].
           ++ right. split; [|exact Hul]. apply (own_Lk2 Ef (rl h (x_mtx e)) j Hrl). apply (Lk_incl _ _ _ _ (v_set _ J j e Hj Ht Hp')). apply incl_appr, incl_refl.
           ++ left. split; [exact Hp'|]. intros Hx. tin Hx. destruct Hx as (_ & q & Hq & Hx). apply L9 in Hx. subst q. apply in_linked in Hq. destruct Hq as (_ & _ & Hq). congruence.
        -- intros j. destruct (u_ph (st h) j) eqn:Ep; try (right; right; discriminate). left. intros Hx. tin Hx. destruct Hx as (_ & q & Hq & Hx). apply L9 in Hx. subst q. apply in_linked in Hq. destruct Hq as (_ & Hq & _). congruence.
    + assert (Hs2 : s' = u_with_act (US (u_dead (st h)) (u_init (st h)) (u_canc (st h)) (u_ctr (st h)) (upd (u_ph (st h)) i OGone) (u_req (st h)) (u_main (st h)) (u_acts (st h))) w (UTry (S i) (S c) k)).
      { injection Hs as <- <-. reflexivity. }
      rewrite Hs2. eapply (inv_with h tr w (UTry i c k)); eauto using incl_refl.
      * intros x Hx. tin Hx.
      * intros x Hx. tin Hx. injection Hx as Hx. symmetry in Hx. destruct (L1 _ _ Hx).
      * intros j Hj Hp. split; [revert Hp; unfold upd; destruct (Nat.eqb_spec j i) as [->|]; [discriminate|auto]|right; intros Hx; tin Hx].
      * intros j e' Hj Ht Hp. left. split; [rewrite upd_other in Hp by congruence; exact Hp|intros Hx; tin Hx].
      * intros j. left. intros Hx. tin Hx.
  - (* fetch_sub() *)
    destruct (u_ctr (st h) <? c); [discriminate|]. destruct (u_ctr (st h) =? c); [destruct (negb _ || _); [discriminate|]; injection Hs as <- <-; destruct w; discriminate|].
    rewrite app_nil_r in He, Ef. change [Touch l_st false; Rmw x_st true true] with ([Touch l_st false] ++ [Rmw x_st true true]) in He. destruct (exec_rmw _ _ [Touch l_st false] _ _ _ _ _ eq_refl He) as (R1 & R2 & _).
    specialize (R1 eq_refl). injection Hs as <- <-. eapply (inv_with h tr w (USub c k)); eauto.
    + intros x Hx. tin Hx.
    + intros x Hx. tin Hx. injection Hx as Hx. symmetry in Hx. destruct (L3 _ Hx).
    + right. right. intros j Hx. tin Hx. injection Hx as Hx. symmetry in Hx. destruct (L6 _ Hx).
    + intros j c' k' Hx. destruct k; discriminate.
    + intros j Hj Hp. split; [exact Hp|]. right. intros Hx. tin Hx.
    + intros j e Hj Ht Hp. left. split; [exact Hp|]. intros Hx. tin Hx.
    + rewrite plist_ret. apply incl_refl.
    + intros j. left. intros Hx. tin Hx.
  - (* the loop of cancel() *)
    injection Hs as <- <-. replace (u_with_act (st h) w (UOr true (KLoop r))) with (u_with_act (US (u_dead (st h)) (u_init (st h)) (u_canc (st h)) (u_ctr (st h)) (u_ph (st h)) (u_req (st h)) (u_main (st h)) (u_acts (st h))) w (UOr true (KLoop r))) by (destruct (st h); reflexivity).
    assert (Hno : forall j, ~ In j (i :: r) -> nohook (u_hooks (i :: r) ++ [Touch (l_fn i) false]) j).
    { intros j Hj Hx. apply in_app_or in Hx. destruct Hx as [Hx|[Hx|[]]]; [|discriminate]. apply in_hooks in Hx. destruct Hx as (_ & q & Hq & Hx). apply L9 in Hx. congruence. }
    eapply (inv_with h tr w (ULoop (i :: r))); eauto.
    + intros x Hx. apply in_app_or in Hx. destruct Hx as [Hx|[Hx|[]]]; [|discriminate]. apply in_hooks in Hx. destruct Hx as (_ & q & _ & ->). eauto.
    + intros x Hx. apply in_app_or in Hx. destruct Hx as [Hx|[Hx|[]]]; [apply in_hooks in Hx; destruct Hx; discriminate|]. injection Hx as Hx. symmetry in Hx. destruct (L2 _ _ Hx).
    + right. right. intros j Hx. apply in_app_or in Hx. destruct Hx as [Hx|[Hx|[]]]; [apply in_hooks in Hx; destruct Hx; discriminate|]. injection Hx as Hx. symmetry in Hx. destruct (L5 _ _ Hx).
    + intros j c' k' [=].
    + intros j Hj Hp. split; [exact Hp|]. right. apply Hno. intros Hx. destruct (p_tk _ HP _ _ j Ha Hx) as (_ & Q & _). congruence.
    + intros j e Hj Ht Hp. left. split; [exact Hp|]. apply Hno. intros Hx. destruct (p_tk _ HP _ _ j Ha Hx) as (_ & Q & _). congruence.
    + simpl. intros x Hx. simpl. auto.
    + intros j. destruct (in_dec Nat.eq_dec j (i :: r)) as [Hj|Hj]; auto.
Qed.

Lemma WI_step h tr l v s' es m' v' : UI (st h) tr -> UI s' (tr ++ es) -> PI (st h) -> WI h -> u_step toks (st h) l = Next s' es ->
  m_exec (ms_mem h) (hv h l v) (acts (st h) l) = Some (m', v') -> WI (MS s' m' (m_set (ms_view h) (uh_dst (st h) l) v')).
Proof.
  intros HA HA' HP HW Hs He. destruct l as [|e|w]; cbn [uh_dst].
  - eapply start_inv; eauto.
  - eapply cancel_inv; eauto.
  - cbn [u_step] in Hs. destruct (u_act (st h) w) as [a|] eqn:Ha; [|discriminate]. assert (D : a = ULoop [] \/ a <> ULoop []) by (destruct a as [| | | | |[]|]; auto; right; discriminate). destruct D as [->|Hne].
    + injection Hs as <- <-. assert (Hw : w <> None). { intros ->. destruct (i_shape _ _ _ HA _ _ Ha). } cbn [uh_acts] in He. rewrite Ha in He. cbn [m_exec] in He. injection He as <- <-. apply WI_idle; auto. apply in_hview. simpl. auto.
    + assert (Hend : a <> UEnd) by (intros ->; discriminate). assert (Hidle : a <> UIdle) by (intros ->; discriminate). pose proof (debt_pos _ _ _ _ HA Ha Hend Hne) as Hd.
      assert (Hm : u_main (st h) <> UIdle). { intros Em. destruct w as [k|]; simpl in Ha; [|congruence]. destruct HW as [W1 _]. destruct (W1 Em) as [_ H]. rewrite (H _ _ Ha) in Hd. lia. }
      assert (Hm' : u_main s' <> UIdle). { apply (i_start _ _ _ HA'). apply in_or_app. left. apply (i_start _ _ _ HA). exact Hm. }
      split; cbn [ms_base]; [congruence|]. intros _ Hal. eapply call_inv; eauto.
Qed.

Lemma acts_req s l e : (forall b, ~ In (Touch (l_req e) b) (acts s l)) \/
  exists l1 l2 l3, acts s l = l1 ++ Lock (x_mtx e) :: l2 ++ Unlock (x_mtx e) :: l3 /\ (forall b, ~ In (Touch (l_req e) b) l1) /\ (forall b, ~ In (Touch (l_req e) b) l3).
Proof.
  assert (Ht : forall x b l0, (forall y c, In (Touch y c) l0 -> opl y) -> ~ In (Touch (l_req x) b) l0) by (intros x b l0 H Hi; exact (H _ _ Hi x eq_refl)).
  assert (Hno : forall l0, (forall y c, In (Touch y c) l0 -> opl y) -> forall b, ~ In (Touch (l_req e) b) l0) by auto.
  assert (Hhk : forall l0 y c, In (Touch y c) (u_hooks l0) -> opl y) by (intros l0 y c H; apply in_hooks in H; destruct H as (_ & i & _ & ->); auto).
  assert (Hinj : forall e', e' <> e -> l_req e' <> l_req e) by (unfold l_req; lia).
  destruct l as [|e'|w]; cbn [uh_acts].
  - left. apply Hno, all_opl.
  - destruct (Nat.eq_dec e' e) as [->|Hn]; [right|left].
    + exists [], (Touch (l_req e) true :: u_hooks (u_linked toks s e)), []. split; [reflexivity|]. split; intros b [].
    + intros b Hi. rewrite !in_app_iff in Hi. destruct Hi as [[Hi|[Hi|[]]]|[Hi|[Hi|[]]]]; try discriminate; [injection Hi as Hi _; exact (Hinj _ Hn Hi)|]. exact (Hhk _ _ _ Hi e eq_refl).
  - destruct (u_act s w) as [[|i|c k|i c k|c k|[|i r]|]|]; try (left; intros b []; fail).
    + destruct (i <? N); [|left; intros b []]. destruct (tk i) as [e'|]; [|left; apply Hno; intros y c [[= <- _]|[[= <- _]|[]]]; auto]. destruct (Nat.eq_dec e' e) as [->|Hn]; [right|left].
      * exists [Touch l_op false; Touch (l_ev i) true], (Touch (l_req e) false :: if u_req s e then [] else u_hooks (i :: u_linked toks s e)), (if u_req s e then [Touch (l_fn i) false] else []).
        split; [reflexivity|]. split; apply Hno; [intros y c [[= <- _]|[[= <- _]|[]]]; auto|]. destruct (u_req s e); [intros y c [[= <- _]|[]]; auto|intros y c []].
      * intros b Hi. cbn [In app] in Hi. rewrite in_app_iff in Hi. cbn [In] in Hi. destruct Hi as [Hi|[Hi|[Hi|[Hi|[Hi|[Hi|Hi]]]]]]; try discriminate Hi.
        -- injection Hi as Hi _. exact (opl_op _ Hi).
        -- injection Hi as Hi _. exact (opl_ev _ _ Hi).
        -- injection Hi as Hi _. exact (Hinj _ Hn Hi).
        -- destruct (u_req s e'); [destruct Hi|exact (Hhk _ _ _ Hi e eq_refl)].
        -- destruct (u_req s e'); [|destruct Hi]. destruct Hi as [Hi|[]]. injection Hi as Hi _. exact (opl_fn _ _ Hi).
    + left. apply Hno. intros y c' [[= <- _]|[[=]|[]]]. auto.
    + destruct (i <? N); [|left; intros b []]. destruct (tk i) as [e'|]; [|left; apply Hno; intros y c' [[= <- _]|[]]; auto]. destruct (Nat.eq_dec e' e) as [->|Hn]; [right|left].
      * exists [Touch (l_ev i) false], (Touch (l_req e) false :: if u_req s e then [] else u_hooks (u_linked toks s e)), []. split; [reflexivity|]. split; apply Hno; [intros y c' [[= <- _]|[]]; auto|intros y c' []].
      * intros b Hi. cbn [In app] in Hi. rewrite in_app_iff in Hi. cbn [In] in Hi. destruct Hi as [Hi|[Hi|[Hi|[Hi|[Hi|[]]]]]]; try discriminate Hi.
        -- injection Hi as Hi _. exact (opl_ev _ _ Hi).
        -- injection Hi as Hi _. exact (Hinj _ Hn Hi).
        -- destruct (u_req s e'); [destruct Hi|exact (Hhk _ _ _ Hi e eq_refl)].
    + left. apply Hno. intros y c' Hy. cbn [In app] in Hy. destruct Hy as [[= <- _]|[[=]|Hy]]; [auto|]. destruct (u_ctr s =? c); [|destruct Hy]. destruct Hy as [[= <- _]|Hy]; [auto|exact (all_opl _ _ Hy)].
    + left. apply Hno. intros y c' Hy. apply in_app_or in Hy. destruct Hy as [Hy|[[= <- _]|[]]]; [exact (Hhk _ _ _ Hy)|auto].
Qed.
Lemma RI_step h l v s' m' v' f : RI h -> m_exec (ms_mem h) (hv h l v) (acts (st h) l) = Some (m', v') -> RI (MS s' m' f).
Proof.
  intros HR He e. cbn [ms_mem]. destruct (acts_req (st h) l e) as [Hn|(l1 & l2 & l3 & E & H1 & H3)].
  - pose proof (eff_exec _ _ _ _ _ He) as Ef. apply (eff_kn_other Ef); [|exact Hn]. apply (kn_incl _ _ _ _ (HR e)). apply (ef_rel _ _ _ _ _ Ef).
  - rewrite E in He. exact (crit _ _ _ _ _ _ _ _ _ H1 H3 He (HR e)).
Qed.

Lemma hl_run ls h tr : run hstep (uh_init toks) ls = Running h tr -> UI (st h) (map fst tr) /\ PI (st h) /\ RI h /\ WI h.
Proof.
  intros Hr. split; [apply (ui_run toks (map fst ls)), (h_run _ _ _ _ _ _ _ _ Hr)|].
  apply (h_inv (u_step toks) uh_src uh_dst acts (fun _ => True) (fun h _ => PI (st h) /\ RI h /\ WI h) (u_start toks)) with (ls := ls) (tr := tr); auto.
  - split; [|split; [intros e; apply kn_nil|split]].
    + assert (Hx : forall w a, u_act (u_start toks) w = Some a -> plist a = []) by (intros [[]|] a; simpl; try discriminate; intros [= <-]; reflexivity).
      constructor; [intros w a i Ha Hi; rewrite (Hx _ _ Ha) in Hi; destruct Hi|intros w w' a a' i _ Ha _ Hi; rewrite (Hx _ _ Ha) in Hi; destruct Hi].
    + intros _. split; [intros [] ? ? [=]|]. intros [] a; discriminate.
    + intros Q. destruct (Q eq_refl).
  - clear. intros ls h tr l v s' es m' v' Hr (HP & HR & HW) Hs He _. assert (HA : UI (st h) (map fst tr)) by apply (ui_run toks (map fst ls)), (h_run _ _ _ _ _ _ _ _ Hr).
    assert (HA' : UI s' (map fst tr ++ es)) by (pose proof (ui_step toks _ _ l HA) as Q; rewrite Hs in Q; exact Q). split; [eapply PI_step; eauto|]. split; [eapply RI_step; eauto|]. eapply WI_step; eauto.
Qed.

Lemma suspend_norace ls f tr : run hstep (uh_init toks) ls <> Failed f tr.
Proof.
  intros Hr. apply h_failed in Hr. destruct Hr as [(ls0 & Hr)|(_ & ls1 & h & tr1 & l & v & s' & es & Hr & He & Hs & _)].
  - exact (u_safe _ _ _ _ Hr).
  - destruct (hl_run _ _ _ Hr) as (HA & HP & HR & HW). exact (WI_ok _ _ _ _ HA HP HR HW _ _ Hs He).
Qed.

(** ** Visibility *)
Lemma step_next s w a s' es : u_act s w = Some a -> uact_step toks s w a = Next s' es ->
  (exists c k, a = USub c k) \/ a = ULoop [] \/ (exists b, u_act s' w = Some b /\ b <> UEnd /\ b <> ULoop []).
Proof.
  intros Ha Hs. assert (K : forall d i c n ph b, s' = u_with_act (US d i c n ph (u_req s) (u_main s) (u_acts s)) w b -> b <> UEnd -> b <> ULoop [] -> exists b0, u_act s' w = Some b0 /\ b0 <> UEnd /\ b0 <> ULoop []).
  { intros d i c n ph b -> H1 H2. exists b. split; [|auto]. apply (act_with_same _ _ a). destruct w; exact Ha. }
  assert (Ks : forall b, s' = u_with_act s w b -> b <> UEnd -> b <> ULoop [] -> exists b0, u_act s' w = Some b0 /\ b0 <> UEnd /\ b0 <> ULoop []).
  { intros b E H1 H2. destruct s. eapply K; eauto. }
  destruct a as [|i|c k|i c k|c k|[|i r]|]; cbn [uact_step] in Hs; try discriminate; eauto; right; right.
  - destruct (u_dead s); [discriminate|]. destruct (i <? N).
    + destruct (tk i) as [e|]; [destruct (u_ph s i); try discriminate; destruct (u_req s e)|]; injection Hs as <- _; eapply K; try reflexivity; discriminate.
    + injection Hs as <- _. eapply Ks; try reflexivity; discriminate.
  - destruct (u_dead s); [discriminate|]. injection Hs as <- _. eapply K; try reflexivity; destruct (_ && _); discriminate.
  - destruct (i <? N).
    + destruct (u_dead s); [discriminate|]. destruct (tk i) as [e|], (u_ph s i); try discriminate; try (destruct (u_req s e)); try discriminate; injection Hs as <- _; first [eapply Ks; [reflexivity|discriminate|discriminate]|eapply K; [reflexivity|discriminate|discriminate]].
    + injection Hs as <- _. eapply Ks; try reflexivity; discriminate.
  - destruct (u_dead s); [discriminate|]. injection Hs as <- _. eapply Ks; try reflexivity; discriminate.
Qed.

Lemma T_step h tr l v s' es m' v' : UI (st h) tr -> UI s' (tr ++ es) -> u_step toks (st h) l = Next s' es -> m_exec (ms_mem h) (hv h l v) (acts (st h) l) = Some (m', v') -> u_dead s' = false ->
  let h' := MS s' m' (m_set (ms_view h) (uh_dst (st h) l) v') in forall x, T h x -> T h' x.
Proof.
  intros HA HA' Hs He Hal. cbv zeta. pose proof (eff_exec _ _ _ _ _ He) as Ef. pose proof (ef_rel _ _ _ _ _ Ef x_st) as Hrl. destruct l as [|e|w]; cbn [uh_dst].
  - cbn [u_step] in Hs. destruct (u_main (st h)) eqn:Em; try discriminate. injection Hs as <- <-. intros x [H|(w & b & H1 & H2 & H3)]; [left; apply Hrl, H|right]. destruct w as [k|].
    + exists (Some k), b. cbn [ms_base ms_view]. rewrite set_out by (simpl; intros [Q|[]]; discriminate). auto.
    + exists None, (USet 0). cbn [ms_base ms_view]. split; [reflexivity|]. split; [simpl; lia|]. rewrite set_in by (simpl; auto). apply (ef_cur _ _ _ _ _ Ef). apply (in_hview uh_src h LStart v 0); [simpl; auto|exact H3].
  - cbn [u_step] in Hs. cbv zeta in Hs. destruct (u_dead (st h) && _); [discriminate|]. injection Hs as <- <-. intros x [H|(w & b & H1 & H2 & H3)]; [left; apply Hrl, H|right]. exists w, b. cbn [ms_base ms_view].
    assert (Hw : w <> Some (length (u_acts (st h)))). { intros ->. simpl in H1. assert (length (u_acts (st h)) < length (u_acts (st h))) by (apply nth_error_Some; congruence). lia. }
    rewrite set_out by (cbn [In]; intros [Q|[]]; apply Hw; symmetry; apply t_of_inj, Q). split; [|auto]. destruct w as [k|]; simpl in *; [|exact H1]. rewrite nth_error_app1; [exact H1|]. apply nth_error_Some. congruence.
  - cbn [u_step] in Hs. destruct (u_act (st h) w) as [a|] eqn:Ha; [|discriminate]. destruct (step_shape _ _ _ _ _ Ha Hs) as (a' & d & ii & cc & n & ph & Es').
    assert (Hoth : forall w' b, w <> w' -> u_act (st h) w' = Some b -> u_act s' w' = Some b). { intros w' b Hn Hb. rewrite Es', (act_with_other _ _ _ _ Hn). destruct w'; exact Hb. }
    assert (Hsame : u_act s' w = Some a'). { rewrite Es'. apply (act_with_same _ _ a). destruct w; exact Ha. }
    assert (Hv : incl (v_ h (t_of w)) (mv_cur v')) by (eapply incl_tran; [|exact (ef_cur _ _ _ _ _ Ef)]; apply in_hview; simpl; auto).
    assert (Hdd : a = ULoop [] \/ debt a' > 0 \/ incl (mv_cur v') (mm_rel m' x_st)).
    { destruct (step_next _ _ _ _ _ Ha Hs) as [(c & k & ->)|[->|(b & H1 & H2 & H3)]]; [right; right|auto|right; left; assert (b = a') by congruence; subst b; exact (debt_pos _ _ _ _ HA' Hsame H2 H3)].
      cbn [uact_step] in Hs. destruct (u_dead (st h)); [discriminate|]. destruct (u_ctr (st h) <? c); [discriminate|]. destruct (u_ctr (st h) =? c) eqn:Ec.
      - exfalso. destruct (negb _ || _); [discriminate|]. injection Hs as <- _. destruct w; discriminate.
      - cbn [uh_acts] in He. rewrite Ha, Ec, app_nil_r in He. change [Touch l_st false; Rmw x_st true true] with ([Touch l_st false] ++ [Rmw x_st true true]) in He. destruct (exec_rmw _ _ [Touch l_st false] _ _ _ _ _ eq_refl He) as (R1 & _). auto. }
    destruct Hdd as [->|Hdd]; [|exact (proj1 (T_move h s' w a a' m' v' Ha Hsame Hoth Hv Hrl Hdd))].
    intros x [H|(w' & b & H1 & H2 & H3)]; [left; apply Hrl, H|right]. assert (Hn : w <> w') by (intros <-; rewrite Ha in H1; injection H1 as <-; simpl in H2; lia).
    exists w', b. cbn [ms_base ms_view]. rewrite set_out by (cbn [In]; intros [Q|[]]; apply Hn, t_of_inj, Q). auto.
Qed.

Definition K (h : mst (S := ust)) (u : hbs) : Prop := forall x, In x u -> T h x.
(** What will be visible *)
Record CI (h : mst (S := ust)) (tr : list (uevent * hbs)) : Prop := {
  c_start : forall u, In (EStart, u) tr -> K h u;
  c_taken : forall i, i < N -> u_ph (st h) i = OTaken -> exists e u, tk i = Some e /\ In (ECancel e, u) tr /\ K h u;
  c_some : u_canc (st h) = true \/ total pend (st h) > 0 -> exists i, i < N /\ u_ph (st h) i = OTaken;
  c_early : forall t1 u0 t2 e u i, tr = t1 ++ (EStart, u0) :: t2 -> In (ECancel e, u) t1 -> tk i = Some e -> i < pos toks (u_main (st h)) -> i < N -> K h u }.
Definition seen (tr : list (uevent * hbs)) : Prop :=
  forall t1 v t2, tr = t1 ++ (EDone, v) :: t2 -> sees_start t1 v /\ (toks <> [] -> sees_cancel toks t1 v) /\ sees_early toks t1 v.

Record CF (s : ust) (w : option nat) (a : uact) (s' : ust) : Prop := {
  f_keep : forall i, i < N -> u_ph s i = OTaken -> u_ph s' i = OTaken;
  f_new : forall i, i < N -> u_ph s' i = OTaken -> u_ph s i = OTaken \/ (w = None /\ a = USet i /\ exists e, tk i = Some e /\ u_req s e = true);
  f_some : u_canc s' = true \/ total pend s' > 0 -> (u_canc s = true \/ total pend s > 0) \/ exists i, i < N /\ u_ph s' i = OTaken;
  f_pos : forall i, i < N -> i < pos toks (u_main s') -> i < pos toks (u_main s) \/ (w = None /\ a = USet i) }.
Lemma call_facts s tr w a s' es : UI s tr -> u_act s w = Some a -> uact_step toks s w a = Next s' es -> u_dead s' = false -> es = [] /\ CF s w a s'.
Proof.
  intros HA Ha Hs Hal. pose proof (i_shape _ _ _ HA _ _ Ha) as Hsh.
  assert (Hmain : w = None -> u_main s = a) by (intros ->; simpl in Ha; congruence).
  assert (G : forall d i c n ph a', s' = u_with_act (US d i c n ph (u_req s) (u_main s) (u_acts s)) w a' ->
     (forall i, i < N -> u_ph s i = OTaken -> ph i = OTaken) ->
     (forall i, i < N -> ph i = OTaken -> u_ph s i = OTaken \/ (w = None /\ a = USet i /\ exists e, tk i = Some e /\ u_req s e = true)) ->
     ((c = true -> u_canc s = true \/ pend a > 0) /\ pend a' <= pend a) \/ (exists i, i < N /\ ph i = OTaken) ->
     (w = None -> forall i, i < N -> i < pos toks a' -> i < pos toks a \/ (w = None /\ a = USet i)) -> CF s w a s').
  { intros d i c n ph a' -> G1 G2 G3 G4. set (s0 := US d i c n ph (u_req s) (u_main s) (u_acts s)). assert (Ha0 : u_act s0 w = Some a) by (destruct w; exact Ha).
    pose proof (total_with pend s0 w a a' Ha0) as Tp. change (total pend s0) with (total pend s) in Tp. pose proof (total_le pend _ _ _ Ha) as Tl.
    destruct (with_proj s0 w a') as (_ & _ & E3 & _ & E5 & _ & E7). simpl in E3, E5, E7. constructor; rewrite ?E3, ?E5, ?E7; auto.
    - intros H. destruct G3 as [[G3 G3']|G3]; [left|right; exact G3]. destruct H as [H|H]; [destruct (G3 H); [auto|right; lia]|right; lia].
    - intros j Hj. destruct w as [k|]; [simpl; auto|]. simpl. intros Hp. rewrite (Hmain eq_refl). auto. }
  assert (Gs : forall a', s' = u_with_act s w a' -> pend a' <= pend a -> (w = None -> forall i, i < N -> i < pos toks a' -> i < pos toks a \/ (w = None /\ a = USet i)) -> CF s w a s').
  { intros a' E G3 G4. apply (G (u_dead s) (u_init s) (u_canc s) (u_ctr s) (u_ph s) a'); auto. }
  assert (Gp : forall i x a', s' = u_with_act (u_with_ph s i x) w a' -> u_ph s i <> OTaken -> x <> OTaken -> pend a' <= pend a -> (w = None -> forall i, i < N -> i < pos toks a' -> i < pos toks a \/ (w = None /\ a = USet i)) -> CF s w a s').
  { intros i x a' E G1 G2 G3 G4. apply (G (u_dead s) (u_init s) (u_canc s) (u_ctr s) (upd (u_ph s) i x) a'); auto; intros j Hj; unfold upd; destruct (Nat.eqb_spec j i) as [->|]; auto; congruence. }
  destruct a as [|i|c k|i c k|c k|[|i r]|]; cbn [uact_step] in Hs; try discriminate.
  - destruct w as [q|]; [destruct Hsh|]. simpl in Hsh. destruct (u_dead s) eqn:Ed; [discriminate|]. destruct (Nat.ltb_spec i N) as [Hi|Hi].
    + destruct (main_set _ _ _ _ HA Ha) as (_ & _ & Hun). specialize (Hun Hi). rewrite ?Hun in Hs.
      assert (Hpos : forall a', pos toks a' = S i -> @None nat = None -> forall j, j < N -> j < pos toks a' -> j < pos toks (USet i) \/ (@None nat = None /\ USet i = USet j)).
      { intros a' E _ j Hj Hp. rewrite E in Hp. simpl. destruct (Nat.eq_dec j i) as [->|]; [auto|left; lia]. }
      destruct (tk i) as [e|] eqn:Et; [destruct (u_req s e) eqn:Er|]; injection Hs as <- <-; (split; [reflexivity|]).
      * apply (G (u_dead s) (u_init s) (u_canc s) (u_ctr s) (upd (u_ph s) i OTaken) (UOr true (KStart (S i)))); auto.
        -- intros j Hj Hp. unfold upd. destruct (Nat.eqb_spec j i) as [->|]; auto.
        -- intros j Hj. unfold upd. destruct (Nat.eqb_spec j i) as [->|]; auto. intros _. right. eauto.
        -- right. exists i. rewrite upd_same. auto.
        -- exact (Hpos (UOr true (KStart (S i))) eq_refl).
      * apply (Gp i OSet (USet (S i))); auto; try discriminate; [rewrite Hun; discriminate|exact (Hpos (USet (S i)) eq_refl)].
      * apply (Gp i OSet (USet (S i))); auto; try discriminate; [rewrite Hun; discriminate|exact (Hpos (USet (S i)) eq_refl)].
    + injection Hs as <- <-. split; [reflexivity|]. apply (Gs (UOr false KRet)); auto. intros _ j Hj _. left. simpl. lia.
  - destruct (u_dead s) eqn:Ed; [discriminate|]. injection Hs as <- <-. split; [reflexivity|]. eapply G; [reflexivity|..]; auto.
    + left. split; [intros Hc; apply orb_true_iff in Hc; destruct Hc as [Hc|Hc]; [auto|right; rewrite Hc; simpl; lia]|]. destruct (_ && _); simpl; lia.
    + intros _ j Hj Hp. left. revert Hp. destruct (_ && _), k; simpl; auto.
  - destruct (Nat.ltb_spec i N) as [Hi|Hi].
    + destruct (u_dead s) eqn:Ed; [discriminate|]. assert (Hpp : forall c', w = None -> forall j, j < N -> j < pos toks (UTry (S i) c' k) -> j < pos toks (UTry i c k) \/ (w = None /\ UTry i c k = USet j)) by (intros c' _ j _ Hp; left; destruct k; exact Hp).
      destruct (tk i) as [e|] eqn:Et.
      * destruct (u_ph s i) eqn:Ep; [|destruct (u_req s e)|destruct (u_req s e)|destruct (u_req s e)]; try discriminate; injection Hs as <- <-; (split; [reflexivity|]);
          first [apply (Gs (UTry (S i) c k)); auto; fail|apply (Gp i OGone (UTry (S i) (S c) k)); auto; congruence].
      * assert (Hnt : u_ph s i <> OTaken) by (intros Q; destruct (i_taken _ _ _ HA i Hi Q) as ((e & Q' & _) & _); congruence).
        injection Hs as <- <-. split; [reflexivity|]. apply (Gp i OGone (UTry (S i) (S c) k)); auto. discriminate.
    + injection Hs as <- <-. split; [reflexivity|]. apply (Gs (USub c k)); auto.
  - destruct (u_dead s) eqn:Ed; [discriminate|]. destruct (u_ctr s <? c); [discriminate|]. destruct (u_ctr s =? c).
    + destruct (negb _ || _); [discriminate|]. injection Hs as <- <-. destruct w; discriminate.
    + injection Hs as <- <-. split; [reflexivity|]. eapply G; [reflexivity|..]; auto.
      * left. split; auto. destruct k; simpl; lia.
      * intros _ j Hj Hp. left. destruct k; simpl in *; auto.
  - injection Hs as <- <-. split; [reflexivity|]. apply (Gs UEnd); auto.
  - destruct (u_dead s); [discriminate|]. injection Hs as <- <-. split; [reflexivity|]. apply (Gs (UOr true (KLoop r))); auto.
Qed.

(** The last decrement *)
Lemma last_facts s tr w a s' es : UI s tr -> u_act s w = Some a -> uact_step toks s w a = Next s' es -> u_dead s = false -> u_dead s' = true ->
  exists c k, a = USub c k /\ u_ctr s = c /\ es = [EDone] /\ pos toks (u_main s) = N /\ (toks <> [] -> exists i, i < N /\ (u_ph s i = OTaken \/ u_canc s = true)).
Proof.
  intros HA Ha Hs Hal Hal'. assert (G : exists c k, a = USub c k /\ u_ctr s = c /\ es = [EDone]).
  { destruct a as [|i|c k|i c k|c k|[|i r]|]; cbn [uact_step] in Hs; try discriminate; rewrite ?Hal in Hs.
    - exfalso. destruct (i <? N); [destruct (tk i) as [e|]; [destruct (u_ph s i); try discriminate; destruct (u_req s e)|]|]; injection Hs as <- _; destruct w; simpl in Hal'; congruence.
    - exfalso. injection Hs as <- _. destruct w; simpl in Hal'; congruence.
    - exfalso. destruct (i <? N); [destruct (tk i) as [e|], (u_ph s i); try discriminate; try (destruct (u_req s e)); try discriminate|]; injection Hs as <- _; destruct w; simpl in Hal'; congruence.
    - destruct (u_ctr s <? c); [discriminate|]. destruct (Nat.eqb_spec (u_ctr s) c) as [Ec|Ec].
      + destruct (negb _ || _); [discriminate|]. injection Hs as _ <-. eauto 6.
      + exfalso. injection Hs as <- _. destruct w; simpl in Hal'; congruence.
    - exfalso. injection Hs as <- _. destruct w; simpl in Hal'; congruence.
    - exfalso. injection Hs as <- _. destruct w; simpl in Hal'; congruence. }
  destruct G as (c & k & -> & Hc & ->). exists c, k. do 3 (split; [auto; fail|]). clear Hs.
  pose proof (i_ctr _ _ _ HA) as Hct. pose proof (total_le debt _ _ _ Ha) as Hle. cbn [P_Suspend.debt] in Hle. rewrite Hc in Hct. pose proof (i_shape _ _ _ HA _ _ Ha) as Hsh.
  assert (Hpos : pos toks (u_main s) = N).
  { destruct w as [q|].
    - pose proof (total_two debt s (Some q) None _ (u_main s) Ha eq_refl ltac:(discriminate)) as L. cbn [P_Suspend.debt] in L.
      assert (Hm : u_main s = UEnd). { pose proof (i_shape _ _ _ HA None _ eq_refl) as Hsm. destruct (u_main s) as [|i|c' k'|i c' k'|c' k'|r|] eqn:Em; try reflexivity; exfalso; try (destruct Hsm; fail);
          pose proof (debt_pos s tr None _ HA (f_equal Some Em) ltac:(discriminate) ltac:(discriminate)); lia. }
      rewrite Hm. reflexivity.
    - simpl in Ha. injection Ha as Em. rewrite Em. simpl in Hsh. destruct k as [i| |]; simpl in *; try reflexivity. destruct i; lia. }
  split; [exact Hpos|]. intros Hne. assert (HN : 0 < N). { unfold u_n. destruct toks; [congruence|simpl; lia]. } exists 0. split; [exact HN|].
  destruct (u_ph s 0) eqn:Ep; auto.
  - apply (i_pos _ _ _ HA 0 HN) in Ep. lia.
  - pose proof (lives_pos N _ _ HN Ep). lia.
  - right. destruct (u_init s && u_canc s) eqn:Eb; [apply andb_true_iff in Eb; tauto|]. destruct (i_try0 _ _ _ HA Eb) as [_ H]. destruct (H 0 HN Ep).
Qed.

Definition VI (h : mst (S := ust)) (tr : list (uevent * hbs)) : Prop :=
  (forall e u, In (ECancel e, u) tr -> incl u (rl h (x_mtx e))) /\ seen tr /\ (u_dead (st h) = false -> CI h tr).

Lemma seen_keep tr e v : seen tr -> e <> EDone -> seen (tr ++ [(e, v)]).
Proof. intros H Hn t1 u t2 E. apply snoc_cons_inv in E. destruct E as [(-> & [= -> _] & _)|(t2' & ->)]; [congruence|eauto]. Qed.
Lemma VI_step h tr l v s' es m' v' : UI (st h) (map fst tr) -> UI s' (map fst tr ++ es) -> PI (st h) -> WI h -> VI h tr -> u_step toks (st h) l = Next s' es ->
  m_exec (ms_mem h) (hv h l v) (acts (st h) l) = Some (m', v') -> VI (MS s' m' (m_set (ms_view h) (uh_dst (st h) l) v')) (tr ++ map (fun e => (e, mv_cur v')) es).
Proof.
  intros HA HA' HP HW (J & Hseen & HC) Hs He. pose proof (eff_exec _ _ _ _ _ He) as Ef.
  assert (Halm : u_dead s' = false -> u_dead (st h) = false).
  { intros H. pose proof (i_done _ _ _ HA) as D. pose proof (i_done _ _ _ HA') as D'. rewrite u_dones_app, H in D'. destruct (u_dead (st h)); [lia|reflexivity]. }
  assert (HK : u_dead s' = false -> forall u, K h u -> K (MS s' m' (m_set (ms_view h) (uh_dst (st h) l) v')) u).
  { intros H u Hu x Hx. apply (T_step _ _ _ _ _ _ _ _ HA HA' Hs He H), Hu, Hx. }
  assert (Jold : forall e u, In (ECancel e, u) tr -> incl u (mm_rel m' (x_mtx e))) by (intros e u Hu; eapply incl_tran; [exact (J e u Hu)|apply (ef_rel _ _ _ _ _ Ef)]).
  unfold VI. cbn [ms_base ms_mem]. destruct l as [|e|w].
  - pose proof (HK) as HK0. cbn [u_step] in Hs. destruct (u_main (st h)) eqn:Em; try discriminate. injection Hs as <- <-. cbn [map uh_dst] in *. split; [|split].
    + intros e u Hu. apply in_app_or in Hu. destruct Hu as [Hu|[[=]|[]]]. auto.
    + apply seen_keep; [exact Hseen|discriminate].
    + intros Hal. destruct (HC (Halm Hal)) as [C1 C2 C3 C4]. specialize (HK Hal). constructor; cbn [ms_base u_with_act u_ph u_canc u_main].
      * intros u Hu. apply in_app_or in Hu. destruct Hu as [Hu|[[= <-]|[]]]; [auto|]. intros x Hx. right. exists None, (USet 0). split; [reflexivity|]. split; [simpl; lia|]. cbn [ms_view]. rewrite set_in by (simpl; auto). exact Hx.
      * intros i Hi Hp. destruct (C2 i Hi Hp) as (e & u & H1 & H2 & H3). exists e, u. split; [exact H1|]. split; [apply in_or_app; auto|auto].
      * intros H. apply C3. destruct H as [H|H]; [auto|right]. revert H. unfold total. cbn [ms_base u_with_act u_main u_acts]. rewrite Em. auto.
      * intros t1 u0 t2 e u i E Hu Ht Hi. simpl in Hi. lia.
  - assert (Hul : incl (mv_cur v') (mm_rel m' (x_mtx e))). { cbn [uh_acts] in He. rewrite app_assoc in He. exact (exec_unlock _ _ _ _ _ _ _ He). }
    cbn [u_step] in Hs. cbv zeta in Hs. destruct (u_dead (st h) && _); [discriminate|]. injection Hs as <- <-. cbn [map uh_dst] in *. split; [|split].
    + intros e' u Hu. apply in_app_or in Hu. destruct Hu as [Hu|[[= <- <-]|[]]]; auto.
    + apply seen_keep; [exact Hseen|discriminate].
    + intros Hal. destruct (HC (Halm Hal)) as [C1 C2 C3 C4]. specialize (HK Hal). fold (u_linked toks (st h) e) in *. set (tak := u_linked toks (st h) e) in *.
      assert (Hnew : tak <> [] -> K (MS (US (u_dead (st h)) (u_init (st h)) (u_canc (st h)) (u_ctr (st h)) (fun i => if (i <? N) && linked toks (st h) e i then OTaken else u_ph (st h) i) (upd (u_req (st h)) e true) (u_main (st h)) (u_acts (st h) ++ [ULoop tak])) m'
          (m_set (ms_view h) [t_of (Some (length (u_acts (st h))))] v')) (mv_cur v')).
      { intros Hn x Hx. right. exists (Some (length (u_acts (st h)))), (ULoop tak). cbn [ms_base ms_view u_act u_acts]. rewrite nth_error_app2, Nat.sub_diag by lia. split; [reflexivity|].
        split; [cbn [P_Suspend.debt]; destruct tak; [congruence|simpl; lia]|]. rewrite set_in by (simpl; auto). exact Hx. }
      constructor; cbn [ms_base u_ph u_canc u_main].
      * intros u Hu. apply in_app_or in Hu. destruct Hu as [Hu|[[=]|[]]]; auto.
      * intros i Hi Hp. destruct ((i <? N) && linked toks (st h) e i) eqn:El.
        -- apply andb_true_iff in El. destruct El as [El1 El2]. assert (Hin : In i tak) by (unfold tak, u_linked; apply filter_In; split; [apply in_seq; lia|exact El2]).
           exists e, (mv_cur v'). apply in_linked in Hin as Hl. destruct Hl as (_ & _ & Ht). split; [exact Ht|]. split; [apply in_or_app; right; simpl; auto|]. apply Hnew. intros Q. rewrite Q in Hin. destruct Hin.
        -- destruct (C2 i Hi Hp) as (e' & u & H1 & H2 & H3). exists e', u. split; [exact H1|]. split; [apply in_or_app; auto|auto].
      * intros H. assert (D : (u_canc (st h) = true \/ total pend (st h) > 0) \/ tak <> []).
        { destruct H as [H|H]; [auto|]. destruct tak as [|y t]; [left; right|right; discriminate]. revert H. unfold total. cbn [u_main u_acts]. rewrite map_app, sum_app. simpl. lia. }
        destruct D as [D|D].
        -- destruct (C3 D) as (i & Hi & Hp). exists i. split; [exact Hi|]. destruct (_ && _); auto.
        -- destruct tak as [|i t] eqn:Et; [congruence|]. assert (Hin : In i (u_linked toks (st h) e)) by (fold tak; rewrite Et; simpl; auto). exists i. pose proof Hin as Hl. apply in_linked in Hl. destruct Hl as (Hi & _). split; [exact Hi|].
           unfold u_linked in Hin. apply filter_In in Hin. destruct Hin as [_ Hl]. rewrite Hl. destruct (Nat.ltb_spec i N); [reflexivity|lia].
      * intros t1 u0 t2 e' u i E Hu Ht Hi Hi'. apply snoc_cons_inv in E. destruct E as [(_ & [=] & _)|(t2' & ->)]. apply HK. eapply C4; eauto.
  - cbn [u_step] in Hs. destruct (u_act (st h) w) as [a|] eqn:Ha; [|discriminate]. destruct (u_dead s') eqn:Hal.
    + destruct (u_dead (st h)) eqn:Hal0.
      { (* after the notification *) assert (Hes : es = []).
        { pose proof (i_done _ _ _ HA) as D. pose proof (i_done _ _ _ HA') as D'. rewrite u_dones_app, Hal in D'. rewrite Hal0 in D. destruct a as [|i|c k|i c k|c k|[|i r]|]; cbn [uact_step] in Hs; rewrite ?Hal0 in Hs; try discriminate.
          - destruct (i <? N); [discriminate|]. injection Hs as _ <-. reflexivity.
          - injection Hs as _ <-. reflexivity. }
        subst es. cbn [map]. rewrite app_nil_r. split; [exact Jold|]. split; [exact Hseen|]. intros [=]. }
      destruct (last_facts _ _ _ _ _ _ HA Ha Hs Hal0 Hal) as (c & k & -> & Hc & -> & Hpos & Hsome). destruct (HC eq_refl) as [C1 C2 C3 C4].
      assert (Hin : forall x, T h x -> In x (mv_cur v')).
      { assert (Hv : incl (v_ h (t_of w)) (mv_cur v')) by (eapply incl_tran; [|exact (ef_cur _ _ _ _ _ Ef)]; apply in_hview; simpl; auto).
        assert (Hr : incl (rl h x_st) (mv_cur v')).
        { cbn [uh_acts] in He. rewrite Ha in He. change ([Touch l_st false; Rmw x_st true true] ++ (if u_ctr (st h) =? c then Touch l_op false :: u_all toks else [])) with ([Touch l_st false] ++ Rmw x_st true true :: (if u_ctr (st h) =? c then Touch l_op false :: u_all toks else [])) in He.
          rewrite exec_app in He. destruct (m_exec (ms_mem h) (hv h (LStep w) v) [Touch l_st false]) as [[m1 v1]|] eqn:E1; [|discriminate]. destruct (exec_touches [Touch l_st false] _ _ _ _ eq_refl E1) as [Q _]. rewrite <- Q. exact (exec_lock _ _ _ _ _ _ _ He). }
        intros x [H|(w' & b & H1 & H2 & H3)]; [auto|]. destruct (Nat.eq_dec (t_of w) (t_of w')) as [E|E]; [apply Hv; congruence|]. exfalso. assert (Hn : w <> w') by congruence.
        pose proof (total_two debt _ _ _ _ _ Ha H1 Hn) as L. pose proof (i_ctr _ _ _ HA) as Hct. cbn [P_Suspend.debt] in L. lia. }
      split; [|split].
      * intros e u Hu. apply in_app_or in Hu. destruct Hu as [Hu|[[=]|[]]]. auto.
      * intros t1 u t2 E. cbn [map] in E. apply snoc_cons_inv in E. destruct E as [(-> & [= <-] & ->)|(t2' & ->)]; [|eauto]. split; [|split].
        -- intros u Hu x Hx. apply Hin, (C1 u Hu), Hx.
        -- intros Hne. specialize (Hsome Hne). assert (Hex : exists i, i < N /\ u_ph (st h) i = OTaken). { destruct Hsome as (i & Hi & [Hp|Hp]); [eauto|]. apply C3. auto. }
           destruct Hex as (i & Hi & Hp). destruct (C2 i Hi Hp) as (e & u & H1 & H2 & H3). exists e, u. split; [|split; [exact H2|]].
           ++ rewrite <- H1. unfold M_Suspend.tk. apply nth_In. exact Hi.
           ++ intros x Hx. apply Hin, H3, Hx.
        -- intros t1' u0 t2' e u E Ht Hu x Hx. destruct (In_tk _ _ Ht) as (i & Hi & Hti). apply Hin. refine (C4 _ _ _ _ _ i E Hu Hti _ Hi x Hx). lia.
      * discriminate.
    + destruct (call_facts _ _ _ _ _ _ HA Ha Hs Hal) as [-> [F1 F2 F3 F4]]. cbn [map]. rewrite app_nil_r. cbn [uh_dst] in *. split; [exact Jold|]. split; [exact Hseen|]. intros _.
      destruct (HC (Halm eq_refl)) as [C1 C2 C3 C4]. specialize (HK eq_refl).
      (* cancelled before start() got there *)
      assert (Hreq : forall i e u, i < N -> w = None -> a = USet i -> tk i = Some e -> u_req (st h) e = true -> In (ECancel e, u) tr -> K (MS s' m' (m_set (ms_view h) [t_of w] v')) u).
      { intros i e u Hi -> -> Et Er Hu x Hx. cbn [uh_acts] in He. rewrite Ha, Et, Er in He. destruct (Nat.ltb_spec i N) as [_|Q]; [|lia].
        assert (Hrl : incl (rl h (x_mtx e)) (mv_cur v')). { apply (mid_lock (ms_mem h) (hv h (LStep None) v) [Touch l_op false; Touch (l_ev i) true] (x_mtx e) [Touch (l_req e) false; Unlock (x_mtx e); Touch (l_fn i) false] m' v' eq_refl). exact He. }
        destruct (main_set _ _ _ _ HA Ha) as (_ & _ & Hun). cbn [uact_step] in Hs. rewrite (Halm eq_refl), Et, (Hun Hi), Er in Hs. destruct (Nat.ltb_spec i N) as [_|Q]; [|lia]. injection Hs as <-.
        right. exists None, (UOr true (KStart (S i))). split; [reflexivity|]. split; [cbn [P_Suspend.debt]; lia|]. cbn [ms_view]. rewrite set_in by (simpl; auto). apply Hrl, (J e u Hu), Hx. }
      constructor; cbn [ms_base].
      * auto.
      * intros i Hi Hp. destruct (F2 i Hi Hp) as [H|(Hw & Hai & e & Et & Er)].
        -- destruct (C2 i Hi H) as (e & u & H1 & H2 & H3). exists e, u. auto.
        -- pose proof (proj1 (i_req _ _ _ HA e) Er) as Hin. apply in_map_iff in Hin. destruct Hin as ([e' u] & Q & Hu). simpl in Q. subst e'. exists e, u. split; [exact Et|]. split; [exact Hu|]. eapply Hreq; eauto.
      * intros H. destruct (F3 H) as [H'|H']; [|exact H']. destruct (C3 H') as (i & Hi & Hp). exists i. split; [exact Hi|]. auto.
      * intros t1 u0 t2 e u i E Hu Ht Hp Hi. destruct (F4 i Hi Hp) as [H|[Hw Hai]]; [apply HK; eapply C4; eauto|].
        assert (Hut : In (ECancel e, u) tr) by (rewrite E; apply in_or_app; auto). apply (Hreq i e u Hi Hw Hai Ht); auto. apply (i_req _ _ _ HA e). apply in_map_iff. exists (ECancel e, u). auto.
Qed.

Lemma suspend_seen ls h tr : run hstep (uh_init toks) ls = Running h tr -> seen tr.
Proof.
  intros Hr. cut (VI h tr); [intros (_ & H & _); exact H|].
  apply (h_inv (u_step toks) uh_src uh_dst acts (fun _ => True) VI (u_start toks)) with (ls := ls); auto.
  - split; [intros e u []|]. split; [intros [] ? ? [=]|]. intros _. constructor; simpl; try tauto; try discriminate.
    + intros [H|H]; [discriminate|]. unfold total in H. simpl in H. lia.
    + intros [] ? ? ? ? ? [=].
  - clear Hr ls h tr. intros ls h tr l v s' es m' v' Hr HV Hs He _. destruct (hl_run _ _ _ Hr) as (HA & HP & _ & HW).
    assert (HA' : UI s' (map fst tr ++ es)) by (pose proof (ui_step toks _ _ l HA) as Q; rewrite Hs in Q; exact Q). eapply VI_step; eauto.
Qed.
End Toks.
