(** The happens-before invariant of cancellation_event. *)
From Coq Require Import List Arith Bool Lia.
From Verif Require Import Lts ListFacts M_HB P_HB M_Cancel S_Cancel P_Cancel P_CancelInv P_CancelStep M_CancelHB S_CancelHB P_CancelHB P_CancelHB2.
Import ListNotations.

Notation v_ h t := (mv_cur (ms_view h t)).
Notation lg h := (mm_log (ms_mem h)).
Notation rl h x := (mm_rel (ms_mem h) x).
Notation st h := (ms_base h).
Notation chst := (mst (S := cst)).

Definition EV (h : chst) (tr : ctrace) (e : nat) : Prop :=
  (e_alive (c_ev (st h) e) = true -> kn (lg h) (rl h (x_acc e)) (l_ev e) /\ kn (lg h) (rl h (x_acc e)) (l_st e) /\ kw (lg h) [] (l_ev e)) /\
  (e_alive (c_ev (st h) e) = true -> e_lock (c_ev (st h) e) = false -> kn (lg h) (rl h (x_e e)) (l_st e)) /\
  (e_lock (c_ev (st h) e) = false -> sees_cancel e tr (rl h (x_e e))).
Definition FV (h : chst) (tr : ctrace) (c e : nat) : Prop :=
  e_alive (c_ev (st h) e) = true /\ kn (lg h) (v_ h (t_r c)) (l_st e) /\ sees_cancel e tr (v_ h (t_r c)).
Definition own (h : chst) (c : nat) : hbs := v_ h (t_n c) ++ v_ h (t_r c).
Definition ND (h : chst) (c : nat) : Prop :=
  (fresh (st h) c = true -> kn (lg h) [] (l_nd c) /\ kn (lg h) [] (l_hk c)) /\
  (nlive (st h) c = true -> kw (lg h) (v_ h (t_n c)) (l_nd c) /\ kn (lg h) (own h c) (l_nd c)) /\
  (nlive (st h) c = true -> inc (st h) c = false -> ~ In c (rests (st h)) -> kn (lg h) (own h c) (l_hk c)).
(** u: the view of a thread that may access c in a list *)
Definition LV (h : chst) (tr : ctrace) (c : nat) (u : hbs) : Prop := kn (lg h) u (l_hk c) /\ kw (lg h) u (l_nd c) /\ sees_set c tr u.
Record Inv (h : chst) (tr : ctrace) : Prop := {
  w_k : KI (st h) (map fst tr);
  w_ev : forall e, EV h tr e;
  w_fn : forall c e, In (FRun c e HCtor) (c_fns (st h)) -> FV h tr c e;
  w_nd : forall c, ND h c;
  w_cb : forall e c, In c (e_cbs (c_ev (st h) e)) -> LV h tr c (rl h (x_e e));
  w_rs : forall i L c, nth_error (c_loops (st h)) i = Some L -> In c (l_rest L) -> LV h tr c (v_ h (t_l i)) /\ sees_cause c HCancel tr (v_ h (t_l i));
  w_vis : forall t1 ev v t2, tr = t1 ++ (ev, v) :: t2 -> sees_ok t1 ev v }.

Notation hv := (hview ch_src).
Lemma dst_src s l t : In t (ch_dst s l) -> In t (ch_src s l).
Proof. destruct l; simpl; auto; contradiction. Qed.

Lemma kn_any g v x : kn g [] x -> kn g v x. Proof. intros H. apply (kn_incl _ _ _ _ H). intros i []. Qed.
Lemma kw_any g v x : kw g [] x -> kw g v x. Proof. intros H. apply (kw_incl _ _ _ _ H). intros i []. Qed.

Section Step.
Context {h : chst} {tr : ctrace} {l : clabel} {s' : cst} {es : list cevent}.
Hypothesis W : Inv h tr.
Hypothesis Hs : c_step (st h) l = Next s' es.
Hypothesis K' : KI s' (map fst tr ++ es).
Notation K := (w_k _ _ W).

Lemma del_out c : l = LDel c -> ~ In c (rests (st h)) /\ (inc (st h) c = true -> exists e, sec (st h) l = Some e /\ In c (e_cbs (c_ev (st h) e))).
Proof.
  intros E. destruct (del_live Hs c E) as (A & B & _). split.
  - intros Hr. assert (Hr' : In c (rests s')). { destruct (in_dec Nat.eq_dec c (rests s')) as [H|H]; auto. destruct (rest_fwd Hs c Hr H) as (rest & i & Ei & _). congruence. }
    apply (k_rest_live _ _ K') in Hr'. congruence.
  - unfold inc. destruct (n_tok (c_nd (st h) c)) as [e|] eqn:Et; [|discriminate]. intros Hi. apply memb_In in Hi. exists e. split; [|exact Hi]. subst l. cbn [sec]. rewrite Et. destruct (n_obs (c_nd (st h) c)) eqn:Eo; auto.
    exfalso. assert (Hi' : In c (e_cbs (c_ev s' e))). { cbn [c_step] in Hs. rewrite A, Eo in Hs. simpl in Hs. injection Hs as <- <-. exact Hi. }
    pose proof (proj1 (cbs_live K' _ _ Hi')). congruence.
Qed.
Lemma pre_kn (v : mview) : (forall t, In t (ch_src (st h) l) -> incl (v_ h t) (mv_cur v)) ->
  (forall y, In (Touch y true) (pre (st h) l) -> kn (lg h) (mv_cur v) y) /\ (forall y, In (Touch y false) (pre (st h) l) -> kw (lg h) (mv_cur v) y).
Proof.
  intros Hv. split; intros y Hy; apply pre_in in Hy; destruct Hy as (c & Hn & [[-> Hb]|[-> Hb]]).
  - apply kn_any. apply (w_nd _ _ W c). apply (mkn_fresh Hs). auto.
  - apply kn_any. apply (w_nd _ _ W c). now apply (mkn_fresh Hs).
  - clear Hb. assert (Hc : mkn l c \/ ((l = LDel c \/ ~ mk l c) /\ In (t_n c) (ch_src (st h) l)) \/ exists i, l = LLoop i) by (destruct l; simpl in *; subst; auto; try contradiction; right; try (right; eexists; reflexivity); left; (split; [(left; reflexivity) || (right; tauto)|auto])).
    destruct Hc as [Hm|[[Hm Hi]|[i ->]]].
    + apply kw_any, kn_kw. apply (w_nd _ _ W c). now apply (mkn_fresh Hs).
    + apply (kw_incl _ (v_ h (t_n c))); [|now apply Hv]. apply (w_nd _ _ W c). destruct Hm as [Hm|Hm]; [now apply (del_live Hs c)|now apply (sn_live Hs c)].
    + destruct Hn as [rest Hi]. assert (Hr : In c (c :: rest)) by now left. destruct (w_rs _ _ W _ _ c Hi Hr) as [[_ [H _]] _]. apply (kw_incl _ _ _ _ H). apply Hv. simpl. auto.
  - apply kn_kw, kn_any. apply (w_nd _ _ W c). now apply (mkn_fresh Hs).
Qed.
Lemma post_kn (v : mview) R : (forall t, In t (ch_src (st h) l) -> incl (v_ h t) (mv_cur v)) -> (forall e, sec (st h) l = Some e -> incl (rl h (x_e e)) R) ->
  (forall y, In (Touch y true) (post (st h) l) -> kn (lg h) (mv_cur v ++ R) y) /\ (forall y, In (Touch y false) (post (st h) l) -> kw (lg h) (mv_cur v ++ R) y).
Proof.
  intros Hv HR. split; intros y Hy.
  - assert (Hd : exists c, l = LDel c /\ (y = l_nd c \/ y = l_hk c)) by (apply post_in in Hy; destruct Hy as (c & _ & [[-> Hb]|[-> Hb]]); exists c; split; auto).
    destruct Hd as (c & E & Hy'). destruct (del_live Hs c E) as (A & _). assert (Ho : incl (own h c) (mv_cur v ++ R)) by (unfold own; apply incl_app; apply incl_appl, Hv; subst l; simpl; auto).
    destruct (w_nd _ _ W c) as (_ & N2 & N3). destruct Hy' as [-> | ->].
    + apply (kn_incl _ _ _ _ (proj2 (N2 A)) Ho).
    + destruct (del_out c E) as [D1 D2]. destruct (inc (st h) c) eqn:Ei; [|apply (kn_incl _ _ _ _ (N3 A eq_refl D1) Ho)]. destruct (D2 eq_refl) as (e & E1 & E2). destruct (w_cb _ _ W _ _ E2) as [H _]. apply (kn_incl _ _ _ _ H). apply incl_appr, HR, E1.
  - assert (Hm : exists c, mkn l c /\ y = l_nd c).
    { destruct l as [c t|c|c [e|] f|c|c|e0|e0|e0|e0|i|k|k]; cbn [post] in Hy; unfold make in Hy; try (destruct Hy; fail); [|destruct Hy as [Hy|[Hy|[]]]; discriminate]. destruct (_ && _); [|destruct Hy]. destruct Hy as [[= <-]|[]]. exists c. split; reflexivity. }
    destruct Hm as (c & Hm & ->). apply kn_kw, kn_any. apply (w_nd _ _ W c). now apply (mkn_fresh Hs).
Qed.

Lemma exec_good v : m_exec (ms_mem h) (hv h l v) (ch_acts (st h) l) <> None.
Proof.
  assert (Hv : forall t, In t (ch_src (st h) l) -> incl (v_ h t) (mv_cur (hv h l v))) by (intros t Ht; now apply in_hview).
  destruct (pre_kn _ Hv) as [P1 P2]. destruct (sec (st h) l) as [e|] eqn:Hsec.
  - destruct (sts_ok Hs e (or_introl Hsec)) as [A B]. destruct (w_ev _ _ W e) as (E1 & E2 & _). rewrite (acts_sec _ _ _ Hsec).
    destruct (post_kn _ (rl h (x_e e)) Hv) as [Q1 Q2]; [intros e'; rewrite Hsec; intros [= <-]; apply incl_refl|]. apply mid_ok.
    + rewrite forallb_app. simpl. rewrite andb_true_r. apply forallb_forall. intros a Ha. destruct l; simpl in Ha; unfold make in *; try (destruct (n_obs _)); simpl in Ha; repeat destruct Ha as [Ha|Ha]; try contradiction; subst; reflexivity.
    + intros y Hy. apply in_app_or in Hy. destruct Hy as [Hy|[Hy|[]]]; [auto|discriminate].
    + intros y Hy. apply in_app_or in Hy. destruct Hy as [Hy|[Hy|[]]]; [auto|]. injection Hy as <-. apply kw_any. now apply E1.
    + intros y Hy. apply in_app_or in Hy. destruct Hy as [[Hy|Hy]|[Hy|[Hy|Hy]]]; try discriminate; [| |auto].
      * injection Hy as <-. apply (kn_incl _ (rl h (x_e e))); [auto|apply incl_appr, incl_refl].
      * apply in_hooks in Hy. destruct Hy as (c & -> & Hc & _). destruct (body_in _ _ _ Hc) as [e' [[E [Hi|Hi]]|(c0 & _ & E)]]; [| |congruence].
        -- replace e' with e in Hi by congruence. apply (kn_incl _ (rl h (x_e e))); [|apply incl_appr, incl_refl]. exact (proj1 (w_cb _ _ W _ _ Hi)).
        -- apply kn_any. apply (w_nd _ _ W c). now apply (mkn_fresh Hs).
    + intros y Hy. apply in_app_or in Hy. destruct Hy as [[Hy|Hy]|[Hy|[Hy|Hy]]]; try discriminate; [|auto]. apply in_hooks in Hy. destruct Hy as (c & _ & _ & X). discriminate.
  - assert (Hpl : plain (st h) l -> m_exec (ms_mem h) (hv h l v) (ch_acts (st h) l) <> None).
    { intros Hp. rewrite acts_plain by auto. destruct (post_kn _ [] Hv) as [Q1 Q2]; [congruence|]. rewrite app_nil_r in Q1, Q2. apply exec_ok; intros y Hy; apply in_app_or in Hy; destruct Hy; auto. }
    destruct l as [c [e|]|c|c [e|] f|c|c|e|e|e|e|i|k|k] eqn:El; try (apply Hpl; exact I); try (cbn in Hsec; discriminate).
    + cbn [sec] in Hsec. destruct (e_req (c_ev (st h) e)) eqn:Er; [|discriminate]. assert (Hst : sts (st h) (LNew c (Some e)) e) by (right; left; eauto). destruct (sts_ok Hs e Hst) as [A B]. destruct (w_ev _ _ W e) as (E1 & E2 & _).
      destruct (w_nd _ _ W c) as (N1 & _ & _). destruct (N1 (proj1 (mkn_fresh Hs c eq_refl))) as [N2 N3]. cbn [ch_acts]. rewrite Er.
      change (m_exec (ms_mem h) (hv h (LNew c (Some e)) v) ([Touch (l_nd c) true; Touch (l_hk c) true; Touch (l_ev e) false] ++ Lock (x_e e) :: [Touch (l_st e) true; Touch (l_nd c) false; know e]) <> None). apply mid_ok; [reflexivity| | | |].
      * intros y Hy. destruct Hy as [[= <-]|[[= <-]|[Hy|[]]]]; [now apply kn_any|now apply kn_any|discriminate].
      * intros y Hy. destruct Hy as [Hy|[Hy|[[= <-]|[]]]]; try discriminate. apply kw_any. now apply E1.
      * intros y Hy. destruct Hy as [[= <-]|[Hy|[Hy|[]]]]; try discriminate. apply (kn_incl _ (rl h (x_e e))); [auto|apply incl_appr, incl_refl].
      * intros y Hy. destruct Hy as [Hy|[[= <-]|[Hy|[]]]]; try discriminate. now apply kw_any, kn_kw.
    + assert (Hst : sts (st h) (LDelEv e) e) by (right; right; eauto). destruct (sts_ok Hs e Hst) as [A B]. destruct (w_ev _ _ W e) as (E1 & E2 & _). destruct (E1 A) as (Q1 & Q2 & _). cbn [ch_acts]. apply (lock_ok _ _ [Touch (l_ev e) true; Touch (l_st e) true]).
      * intros y [[= <-]|[[= <-]|[]]]; [apply (kn_incl _ _ _ _ Q1)|apply (kn_incl _ _ _ _ Q2)]; apply incl_appr, incl_refl.
      * intros y [Hy|[Hy|[]]]; discriminate.
    + cbn [ch_acts]. destruct (nth_error (c_loops (st h)) i) as [[[|c rest] [|]]|] eqn:Hi; try (simpl; discriminate). assert (Ht : incl (v_ h (t_l i)) (mv_cur (hv h (LLoop i) v))) by (apply Hv; simpl; auto). apply exec_ok.
      * intros y Hy. apply in_app_or in Hy. destruct Hy as [Hy|[Hy|[]]]; [|discriminate]. apply in_hooks in Hy. destruct Hy as (c1 & -> & Hc & _). destruct (w_rs _ _ W _ _ c1 Hi Hc) as [[H _] _]. apply (kn_incl _ _ _ _ H Ht).
      * intros y Hy. apply in_app_or in Hy. destruct Hy as [Hy|[[= <-]|[]]]; [apply in_hooks in Hy; destruct Hy as (c1 & _ & _ & X); discriminate|]. destruct (w_rs _ _ W _ _ c Hi (or_introl eq_refl)) as [[_ [H _]] _]. apply (kw_incl _ _ _ _ H Ht).
    + cbn [ch_acts]. destruct (nth_error (c_fns (st h)) k) as [[c e [| |]|]|] eqn:Hk; try (simpl; discriminate). destruct (w_fn _ _ W c e) as [A _]; [eapply nth_error_In; eauto|]. destruct (w_ev _ _ W e) as (E1 & _). apply exec_ok.
      * intros y [Hy|[Hy|[Hy|[]]]]; discriminate.
      * intros y [[= <-]|[Hy|[Hy|[]]]]; try discriminate. apply kw_any. now apply E1.
    + cbn [sec ch_acts] in *. destruct (nth_error (c_fns (st h)) k) as [[c e h0|]|]; simpl; discriminate.
Qed.
End Step.
