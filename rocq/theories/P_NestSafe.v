(** Nestings with when_all that do not fail: proofs. *)
From Coq Require Import List Arith Bool Lia.
From Verif Require Import Lts ListFacts M_Nest S_Nest P_Nest S_NestSafe.
Import ListNotations.

(** The operation waits for a leaf operation before it completes. *)
Inductive mw : op -> Prop :=
| mw_new : forall x, aw x -> mw (ONew x)
| mw_leaf : forall i, mw (OLeaf i)
| mw_ite : forall f a b, aw a -> aw b -> mw (OFn f (KIte a b))
| mw_letp : forall f g body, (forall v, aw (body v)) -> mw (OFn f (KLetP g body))
| mw_letf : forall f body, (forall v, aw (body v)) -> mw (OFn f (KLetF body))
| mw_trans : forall f o, mw o -> mw (OTrans f o)
| mw_rep : forall c g body o, mw o -> mw (ORep c g body o)
| mw_seq : forall l o, mw o -> mw (OSeq l o)
| mw_later : forall l o y, In y l -> aw y -> mw (OSeq l o)
| mw_all : forall st ctr os i o, nth_error os i = Some o -> mw o -> mw (OAll st ctr os).
Inductive okk : kont -> Prop :=
| kk_set : okk KSet
| kk_ite : forall a b, ok a -> ok b -> okk (KIte a b)
| kk_repc : forall c g body, (forall v, ok (body v)) -> okk (KRepC c g body)
| kk_repf : forall c g body, (forall v, ok (body v)) -> okk (KRepF c g body)
| kk_letp : forall g body, (forall v, ok (body v)) -> okk (KLetP g body)
| kk_letf : forall body, (forall v, ok (body v)) -> okk (KLetF body).
Inductive okp : op -> Prop :=
| p_new : forall x, ok x -> okp (ONew x)
| p_leaf : forall i, okp (OLeaf i)
| p_fn : forall f k, okk k -> okp (OFn f k)
| p_trans : forall f o, okp o -> okp (OTrans f o)
| p_rep : forall c g body o, (forall v, ok (body v)) -> okp o -> okp (ORep c g body o)
| p_seq : forall l o, (forall y, In y l -> ok y) -> okp o -> okp (OSeq l o)
| p_all : forall st ctr os, (forall i o, nth_error os i = Some o -> okp o) -> (st <= length os -> exists i o, nth_error os i = Some o /\ mw o) -> okp (OAll st ctr os)
| p_set : forall v, okp (OSet v)
| p_fin : okp OFin.
Lemma len_set {A} (l : list A) i x : length (set_nth l i x) = length l.
Proof. revert i. induction l as [|a l IH]; intros [|i]; simpl; auto. Qed.
Lemma in_new y l : In y l -> exists i, nth_error (map ONew l) i = Some (ONew y).
Proof. intros H. apply In_nth_error in H as [i H]. exists i. rewrite nth_error_map, H. reflexivity. Qed.
Lemma start_mw x : aw x -> forall o es, o_start x = (o, es) -> mw o.
Proof.
  induction x using ex_ind'; intros A o es E; inversion A as [|? ? A1|? ? ? A1 A2|? ? ? A1|? ? y A1 A2|? ? y A1 A2]; subst; simpl in E; try (inversion E; subst; constructor; assumption).
  - destruct (o_start x) as [o1 es1]. inversion E; subst. constructor. eapply IHx; eauto.
  - destruct (o_start x) as [o1 es1]. inversion E; subst. destruct A1 as [<-|A1]; [apply mw_seq; eapply IHx; eauto|eapply mw_later; eauto].
  - inversion E; subst. destruct (in_new y (x :: l) A1) as [i Hi]. eapply mw_all; [exact Hi|constructor; exact A2].
Qed.
Lemma start_okp x : ok x -> forall o es, o_start x = (o, es) -> okp o.
Proof.
  induction x using ex_ind'; intros A o es E; inversion A as [| | | | | |? ? A1|? ? y A1 A2 A3]; subst; simpl in E; try (inversion E; subst; constructor; try constructor; assumption).
  - destruct (o_start x) as [o1 es1]. inversion E; subst. constructor. eapply IHx; eauto.
  - destruct (o_start x) as [o1 es1]. inversion E; subst. constructor; [intros y Hy; apply A1; now right|]. eapply IHx; eauto. apply A1. now left.
  - inversion E; subst. constructor.
    + intros i o1 Hi. change (nth_error (map ONew (x :: l)) i = Some o1) in Hi. rewrite nth_error_map in Hi. destruct (nth_error (x :: l) i) as [z|] eqn:Hz; inversion Hi; subst. constructor. apply A1. eapply nth_error_In; eauto.
    + intros _. destruct (in_new y (x :: l) A2) as [i Hi]. exists i. eexists. split; [exact Hi|constructor; exact A3].
Qed.
Lemma start_of_mw x o es : aw x -> start_of x = Next o es -> mw o.
Proof. unfold start_of. destruct (o_start x) as [o1 es1] eqn:E. intros W F. inversion F; subst. eapply start_mw; eauto. Qed.
Lemma start_of_okp x o es : ok x -> start_of x = Next o es -> okp o.
Proof. unfold start_of. destruct (o_start x) as [o1 es1] eqn:E. intros W F. inversion F; subst. eapply start_okp; eauto. Qed.
Lemma nth_set_other {A} (l : list A) i j x : i <> j -> nth_error (set_nth l i x) j = nth_error l j.
Proof. intros N. rewrite nth_set_nth. destruct (Nat.eqb_spec i j); [contradiction|reflexivity]. Qed.
Lemma nth_set_same {A} (l : list A) i x y : nth_error l i = Some y -> nth_error (set_nth l i x) i = Some x.
Proof. intros H. rewrite nth_set_nth, Nat.eqb_refl. assert (i < length l) by (apply nth_error_Some; congruence). destruct (Nat.ltb_spec i (length l)); [reflexivity|lia]. Qed.
(** a when_all with an operation that waits, after a step of one of the operations *)
Lemma mw_child os i o o' : nth_error os i = Some o -> (mw o -> mw o') -> (exists j q, nth_error os j = Some q /\ mw q) -> exists j q, nth_error (set_nth os i o') j = Some q /\ mw q.
Proof.
  intros Hi H (j & q & Hj & Q). destruct (Nat.eq_dec i j) as [<-|N].
  - rewrite Hi in Hj. injection Hj as <-. exists i, o'. split; [eapply nth_set_same; eauto|auto].
  - exists j, q. split; [rewrite nth_set_other by exact N; exact Hj|exact Q].
Qed.
Lemma last_none os i v : nth_error os i = Some (OSet v) -> sum (map unfin os) = 1 -> (exists j q, nth_error os j = Some q /\ mw q) -> False.
Proof. intros Hi U (j & q & Hj & Q). destruct (others_fin os i v Hi U q (nth_error_In _ _ Hj)) as [->|[w ->]]; inversion Q. Qed.

Lemma step_mw o : forall p e o' es, wf o -> mw o -> o_step o p e = Next o' es -> existsb is_comp es = false -> mw o'.
Proof.
  induction o using op_ind'; intros p e o' es W M E N; simpl in E; try discriminate; inversion M as [? A|?|? ? ? A1 A2|? ? ? A|? ? A|? ? A|? ? ? ? A|? ? A|? ? y A1 A2|? ? ? i0 q A1 A2]; subst.
  - destruct p, e; inversion E; subst. discriminate.
  - destruct p, e as [v|]; try discriminate. unfold k_step in E. apply emit_next in E as (es' & E & _). eapply start_of_mw; [|exact E]. destruct (v =? 0); assumption.
  - destruct p, e as [v|]; try discriminate. unfold k_step in E. apply emit_next in E as (es' & E & _). inversion E; subst. constructor. assumption.
  - destruct p, e as [v|]; try discriminate. unfold k_step in E. apply emit_next in E as (es' & E & _). eapply start_of_mw; [|exact E]. auto.
  - inversion W; subst. assert (Hs : forall v, o <> OSet v) by (intros v ->; inversion A). assert (F : within (OTrans f) (o_step o p e) = Next o' es) by (destruct o; try exact E; now destruct (Hs v)).
    apply within_next in F as (o1 & F & ->). constructor. eauto.
  - inversion W; subst. assert (Hs : forall v, o <> OSet v) by (intros v ->; inversion A). assert (F : within (ORep c g body) (o_step o p e) = Next o' es) by (destruct o; try exact E; now destruct (Hs v)).
    apply within_next in F as (o1 & F & ->). constructor. eauto.
  - inversion W; subst. assert (Hs : forall v, o <> OSet v) by (intros v ->; inversion A). assert (F : within (OSeq l) (o_step o p e) = Next o' es) by (destruct o; try exact E; now destruct (Hs v)).
    apply within_next in F as (o1 & F & ->). constructor. eauto.
  - destruct (set_dec o) as [[v ->]|Hs].
    + destruct p, e, l as [|x l]; try discriminate; [destruct A1|]. apply within_next in E as (o1 & F & ->). destruct A1 as [->|A1]; [apply mw_seq; eapply start_of_mw; eauto|eapply mw_later; eauto].
    + assert (F : within (OSeq l) (o_step o p e) = Next o' es) by (destruct o; try exact E; now destruct (Hs v)). apply within_next in F as (o1 & F & ->). eapply mw_later; eauto.
  - inversion W as [| | | | | |? ? ? Wc Ws Wt Wk Wp| | |]; subst. assert (X : exists j q, nth_error os j = Some q /\ mw q) by eauto. rewrite Forall_forall in H.
    assert (Mk : forall st' c' os', (exists j q, nth_error os' j = Some q /\ mw q) -> mw (OAll st' c' os')) by (intros st' c' os' (j & q' & Hj & Hq); eapply mw_all; eauto).
    destruct p as [|i p].
    + destruct e; [destruct (nth_error os st); discriminate|]. destruct (nth_error os st) as [o|] eqn:Hn.
      * destruct o; try discriminate. destruct (o_start x) as [o1 es1] eqn:Hx. inversion E; subst. apply Mk. eapply mw_child; eauto. intros Q. inversion Q; subst. eapply start_mw; eauto.
      * destruct (st =? length os); inversion E; subst. apply Mk. exact X.
    + rewrite child_nth in E. destruct (nth_error os i) as [o|] eqn:Hi; [|discriminate]. destruct (set_dec o) as [[v ->]|Hs].
      * destruct p, e; try discriminate. unfold all_done in E. destruct (sum (map unfin os)) as [|[|c]] eqn:U; [discriminate| |].
        -- exfalso. eapply last_none; eauto.
        -- inversion E; subst. apply Mk. eapply mw_child; eauto. intros Q; inversion Q.
      * assert (F : within (fun o'' => OAll st (sum (map unfin os)) (set_nth os i o'')) (o_step o p e) = Next o' es) by (destruct o; try exact E; now destruct (Hs v)). apply within_next in F as (o1 & F & ->).
        apply Mk. eapply mw_child; eauto. intros Q. eapply (H o (nth_error_In _ _ Hi)); eauto. apply Wc. eapply nth_error_In; eauto.
Qed.
Lemma step_okp o : forall p e o' es, wf o -> okp o -> o_step o p e = Next o' es -> existsb is_comp es = false \/ pend o = false -> okp o'.
Proof.
  induction o using op_ind'; intros p e o' es W M E N; simpl in E; try discriminate; inversion M as [? A|?|? ? A|? ? A|? ? ? ? A1 A2|? ? A1 A2|? ? ? A1 A2| |]; subst.
  - destruct p, e; inversion E; subst. constructor.
  - destruct p, e as [v|]; try discriminate. unfold k_step in E. apply emit_next in E as (es' & E & _). inversion A; subst.
    + inversion E; subst. constructor.
    + eapply start_of_okp; [|exact E]. destruct (v =? 0); assumption.
    + destruct (v =? 0); inversion E; subst; repeat constructor; assumption.
    + apply within_next in E as (o1 & E & ->). constructor; [assumption|]. eapply start_of_okp; [|exact E]. auto.
    + inversion E; subst. repeat constructor; assumption.
    + eapply start_of_okp; [|exact E]. auto.
  - inversion W; subst. destruct (set_dec o) as [[v ->]|Hs]; [destruct p, e; inversion E; subst; repeat constructor|].
    assert (F : within (OTrans f) (o_step o p e) = Next o' es) by (destruct o; try exact E; now destruct (Hs v)). apply within_next in F as (o1 & F & ->). constructor. eauto.
  - inversion W; subst. destruct (set_dec o) as [[v ->]|Hs]; [destruct p, e; inversion E; subst; repeat constructor; assumption|].
    assert (F : within (ORep c g body) (o_step o p e) = Next o' es) by (destruct o; try exact E; now destruct (Hs v)). apply within_next in F as (o1 & F & ->). constructor; eauto.
  - inversion W; subst. destruct (set_dec o) as [[v ->]|Hs].
    + destruct p, e, l as [|x l]; try discriminate; [inversion E; subst; constructor|]. apply within_next in E as (o1 & F & ->). constructor; [intros y Hy; apply A1; now right|]. eapply start_of_okp; [|exact F]. apply A1. now left.
    + assert (F : within (OSeq l) (o_step o p e) = Next o' es) by (destruct o; try exact E; now destruct (Hs v)). apply within_next in F as (o1 & F & ->). constructor; eauto.
  - inversion W as [| | | | | |? ? ? Wc Ws Wt Wk Wp| | |]; subst. rewrite Forall_forall in H.
    assert (Ch : forall i q, okp q -> forall j r, nth_error (set_nth os i q) j = Some r -> okp r).
    { intros i q Hq j r Hj. rewrite nth_set_nth in Hj. destruct (Nat.eqb_spec i j) as [<-|]; [destruct (i <? length os); inversion Hj; subst; exact Hq|eauto]. }
    destruct p as [|i p].
    + destruct e; [destruct (nth_error os st); discriminate|]. destruct (nth_error os st) as [o|] eqn:Hn.
      * destruct o; try discriminate. destruct (o_start x) as [o1 es1] eqn:Hx. inversion E; subst. pose proof (A1 _ _ Hn) as Ok. inversion Ok; subst. constructor; [apply Ch; eapply start_okp; eauto|].
        intros L. rewrite len_set in L. eapply mw_child; [exact Hn| |apply A2; lia]. intros Q. inversion Q; subst. eapply start_mw; eauto.
      * destruct (Nat.eqb_spec st (length os)); inversion E; subst. constructor; [exact A1|lia].
    + rewrite child_nth in E. destruct (nth_error os i) as [o|] eqn:Hi; [|discriminate]. destruct (set_dec o) as [[v ->]|Hs].
      * destruct p, e; try discriminate. unfold all_done in E. destruct (sum (map unfin os)) as [|[|c]] eqn:U; [discriminate|destruct (st <=? length os); inversion E; subst; constructor|].
        inversion E; subst. constructor; [apply Ch; constructor|]. intros L. rewrite len_set in L. eapply mw_child; [exact Hi|intros Q; inversion Q|auto].
      * assert (F : within (fun o'' => OAll st (sum (map unfin os)) (set_nth os i o'')) (o_step o p e) = Next o' es) by (destruct o; try exact E; now destruct (Hs v)). apply within_next in F as (o1 & F & ->).
        assert (Wo : wf o) by (apply Wc; eapply nth_error_In; eauto). constructor.
        -- apply Ch. eapply (H o (nth_error_In _ _ Hi)); eauto. destruct N as [N|N]; [now left|right]. simpl in N. apply orb_false_iff in N as [_ N].
           destruct (pend o) eqn:P; [|reflexivity]. rewrite <- N. symmetry. apply existsb_exists. exists o. split; [eapply nth_error_In; eauto|exact P].
        -- intros L. rewrite len_set in L. destruct N as [N|N]; [|simpl in N; apply orb_false_iff in N as [N _]; apply Nat.leb_gt in N; lia].
           eapply mw_child; [exact Hi|intros Q; eapply step_mw; eauto|auto].
Qed.
Lemma step_nofail o : forall p e f es, wf o -> okp o -> o_step o p e <> Fail f es.
Proof.
  induction o using op_ind'; intros p e f0 es W M E; simpl in E; try discriminate; inversion M as [? A|?|? ? A|? ? A|? ? ? ? A1 A2|? ? A1 A2|? ? ? A1 A2| |]; subst.
  - destruct p, e; discriminate.
  - destruct p, e as [v|]; try discriminate. unfold k_step, start_of in E. destruct k; simpl in E; try discriminate; try (destruct (o_start _); discriminate); destruct (v =? 0); simpl in E; try discriminate; destruct (o_start _); discriminate.
  - inversion W; subst. destruct (set_dec o) as [[v ->]|Hs]; [destruct p, e; discriminate|].
    assert (F : within (OTrans f) (o_step o p e) = Fail f0 es) by (destruct o; try exact E; now destruct (Hs v)). apply within_fail in F. eapply IHo; eauto.
  - inversion W; subst. destruct (set_dec o) as [[v ->]|Hs]; [destruct p, e; discriminate|].
    assert (F : within (ORep c g body) (o_step o p e) = Fail f0 es) by (destruct o; try exact E; now destruct (Hs v)). apply within_fail in F. eapply IHo; eauto.
  - inversion W; subst. destruct (set_dec o) as [[v ->]|Hs].
    + destruct p, e, l as [|x l]; try discriminate. unfold start_of in E. destruct (o_start x); discriminate.
    + assert (F : within (OSeq l) (o_step o p e) = Fail f0 es) by (destruct o; try exact E; now destruct (Hs v)). apply within_fail in F. eapply IHo; eauto.
  - inversion W as [| | | | | |? ? ? Wc Ws Wt Wk Wp| | |]; subst. rewrite Forall_forall in H. destruct p as [|i p].
    + destruct e; [destruct (nth_error os st); discriminate|]. destruct (nth_error os st) as [o|]; [destruct o; try discriminate; destruct (o_start x); discriminate|destruct (st =? length os); discriminate].
    + rewrite child_nth in E. destruct (nth_error os i) as [o|] eqn:Hi; [|discriminate]. destruct (set_dec o) as [[v ->]|Hs].
      * destruct p, e; try discriminate. unfold all_done in E. destruct (sum (map unfin os)) as [|[|c]] eqn:U; [lia| |discriminate].
        destruct (Nat.leb_spec st (length os)) as [L|L]; [|discriminate]. eapply last_none; eauto.
      * assert (F : within (fun o'' => OAll st (sum (map unfin os)) (set_nth os i o'')) (o_step o p e) = Fail f0 es) by (destruct o; try exact E; now destruct (Hs v)). apply within_fail in F.
        eapply (H o (nth_error_In _ _ Hi)); eauto. apply Wc. eapply nth_error_In; eauto.
Qed.
Lemma c_ok s l : wf s -> okp s -> (forall s' es, c_step s l = Next s' es -> wf s' /\ okp s') /\ forall f es, c_step s l <> Fail f es.
Proof.
  intros W O. unfold c_step. split.
  - intros s' es E. destruct (n_step s l) as [o es0| |] eqn:F; try discriminate. destruct (existsb is_comp es0 && pend s) eqn:B; [discriminate|]. inversion E; subst; clear E. apply andb_false_iff in B.
    destruct l as [|p|p v]; simpl in F.
    + destruct s; try discriminate. inversion O; subst. split; [apply (start_of_wf _ _ _ F)|eapply start_of_okp; eauto].
    + assert (K : s' = OFin \/ o_step s p None = Next s' es) by (destruct p; [|now right]; destruct s; try (now right); left; inversion F; reflexivity). destruct K as [->|K]; [split; constructor|].
      split; [apply (step_good _ _ _ _ _ W K)|eapply step_okp; eauto].
    + split; [apply (step_good _ _ _ _ _ W F)|eapply step_okp; eauto].
  - intros f es E. destruct (n_step s l) as [o es0| |f' es'] eqn:F; [destruct (existsb is_comp es0 && pend s); discriminate|discriminate|].
    destruct l as [|p|p v]; simpl in F; [destruct s; try discriminate; unfold start_of in F; destruct (o_start x); discriminate| |eapply step_nofail; eauto].
    destruct p; [destruct s; try discriminate; eapply step_nofail; eauto|eapply step_nofail; eauto].
Qed.
Lemma nest_safe x ls f tr : ok x -> run c_step (n_init x) ls <> Failed f tr.
Proof.
  intros Q. unfold run, n_init. assert (W : wf (ONew x)) by constructor. assert (O : okp (ONew x)) by (constructor; exact Q). revert W O. generalize (ONew x) (@nil nevent).
  induction ls as [|l ls IH]; intros s tr0 W O R; cbn [run_from] in R; [discriminate|]. destruct (c_ok s l W O) as [H1 H2]. destruct (c_step s l) as [s' es| |f' es'] eqn:E; try discriminate; [|exact (H2 _ _ eq_refl)].
  destruct (H1 _ _ eq_refl) as [W' O']. exact (IH _ _ W' O' R).
Qed.
(** Steps of the library are not restricted. *)
Lemma start_nc x : forall o es, o_start x = (o, es) -> existsb is_comp es = false.
Proof. induction x using ex_ind'; intros o es E; simpl in E; try (inversion E; subst; reflexivity); destruct (o_start x) as [o1 es1]; inversion E; subst; eapply IHx; eauto. Qed.
Lemma start_of_nc x o es : start_of x = Next o es -> existsb is_comp es = false.
Proof. unfold start_of. destruct (o_start x) as [o1 es1] eqn:E. intros F. inversion F; subst. eapply start_nc; eauto. Qed.
Lemma lib_nc o : forall p o' es, okp o -> o_step o p None = Next o' es -> existsb is_comp es = false.
Proof.
  induction o using op_ind'; intros p o' es M E; simpl in E; try discriminate; try (destruct p; discriminate); inversion M as [? A|?|? ? A|? ? A|? ? ? ? A1 A2|? ? A1 A2|? ? ? A1 A2| |]; subst.
  - destruct (set_dec o) as [[v ->]|Hs]; [destruct p; inversion E; subst; reflexivity|].
    assert (F : within (OTrans f) (o_step o p None) = Next o' es) by (destruct o; try exact E; now destruct (Hs v)). apply within_next in F as (o1 & F & ->). eauto.
  - destruct (set_dec o) as [[v ->]|Hs]; [destruct p; inversion E; subst; reflexivity|].
    assert (F : within (ORep c g body) (o_step o p None) = Next o' es) by (destruct o; try exact E; now destruct (Hs v)). apply within_next in F as (o1 & F & ->). eauto.
  - destruct (set_dec o) as [[v ->]|Hs].
    + destruct p, l as [|x l]; try discriminate; [inversion E; subst; reflexivity|]. apply within_next in E as (o1 & F & ->). eapply start_of_nc; eauto.
    + assert (F : within (OSeq l) (o_step o p None) = Next o' es) by (destruct o; try exact E; now destruct (Hs v)). apply within_next in F as (o1 & F & ->). eauto.
  - rewrite Forall_forall in H. destruct p as [|i p].
    + destruct (nth_error os st) as [o|]; [destruct o; try discriminate; destruct (o_start x) as [o1 es1] eqn:Hx; inversion E; subst; eapply start_nc; eauto|destruct (st =? length os); inversion E; subst; reflexivity].
    + rewrite child_nth in E. destruct (nth_error os i) as [o|] eqn:Hi; [|discriminate]. destruct (set_dec o) as [[v ->]|Hs].
      * destruct p; try discriminate. unfold all_done in E. destruct ctr as [|[|c]]; [discriminate|destruct (st <=? length os); inversion E; subst; reflexivity|inversion E; subst; reflexivity].
      * assert (F : within (fun o'' => OAll st ctr (set_nth os i o'')) (o_step o p None) = Next o' es) by (destruct o; try exact E; now destruct (Hs v)). apply within_next in F as (o1 & F & ->).
        eapply (H o (nth_error_In _ _ Hi)); eauto.
Qed.
Lemma lib_c s p : okp s -> c_step s (NLStep p) = n_step s (NLStep p).
Proof.
  intros O. unfold c_step. destruct (n_step s (NLStep p)) as [s' es| |] eqn:E; try reflexivity. simpl in E.
  assert (K : existsb is_comp es = false); [|rewrite K; reflexivity].
  assert (K : (exists v, es = [NDone v]) \/ o_step s p None = Next s' es) by (destruct p; [|now right]; destruct s; try (now right); left; inversion E; eauto). destruct K as [[v ->]|K]; [reflexivity|eapply lib_nc; eauto].
Qed.
Lemma c_same s0 tr0 ls s tr : run_from c_step s0 tr0 ls = Running s tr -> run_from n_step s0 tr0 ls = Running s tr.
Proof.
  revert s0 tr0. induction ls as [|l ls IH]; intros s0 tr0 R; cbn [run_from] in *; [exact R|]. unfold c_step in R. destruct (n_step s0 l) as [s' es| |]; try discriminate. destruct (existsb is_comp es && pend s0); [discriminate|exact (IH _ _ R)].
Qed.
Lemma c_inv s0 tr0 ls s tr : wf s0 -> okp s0 -> run_from c_step s0 tr0 ls = Running s tr -> wf s /\ okp s.
Proof.
  revert s0 tr0. induction ls as [|l ls IH]; intros s0 tr0 W O R; cbn [run_from] in R; [inversion R; subst; auto|]. destruct (c_ok s0 l W O) as [H1 _]. destruct (c_step s0 l) as [s' es| |]; try discriminate.
  destruct (H1 _ _ eq_refl) as [W' O']. exact (IH _ _ W' O' R).
Qed.
Lemma lib_run s0 tr0 ps : wf s0 -> okp s0 -> run_from c_step s0 tr0 (map NLStep ps) = run_from n_step s0 tr0 (map NLStep ps).
Proof.
  revert s0 tr0. induction ps as [|p ps IH]; intros s0 tr0 W O; cbn [map run_from]; [reflexivity|]. destruct (c_ok s0 (NLStep p) W O) as [H1 _]. rewrite lib_c in * by exact O.
  destruct (n_step s0 (NLStep p)) as [s' es| |]; try reflexivity. destruct (H1 _ _ eq_refl) as [W' O']. exact (IH _ _ W' O').
Qed.
Lemma safe_run x ls ps : ok x -> forall o tr, run c_step (n_init x) ls = Running o tr -> run c_step (n_init x) (ls ++ map NLStep ps) = run n_step (n_init x) (ls ++ map NLStep ps).
Proof.
  intros Q o tr R. pose proof (c_same _ _ _ _ _ R) as R'. unfold run in *. rewrite !run_from_app, R, R'. destruct (c_inv (n_init x) [] ls o tr) as [W O]; [constructor|constructor; exact Q|exact R|]. apply lib_run; assumption.
Qed.
