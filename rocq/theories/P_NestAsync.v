(** The call stack of nestings whose leaf operations complete later: proofs. *)
From Coq Require Import List Arith Bool Lia.
From Verif Require Import Lts ListFacts M_Nest S_Nest P_Nest M_NestStack S_NestAsync.
Import ListNotations.

(** [og o b d D]: at most [d] frames until [o] waits or completes, and [D] after a leaf operation completes; with [true], it waits before it completes *)
Inductive og : op -> bool -> nat -> nat -> Prop :=
| o_set : forall v d D, og (OSet v) false d D
| o_fin : forall d D, og OFin false d D
| o_new : forall x b e d D, gr x b e -> e <= d -> e <= D -> og (ONew x) b d D
| o_leaf : forall i b d D, og (OLeaf i) b d D
| o_kset : forall f d D, og (OFn f KSet) false d D
| o_ite : forall f x y b e d D, gr x b e -> gr y b e -> e <= d -> e <= D -> og (OFn f (KIte x y)) b d D
| o_letp : forall f g body b e d D, (forall v, gr (body v) b e) -> e <= d -> e <= D -> og (OFn f (KLetP g body)) b d D
| o_letf : forall f body b e d D, (forall v, gr (body v) b e) -> e <= d -> e <= D -> og (OFn f (KLetF body)) b d D
| o_repc : forall f c g body e d D, (forall v, gr (body v) true e) -> e <= d -> 2 * e + 2 <= D -> og (OFn f (KRepC c g body)) false d D
| o_repf : forall f c g body b e d D, (forall v, gr (body v) true e) -> e <= d -> 2 * e + 2 <= D -> og (OFn f (KRepF c g body)) b d D
| o_trans : forall f o b d0 D0 d D, og o b d0 D0 -> d0 + (if b then 0 else 1) <= d -> D0 + 1 <= D -> og (OTrans f o) b d D
| o_rep : forall c g body o b b' e d0 D0 d D, (forall v, gr (body v) true e) -> og o b d0 D0 -> (b' = true -> b = true) -> d0 + (if b then 0 else 2 + e) <= d -> D0 + 2 + e <= D -> 2 * e + 2 <= D ->
    og (ORep c g body o) b' d D
| o_seq : forall l o b b' e d0 D0 d D, (forall y, In y l -> gr y false e) -> og o b d0 D0 -> (b' = true -> b = true \/ exists y, In y l /\ gr y true e) ->
    d0 + (if b then 0 else 1 + (2 + e) * length l) <= d -> D0 + 1 + (2 + e) * length l <= D -> og (OSeq l o) b' d D.
Lemma og_mono o b d D d' D' : og o b d D -> d <= d' -> D <= D' -> og o b d' D'.
Proof. intros H. inversion H; subst; intros; econstructor; eauto; lia. Qed.
Lemma start_og x : forall b e o es, gr x b e -> o_start x = (o, es) -> exists d, og o b d e /\ sfr x + d <= e.
Proof.
  induction x using ex_ind'; intros bb ee o es G E; inversion G; subst; simpl in E.
  - inversion E; subst. exists 0. split; [constructor|simpl; lia].
  - inversion E; subst. exists 0. split; [constructor|simpl; lia].
  - destruct (o_start x) as [o1 es1]. inversion E; subst. destruct (IHx _ _ _ _ ltac:(eassumption) eq_refl) as (d & Q1 & Q2). exists (d + 1). split; [|simpl; lia]. econstructor; [exact Q1|destruct bb; lia|lia].
  - inversion E; subst. exists e. split; [econstructor; eauto; lia|simpl; lia].
  - inversion E; subst. exists e. split; [econstructor; eauto; lia|simpl; lia].
  - inversion E; subst. exists e. split; [econstructor; eauto; lia|simpl; lia].
  - destruct (o_start x) as [o1 es1]. inversion E; subst.
    match goal with H : forall y, In y _ -> gr y false _ |- _ => rename H into Ha end. match goal with H : bb = true -> _ |- _ => rename H into Hb end.
    assert (Ha' : forall y, In y l -> gr y false e) by (intros y Hy; apply Ha; now right).
    assert (K : gr x true e \/ (bb = true -> exists y, In y l /\ gr y true e)).
    { destruct bb; [|right; discriminate]. destruct (Hb eq_refl) as (y & [<-|Hy] & Gy); [now left|right; eauto]. }
    destruct K as [Gx|K].
    + destruct (IHx _ _ _ _ Gx eq_refl) as (d & Q1 & Q2). exists d. split; [|simpl in *; nia]. econstructor; [exact Ha'|exact Q1|auto|simpl; lia|simpl in *; nia].
    + destruct (IHx _ _ _ _ (Ha x (or_introl eq_refl)) eq_refl) as (d & Q1 & Q2). exists (d + 1 + (2 + e) * length l). split; [|simpl in *; nia]. econstructor; [exact Ha'|exact Q1|auto|simpl; lia|simpl in *; nia].
Qed.
Lemma start_of_og x b e o es : gr x b e -> start_of x = Next o es -> exists d, og o b d e /\ sfr x + d <= e.
Proof. unfold start_of. destruct (o_start x) as [o1 es1] eqn:E. intros G F. inversion F; subst. eapply start_og; eauto. Qed.

(** A step while no leaf operation is running *)
Lemma step_og o : forall b d D p e o' es, og o b d D -> waits o = false -> o_step o p e = Next o' es -> exists d', og o' b d' D /\ push o e + d' <= d.
Proof.
  induction o using op_ind'; intros bb d D p e o' es G W E; simpl in E, W; try discriminate.
  - destruct p, e as [v|]; try discriminate. unfold k_step in E. apply emit_next in E as (es' & E & _). inversion G; subst.
    + inversion E; subst. exists d. split; [constructor|simpl; lia].
    + simpl. destruct (v =? 0); (match type of E with start_of ?z = _ => match goal with H : gr z _ _ |- _ => destruct (start_of_og _ _ _ _ _ H E) as (d' & Q1 & Q2) end end); exists d'; (split; [eapply og_mono; eauto; lia|lia]).
    + inversion E; subst. exists d. split; [econstructor; eauto|simpl; lia].
    + match goal with H : forall v, gr _ _ _ |- _ => destruct (start_of_og _ _ _ _ _ (H v) E) as (d' & Q1 & Q2) end. exists d'. split; [eapply og_mono; eauto; lia|simpl; lia].
    + destruct (v =? 0); inversion E; subst; exists d; (split; [econstructor; eauto|simpl; lia]).
    + apply within_next in E as (o1 & E & ->). match goal with H : forall v, gr _ _ _ |- _ => destruct (start_of_og _ _ _ _ _ (H v) E) as (d' & Q1 & Q2) end.
      exists d'. split; [econstructor; eauto; simpl; lia|simpl; lia].
  - inversion G; subst. destruct (set_dec o) as [[v ->]|Hs].
    { destruct p, e; inversion E; subst. match goal with H : og (OSet _) _ _ _ |- _ => inversion H; subst end. exists (d - 1). split; [constructor|simpl; lia]. }
    assert (F : within (OTrans f) (o_step o p e) = Next o' es) by (destruct o; try exact E; now destruct (Hs v)). apply within_next in F as (o1 & F & ->).
    destruct (IHo _ _ _ _ _ _ _ ltac:(eassumption) W F) as (d' & Q1 & Q2). exists (d' + (if bb then 0 else 1)). split; [econstructor; eauto|].
    replace (push (OTrans f o) e) with (push o e) by (destruct o; try reflexivity; now destruct (Hs v)). lia.
  - inversion G; subst. destruct (set_dec o) as [[v ->]|Hs].
    { destruct p, e; inversion E; subst. match goal with H : og (OSet _) _ _ _ |- _ => inversion H; subst end. assert (bb = false) by (destruct bb; auto; match goal with H : true = true -> false = true |- _ => specialize (H eq_refl); discriminate end). subst.
      match goal with H : forall v, gr _ _ ?e1 |- _ => exists e1 end. split; [econstructor; eauto; lia|simpl in *; lia]. }
    assert (F : within (ORep c g body) (o_step o p e) = Next o' es) by (destruct o; try exact E; now destruct (Hs v)). apply within_next in F as (o1 & F & ->).
    destruct (IHo _ _ _ _ _ _ _ ltac:(eassumption) W F) as (d' & Q1 & Q2). match goal with H : og o ?b1 _ _, H' : forall v, gr _ _ ?e1 |- _ => exists (d' + (if b1 then 0 else 2 + e1)) end. split; [econstructor; eauto|].
    replace (push (ORep c g body o) e) with (push o e) by (destruct o; try reflexivity; now destruct (Hs v)). lia.
  - inversion G as [| | | | | | | | | | | |? ? b0 ? e1 d0 D0 ? ? Gl Go Gb Gd GD]; subst. destruct (set_dec o) as [[v ->]|Hs].
    + inversion Go; subst. destruct p, e, l as [|x l]; try discriminate.
      * inversion E; subst. destruct bb; [destruct (Gb eq_refl) as [?|(y & [] & _)]; discriminate|]. exists (d - 1). split; [constructor|simpl in *; lia].
      * apply within_next in E as (o1 & F & ->). assert (Gl' : forall y, In y l -> gr y false e1) by (intros y Hy; apply Gl; now right).
        assert (K : gr x true e1 \/ (bb = true -> exists y, In y l /\ gr y true e1)).
        { destruct bb; [|right; discriminate]. destruct (Gb eq_refl) as [?|(y & [<-|Hy] & Gy)]; [discriminate|now left|right; eauto]. }
        destruct K as [Gx|K].
        -- destruct (start_of_og _ _ _ _ _ Gx F) as (d' & Q1 & Q2). exists d'. split; [|simpl in *; nia]. econstructor; [exact Gl'|exact Q1|auto|simpl; lia|simpl in *; nia].
        -- destruct (start_of_og _ _ _ _ _ (Gl x (or_introl eq_refl)) F) as (d' & Q1 & Q2). exists (d' + 1 + (2 + e1) * length l). split; [|simpl in *; nia]. econstructor; [exact Gl'|exact Q1|auto|simpl; lia|simpl in *; nia].
    + assert (F : within (OSeq l) (o_step o p e) = Next o' es) by (destruct o; try exact E; now destruct (Hs v)). apply within_next in F as (o1 & F & ->).
      destruct (IHo _ _ _ _ _ _ _ Go W F) as (d' & Q1 & Q2). exists (d' + (if b0 then 0 else 1 + (2 + e1) * length l)). split; [econstructor; eauto|].
      replace (push (OSeq l o) e) with (push o e) by (destruct o; try reflexivity; now destruct (Hs v)). lia.
  - inversion G.
  - inversion G.
Qed.
(** The leaf operation that is running completes. *)
Lemma leaf_og o : forall b d D p e o' es, og o b d D -> waits o = true -> o_step o p e = Next o' es -> og o' false D D /\ push o e = 0.
Proof.
  induction o using op_ind'; intros bb d D p e o' es G W E; simpl in E, W; try discriminate.
  - destruct p, e; inversion E; subst. split; [constructor|reflexivity].
  - inversion G; subst. assert (Hs : forall v, o <> OSet v) by (intros v ->; discriminate). assert (F : within (OTrans f) (o_step o p e) = Next o' es) by (destruct o; try exact E; now destruct (Hs v)).
    apply within_next in F as (o1 & F & ->). destruct (IHo _ _ _ _ _ _ _ ltac:(eassumption) W F) as [Q1 Q2]. split; [econstructor; eauto|]. rewrite <- Q2. destruct o; try reflexivity; now destruct (Hs v).
  - inversion G; subst. assert (Hs : forall v, o <> OSet v) by (intros v ->; discriminate). assert (F : within (ORep c g body) (o_step o p e) = Next o' es) by (destruct o; try exact E; now destruct (Hs v)).
    apply within_next in F as (o1 & F & ->). destruct (IHo _ _ _ _ _ _ _ ltac:(eassumption) W F) as [Q1 Q2]. split; [econstructor; eauto; simpl; lia|]. rewrite <- Q2. destruct o; try reflexivity; now destruct (Hs v).
  - inversion G; subst. assert (Hs : forall v, o <> OSet v) by (intros v ->; discriminate). assert (F : within (OSeq l) (o_step o p e) = Next o' es) by (destruct o; try exact E; now destruct (Hs v)).
    apply within_next in F as (o1 & F & ->). destruct (IHo _ _ _ _ _ _ _ ltac:(eassumption) W F) as [Q1 Q2]. split; [eapply o_seq; eauto; try discriminate; simpl; lia|]. rewrite <- Q2. destruct o; try reflexivity; now destruct (Hs v).
Qed.

Definition AI (K : nat) (s : hst) : Prop := h_n s <= K /\ wf (h_op s) /\ exists b d D, og (h_op s) b d D /\ D + 2 <= K /\
  (h_on s = true -> waits (h_op s) = false -> h_op s = OFin \/ h_n s + d + 1 <= K) /\ (is_new (h_op s) -> h_on s = false /\ d + 2 <= K) /\ (h_on s = false -> is_new (h_op s) \/ waits (h_op s) = true).
Lemma ai_init K x b e : gr x b e -> e + 2 <= K -> AI K (h_init x).
Proof.
  intros G H. split; [simpl; lia|]. split; [constructor|]. exists b, e, e. simpl. split; [econstructor; eauto|]. split; [lia|]. split; [discriminate|]. split; [auto|]. intros _. left. exact I.
Qed.
Lemma ai_on K o h b d D : og o b d D -> wf o -> ~ is_new o -> D + 2 <= K -> h + d + 1 <= K -> AI K (MkH o h true).
Proof.
  intros G W N HD Hd. split; [simpl; lia|]. split; [exact W|]. exists b, d, D. simpl. split; [exact G|]. split; [exact HD|]. split; [auto|]. split; [intros H; now destruct N|discriminate].
Qed.
Lemma ai_step K s l s' es : AI K s -> a_step s l = Next s' es -> AI K s'.
Proof.
  intros (Hh & Hw & b & d & D & G & HD & Hon & Hnew & Hoff) E. unfold a_step in E. destruct (h_on s && waits (h_op s)) eqn:W.
  - destruct l; [discriminate|]. simpl in E. rewrite W in E. inversion E; subst. apply andb_true_iff in W as [W1 W2]. split; [simpl; lia|]. split; [exact Hw|]. exists b, d, D. simpl.
    split; [exact G|]. split; [exact HD|]. split; [discriminate|]. split; [intros H; destruct (h_op s); simpl in *; tauto || discriminate|auto].
  - destruct l as [l|]; simpl in E; [|rewrite W in E; discriminate]. destruct (n_step (h_op s) l) as [o es0| |] eqn:F; try discriminate. inversion E; subst; clear E.
    destruct s as [o0 h on]. cbn [h_op h_n h_on] in *.
    assert (Kk : (exists x, l = NLStart /\ o0 = ONew x /\ start_of x = Next o es) \/ (exists v, o0 = OSet v /\ o = OFin) \/ exists p, o_step o0 p (env_of l) = Next o es).
    { destruct l as [|p|p v]; simpl in F |- *; [destruct o0; try discriminate; left; eauto| |right; right; eauto]. destruct p; [|right; right; eauto]. destruct o0; try (right; right; eauto; fail). inversion F; subst. right. left. eauto. }
    destruct Kk as [(x & -> & -> & S)|[(v & -> & ->)|(p & S)]].
    + destruct (Hnew I) as [-> Hd]. inversion G; subst. destruct (start_of_og _ _ _ _ _ ltac:(eassumption) S) as (d' & Q1 & Q2). destruct (start_of_wf _ _ _ S) as [W1 W2].
      eapply ai_on; [exact Q1|exact W1|now apply mid_new|lia|simpl; lia].
    + destruct on; [|destruct (Hoff eq_refl) as [[]|?]; discriminate]. destruct (Hon eq_refl eq_refl) as [?|Hd]; [discriminate|].
      split; [simpl; lia|]. split; [constructor|]. exists false, d, D. simpl. split; [constructor|]. split; [exact HD|]. split; [auto|]. split; [intros []|discriminate].
    + destruct (step_good _ _ _ _ _ Hw S) as (W1 & W2 & _). destruct (waits o0) eqn:Wt.
      * destruct on; [discriminate|]. destruct (leaf_og _ _ _ _ _ _ _ _ G Wt S) as [Q1 Q2]. eapply ai_on; [exact Q1|exact W1|now apply mid_new|lia|lia].
      * destruct on; [|destruct (Hoff eq_refl) as [Hn|?]; [destruct o0; simpl in *; tauto || discriminate|discriminate]].
        destruct (Hon eq_refl eq_refl) as [->|Hd]; [discriminate|]. destruct (step_og _ _ _ _ _ _ _ _ G Wt S) as (d' & Q1 & Q2). eapply ai_on; [exact Q1|exact W1|now apply mid_new|lia|lia].
Qed.
Lemma async_bound x b e ls s tr : gr x b e -> run a_step (h_init x) ls = Running s tr -> h_n s <= e + 2.
Proof.
  intros G R. cut (AI (e + 2) s); [intros [H _]; exact H|]. apply (run_inv a_step (fun s _ => AI (e + 2) s) (h_init x)) with (ls := ls) (tr := tr); [eapply ai_init; eauto| |exact R].
  intros s0 tr0 l s1 es H E. eapply ai_step; eauto.
Qed.
