(** Proofs about operations that are destroyed without start(). *)
From Coq Require Import List Arith Bool Lia.
From Verif Require Import M_Connect S_Connect P_Connect M_Unstarted S_Unstarted.
Import ListNotations.

(** The destruction goes well *)
Fixpoint oku (e : sexp) : bool :=
  match e with
  | SLeaf _ | SIte _ _ _ | SRepeat _ _ | SSequence _ => true
  | SLet _ => false
  | STransform s | SLambda s | SInGroup s => oku s
  | SWithCancel s => negb (asks_u s) && oku s
  | SWhenAll l => okus l
  | SRace l => negb (toks_us l) && okus l
  end
with okus (l : slist) : bool := match l with SNil => true | SCons _ s l => oku s && okus l end.
Lemma careful_u_ok : (forall e, careful_u e = okc e && oku e) /\ (forall l, carefuls_u l = okcs l && okus l).
Proof.
  apply sexp_slist_ind; simpl; try reflexivity; auto.
  - intros s ->. destruct (asks_c s), (asks_u s), (okc s), (oku s); reflexivity.
  - intros l ->. destruct (eager l), (toks_cs l), (toks_us l), (okcs l), (okus l); reflexivity.
  - intros u s -> l ->. destruct (okc s), (oku s), (okcs l), (okus l); reflexivity.
Qed.

Lemma dtor_dead e : forall p r tk m, holds m (under p) [] -> ~ runs m (dtor e p r tk).
Proof.
  assert (Hf : forall m p f l, holds m (under p) [] -> ~ runs m (AEnd (p, f) :: l)).
  { intros m p f l H E. apply runs_end in E as [E _]. rewrite (proj2 (false_iff _ _) H _ (under_self p f)) in E. discriminate. }
  assert (Hk : forall m p, holds m (under p) [] -> holds m (under (0 :: p)) []) by (intros m p H c Hc; apply H; exact (under_kid _ _ _ Hc)).
  revert e. apply (sexp_mut (fun e => forall p r tk m, holds m (under p) [] -> ~ runs m (dtor e p r tk)) (fun _ => True)); try (intros; exact I); cbn [dtor].
  - intros l p r tk m H E. destruct (l_env_d l); cbn [opt app] in E; [apply runs_env in E as [_ E]|]; (destruct (l_tok_d l); cbn [opt app] in E; [apply runs_uses in E as [_ E]|]); exact (Hf _ _ _ _ H E).
  - intros s IH p r tk m H E. exact (IH p (RVal r) tk m H E).
  - intros s IH p r tk m H E. exact (IH (0 :: p) r tk m (Hk _ _ H) (runs_fst _ _ _ E)).
  - intros s IH p r tk m H E. exact (Hf _ _ _ _ H E).
  - intros s IH p r tk m H E. exact (IH (0 :: p) (RPtr p r) tk m (Hk _ _ H) (runs_fst _ _ _ E)).
  - intros [] s1 IH1 s2 IH2 p r tk m H E; [exact (IH1 (0 :: p) r tk m (Hk _ _ H) (runs_fst _ _ _ E))|exact (IH2 (0 :: p) r tk m (Hk _ _ H) (runs_fst _ _ _ E))].
  - intros s IH p r tk m H E. exact (IH (0 :: p) r tk m (Hk _ _ H) (runs_fst _ _ _ E)).
  - intros n s IH p r tk m H E. exact (Hf _ _ _ _ H E).
  - intros l _ p r tk m H E. exact (Hf _ _ _ _ H E).
  - intros l _ p r tk m H E. exact (Hf _ _ _ _ H E).
  - intros l _ p r tk m H E. exact (Hf _ _ _ _ H E).
Qed.

Lemma dtor0_ok : (forall e p r tk m, oku e = true -> holds m (under p) (cc e p) -> (asks_u e = true -> live m (reads r)) -> (toks_u e = true -> live m tk) ->
    out (under p) (reads r) -> out (under p) tk -> wp m (dtor0 e p r tk) (env_of r) (fun m' => same m m' (under p) /\ holds m' (under p) [])) /\
  (forall l i p r tk m, okus l = true -> holds m (kids i p) (ccs l i p) -> (asks_us l = true -> live m (reads r)) -> (toks_us l = true -> live m tk) ->
    out (kids i p) (reads r) -> out (kids i p) tk -> wp m (dtors0 l i p r tk) (env_of r) (fun m' => same m m' (kids i p) /\ holds m' (kids i p) [])).
Proof.
  destruct cc_under as [C1 C2]. assert (Hin : forall s p, inside (kids 0 p) (cc s (0 :: p))) by (intros s p c Hi; exact (kids_i _ _ _ (C1 _ _ _ Hi))).
  assert (Hfin : forall m m' p, same m m' (under p) -> holds m' (kids 0 p) [] -> (forall f, m' (p, f) = false) -> same m m' (under p) /\ holds m' (under p) []).
  { intros m m' p Hs Hh Hf. split; [exact Hs|]. apply (comp_iff m' p [] [] []); [apply nothing|reflexivity|]. split; [exact Hh|]. intros f. rewrite Hf. simpl. intuition discriminate. }
  assert (Hsingle : forall m p F, NoDup F -> holds m (under p) (map (pair p) F) -> holds m (kids 0 p) [] /\ forall f, m (p, f) = true <-> In f F).
  { intros m p F _ H. apply (comp_iff m p F [] (map (pair p) F)); [apply nothing|intros c; rewrite app_nil_r; reflexivity|exact H]. }
  assert (Hone : forall m p f, holds m (under p) [(p, f)] -> wp m [AEnd (p, f)] 0 (fun m' => same m m' (under p) /\ holds m' (under p) []) /\ forall e0, wp m [AEnd (p, f)] e0 (fun m' => same m m' (under p) /\ holds m' (under p) [])).
  { intros m p f H. assert (Hall : forall e0, wp m [AEnd (p, f)] e0 (fun m' => same m m' (under p) /\ holds m' (under p) [])); [|auto]. intros e0.
    apply (Hsingle m p [f]) in H as [Hk Hf]; [|repeat constructor; auto]. apply wp_end; [apply Hf; left; reflexivity|]. apply wp_nil. apply Hfin; [apply same_set, under_self|apply holds_kids_set, Hk|].
    intros g. unfold set. destruct (cell_eq (p, g) (p, f)) as [E|N]; [reflexivity|]. destruct (m (p, g)) eqn:E; [|reflexivity]. apply Hf in E as [->|[]]. congruence. }
  apply sexp_slist_ind; simpl.
  - intros l p r tk m _ H He Ht _ _. apply wp_opt; intros El; [apply wp_env; [reflexivity|exact (He El)|]; apply wp_nil|].
    all: apply wp_opt; intros El'; [rewrite <- (app_nil_r (uses tk)); apply wp_uses; [exact (Ht El')|]; apply wp_nil|].
    all: apply Hone, H.
  - intros s IH p r tk m. exact (IH p (RVal r) tk m).
  - intros s IH p r tk m Hc H He Ht Hr Hk. apply (comp_iff m p [FFn] (cc s (0 :: p))) in H as [H Hf]; [|apply Hin|reflexivity]. apply wp_app.
    apply wp_mono with (Q := fun m' => same m m' (kids 0 p) /\ holds m' (kids 0 p) []).
    + apply (one_kid _ _ _ _ _ _ H (C1 _ _) (nothing _)). intros H0. apply IH; auto using out_kid.
    + intros m1 [Hs Hh]. apply wp_end; [rewrite (self_same 0 _ _ _ _ Hs); apply Hf; simpl; auto|]. apply wp_nil. apply Hfin; [|apply holds_kids_set, Hh|].
      * apply same_trans with m1; [apply same_sub with (2 := Hs); apply kids_under|apply same_set, under_self].
      * intros f. pose proof (self_same 0 _ _ _ f Hs) as Hsf. specialize (Hf f). destruct (m (p, f)) eqn:Em; destruct f; fields; simpl in Hf; intuition congruence.
  - intros s IH p r tk m Hc H He Ht Hr Hk. apply andb_true_iff in Hc as [Ha Hc]. apply negb_true_iff in Ha.
    apply (comp_iff m p [FCb; FDr; FObs] (cc s (0 :: p))) in H as [H Hf]; [|apply Hin|reflexivity].
    apply wp_end; [apply Hf; simpl; auto|]. apply wp_end; [fields; apply Hf; simpl; auto|]. apply wp_end; [fields; apply Hf; simpl; auto|].
    set (m0 := set _ (p, FCb) false). assert (Hs0 : same m m0 (under p)) by (unfold m0; eapply same_trans; [apply same_set, under_self|]; eapply same_trans; apply same_set, under_self).
    apply wp_mono with (Q := fun m' => same m0 m' (kids 0 p) /\ holds m' (kids 0 p) []).
    + assert (H' : holds m0 (kids 0 p) (cc s (0 :: p))) by (unfold m0; do 3 apply holds_kids_set; exact H).
      apply (one_kid _ _ _ _ _ _ H' (C1 _ _) (nothing _)). intros H0. apply (IH (0 :: p) (RPtr p r)); cbn [reads]; auto using out_kid, out_cons; [congruence|]. intros Ht'. apply live_same with (1 := Hs0); auto.
    + intros m1 [Hs Hh]. apply Hfin; [|exact Hh|].
      * apply same_trans with m0; [exact Hs0|apply same_sub with (2 := Hs); apply kids_under].
      * intros f. rewrite (self_same 0 _ _ _ f Hs). unfold m0. specialize (Hf f). destruct (m (p, f)) eqn:Em; destruct f; fields; simpl in Hf; intuition congruence.
  - intros s IH p r tk m Hc H He Ht Hr Hk. apply (comp_iff m p [FDr] (cc s (0 :: p))) in H as [H Hf]; [|apply Hin|reflexivity]. apply wp_app.
    apply wp_mono with (Q := fun m' => same m m' (kids 0 p) /\ holds m' (kids 0 p) []).
    + apply (one_kid _ _ _ _ _ _ H (C1 _ _) (nothing _)). intros H0. apply (IH (0 :: p) (RPtr p r)); cbn [reads]; auto using out_kid, out_cons.
      intros Ha c [<-|Hi]; [apply Hf; left; reflexivity|exact (He Ha c Hi)].
    + intros m1 [Hs Hh]. apply wp_end; [rewrite (self_same 0 _ _ _ _ Hs); apply Hf; simpl; auto|]. apply wp_nil. apply Hfin; [|apply holds_kids_set, Hh|].
      * apply same_trans with m1; [apply same_sub with (2 := Hs); apply kids_under|apply same_set, under_self].
      * intros f. pose proof (self_same 0 _ _ _ f Hs) as Hsf. specialize (Hf f). destruct (m (p, f)) eqn:Em; destruct f; fields; simpl in Hf; intuition congruence.
  - intros b s1 _ s2 _ p r tk m _ H _ _ _ _. apply Hone, H.
  - discriminate.
  - intros n s _ p r tk m _ H _ _ _ _. apply Hone, H.
  - intros l _ p r tk m _ H _ _ _ _. apply Hone, H.
  - intros l IH p r tk m Hc H He Ht Hr Hk. apply (comp_iff m p [FDr; FCtr] (ccs l 0 p)) in H as [H Hf]; [|exact (C2 _ _ _)|reflexivity].
    apply wp_end; [apply Hf; simpl; auto|]. apply wp_app. apply wp_mono with (Q := fun m' => same (set m (p, FCtr) false) m' (kids 0 p) /\ holds m' (kids 0 p) []).
    + apply (IH 0 p (RPtr p r)); cbn [reads]; auto using holds_kids_set, out_kids, out_kids_cons, live_set_out.
      intros Ha c [<-|Hi]; [fields; apply Hf; left; reflexivity|apply live_set_out with (1 := Hr) (2 := He Ha) (3 := Hi)].
    + intros m1 [Hs Hh]. apply wp_end; [rewrite (self_same 0 _ _ _ _ Hs); fields; apply Hf; simpl; auto|]. apply wp_nil. apply Hfin; [|apply holds_kids_set, Hh|].
      * eapply same_trans; [apply same_set, under_self|]. eapply same_trans; [apply same_sub with (2 := Hs); apply kids_under|apply same_set, under_self].
      * intros f. pose proof (self_same 0 _ _ _ f Hs) as Hsf. revert Hsf. specialize (Hf f). destruct (m (p, f)) eqn:Em; destruct f; fields; simpl in Hf; intuition congruence.
  - intros l IH p r tk m Hc H He Ht Hr Hk. apply andb_true_iff in Hc as [Hn Hc]. apply negb_true_iff in Hn.
    apply (comp_iff m p [FDr; FCs; FCtr] (ccs l 0 p)) in H as [H Hf]; [|exact (C2 _ _ _)|reflexivity].
    apply wp_end; [apply Hf; simpl; auto|]. apply wp_end; [fields; apply Hf; simpl; auto|]. set (m0 := set _ (p, FCs) false).
    assert (Hs0 : same m m0 (under p)) by (unfold m0; eapply same_trans; apply same_set, under_self).
    apply wp_app. apply wp_mono with (Q := fun m' => same m0 m' (kids 0 p) /\ holds m' (kids 0 p) []).
    + apply (IH 0 p (RPtr p r)); cbn [reads]; auto using out_kids, out_kids_cons; [unfold m0; do 2 apply holds_kids_set; exact H| |congruence].
      intros Ha c [<-|Hi]; [unfold m0; fields; apply Hf; left; reflexivity|apply live_same with (1 := Hs0) (2 := Hr) (3 := He Ha); exact Hi].
    + intros m1 [Hs Hh]. apply wp_end; [rewrite (self_same 0 _ _ _ _ Hs); unfold m0; fields; apply Hf; simpl; auto|]. apply wp_nil. apply Hfin; [|apply holds_kids_set, Hh|].
      * eapply same_trans; [exact Hs0|]. eapply same_trans; [apply same_sub with (2 := Hs); apply kids_under|apply same_set, under_self].
      * intros f. pose proof (self_same 0 _ _ _ f Hs) as Hsf. revert Hsf. unfold m0. specialize (Hf f). destruct (m (p, f)) eqn:Em; destruct f; fields; simpl in Hf; intuition congruence.
  - intros i p r tk m _ H _ _ _ _. apply wp_nil. split; [intros c _; reflexivity|exact H].
  - intros u s IH l IHl i p r tk m Hc H He Ht Hr Hk. apply andb_true_iff in Hc as [Hc Hcl]. apply wp_app.
    apply holds_perm with (Y := cc s (i :: p) ++ ccs l (S i) p) in H; [|intros c; rewrite !in_app_iff; tauto].
    apply kids_split in H as [H1 H2]; [|exact (C1 _ _)|exact (C2 _ _ _)].
    apply wp_mono with (1 := IHl (S i) p r tk m Hcl H2 (fun Ha => He ltac:(rewrite Ha; apply orb_true_r)) (fun Ha => Ht ltac:(rewrite Ha; apply orb_true_r)) (out_S _ _ _ Hr) (out_S _ _ _ Hk)).
    intros m1 [Hs Hh].
    apply wp_mono with (1 := IH (i :: p) r tk m1 Hc (holds_same _ _ _ _ _ Hs (kids_not i p) H1)
      (fun Ha => live_same _ _ _ _ Hs (out_S _ _ _ Hr) (He ltac:(rewrite Ha; reflexivity))) (fun Ha => live_same _ _ _ _ Hs (out_S _ _ _ Hk) (Ht ltac:(rewrite Ha; reflexivity))) (out_i _ _ _ Hr) (out_i _ _ _ Hk)).
    intros m2 [Hs2 Hh2]. split.
    + apply same_trans with m1; [apply same_sub with (2 := Hs); apply kids_S|apply same_sub with (2 := Hs2); apply kids_i].
    + apply (kids_split i p [] []); [apply nothing|apply nothing|]. split; [exact Hh2|]. apply holds_same with (1 := Hs2) (3 := Hh). intros c Hkc Hu. exact (kids_not _ _ _ Hu Hkc).
Qed.

Definition only_u (e : sexp) : Prop := forall p r tk m, holds m (under p) (cc e p) -> out (under p) (reads r) -> out (under p) tk -> runs m (dtor0 e p r tk) ->
  oku e = true /\ (asks_u e = true -> live m (reads r)) /\ (toks_u e = true -> live m tk).
Definition only_us (l : slist) : Prop := forall i p r tk m, holds m (kids i p) (ccs l i p) -> out (kids i p) (reads r) -> out (kids i p) tk -> runs m (dtors0 l i p r tk) ->
  okus l = true /\ (asks_us l = true -> live m (reads r)) /\ (toks_us l = true -> live m tk).
Lemma dtor0_only : (forall e, only_u e) /\ (forall l, only_us l).
Proof.
  destruct cc_under as [C1 C2]. assert (Hin : forall s p, inside (kids 0 p) (cc s (0 :: p))) by (intros s p c Hi; exact (kids_i _ _ _ (C1 _ _ _ Hi))).
  assert (Hkid : forall m s p, holds m (kids 0 p) (cc s (0 :: p)) -> holds m (under (0 :: p)) (cc s (0 :: p))) by (intros m s p H c Hc; apply H; exact (kids_i _ _ _ Hc)).
  assert (Hback : forall m p f b l, out (under p) l -> live (set m (p, f) b) l -> live m l).
  { intros m p f b l Ho. apply live_same with (R := under p); [apply same_sym, same_set, under_self|exact Ho]. }
  apply sexp_slist_ind; unfold only_u, only_us; cbn [dtor0 dtors0 oku okus asks_u asks_us toks_u toks_us cc ccs]; try (intros; repeat split; discriminate).
  - intros l p r tk m _ _ _ H. split; [reflexivity|exact (leaf_only _ _ _ _ _ _ H)].
  - intros s IH p r tk m. exact (IH p (RVal r) tk m).
  - intros s IH p r tk m H Hr Hk E. apply (comp_iff m p [FFn] (cc s (0 :: p))) in H as [H Hf]; [|apply Hin|reflexivity].
    exact (IH (0 :: p) r tk m (Hkid _ _ _ H) (out_kid _ _ _ Hr) (out_kid _ _ _ Hk) (runs_fst _ _ _ E)).
  - intros s IH p r tk m H Hr Hk E. apply (comp_iff m p [FCb; FDr; FObs] (cc s (0 :: p))) in H as [H Hf]; [|apply Hin|reflexivity].
    apply runs_end in E as [_ E]. apply runs_end in E as [_ E]. apply runs_end in E as [_ E].
    destruct (IH (0 :: p) (RPtr p r) tk _ (Hkid _ _ _ (holds_kids_set _ _ _ _ _ _ (holds_kids_set _ _ _ _ _ _ (holds_kids_set _ _ _ _ _ _ H)))) (out_cons _ _ _ _ Hr) (out_kid _ _ _ Hk) E) as (H1 & H2 & H3).
    rewrite (imp_false _ _ H2); [rewrite H1; repeat split; [discriminate|]; intros Ha; specialize (H3 Ha); do 3 (apply Hback in H3; [|exact Hk]); exact H3|].
    intros Hl. specialize (Hl (p, FDr) (or_introl eq_refl)). revert Hl. fields.
  - intros s IH p r tk m H Hr Hk E. apply (comp_iff m p [FDr] (cc s (0 :: p))) in H as [H Hf]; [|apply Hin|reflexivity].
    destruct (IH (0 :: p) (RPtr p r) tk m (Hkid _ _ _ H) (out_cons _ _ _ _ Hr) (out_kid _ _ _ Hk) (runs_fst _ _ _ E)) as (H1 & H2 & H3).
    split; [exact H1|]. split; [|exact H3]. intros Ha c Hi. apply (H2 Ha). right. exact Hi.
  - intros s _ p r tk m H Hr Hk E. destruct (dtor_dead s (0 :: p) r tk m); [|exact (runs_fst _ _ _ E)].
    apply (comp_iff m p [FFn; FDr] []) in H as [H _]; [|apply nothing|reflexivity]. intros c Hc. apply H. exact (kids_i _ _ _ Hc).
  - intros l IH p r tk m H Hr Hk E. apply (comp_iff m p [FDr; FCtr] (ccs l 0 p)) in H as [H Hf]; [|exact (C2 _ _ _)|reflexivity].
    apply runs_end in E as [_ E]. apply runs_fst in E.
    destruct (IH 0 p (RPtr p r) tk _ (holds_kids_set _ _ _ _ _ _ H) (out_kids_cons _ _ _ Hr) (out_kids _ _ Hk) E) as (H1 & H2 & H3). split; [exact H1|].
    split; intros Ha; eapply Hback; eauto. intros c Hi. apply (H2 Ha). right. exact Hi.
  - intros l IH p r tk m H Hr Hk E. apply (comp_iff m p [FDr; FCs; FCtr] (ccs l 0 p)) in H as [H Hf]; [|exact (C2 _ _ _)|reflexivity].
    apply runs_end in E as [_ E]. apply runs_end in E as [_ E]. apply runs_fst in E.
    destruct (IH 0 p (RPtr p r) ((p, FCs) :: tk) _ (holds_kids_set _ _ _ _ _ _ (holds_kids_set _ _ _ _ _ _ H)) (out_kids_cons _ _ _ Hr) (out_kids_cons _ _ _ Hk) E) as (H1 & H2 & H3).
    rewrite (imp_false _ _ H3); [rewrite H1; repeat split; [|discriminate]; intros Ha|].
    + assert (Hl : live (set (set m (p, FCtr) false) (p, FCs) false) (reads r)) by (intros c Hi; apply (H2 Ha); right; exact Hi). do 2 (apply Hback in Hl; [|exact Hr]). exact Hl.
    + intros Hl. specialize (Hl (p, FCs) (or_introl eq_refl)). rewrite set_same in Hl. discriminate.
  - intros u s IH l IHl i p r tk m H Hr Hk E.
    apply holds_perm with (Y := cc s (i :: p) ++ ccs l (S i) p) in H; [|intros c; rewrite !in_app_iff; tauto].
    apply kids_split in H as [Ha Hb]; [|exact (C1 _ _)|exact (C2 _ _ _)].
    destruct (IHl (S i) p r tk m Hb (out_S _ _ _ Hr) (out_S _ _ _ Hk) (runs_fst _ _ _ E)) as (H1 & H2 & H3).
    destruct (runs_snd _ _ _ _ _ E (proj2 dtor0_ok l (S i) p r tk m H1 Hb H2 H3 (out_S _ _ _ Hr) (out_S _ _ _ Hk))) as (m1 & [Hs Hh] & E1).
    destruct (IH (i :: p) r tk m1 (holds_same _ _ _ _ _ Hs (kids_not i p) Ha) (out_i _ _ _ Hr) (out_i _ _ _ Hk) E1) as (G1 & G2 & G3). rewrite H1, G1. split; [reflexivity|].
    split; intros Hx; apply orb_true_iff in Hx as [Hx|Hx]; auto; [exact (live_same _ _ _ _ (same_sym _ _ _ Hs) (out_S _ _ _ Hr) (G2 Hx))|exact (live_same _ _ _ _ (same_sym _ _ _ Hs) (out_S _ _ _ Hk) (G3 Hx))].
Qed.


Theorem life0_ok e env : careful_u e = true -> exists m es, exec fresh (life0 e env) = Some (m, es) /\ (forall x, In x es -> x = env) /\ forall c, m c = false.
Proof.
  intros Hc. rewrite (proj1 careful_u_ok) in Hc. apply andb_true_iff in Hc as [Hc Hd]. assert (Hall : forall c : cell, under [] c) by (intros [q f]; exists q; simpl; rewrite app_nil_r; reflexivity).
  assert (Ho : forall R, out R []) by (intros R c []). assert (Hl : forall m, live m []) by (intros m c []).
  destruct (fun G => wp_app fresh (conn e [] (RRoot env) []) (dtor0 e [] (RRoot env) []) env (fun m => forall c, m c = false) G) as (m & es & E & He & H); [|exists m, es; auto].
  apply wp_mono with (1 := proj1 conn_ok e [] (RRoot env) [] fresh Hc (proj1 (false_iff _ _) (fun c _ => eq_refl)) (fun _ => Hl _) (fun _ => Hl _) (Ho _) (Ho _)). intros m1 [_ H1].
  apply wp_mono with (1 := proj1 dtor0_ok e [] (RRoot env) [] m1 Hd H1 (fun _ => Hl _) (fun _ => Hl _) (Ho _) (Ho _)). intros m2 [_ H2] c. exact (proj2 (false_iff _ _) H2 c (Hall c)).
Qed.
Theorem life0_only e env x : exec fresh (life0 e env) = Some x -> careful_u e = true.
Proof.
  intros E. assert (Ho : forall R, out R []) by (intros R c []). assert (Hl : forall m, live m []) by (intros m c []).
  assert (Hf : holds fresh (under []) []) by (apply false_iff; reflexivity).
  assert (R : runs fresh (life0 e env)) by (destruct x as [m es]; exists m, es; exact E). unfold life0 in R.
  destruct (proj1 conn_only e [] (RRoot env) [] fresh Hf (Ho _) (Ho _) (runs_fst _ _ _ R)) as (H1 & _).
  destruct (runs_snd _ _ _ _ _ R (proj1 conn_ok e [] (RRoot env) [] fresh H1 Hf (fun _ => Hl _) (fun _ => Hl _) (Ho _) (Ho _))) as (m1 & [_ Hh1] & R1).
  destruct (proj1 dtor0_only e [] (RRoot env) [] m1 Hh1 (Ho _) (Ho _) R1) as (H3 & _).
  rewrite (proj1 careful_u_ok), H1, H3. reflexivity.
Qed.
