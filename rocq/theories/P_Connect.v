(** Proofs about the construction and destruction of nested operations. *)
From Coq Require Import List Arith Bool Lia.
From Verif Require Import M_Connect S_Connect.
Import ListNotations.

Scheme sexp_mut := Induction for sexp Sort Prop with slist_mut := Induction for slist Sort Prop.
Combined Scheme sexp_slist_ind from sexp_mut, slist_mut.

(** ** Regions *)
Definition under (p : path) (c : cell) : Prop := exists s, fst c = s ++ p.
Definition kids (i : nat) (p : path) (c : cell) : Prop := exists j, i <= j /\ under (j :: p) c.
Lemma under_self p f : under p (p, f).
Proof. exists []. reflexivity. Qed.
Lemma under_kid i p c : under (i :: p) c -> under p c.
Proof. intros (s & H). exists (s ++ [i]). rewrite <- app_assoc. exact H. Qed.
Lemma self_kid i p f : ~ under (i :: p) (p, f).
Proof. intros (s & H). simpl in H. apply (f_equal (@length nat)) in H. rewrite app_length in H. simpl in H. lia. Qed.
Lemma under_inv p c : under p c -> (exists f, c = (p, f)) \/ exists i, under (i :: p) c.
Proof.
  intros (s & H). destruct c as [q f]. simpl in H. destruct (rev s) as [|i t] eqn:E.
  - left. exists f. apply (f_equal (@rev nat)) in E. rewrite rev_involutive in E. subst s q. reflexivity.
  - right. exists i, (rev t). simpl. apply (f_equal (@rev nat)) in E. rewrite rev_involutive in E. simpl in E. subst s q. rewrite <- app_assoc. reflexivity.
Qed.
Lemma under_inj i j p c : under (i :: p) c -> under (j :: p) c -> i = j.
Proof.
  intros (s & H) (t & H'). rewrite H in H'. change (i :: p) with ([i] ++ p) in H'. change (j :: p) with ([j] ++ p) in H'. rewrite !app_assoc in H'.
  apply app_inv_tail in H'. apply app_inj_tail in H' as [_ ->]. reflexivity.
Qed.
Lemma kids_under i p c : kids i p c -> under p c.
Proof. intros (j & _ & H). exact (under_kid _ _ _ H). Qed.
Lemma self_kids i p f : ~ kids i p (p, f).
Proof. intros (j & _ & H). exact (self_kid _ _ _ H). Qed.
Lemma kids_inv i p c : kids i p c -> under (i :: p) c \/ kids (S i) p c.
Proof. intros (j & Hj & H). destruct (Nat.eq_dec i j) as [->|Hn]; [left; exact H|right; exists j; split; [lia|exact H]]. Qed.
Lemma kids_S i p c : kids (S i) p c -> kids i p c.
Proof. intros (j & Hj & H). exists j. split; [lia|exact H]. Qed.
Lemma kids_i i p c : under (i :: p) c -> kids i p c.
Proof. intros H. exists i. auto. Qed.
Lemma kids_not i p c : under (i :: p) c -> ~ kids (S i) p c.
Proof. intros H (j & Hj & H'). rewrite (under_inj _ _ _ _ H H') in Hj. lia. Qed.
Lemma under_kids p c : under p c -> (exists f, c = (p, f)) \/ kids 0 p c.
Proof. intros H. destruct (under_inv _ _ H) as [H'|(i & H')]; [auto|right; exists i; split; [lia|exact H']]. Qed.

(** ** The cells of an operation after connect(), and the ones that start() adds *)
Fixpoint cc (e : sexp) (p : path) : list cell :=
  match e with
  | SLeaf _ => [(p, FOp)]
  | STransform s => cc s p
  | SLambda s => (p, FFn) :: cc s (0 :: p)
  | SWithCancel s => [(p, FCb); (p, FDr); (p, FObs)] ++ cc s (0 :: p)
  | SInGroup s => (p, FDr) :: cc s (0 :: p)
  | SLet _ => [(p, FFn); (p, FDr)]
  | SIte _ _ _ | SRepeat _ _ | SSequence _ => [(p, FDr)]
  | SWhenAll l => [(p, FDr); (p, FCtr)] ++ ccs l 0 p
  | SRace l => [(p, FDr); (p, FCs); (p, FCtr)] ++ ccs l 0 p
  end
with ccs (l : slist) (i : nat) (p : path) : list cell := match l with SNil => [] | SCons _ s l => cc s (i :: p) ++ ccs l (S i) p end.
Fixpoint cr (e : sexp) (p : path) : list cell :=
  match e with
  | SLeaf _ | SRepeat _ _ | SSequence _ => []
  | STransform s => cr s p
  | SLambda s | SWithCancel s | SInGroup s => cr s (0 :: p)
  | SLet s => cc s (0 :: p) ++ cr s (0 :: p)
  | SIte b s1 s2 => let s := if b then s1 else s2 in cc s (0 :: p) ++ cr s (0 :: p)
  | SWhenAll l | SRace l => crs l 0 p
  end
with crs (l : slist) (i : nat) (p : path) : list cell := match l with SNil => [] | SCons _ s l => cr s (i :: p) ++ crs l (S i) p end.

Ltac self := solve [apply under_self].
Lemma cc_under : (forall e p c, In c (cc e p) -> under p c) /\ (forall l i p c, In c (ccs l i p) -> kids i p c).
Proof.
  apply sexp_slist_ind; simpl; intros;
    repeat match goal with
    | H : In _ (_ ++ _) |- _ => apply in_app_or in H
    | H : _ \/ _ |- _ => destruct H
    | H : False |- _ => destruct H
    | H : _ = ?c |- under _ ?c => subst c; self
    end; eauto using under_kid, kids_under, kids_S, kids_i.
Qed.
Lemma cr_under : (forall e p c, In c (cr e p) -> under p c) /\ (forall l i p c, In c (crs l i p) -> kids i p c).
Proof.
  destruct cc_under as [C1 C2]. apply sexp_slist_ind; simpl; intros;
    repeat match goal with
    | H : In _ (_ ++ _) |- _ => apply in_app_or in H
    | H : _ \/ _ |- _ => destruct H
    | H : False |- _ => destruct H
    | b : bool |- _ => destruct b
    end; eauto using under_kid, kids_under, kids_S, kids_i.
Qed.

(** ** Executions *)
Definition wp (m : mem) (l : list action) (e0 : nat) (Q : mem -> Prop) : Prop := exists m' es, exec m l = Some (m', es) /\ (forall x, In x es -> x = e0) /\ Q m'.
Lemma wp_nil m e0 (Q : mem -> Prop) : Q m -> wp m [] e0 Q.
Proof. intros H. exists m, []. simpl. repeat split; auto. intros x []. Qed.
Lemma exec_app l1 l2 m : exec m (l1 ++ l2) = match exec m l1 with Some (m1, es) => match exec m1 l2 with Some (m2, es') => Some (m2, es ++ es') | None => None end | None => None end.
Proof.
  revert m. induction l1 as [|a l1 IH]; intros m; simpl.
  - destruct (exec m l2) as [[m2 es']|]; reflexivity.
  - destruct (act m a) as [[m1 es]|]; [|reflexivity]. rewrite IH. destruct (exec m1 l1) as [[m2 es2]|]; [|reflexivity]. destruct (exec m2 l2) as [[m3 es3]|]; [|reflexivity].
    rewrite app_assoc. reflexivity.
Qed.
Lemma wp_app m l1 l2 e0 Q : wp m l1 e0 (fun m' => wp m' l2 e0 Q) -> wp m (l1 ++ l2) e0 Q.
Proof.
  intros (m1 & es1 & E1 & H1 & (m2 & es2 & E2 & H2 & H)). exists m2, (es1 ++ es2). rewrite exec_app, E1, E2. repeat split; auto.
  intros x Hx. apply in_app_or in Hx as [Hx|Hx]; auto.
Qed.
Lemma wp_mono m l e0 (Q Q' : mem -> Prop) : wp m l e0 Q -> (forall m', Q m' -> Q' m') -> wp m l e0 Q'.
Proof. intros (m1 & es1 & E1 & H1 & H) HQ. exists m1, es1. auto. Qed.
Lemma wp_init m c l e0 Q : m c = false -> wp (set m c true) l e0 Q -> wp m (AInit c :: l) e0 Q.
Proof. intros Hc (m1 & es1 & E1 & H1 & H). exists m1, es1. simpl. rewrite Hc, E1. auto. Qed.
Lemma wp_end m c l e0 Q : m c = true -> wp (set m c false) l e0 Q -> wp m (AEnd c :: l) e0 Q.
Proof. intros Hc (m1 & es1 & E1 & H1 & H). exists m1, es1. simpl. rewrite Hc, E1. auto. Qed.
Lemma wp_use m c l e0 Q : m c = true -> wp m l e0 Q -> wp m (AUse c :: l) e0 Q.
Proof. intros Hc (m1 & es1 & E1 & H1 & H). exists m1, es1. simpl. rewrite Hc, E1. auto. Qed.
Lemma wp_env m r l e0 Q : env_of r = e0 -> (forall c, In c (reads r) -> m c = true) -> wp m l e0 Q -> wp m (AEnv r :: l) e0 Q.
Proof.
  intros He Hc (m1 & es1 & E1 & H1 & H). exists m1, (env_of r :: es1). simpl. rewrite (proj2 (forallb_forall _ _) Hc), E1. repeat split; auto. intros x [<-|Hx]; auto.
Qed.
Lemma wp_uses m tk l e0 Q : (forall c, In c tk -> m c = true) -> wp m l e0 Q -> wp m (uses tk ++ l) e0 Q.
Proof. intros Hc H. induction tk as [|c tk IH]; simpl; [exact H|]. apply wp_use; [apply Hc; left; reflexivity|]. apply IH. intros c' Hc'. apply Hc. right. exact Hc'. Qed.
Lemma wp_opt m b a l e0 Q : (b = true -> wp m a e0 (fun m' => wp m' l e0 Q)) -> (b = false -> wp m l e0 Q) -> wp m (opt b a ++ l) e0 Q.
Proof. intros H1 H2. destruct b; simpl; [apply wp_app; auto|auto]. Qed.

Lemma set_same m c b : set m c b c = b.
Proof. unfold set. destruct (cell_eq c c); congruence. Qed.
Lemma set_other m c b c' : c' <> c -> set m c b c' = m c'.
Proof. intros H. unfold set. destruct (cell_eq c' c); congruence. Qed.

(** what a phase does: nothing outside of its region, and in the region the cells X are initialized afterwards *)
Definition holds (m : mem) (R : cell -> Prop) (X : list cell) : Prop := forall c, R c -> (m c = true <-> In c X).
Definition same (m m' : mem) (R : cell -> Prop) : Prop := forall c, ~ R c -> m' c = m c.
Definition live (m : mem) (l : list cell) : Prop := forall c, In c l -> m c = true.
Definition out (R : cell -> Prop) (l : list cell) : Prop := forall c, In c l -> ~ R c.

Lemma live_same m m' R l : same m m' R -> out R l -> live m l -> live m' l.
Proof. intros H1 H2 H3 c Hc. rewrite (H1 c (H2 c Hc)). exact (H3 c Hc). Qed.
Lemma out_kid p i l : out (under p) l -> out (under (i :: p)) l.
Proof. intros H c Hc Hu. exact (H c Hc (under_kid _ _ _ Hu)). Qed.
Lemma out_cons p i f l : out (under p) l -> out (under (i :: p)) ((p, f) :: l).
Proof. intros H c [<-|Hc]; [apply self_kid|apply out_kid with (1 := H) (2 := Hc)]. Qed.

(** ** Composition of regions *)
Definition inside (R : cell -> Prop) (l : list cell) : Prop := forall c, In c l -> R c.
Lemma kids_split i p A B m : inside (under (i :: p)) A -> inside (kids (S i) p) B -> (holds m (kids i p) (A ++ B) <-> holds m (under (i :: p)) A /\ holds m (kids (S i) p) B).
Proof.
  intros HA HB. split.
  - intros H. split; intros c Hc.
    + rewrite (H c (kids_i _ _ _ Hc)), in_app_iff. split; [intros [H'|H']; [exact H'|destruct (kids_not _ _ _ Hc (HB c H'))]|auto].
    + rewrite (H c (kids_S _ _ _ Hc)), in_app_iff. split; [intros [H'|H']; [destruct (kids_not _ _ _ (HA c H') Hc)|exact H']|auto].
  - intros [H1 H2] c Hc. rewrite in_app_iff. destruct (kids_inv _ _ _ Hc) as [Hi|Hs].
    + rewrite (H1 c Hi). split; [auto|intros [H'|H']; [exact H'|destruct (kids_not _ _ _ Hi (HB c H'))]].
    + rewrite (H2 c Hs). split; [auto|intros [H'|H']; [destruct (kids_not _ _ _ (HA c H') Hs)|exact H']].
Qed.
Lemma comp_iff m p F K X : inside (kids 0 p) K -> (forall c, In c X <-> In c (map (pair p) F ++ K)) ->
  (holds m (under p) X <-> holds m (kids 0 p) K /\ forall f, m (p, f) = true <-> In f F).
Proof.
  intros HK HX. assert (Hf : forall f, In (p, f) X <-> In f F).
  { intros f. rewrite HX, in_app_iff, in_map_iff. split; [intros [(g & E & Hg)|H]; [congruence|destruct (self_kids _ _ _ (HK _ H))]|eauto]. }
  assert (Hk : forall c, kids 0 p c -> (In c X <-> In c K)).
  { intros c Hc. rewrite HX, in_app_iff, in_map_iff. split; [intros [(g & <- & Hg)|H]; [destruct (self_kids _ _ _ Hc)|exact H]|auto]. }
  split.
  - intros H. split; [intros c Hc; rewrite (H c (kids_under _ _ _ Hc)); auto|intros f; rewrite (H _ (under_self p f)); auto].
  - intros [H1 H2] c Hc. destruct (under_kids _ _ Hc) as [(f & ->)|Hk']; [rewrite (H2 f); symmetry; auto|rewrite (H1 c Hk'); symmetry; auto].
Qed.
Lemma same_trans m1 m2 m3 R : same m1 m2 R -> same m2 m3 R -> same m1 m3 R.
Proof. intros H1 H2 c Hc. rewrite (H2 c Hc). auto. Qed.
Lemma same_sub m1 m2 (R R' : cell -> Prop) : (forall c, R c -> R' c) -> same m1 m2 R -> same m1 m2 R'.
Proof. intros H H1 c Hc. apply H1. auto. Qed.
Lemma same_set m c b (R : cell -> Prop) : R c -> same m (set m c b) R.
Proof. intros H c' Hc'. apply set_other. congruence. Qed.
Lemma holds_same m m' (R R' : cell -> Prop) X : same m m' R' -> (forall c, R c -> ~ R' c) -> holds m R X -> holds m' R X.
Proof. intros H1 H2 H c Hc. rewrite (H1 c (H2 c Hc)). exact (H c Hc). Qed.
Lemma holds_kids_set m p f b i K : holds m (kids i p) K -> holds (set m (p, f) b) (kids i p) K.
Proof. intros H c Hc. rewrite set_other by (intros ->; exact (self_kids _ _ _ Hc)). auto. Qed.
Lemma live_set m p f l : live m l -> live (set m (p, f) true) l.
Proof. intros H c Hc. unfold set. destruct (cell_eq c (p, f)); auto. Qed.
Lemma live_set_out m p f b l : out (under p) l -> live m l -> live (set m (p, f) b) l.
Proof. intros Ho H c Hc. rewrite set_other; [auto|]. intros ->. exact (Ho _ Hc (under_self _ _)). Qed.
Lemma self_same i m m' p f : same m m' (kids i p) -> m' (p, f) = m (p, f).
Proof. intros H. apply H. apply self_kids. Qed.

Lemma out_kids p l : out (under p) l -> out (kids 0 p) l.
Proof. intros H c Hc Hk. exact (H c Hc (kids_under _ _ _ Hk)). Qed.
Lemma out_kids_cons p f l : out (under p) l -> out (kids 0 p) ((p, f) :: l).
Proof. intros H c [<-|Hc]; [apply self_kids|apply out_kids with (1 := H) (2 := Hc)]. Qed.
Lemma out_i i p l : out (kids i p) l -> out (under (i :: p)) l.
Proof. intros H c Hc Hu. exact (H c Hc (kids_i _ _ _ Hu)). Qed.
Lemma out_S i p l : out (kids i p) l -> out (kids (S i) p) l.
Proof. intros H c Hc Hu. exact (H c Hc (kids_S _ _ _ Hu)). Qed.
Lemma false_iff m (R : cell -> Prop) : (forall c, R c -> m c = false) <-> holds m R [].
Proof. split; intros H c Hc; [rewrite (H c Hc); simpl; intuition discriminate|]. destruct (m c) eqn:E; [|reflexivity]. destruct (proj1 (H c Hc) E). Qed.

(** one operation in the region of the children *)
Lemma one_kid m l e0 p K K' : holds m (kids 0 p) K -> inside (under (0 :: p)) K -> inside (under (0 :: p)) K' ->
  (holds m (under (0 :: p)) K -> wp m l e0 (fun m' => same m m' (under (0 :: p)) /\ holds m' (under (0 :: p)) K')) ->
  wp m l e0 (fun m' => same m m' (kids 0 p) /\ holds m' (kids 0 p) K').
Proof.
  intros H HK HK' Hw. rewrite <- (app_nil_r K) in H. apply kids_split in H as [H1 H2]; [|exact HK|intros c []]. apply wp_mono with (1 := Hw H1). intros m' [Hs Hh]. split.
  - apply same_sub with (2 := Hs). apply kids_i.
  - rewrite <- (app_nil_r K'). apply kids_split; [exact HK'|intros c []|]. split; [exact Hh|]. apply holds_same with (1 := Hs) (3 := H2). intros c Hk Hu. exact (kids_not _ _ _ Hu Hk).
Qed.

Ltac fields := unfold set; repeat match goal with |- context [cell_eq ?a ?b] => destruct (cell_eq a b); try congruence end.

(** ** The phases of an operation that go well *)
Fixpoint okc (e : sexp) : bool :=
  match e with
  | SLeaf _ | SIte _ _ _ | SLet _ | SRepeat _ _ | SSequence _ => true
  | STransform s | SLambda s | SInGroup s => okc s
  | SWithCancel s => negb (asks_c s) && okc s
  | SWhenAll l => okcs l
  | SRace l => negb (eager l) && negb (toks_cs l) && okcs l
  end
with okcs (l : slist) : bool := match l with SNil => true | SCons _ s l => okc s && okcs l end.
Fixpoint okd (e : sexp) : bool :=
  match e with
  | SLeaf _ | SRepeat _ _ | SSequence _ => true
  | STransform s | SLambda s | SInGroup s | SLet s => okd s
  | SWithCancel s => negb (asks_d s) && okd s
  | SIte b s1 s2 => okd (if b then s1 else s2)
  | SWhenAll l => okds l
  | SRace l => negb (toks_ds l) && okds l
  end
with okds (l : slist) : bool := match l with SNil => true | SCons _ s l => okd s && okds l end.
Fixpoint okg (e : sexp) : bool :=
  match e with
  | SLeaf _ => true
  | STransform s | SLambda s | SInGroup s | SWithCancel s => okg s
  | SLet s => okc s && okg s
  | SIte b s1 s2 => okc (if b then s1 else s2) && okg (if b then s1 else s2)
  | SRepeat n s => (n =? 0) || (okc s && okg s && okd s)
  | SSequence l => okal l
  | SWhenAll l | SRace l => okgs l
  end
with okgs (l : slist) : bool := match l with SNil => true | SCons _ s l => okg s && okgs l end
with okal (l : slist) : bool := match l with SNil => true | SCons _ s l => (okc s && okg s && okd s) && okal l end.
Lemma careful_ok : (forall e, careful e = okc e && okg e && okd e) /\ (forall l, carefuls l = okcs l && okgs l && okds l /\ carefuls l = okal l).
Proof.
  apply sexp_slist_ind; simpl; try reflexivity.
  - intros s IH. exact IH.
  - intros s IH. exact IH.
  - intros s ->. destruct (asks_c s), (asks_d s), (okc s), (okg s), (okd s); reflexivity.
  - intros s IH. exact IH.
  - intros [] s1 IH1 s2 IH2; assumption.
  - intros s IH. rewrite IH. reflexivity.
  - intros n s ->. rewrite andb_true_r. reflexivity.
  - intros l [_ ->]. rewrite andb_true_r. reflexivity.
  - intros l [IH _]. exact IH.
  - intros l [-> _]. destruct (eager l), (toks_cs l), (toks_ds l), (okcs l), (okgs l), (okds l); reflexivity.
  - split; reflexivity.
  - intros u s -> l [H1 H2]. split; [rewrite H1|rewrite H2; reflexivity]. destruct (okc s), (okg s), (okd s), (okcs l), (okgs l), (okds l); reflexivity.
Qed.

Lemma conn_ok : (forall e p r tk m, okc e = true -> holds m (under p) [] -> (asks_c e = true -> live m (reads r)) -> (toks_c e = true -> live m tk) ->
    out (under p) (reads r) -> out (under p) tk -> wp m (conn e p r tk) (env_of r) (fun m' => same m m' (under p) /\ holds m' (under p) (cc e p))) /\
  (forall l i p r tk m, okcs l = true -> holds m (kids i p) [] -> (asks_cs l = true -> live m (reads r)) -> (toks_cs l = true -> live m tk) ->
    out (kids i p) (reads r) -> out (kids i p) tk -> wp m (conns l i p r tk) (env_of r) (fun m' => same m m' (kids i p) /\ holds m' (kids i p) (ccs l i p))).
Proof.
  destruct cc_under as [C1 C2].
  assert (Hself : forall m p f, holds m (under p) [] -> m (p, f) = false) by (intros m p f H; apply (proj2 (false_iff m (under p)) H), under_self).
  assert (Hkids : forall m p i, holds m (under p) [] -> holds m (kids i p) []) by (intros m p i H c Hc; apply H; exact (kids_under _ _ _ Hc)).
  assert (Hbase : forall m p F, holds m (under p) [] -> forall m', same m m' (under p) -> (forall f, m' (p, f) = true <-> In f F) -> (forall c, kids 0 p c -> m' c = m c) -> holds m' (under p) (map (pair p) F)).
  { intros m p F H m' Hs Hf Hk. apply (comp_iff m' p F []); [intros c []|intros c; rewrite app_nil_r; reflexivity|]. split; [|exact Hf]. intros c Hc. rewrite (Hk c Hc). exact (Hkids m p 0 H c Hc). }
  apply sexp_slist_ind; simpl.
  - intros l p r tk m _ H He Ht _ _. apply wp_opt; intros El; [apply wp_env; [reflexivity|exact (He El)|]; apply wp_nil|].
    all: apply wp_opt; intros El'; [rewrite <- (app_nil_r (uses tk)); apply wp_uses; [exact (Ht El')|]; apply wp_nil|].
    all: (apply wp_init; [apply Hself; exact H|]; apply wp_nil; split; [apply same_set, under_self|]).
    all: (apply (Hbase m p [FOp] H); [apply same_set, under_self| |intros c Hc; apply set_other; intros ->; exact (self_kids _ _ _ Hc)]).
    all: (intros f; pose proof (Hself m p f H) as Hf; destruct f; fields; simpl; intuition congruence).
  - intros s IH p r tk m. exact (IH p (RVal r) tk m).
  - intros s IH p r tk m Hc H He Ht Hr Hk. apply wp_init; [apply Hself; exact H|]. apply wp_use; [apply set_same|].
    apply wp_mono with (Q := fun m' => same (set m (p, FFn) true) m' (kids 0 p) /\ holds m' (kids 0 p) (cc s (0 :: p))).
    + apply (one_kid _ _ _ _ []); [apply holds_kids_set, Hkids, H|intros c []|intros c Hi; exact (C1 _ _ _ Hi)|]. intros H0. apply IH; auto using live_set, out_kid.
    + intros m' [Hs Hh]. split; [apply same_trans with (set m (p, FFn) true); [apply same_set, under_self|apply same_sub with (2 := Hs); apply kids_under]|].
      apply (comp_iff m' p [FFn] (cc s (0 :: p))); [intros c Hi; exact (kids_i _ _ _ (C1 _ _ _ Hi))|reflexivity|]. split; [exact Hh|]. intros f. rewrite (self_same 0 _ _ _ f Hs).
      pose proof (Hself m p f H) as Hf. destruct f; fields; simpl; intuition congruence.
  - intros s IH p r tk m Hc H He Ht Hr Hk. apply andb_true_iff in Hc as [Ha Hc]. apply negb_true_iff in Ha. apply wp_app.
    apply wp_mono with (Q := fun m' => same m m' (kids 0 p) /\ holds m' (kids 0 p) (cc s (0 :: p))).
    + apply (one_kid _ _ _ _ []); [apply Hkids, H|intros c []|intros c Hi; exact (C1 _ _ _ Hi)|]. intros H0. apply (IH (0 :: p) (RPtr p r)); cbn [reads]; auto using out_kid, out_cons. congruence.
    + intros m1 [Hs Hh]. assert (Hf : forall f, m1 (p, f) = false) by (intros f; rewrite (self_same 0 _ _ _ f Hs); auto).
      apply wp_init; [apply Hf|]. apply wp_init; [fields; apply Hf|]. apply wp_init; [fields; apply Hf|]. apply wp_nil. split.
      * apply same_trans with m1; [apply same_sub with (2 := Hs); apply kids_under|]. eapply same_trans; [apply same_set, under_self|]. eapply same_trans; apply same_set, under_self.
      * apply (comp_iff _ p [FCb; FDr; FObs] (cc s (0 :: p))); [intros c Hi; exact (kids_i _ _ _ (C1 _ _ _ Hi))|reflexivity|]. split; [do 3 apply holds_kids_set; exact Hh|].
        intros f. specialize (Hf f). destruct f; fields; simpl; intuition congruence.
  - intros s IH p r tk m Hc H He Ht Hr Hk. apply wp_init; [apply Hself; exact H|].
    apply wp_mono with (Q := fun m' => same (set m (p, FDr) true) m' (kids 0 p) /\ holds m' (kids 0 p) (cc s (0 :: p))).
    + apply (one_kid _ _ _ _ []); [apply holds_kids_set, Hkids, H|intros c []|intros c Hi; exact (C1 _ _ _ Hi)|]. intros H0. apply (IH (0 :: p) (RPtr p r)); cbn [reads]; auto using live_set, out_kid, out_cons.
      intros Ha c [<-|Hi]; [apply set_same|apply live_set with (1 := He Ha) (2 := Hi)].
    + intros m' [Hs Hh]. split; [apply same_trans with (set m (p, FDr) true); [apply same_set, under_self|apply same_sub with (2 := Hs); apply kids_under]|].
      apply (comp_iff m' p [FDr] (cc s (0 :: p))); [intros c Hi; exact (kids_i _ _ _ (C1 _ _ _ Hi))|reflexivity|]. split; [exact Hh|]. intros f. rewrite (self_same 0 _ _ _ f Hs).
      pose proof (Hself m p f H) as Hf. destruct f; fields; simpl; intuition congruence.
  - intros b s1 _ s2 _ p r tk m _ H _ _ _ _. apply wp_init; [apply Hself; exact H|]. apply wp_nil. split; [apply same_set, under_self|].
    apply (Hbase m p [FDr] H); [apply same_set, under_self| |intros c Hc; apply set_other; intros ->; exact (self_kids _ _ _ Hc)].
    intros f. pose proof (Hself m p f H) as Hf. destruct f; fields; simpl; intuition congruence.
  - intros s _ p r tk m _ H _ _ _ _. apply wp_init; [apply Hself; exact H|]. apply wp_init; [fields; apply Hself; exact H|]. apply wp_nil.
    assert (Hs : same m (set (set m (p, FFn) true) (p, FDr) true) (under p)) by (eapply same_trans; apply same_set, under_self). split; [exact Hs|].
    apply (Hbase m p [FFn; FDr] H); [exact Hs| |intros c Hc; rewrite !set_other by (intros ->; exact (self_kids _ _ _ Hc)); reflexivity].
    intros f. pose proof (Hself m p f H) as Hf. destruct f; fields; simpl; intuition congruence.
  - intros n s _ p r tk m _ H _ _ _ _. apply wp_init; [apply Hself; exact H|]. apply wp_nil. split; [apply same_set, under_self|].
    apply (Hbase m p [FDr] H); [apply same_set, under_self| |intros c Hc; apply set_other; intros ->; exact (self_kids _ _ _ Hc)].
    intros f. pose proof (Hself m p f H) as Hf. destruct f; fields; simpl; intuition congruence.
  - intros l _ p r tk m _ H _ _ _ _. apply wp_init; [apply Hself; exact H|]. apply wp_nil. split; [apply same_set, under_self|].
    apply (Hbase m p [FDr] H); [apply same_set, under_self| |intros c Hc; apply set_other; intros ->; exact (self_kids _ _ _ Hc)].
    intros f. pose proof (Hself m p f H) as Hf. destruct f; fields; simpl; intuition congruence.
  - intros l IH p r tk m Hc H He Ht Hr Hk. apply wp_init; [apply Hself; exact H|]. apply wp_app.
    apply wp_mono with (1 := IH 0 p (RPtr p r) tk (set m (p, FDr) true) Hc (holds_kids_set _ _ _ _ _ _ (Hkids m p 0 H))
      (fun Ha c Hi => match Hi with or_introl E => eq_ind _ (fun c => set m (p, FDr) true c = true) (set_same _ _ _) c E | or_intror Hi => live_set _ _ _ _ (He Ha) c Hi end)
      (fun Ha => live_set _ _ _ _ (Ht Ha)) (out_kids_cons _ _ _ Hr) (out_kids _ _ Hk)).
    intros m1 [Hs Hh]. apply wp_init; [rewrite (self_same 0 _ _ _ _ Hs); fields; auto|]. apply wp_nil. split.
    + eapply same_trans; [apply same_set, under_self|]. eapply same_trans; [apply same_sub with (2 := Hs); apply kids_under|apply same_set, under_self].
    + apply (comp_iff _ p [FDr; FCtr] (ccs l 0 p)); [exact (C2 l 0 p)|reflexivity|]. split; [apply holds_kids_set; exact Hh|].
      intros f. pose proof (self_same 0 _ _ _ f Hs) as Hf. rewrite (Hself m p f H) in Hf || idtac. pose proof (Hself m p f H) as Hf0. revert Hf. destruct f; fields; simpl; intuition congruence.
  - intros l IH p r tk m Hc H He Ht Hr Hk. apply andb_true_iff in Hc as [Hc1 Hc]. apply andb_true_iff in Hc1 as [Hg Hn]. apply negb_true_iff in Hg, Hn.
    assert (Hfun : functors l p = []). { clear -Hg. induction l as [|u s l IH]; [reflexivity|]. simpl in *. apply orb_false_iff in Hg as [-> Hg]. exact (IH Hg). }
    rewrite Hfun. apply wp_init; [apply Hself; exact H|]. simpl. apply wp_app.
    apply wp_mono with (1 := IH 0 p (RPtr p r) ((p, FCs) :: tk) (set m (p, FDr) true) Hc (holds_kids_set _ _ _ _ _ _ (Hkids m p 0 H))
      (fun Ha c Hi => match Hi with or_introl E => eq_ind _ (fun c => set m (p, FDr) true c = true) (set_same _ _ _) c E | or_intror Hi => live_set _ _ _ _ (He Ha) c Hi end)
      (fun Ha => ltac:(congruence)) (out_kids_cons _ _ _ Hr) (out_kids_cons _ _ _ Hk)).
    intros m1 [Hs Hh]. apply wp_init; [rewrite (self_same 0 _ _ _ _ Hs); fields; auto|]. apply wp_init; [fields; rewrite (self_same 0 _ _ _ _ Hs); fields; auto|]. apply wp_nil. split.
    + eapply same_trans; [apply same_set, under_self|]. eapply same_trans; [apply same_sub with (2 := Hs); apply kids_under|]. eapply same_trans; apply same_set, under_self.
    + apply (comp_iff _ p [FDr; FCs; FCtr] (ccs l 0 p)); [exact (C2 l 0 p)|reflexivity|]. split; [do 2 apply holds_kids_set; exact Hh|].
      intros f. pose proof (self_same 0 _ _ _ f Hs) as Hf. pose proof (Hself m p f H) as Hf0. revert Hf. destruct f; fields; simpl; intuition congruence.
  - intros i p r tk m _ H _ _ _ _. apply wp_nil. split; [intros c _; reflexivity|exact H].
  - intros u s IH l IHl i p r tk m Hc H He Ht Hr Hk. apply andb_true_iff in Hc as [Hc Hcl]. apply wp_app.
    apply (kids_split i p [] []) in H as [H1 H2]; [|intros c []|intros c []].
    apply wp_mono with (1 := IH (i :: p) r tk m Hc H1 (fun Ha => He ltac:(rewrite Ha; reflexivity)) (fun Ha => Ht ltac:(rewrite Ha; reflexivity)) (out_i _ _ _ Hr) (out_i _ _ _ Hk)).
    intros m1 [Hs Hh]. assert (Hdis : forall c, kids (S i) p c -> ~ under (i :: p) c) by (intros c Hkc Hu; exact (kids_not _ _ _ Hu Hkc)).
    apply wp_mono with (1 := IHl (S i) p r tk m1 Hcl (holds_same _ _ _ _ _ Hs Hdis H2)
      (fun Ha => live_same _ _ _ _ Hs (out_i _ _ _ Hr) (He ltac:(rewrite Ha; apply orb_true_r))) (fun Ha => live_same _ _ _ _ Hs (out_i _ _ _ Hk) (Ht ltac:(rewrite Ha; apply orb_true_r))) (out_S _ _ _ Hr) (out_S _ _ _ Hk)).
    intros m2 [Hs2 Hh2]. split.
    + apply same_trans with m1; [apply same_sub with (2 := Hs); apply kids_i|apply same_sub with (2 := Hs2); apply kids_S].
    + apply kids_split; [exact (C1 s (i :: p))|exact (C2 l (S i) p)|]. split; [|exact Hh2]. apply holds_same with (1 := Hs2) (3 := Hh). apply kids_not.
Qed.

Lemma in_both s p : inside (under p) (cc s p ++ cr s p).
Proof. intros c Hc. apply in_app_or in Hc as [Hc|Hc]; [exact (proj1 cc_under _ _ _ Hc)|exact (proj1 cr_under _ _ _ Hc)]. Qed.
Lemma ins_both l i p : inside (kids i p) (ccs l i p ++ crs l i p).
Proof. intros c Hc. apply in_app_or in Hc as [Hc|Hc]; [exact (proj2 cc_under _ _ _ _ Hc)|exact (proj2 cr_under _ _ _ _ Hc)]. Qed.
Lemma in_kid s p : inside (kids 0 p) (cc s (0 :: p) ++ cr s (0 :: p)).
Proof. intros c Hc. exact (kids_i _ _ _ (in_both _ _ _ Hc)). Qed.
Lemma holds_perm m (R : cell -> Prop) X Y : (forall c, In c X <-> In c Y) -> holds m R X -> holds m R Y.
Proof. intros H H1 c Hc. rewrite (H1 c Hc). apply H. Qed.
Lemma nothing (R : cell -> Prop) : inside R [].
Proof. intros c []. Qed.

Lemma dtor_ok : (forall e p r tk m, okd e = true -> holds m (under p) (cc e p ++ cr e p) -> (asks_d e = true -> live m (reads r)) -> (toks_d e = true -> live m tk) ->
    out (under p) (reads r) -> out (under p) tk -> wp m (dtor e p r tk) (env_of r) (fun m' => same m m' (under p) /\ holds m' (under p) [])) /\
  (forall l i p r tk m, okds l = true -> holds m (kids i p) (ccs l i p ++ crs l i p) -> (asks_ds l = true -> live m (reads r)) -> (toks_ds l = true -> live m tk) ->
    out (kids i p) (reads r) -> out (kids i p) tk -> wp m (dtors l i p r tk) (env_of r) (fun m' => same m m' (kids i p) /\ holds m' (kids i p) [])).
Proof.
  assert (Hfin : forall m m' p, same m m' (under p) -> holds m' (kids 0 p) [] -> (forall f, m' (p, f) = false) -> same m m' (under p) /\ holds m' (under p) []).
  { intros m m' p Hs Hh Hf. split; [exact Hs|]. apply (comp_iff m' p [] [] []); [apply nothing|reflexivity|]. split; [exact Hh|]. intros f. rewrite Hf. simpl. intuition discriminate. }
  assert (Hsingle : forall m p F, NoDup F -> holds m (under p) (map (pair p) F) -> holds m (kids 0 p) [] /\ forall f, m (p, f) = true <-> In f F).
  { intros m p F _ H. apply (comp_iff m p F [] (map (pair p) F)); [apply nothing|intros c; rewrite app_nil_r; reflexivity|exact H]. }
  assert (Hone : forall m p f, holds m (under p) [(p, f)] -> wp m [AEnd (p, f)] 0 (fun m' => same m m' (under p) /\ holds m' (under p) []) /\ forall e0, wp m [AEnd (p, f)] e0 (fun m' => same m m' (under p) /\ holds m' (under p) [])).
  { intros m p f H. assert (Hall : forall e0, wp m [AEnd (p, f)] e0 (fun m' => same m m' (under p) /\ holds m' (under p) [])); [|auto]. intros e0.
    apply (Hsingle m p [f]) in H as [Hk Hf]; [|repeat constructor; auto]. apply wp_end; [apply Hf; left; reflexivity|]. apply wp_nil. apply Hfin; [apply same_set, under_self|apply holds_kids_set, Hk|].
    intros g. unfold set. destruct (cell_eq (p, g) (p, f)) as [E|N]; [reflexivity|]. destruct (m (p, g)) eqn:E; [|reflexivity]. apply Hf in E as [->|[]]. congruence. }
  apply sexp_slist_ind; simpl.
  - intros l p r tk m _ H He Ht _ _. apply wp_opt; intros El; [apply wp_env; [reflexivity|exact (He El)|]; apply wp_nil|].
    all: apply wp_opt; intros El'; [rewrite <- (app_nil_r (uses tk)); apply wp_uses; [exact (Ht El')|]; apply wp_nil|].
    all: apply Hone, H.
  - intros s IH p r tk m. exact (IH p (RVal r) tk m).
  - intros s IH p r tk m Hc H He Ht Hr Hk. apply (comp_iff m p [FFn] (cc s (0 :: p) ++ cr s (0 :: p))) in H as [H Hf]; [|apply in_kid|reflexivity]. apply wp_app.
    apply wp_mono with (Q := fun m' => same m m' (kids 0 p) /\ holds m' (kids 0 p) []).
    + apply (one_kid _ _ _ _ _ _ H (in_both _ _) (nothing _)). intros H0. apply IH; auto using out_kid.
    + intros m1 [Hs Hh]. apply wp_end; [rewrite (self_same 0 _ _ _ _ Hs); apply Hf; simpl; auto|]. apply wp_nil. apply Hfin; [|apply holds_kids_set, Hh|].
      * apply same_trans with m1; [apply same_sub with (2 := Hs); apply kids_under|apply same_set, under_self].
      * intros f. pose proof (self_same 0 _ _ _ f Hs) as Hsf. specialize (Hf f). destruct (m (p, f)) eqn:Em; destruct f; fields; simpl in Hf; intuition congruence.
  - intros s IH p r tk m Hc H He Ht Hr Hk. apply andb_true_iff in Hc as [Ha Hc]. apply negb_true_iff in Ha.
    apply (comp_iff m p [FCb; FDr; FObs] (cc s (0 :: p) ++ cr s (0 :: p))) in H as [H Hf]; [|apply in_kid|reflexivity].
    apply wp_end; [apply Hf; simpl; auto|]. apply wp_end; [fields; apply Hf; simpl; auto|]. apply wp_end; [fields; apply Hf; simpl; auto|].
    set (m0 := set _ (p, FCb) false). assert (Hs0 : same m m0 (under p)) by (unfold m0; eapply same_trans; [apply same_set, under_self|]; eapply same_trans; apply same_set, under_self).
    apply wp_mono with (Q := fun m' => same m0 m' (kids 0 p) /\ holds m' (kids 0 p) []).
    + assert (H' : holds m0 (kids 0 p) (cc s (0 :: p) ++ cr s (0 :: p))) by (unfold m0; do 3 apply holds_kids_set; exact H).
      apply (one_kid _ _ _ _ _ _ H' (in_both _ _) (nothing _)). intros H0. apply (IH (0 :: p) (RPtr p r)); cbn [reads]; auto using out_kid, out_cons; [congruence|]. intros Ht'. apply live_same with (1 := Hs0); auto.
    + intros m1 [Hs Hh]. apply Hfin; [|exact Hh|].
      * apply same_trans with m0; [exact Hs0|apply same_sub with (2 := Hs); apply kids_under].
      * intros f. rewrite (self_same 0 _ _ _ f Hs). unfold m0. specialize (Hf f). destruct (m (p, f)) eqn:Em; destruct f; fields; simpl in Hf; intuition congruence.
  - intros s IH p r tk m Hc H He Ht Hr Hk. apply (comp_iff m p [FDr] (cc s (0 :: p) ++ cr s (0 :: p))) in H as [H Hf]; [|apply in_kid|reflexivity]. apply wp_app.
    apply wp_mono with (Q := fun m' => same m m' (kids 0 p) /\ holds m' (kids 0 p) []).
    + apply (one_kid _ _ _ _ _ _ H (in_both _ _) (nothing _)). intros H0. apply (IH (0 :: p) (RPtr p r)); cbn [reads]; auto using out_kid, out_cons.
      intros Ha c [<-|Hi]; [apply Hf; left; reflexivity|exact (He Ha c Hi)].
    + intros m1 [Hs Hh]. apply wp_end; [rewrite (self_same 0 _ _ _ _ Hs); apply Hf; simpl; auto|]. apply wp_nil. apply Hfin; [|apply holds_kids_set, Hh|].
      * apply same_trans with m1; [apply same_sub with (2 := Hs); apply kids_under|apply same_set, under_self].
      * intros f. pose proof (self_same 0 _ _ _ f Hs) as Hsf. specialize (Hf f). destruct (m (p, f)) eqn:Em; destruct f; fields; simpl in Hf; intuition congruence.
  - intros b s1 IH1 s2 IH2 p r tk m Hc H He Ht Hr Hk.
    assert (IH : forall p r tk m, okd (if b then s1 else s2) = true -> holds m (under p) (cc (if b then s1 else s2) p ++ cr (if b then s1 else s2) p) -> (asks_d (if b then s1 else s2) = true -> live m (reads r)) -> (toks_d (if b then s1 else s2) = true -> live m tk) ->
      out (under p) (reads r) -> out (under p) tk -> wp m (dtor (if b then s1 else s2) p r tk) (env_of r) (fun m' => same m m' (under p) /\ holds m' (under p) [])) by (destruct b; assumption).
    set (s := if b then s1 else s2) in *. apply (comp_iff m p [FDr] (cc s (0 :: p) ++ cr s (0 :: p))) in H as [H Hf]; [|apply in_kid|reflexivity]. apply wp_app.
    apply wp_mono with (Q := fun m' => same m m' (kids 0 p) /\ holds m' (kids 0 p) []).
    + apply (one_kid _ _ _ _ _ _ H (in_both _ _) (nothing _)). intros H0. apply IH; auto using out_kid.
    + intros m1 [Hs Hh]. apply wp_end; [rewrite (self_same 0 _ _ _ _ Hs); apply Hf; simpl; auto|]. apply wp_nil. apply Hfin; [|apply holds_kids_set, Hh|].
      * apply same_trans with m1; [apply same_sub with (2 := Hs); apply kids_under|apply same_set, under_self].
      * intros f. pose proof (self_same 0 _ _ _ f Hs) as Hsf. specialize (Hf f). destruct (m (p, f)) eqn:Em; destruct f; fields; simpl in Hf; intuition congruence.
  - intros s IH p r tk m Hc H He Ht Hr Hk. apply (comp_iff m p [FFn; FDr] (cc s (0 :: p) ++ cr s (0 :: p))) in H as [H Hf]; [|apply in_kid|reflexivity]. apply wp_app.
    apply wp_mono with (Q := fun m' => same m m' (kids 0 p) /\ holds m' (kids 0 p) []).
    + apply (one_kid _ _ _ _ _ _ H (in_both _ _) (nothing _)). intros H0. apply IH; auto using out_kid.
    + intros m1 [Hs Hh]. apply wp_end; [rewrite (self_same 0 _ _ _ _ Hs); apply Hf; simpl; auto|]. apply wp_end; [fields; rewrite (self_same 0 _ _ _ _ Hs); apply Hf; simpl; auto|]. apply wp_nil.
      apply Hfin; [|do 2 apply holds_kids_set; exact Hh|].
      * apply same_trans with m1; [apply same_sub with (2 := Hs); apply kids_under|]. eapply same_trans; apply same_set, under_self.
      * intros f. pose proof (self_same 0 _ _ _ f Hs) as Hsf. specialize (Hf f). destruct (m (p, f)) eqn:Em; destruct f; fields; simpl in Hf; intuition congruence.
  - intros n s _ p r tk m _ H _ _ _ _. apply Hone, H.
  - intros l _ p r tk m _ H _ _ _ _. apply Hone, H.
  - intros l IH p r tk m Hc H He Ht Hr Hk. apply (comp_iff m p [FDr; FCtr] (ccs l 0 p ++ crs l 0 p)) in H as [H Hf]; [|apply ins_both|reflexivity].
    apply wp_end; [apply Hf; simpl; auto|]. apply wp_app. apply wp_mono with (Q := fun m' => same (set m (p, FCtr) false) m' (kids 0 p) /\ holds m' (kids 0 p) []).
    + apply (IH 0 p (RPtr p r)); cbn [reads]; auto using holds_kids_set, out_kids, out_kids_cons, live_set_out.
      intros Ha c [<-|Hi]; [fields; apply Hf; left; reflexivity|apply live_set_out with (1 := Hr) (2 := He Ha) (3 := Hi)].
    + intros m1 [Hs Hh]. apply wp_end; [rewrite (self_same 0 _ _ _ _ Hs); fields; apply Hf; simpl; auto|]. apply wp_nil. apply Hfin; [|apply holds_kids_set, Hh|].
      * eapply same_trans; [apply same_set, under_self|]. eapply same_trans; [apply same_sub with (2 := Hs); apply kids_under|apply same_set, under_self].
      * intros f. pose proof (self_same 0 _ _ _ f Hs) as Hsf. revert Hsf. specialize (Hf f). destruct (m (p, f)) eqn:Em; destruct f; fields; simpl in Hf; intuition congruence.
  - intros l IH p r tk m Hc H He Ht Hr Hk. apply andb_true_iff in Hc as [Hn Hc]. apply negb_true_iff in Hn.
    apply (comp_iff m p [FDr; FCs; FCtr] (ccs l 0 p ++ crs l 0 p)) in H as [H Hf]; [|apply ins_both|reflexivity].
    apply wp_end; [apply Hf; simpl; auto|]. apply wp_end; [fields; apply Hf; simpl; auto|]. set (m0 := set _ (p, FCs) false).
    assert (Hs0 : same m m0 (under p)) by (unfold m0; eapply same_trans; apply same_set, under_self).
    apply wp_app. apply wp_mono with (Q := fun m' => same m0 m' (kids 0 p) /\ holds m' (kids 0 p) []).
    + apply (IH 0 p (RPtr p r)); cbn [reads]; auto using out_kids, out_kids_cons; [unfold m0; do 2 apply holds_kids_set; exact H| |congruence].
      intros Ha c [<-|Hi]; [unfold m0; fields; apply Hf; left; reflexivity|apply live_same with (1 := Hs0) (2 := Hr) (3 := He Ha); exact Hi].
    + intros m1 [Hs Hh]. apply wp_end; [rewrite (self_same 0 _ _ _ _ Hs); unfold m0; fields; apply Hf; simpl; auto|]. apply wp_nil. apply Hfin; [|apply holds_kids_set, Hh|].
      * eapply same_trans; [exact Hs0|]. eapply same_trans; [apply same_sub with (2 := Hs); apply kids_under|apply same_set, under_self].
      * intros f. pose proof (self_same 0 _ _ _ f Hs) as Hsf. revert Hsf. unfold m0. specialize (Hf f). destruct (m (p, f)) eqn:Em; destruct f; fields; simpl in Hf; intuition congruence.
  - intros i p r tk m _ H _ _ _ _. apply wp_nil. split; [intros c _; reflexivity|exact H].
  - intros u s IH l IHl i p r tk m Hc H He Ht Hr Hk. apply andb_true_iff in Hc as [Hc Hcl]. apply wp_app.
    apply holds_perm with (Y := (cc s (i :: p) ++ cr s (i :: p)) ++ (ccs l (S i) p ++ crs l (S i) p)) in H; [|intros c; rewrite !in_app_iff; tauto].
    apply kids_split in H as [H1 H2]; [|apply in_both|apply ins_both].
    apply wp_mono with (1 := IHl (S i) p r tk m Hcl H2 (fun Ha => He ltac:(rewrite Ha; apply orb_true_r)) (fun Ha => Ht ltac:(rewrite Ha; apply orb_true_r)) (out_S _ _ _ Hr) (out_S _ _ _ Hk)).
    intros m1 [Hs Hh].
    apply wp_mono with (1 := IH (i :: p) r tk m1 Hc (holds_same _ _ _ _ _ Hs (kids_not i p) H1)
      (fun Ha => live_same _ _ _ _ Hs (out_S _ _ _ Hr) (He ltac:(rewrite Ha; reflexivity))) (fun Ha => live_same _ _ _ _ Hs (out_S _ _ _ Hk) (Ht ltac:(rewrite Ha; reflexivity))) (out_i _ _ _ Hr) (out_i _ _ _ Hk)).
    intros m2 [Hs2 Hh2]. split.
    + apply same_trans with m1; [apply same_sub with (2 := Hs); apply kids_S|apply same_sub with (2 := Hs2); apply kids_i].
    + apply (kids_split i p [] []); [apply nothing|apply nothing|]. split; [exact Hh2|]. apply holds_same with (1 := Hs2) (3 := Hh). intros c Hkc Hu. exact (kids_not _ _ _ Hu Hkc).
Qed.

(** an operation is connected and started in a box *)
Definition going (s : sexp) : Prop := forall p r tk m, okg s = true -> holds m (under p) (cc s p) -> live m (reads r) -> live m tk -> out (under p) (reads r) -> out (under p) tk ->
  wp m (go s p r tk) (env_of r) (fun m' => same m m' (under p) /\ holds m' (under p) (cc s p ++ cr s p)).
Lemma boxed s p r tk m : going s -> okc s = true -> okg s = true -> holds m (kids 0 p) [] -> live m (reads r) -> live m tk -> out (kids 0 p) (reads r) -> out (kids 0 p) tk ->
  wp m (conn s (0 :: p) r tk ++ go s (0 :: p) r tk) (env_of r) (fun m' => same m m' (kids 0 p) /\ holds m' (kids 0 p) (cc s (0 :: p) ++ cr s (0 :: p))).
Proof.
  intros G Hc Hg H He Ht Hr Hk. apply (one_kid _ _ _ _ _ _ H (nothing _) (in_both _ _)). intros H0. apply wp_app. assert (Hr' := out_i _ _ _ Hr). assert (Hk' := out_i _ _ _ Hk).
  apply wp_mono with (1 := proj1 conn_ok s (0 :: p) r tk m Hc H0 (fun _ => He) (fun _ => Ht) Hr' Hk'). intros m1 [Hs Hh].
  apply wp_mono with (1 := G (0 :: p) r tk m1 Hg Hh (live_same _ _ _ _ Hs Hr' He) (live_same _ _ _ _ Hs Hk' Ht) Hr' Hk'). intros m2 [Hs2 Hh2]. split; [exact (same_trans _ _ _ _ Hs Hs2)|exact Hh2].
Qed.
Lemma cycle s p r tk m : going s -> okc s && okg s && okd s = true -> holds m (kids 0 p) [] -> live m (reads r) -> live m tk -> out (kids 0 p) (reads r) -> out (kids 0 p) tk ->
  wp m (conn s (0 :: p) r tk ++ go s (0 :: p) r tk ++ dtor s (0 :: p) r tk) (env_of r) (fun m' => same m m' (kids 0 p) /\ holds m' (kids 0 p) []).
Proof.
  intros G Hc H He Ht Hr Hk. apply andb_true_iff in Hc as [Hc Hd]. apply andb_true_iff in Hc as [Hc Hg]. rewrite app_assoc. apply wp_app. apply wp_mono with (1 := boxed s p r tk m G Hc Hg H He Ht Hr Hk). intros m1 [Hs Hh].
  apply wp_mono with (Q := fun m' => same m1 m' (kids 0 p) /\ holds m' (kids 0 p) []).
  - apply (one_kid _ _ _ _ _ _ Hh (in_both _ _) (nothing _)). intros H0. apply dtor_ok; auto using out_i; intros _; [exact (live_same _ _ _ _ Hs Hr He)|exact (live_same _ _ _ _ Hs Hk Ht)].
  - intros m2 [Hs2 Hh2]. split; [exact (same_trans _ _ _ _ Hs Hs2)|exact Hh2].
Qed.

Lemma wp_uses1 m tk e0 (Q : mem -> Prop) : live m tk -> Q m -> wp m (uses tk) e0 Q.
Proof. intros H HQ. rewrite <- (app_nil_r (uses tk)). apply wp_uses; [exact H|]. apply wp_nil. exact HQ. Qed.

Fixpoint cares (l : slist) (P : sexp -> Prop) : Prop := match l with SNil => True | SCons _ s l => P s /\ cares l P end.
Lemma steps_ok l p r tk m : cares l going -> okal l = true -> m (p, FDr) = true -> holds m (kids 0 p) [] -> live m (reads r) -> live m tk -> out (kids 0 p) (reads r) -> out (kids 0 p) tk ->
  wp m (steps l p r tk) (env_of r) (fun m' => same m m' (kids 0 p) /\ holds m' (kids 0 p) []).
Proof.
  revert m. induction l as [|u s l IH]; intros m G Hc Hd H He Ht Hr Hk; [apply wp_nil; split; [intros c _; reflexivity|exact H]|].
  simpl in G, Hc. destruct G as [G Gl]. apply andb_true_iff in Hc as [Hc Hcl]. cbn [steps]. apply wp_app. apply wp_use; [exact Hd|].
  apply wp_mono with (1 := cycle s p r tk m G Hc H He Ht Hr Hk). intros m1 [Hs Hh].
  apply wp_mono with (1 := IH m1 Gl Hcl (eq_trans (self_same 0 _ _ _ _ Hs) Hd) Hh (live_same _ _ _ _ Hs Hr He) (live_same _ _ _ _ Hs Hk Ht) Hr Hk).
  intros m2 [Hs2 Hh2]. split; [exact (same_trans _ _ _ _ Hs Hs2)|exact Hh2].
Qed.
Lemma repeat_ok n s p r tk m : going s -> okc s && okg s && okd s = true -> m (p, FDr) = true -> holds m (kids 0 p) [] -> live m (reads r) -> live m tk -> out (kids 0 p) (reads r) -> out (kids 0 p) tk ->
  wp m (concat (repeat ([AUse (p, FDr)] ++ conn s (0 :: p) r tk ++ go s (0 :: p) r tk ++ dtor s (0 :: p) r tk) n)) (env_of r) (fun m' => same m m' (kids 0 p) /\ holds m' (kids 0 p) []).
Proof.
  revert m. induction n as [|n IH]; intros m G Hc Hd H He Ht Hr Hk; [apply wp_nil; split; [intros c _; reflexivity|exact H]|].
  cbn [repeat concat]. apply wp_app. apply wp_use; [exact Hd|].
  apply wp_mono with (1 := cycle s p r tk m G Hc H He Ht Hr Hk). intros m1 [Hs Hh].
  apply wp_mono with (1 := IH m1 G Hc (eq_trans (self_same 0 _ _ _ _ Hs) Hd) Hh (live_same _ _ _ _ Hs Hr He) (live_same _ _ _ _ Hs Hk Ht) Hr Hk).
  intros m2 [Hs2 Hh2]. split; [exact (same_trans _ _ _ _ Hs Hs2)|exact Hh2].
Qed.
Lemma gos_ok l i p r tk own m : cares l going -> okgs l = true -> holds m (kids i p) (ccs l i p) -> live m (reads r) -> live m tk -> live m own ->
  out (kids i p) (reads r) -> out (kids i p) tk -> out (kids i p) own ->
  wp m (gos l i p r tk own) (env_of r) (fun m' => same m m' (kids i p) /\ holds m' (kids i p) (ccs l i p ++ crs l i p)).
Proof.
  revert i m. induction l as [|u s l IH]; intros i m G Hc H He Ht Ho Hr Hk Hw; [apply wp_nil; split; [intros c _; reflexivity|exact H]|].
  simpl in G, Hc. destruct G as [G Gl]. apply andb_true_iff in Hc as [Hc Hcl]. cbn [ccs] in H. cbn [gos ccs crs]. apply wp_app.
  apply kids_split in H as [H1 H2]; [|exact (proj1 cc_under s (i :: p))|exact (proj2 cc_under l (S i) p)].
  assert (Hr' := out_i _ _ _ Hr). assert (Hk' := out_i _ _ _ Hk). assert (Hw' := out_i _ _ _ Hw).
  apply wp_mono with (1 := G (i :: p) r tk m Hc H1 He Ht Hr' Hk'). intros m1 [Hs Hh]. apply wp_uses; [exact (live_same _ _ _ _ Hs Hw' Ho)|].
  assert (Hdis : forall c, kids (S i) p c -> ~ under (i :: p) c) by (intros c Hkc Hu; exact (kids_not _ _ _ Hu Hkc)).
  apply wp_mono with (1 := IH (S i) m1 Gl Hcl (holds_same _ _ _ _ _ Hs Hdis H2) (live_same _ _ _ _ Hs Hr' He) (live_same _ _ _ _ Hs Hk' Ht) (live_same _ _ _ _ Hs Hw' Ho) (out_S _ _ _ Hr) (out_S _ _ _ Hk) (out_S _ _ _ Hw)).
  intros m2 [Hs2 Hh2]. split.
  - apply same_trans with m1; [apply same_sub with (2 := Hs); apply kids_i|apply same_sub with (2 := Hs2); apply kids_S].
  - apply holds_perm with (X := (cc s (i :: p) ++ cr s (i :: p)) ++ (ccs l (S i) p ++ crs l (S i) p)); [intros c; rewrite !in_app_iff; tauto|].
    apply kids_split; [apply in_both|apply ins_both|]. split; [|exact Hh2]. apply holds_same with (1 := Hs2) (3 := Hh). apply kids_not.
Qed.

Lemma go_ok : (forall e, going e) /\ (forall l, cares l going).
Proof.
  destruct cc_under as [C1 C2].
  assert (Hin : forall s p, inside (kids 0 p) (cc s (0 :: p))) by (intros s p c Hi; exact (kids_i _ _ _ (C1 _ _ _ Hi))).
  assert (Hend : forall m m' p F K X, inside (kids 0 p) K -> (forall c, In c X <-> In c (map (pair p) F ++ K)) -> (forall f, m (p, f) = true <-> In f F) -> same m m' (kids 0 p) -> holds m' (kids 0 p) K ->
    same m m' (under p) /\ holds m' (under p) X).
  { intros m m' p F K X HK HX Hf Hs Hh. split; [apply same_sub with (2 := Hs); apply kids_under|]. apply (comp_iff m' p F K X HK HX). split; [exact Hh|]. intros f. rewrite (self_same 0 _ _ _ f Hs). apply Hf. }
  assert (Hbox : forall m p F (X : list cell), holds m (under p) (map (pair p) F) -> holds m (kids 0 p) [] /\ forall f, m (p, f) = true <-> In f F).
  { intros m p F _ H. apply (comp_iff m p F [] (map (pair p) F)); [apply nothing|intros c; rewrite app_nil_r; reflexivity|exact H]. }
  apply sexp_slist_ind; try (intros; exact I); unfold going; simpl.
  - intros l p r tk m _ H He Ht _ _. assert (Hf : m (p, FOp) = true) by (apply (H _ (under_self _ _)); left; reflexivity).
    apply wp_opt; intros El; [apply wp_env; [reflexivity|exact He|]; apply wp_nil|].
    all: apply wp_opt; intros El'; [apply wp_uses1; [exact Ht|]|].
    all: (apply wp_use; [exact Hf|]; apply wp_nil; split; [intros c _; reflexivity|exact H]).
  - intros s IH p r tk m. exact (IH p (RVal r) tk m).
  - intros s IH p r tk m Hc H He Ht Hr Hk. apply (comp_iff m p [FFn] (cc s (0 :: p))) in H as [H Hf]; [|apply Hin|reflexivity].
    apply wp_mono with (Q := fun m' => same m m' (kids 0 p) /\ holds m' (kids 0 p) (cc s (0 :: p) ++ cr s (0 :: p))).
    + apply (one_kid _ _ _ _ _ _ H (C1 s (0 :: p)) (in_both _ _)). intros H0. apply IH; auto using out_kid.
    + intros m1 [Hs Hh]. apply (Hend m m1 p [FFn] (cc s (0 :: p) ++ cr s (0 :: p))); [apply in_kid|reflexivity|exact Hf|exact Hs|exact Hh].
  - intros s IH p r tk m Hc H He Ht Hr Hk.
    apply (comp_iff m p [FCb; FDr; FObs] (cc s (0 :: p))) in H as [H Hf]; [|apply Hin|reflexivity]. apply wp_use; [apply Hf; simpl; auto|]. apply wp_app.
    apply wp_mono with (Q := fun m' => same m m' (kids 0 p) /\ holds m' (kids 0 p) (cc s (0 :: p) ++ cr s (0 :: p))).
    + apply (one_kid _ _ _ _ _ _ H (C1 s (0 :: p)) (in_both _ _)). intros H0. apply (IH (0 :: p) (RPtr p r)); cbn [reads]; auto using out_kid, out_cons.
      intros c [<-|Hi]; [apply Hf; simpl; auto|exact (He c Hi)].
    + intros m1 [Hs Hh]. do 2 (apply wp_use; [rewrite (self_same 0 _ _ _ _ Hs); apply Hf; simpl; auto|]). apply wp_nil.
      apply (Hend m m1 p [FCb; FDr; FObs] (cc s (0 :: p) ++ cr s (0 :: p))); [apply in_kid|reflexivity|exact Hf|exact Hs|exact Hh].
  - intros s IH p r tk m Hc H He Ht Hr Hk. apply (comp_iff m p [FDr] (cc s (0 :: p))) in H as [H Hf]; [|apply Hin|reflexivity]. apply wp_use; [apply Hf; simpl; auto|]. apply wp_app.
    apply wp_mono with (Q := fun m' => same m m' (kids 0 p) /\ holds m' (kids 0 p) (cc s (0 :: p) ++ cr s (0 :: p))).
    + apply (one_kid _ _ _ _ _ _ H (C1 s (0 :: p)) (in_both _ _)). intros H0. apply (IH (0 :: p) (RPtr p r)); cbn [reads]; auto using out_kid, out_cons.
      intros c [<-|Hi]; [apply Hf; simpl; auto|exact (He c Hi)].
    + intros m1 [Hs Hh]. apply wp_use; [rewrite (self_same 0 _ _ _ _ Hs); apply Hf; simpl; auto|]. apply wp_nil.
      apply (Hend m m1 p [FDr] (cc s (0 :: p) ++ cr s (0 :: p))); [apply in_kid|reflexivity|exact Hf|exact Hs|exact Hh].
  - intros b s1 IH1 s2 IH2 p r tk m Hc H He Ht Hr Hk. assert (IH : going (if b then s1 else s2)) by (destruct b; assumption). set (s := if b then s1 else s2) in *.
    apply andb_true_iff in Hc as [Hc Hg]. apply (Hbox m p [FDr] []) in H as [H Hf]. apply wp_use; [apply Hf; simpl; auto|].
    apply wp_mono with (1 := boxed s p r tk m IH Hc Hg H He Ht (out_kids _ _ Hr) (out_kids _ _ Hk)). intros m1 [Hs Hh].
    apply (Hend m m1 p [FDr] (cc s (0 :: p) ++ cr s (0 :: p))); [apply in_kid|reflexivity|exact Hf|exact Hs|exact Hh].
  - intros s IH p r tk m Hc H He Ht Hr Hk. apply andb_true_iff in Hc as [Hc Hg]. apply (Hbox m p [FFn; FDr] []) in H as [H Hf]. do 2 (apply wp_use; [apply Hf; simpl; auto|]).
    apply wp_mono with (1 := boxed s p r tk m IH Hc Hg H He Ht (out_kids _ _ Hr) (out_kids _ _ Hk)). intros m1 [Hs Hh].
    apply (Hend m m1 p [FFn; FDr] (cc s (0 :: p) ++ cr s (0 :: p))); [apply in_kid|reflexivity|exact Hf|exact Hs|exact Hh].
  - intros n s IH p r tk m Hc H He Ht Hr Hk. apply (Hbox m p [FDr] []) in H as [H Hf]. assert (Hd : m (p, FDr) = true) by (apply Hf; simpl; auto). apply wp_app.
    apply wp_mono with (Q := fun m' => same m m' (kids 0 p) /\ holds m' (kids 0 p) []).
    + destruct (Nat.eqb_spec n 0) as [->|Hn]; [apply wp_nil; split; [intros c _; reflexivity|exact H]|]. apply (repeat_ok n s p (RPtr p r)); cbn [reads]; auto using out_kids, out_kids_cons.
      intros c [<-|Hi]; [exact Hd|exact (He c Hi)].
    + intros m1 [Hs Hh]. apply wp_use; [rewrite (self_same 0 _ _ _ _ Hs); exact Hd|]. apply wp_nil.
      apply (Hend m m1 p [FDr] []); [apply nothing|reflexivity|exact Hf|exact Hs|exact Hh].
  - intros l IH p r tk m Hc H He Ht Hr Hk. apply (Hbox m p [FDr] []) in H as [H Hf]. assert (Hd : m (p, FDr) = true) by (apply Hf; simpl; auto). apply wp_app.
    apply wp_mono with (Q := fun m' => same m m' (kids 0 p) /\ holds m' (kids 0 p) []).
    + apply (steps_ok l p (RPtr p r)); cbn [reads]; auto using out_kids, out_kids_cons. intros c [<-|Hi]; [exact Hd|exact (He c Hi)].
    + intros m1 [Hs Hh]. apply wp_use; [rewrite (self_same 0 _ _ _ _ Hs); exact Hd|]. apply wp_nil.
      apply (Hend m m1 p [FDr] []); [apply nothing|reflexivity|exact Hf|exact Hs|exact Hh].
  - intros l IH p r tk m Hc H He Ht Hr Hk. apply (comp_iff m p [FDr; FCtr] (ccs l 0 p)) in H as [H Hf]; [|exact (C2 l 0 p)|reflexivity]. apply wp_app.
    apply wp_mono with (Q := fun m' => same m m' (kids 0 p) /\ holds m' (kids 0 p) (ccs l 0 p ++ crs l 0 p)).
    + apply (gos_ok l 0 p (RPtr p r)); cbn [reads]; auto using out_kids, out_kids_cons.
      * intros c [<-|Hi]; [apply Hf; simpl; auto|exact (He c Hi)].
      * intros c [<-|[]]. apply Hf; simpl; auto.
      * intros c [<-|[]]. apply self_kids.
    + intros m1 [Hs Hh]. apply wp_use; [rewrite (self_same 0 _ _ _ _ Hs); apply Hf; simpl; auto|]. apply wp_nil.
      apply (Hend m m1 p [FDr; FCtr] (ccs l 0 p ++ crs l 0 p)); [apply ins_both|reflexivity|exact Hf|exact Hs|exact Hh].
  - intros l IH p r tk m Hc H He Ht Hr Hk. apply (comp_iff m p [FDr; FCs; FCtr] (ccs l 0 p)) in H as [H Hf]; [|exact (C2 l 0 p)|reflexivity]. apply wp_app.
    apply wp_mono with (Q := fun m' => same m m' (kids 0 p) /\ holds m' (kids 0 p) (ccs l 0 p ++ crs l 0 p)).
    + apply (gos_ok l 0 p (RPtr p r)); cbn [reads]; auto using out_kids, out_kids_cons.
      * intros c [<-|Hi]; [apply Hf; simpl; auto|exact (He c Hi)].
      * intros c [<-|Hi]; [apply Hf; simpl; auto|exact (Ht c Hi)].
      * intros c [<-|[<-|[]]]; apply Hf; simpl; auto.
      * intros c [<-|[<-|[]]]; apply self_kids.
    + intros m1 [Hs Hh]. apply wp_use; [rewrite (self_same 0 _ _ _ _ Hs); apply Hf; simpl; auto|]. apply wp_nil.
      apply (Hend m m1 p [FDr; FCs; FCtr] (ccs l 0 p ++ crs l 0 p)); [apply ins_both|reflexivity|exact Hf|exact Hs|exact Hh].
  - intros u s IH l IHl. split; [exact IH|exact IHl].
Qed.

Theorem life_ok e env : careful e = true -> exists m es, exec fresh (life e env) = Some (m, es) /\ (forall x, In x es -> x = env) /\ forall c, m c = false.
Proof.
  intros Hc. rewrite (proj1 careful_ok) in Hc. apply andb_true_iff in Hc as [Hc Hd]. apply andb_true_iff in Hc as [Hc Hg]. assert (Hall : forall c : cell, under [] c) by (intros [q f]; exists q; simpl; rewrite app_nil_r; reflexivity).
  assert (Ho : forall R, out R []) by (intros R c []). assert (Hl : forall m, live m []) by (intros m c []).
  destruct (fun G => wp_app fresh (conn e [] (RRoot env) []) (go e [] (RRoot env) [] ++ dtor e [] (RRoot env) []) env (fun m => forall c, m c = false) G) as (m & es & E & He & H); [|exists m, es; auto].
  apply wp_mono with (1 := proj1 conn_ok e [] (RRoot env) [] fresh Hc (proj1 (false_iff _ _) (fun c _ => eq_refl)) (fun _ => Hl _) (fun _ => Hl _) (Ho _) (Ho _)). intros m1 [_ H1]. apply wp_app.
  apply wp_mono with (1 := proj1 go_ok e [] (RRoot env) [] m1 Hg H1 (Hl _) (Hl _) (Ho _) (Ho _)). intros m2 [_ H2].
  apply wp_mono with (1 := proj1 dtor_ok e [] (RRoot env) [] m2 Hd H2 (fun _ => Hl _) (fun _ => Hl _) (Ho _) (Ho _)). intros m3 [_ H3] c. exact (proj2 (false_iff _ _) H3 c (Hall c)).
Qed.

(** ** The converse: an operation that goes through all phases was careful *)
Definition runs (m : mem) (l : list action) : Prop := exists m' es, exec m l = Some (m', es).
Lemma runs_act m a l : runs m (a :: l) -> exists m1 es, act m a = Some (m1, es) /\ runs m1 l.
Proof. intros (m' & es & E). simpl in E. destruct (act m a) as [[m1 es1]|]; [|discriminate]. destruct (exec m1 l) as [[m2 es2]|] eqn:E2; [|discriminate]. exists m1, es1. split; [reflexivity|]. exists m2, es2. exact E2. Qed.
Lemma runs_init m c l : runs m (AInit c :: l) -> m c = false /\ runs (set m c true) l.
Proof. intros H. apply runs_act in H as (m1 & es & E & H). simpl in E. destruct (m c); [discriminate|]. injection E as <- _. auto. Qed.
Lemma runs_end m c l : runs m (AEnd c :: l) -> m c = true /\ runs (set m c false) l.
Proof. intros H. apply runs_act in H as (m1 & es & E & H). simpl in E. destruct (m c); [|discriminate]. injection E as <- _. auto. Qed.
Lemma runs_use m c l : runs m (AUse c :: l) -> m c = true /\ runs m l.
Proof. intros H. apply runs_act in H as (m1 & es & E & H). simpl in E. destruct (m c) eqn:Em; [|discriminate]. injection E as <- _. auto. Qed.
Lemma runs_env m r l : runs m (AEnv r :: l) -> live m (reads r) /\ runs m l.
Proof. intros H. apply runs_act in H as (m1 & es & E & H). simpl in E. destruct (forallb m (reads r)) eqn:Em; [|discriminate]. injection E as <- _. split; [exact (proj1 (forallb_forall _ _) Em)|exact H]. Qed.
Lemma runs_uses m tk l : runs m (uses tk ++ l) -> live m tk /\ runs m l.
Proof. induction tk as [|c tk IH]; simpl; intros H; [split; [intros c []|exact H]|]. apply runs_use in H as [Hc H]. destruct (IH H) as [Hl Hr]. split; [intros c' [<-|Hi]; auto|exact Hr]. Qed.
Lemma runs_fst m l1 l2 : runs m (l1 ++ l2) -> runs m l1.
Proof. intros (m' & es & E). rewrite exec_app in E. destruct (exec m l1) as [[m1 es1]|] eqn:E1; [|discriminate]. exists m1, es1. exact E1. Qed.
Lemma runs_snd m l1 l2 e0 Q : runs m (l1 ++ l2) -> wp m l1 e0 Q -> exists m1, Q m1 /\ runs m1 l2.
Proof.
  intros (m' & es & E) (m1 & es1 & E1 & _ & HQ). rewrite exec_app, E1 in E. destruct (exec m1 l2) as [[m2 es2]|] eqn:E2; [|discriminate]. exists m1. split; [exact HQ|]. exists m2, es2. exact E2.
Qed.
Lemma same_sym m m' R : same m m' R -> same m' m R.
Proof. intros H c Hc. symmetry. auto. Qed.
Lemma leaf_only m (b1 b2 : bool) r tk a : runs m (opt b1 [AEnv r] ++ opt b2 (uses tk) ++ a) -> (b1 = true -> live m (reads r)) /\ (b2 = true -> live m tk).
Proof.
  intros H. destruct b1; simpl in H; [apply runs_env in H as [He H]|]; (destruct b2; simpl in H; [apply runs_uses in H as [Ht H]|]); split; intros E; try discriminate; assumption.
Qed.
Lemma functors_only m l p a : runs m (functors l p ++ a) -> m (p, FCs) = false -> eager l = false /\ runs m a.
Proof.
  intros H Hf. induction l as [|u s l IH]; simpl in *; [auto|]. destruct u; simpl in *; [apply runs_use in H as [H _]; congruence|auto].
Qed.
Lemma imp_false (b : bool) (P : Prop) : (b = true -> P) -> ~ P -> b = false.
Proof. destruct b; intros H1 H2; [destruct (H2 (H1 eq_refl))|reflexivity]. Qed.

Definition only_c (e : sexp) : Prop := forall p r tk m, holds m (under p) [] -> out (under p) (reads r) -> out (under p) tk -> runs m (conn e p r tk) ->
  okc e = true /\ (asks_c e = true -> live m (reads r)) /\ (toks_c e = true -> live m tk).
Definition only_cs (l : slist) : Prop := forall i p r tk m, holds m (kids i p) [] -> out (kids i p) (reads r) -> out (kids i p) tk -> runs m (conns l i p r tk) ->
  okcs l = true /\ (asks_cs l = true -> live m (reads r)) /\ (toks_cs l = true -> live m tk).
Lemma conn_only : (forall e, only_c e) /\ (forall l, only_cs l).
Proof.
  assert (Hself : forall m p f, holds m (under p) [] -> m (p, f) = false) by (intros m p f H; apply (proj2 (false_iff m (under p)) H), under_self).
  assert (Hkids : forall m p i, holds m (under p) [] -> holds m (kids i p) []) by (intros m p i H c Hc; apply H; exact (kids_under _ _ _ Hc)).
  assert (Hkid : forall m p, holds m (kids 0 p) [] -> holds m (under (0 :: p)) []) by (intros m p H c Hc; apply H; exact (kids_i _ _ _ Hc)).
  assert (Hback : forall m p f b l, out (under p) l -> live (set m (p, f) b) l -> live m l).
  { intros m p f b l Ho. apply live_same with (R := under p); [apply same_sym, same_set, under_self|exact Ho]. }
  apply sexp_slist_ind; unfold only_c, only_cs; cbn [conn conns okc okcs asks_c asks_cs toks_c toks_cs]; try (intros; repeat split; discriminate).
  - intros l p r tk m _ _ _ H. split; [reflexivity|exact (leaf_only _ _ _ _ _ _ H)].
  - intros s IH p r tk m. exact (IH p (RVal r) tk m).
  - intros s IH p r tk m H Hr Hk E. apply runs_init in E as [_ E]. apply runs_use in E as [_ E].
    destruct (IH (0 :: p) r tk _ (Hkid _ _ (holds_kids_set _ _ _ true _ _ (Hkids _ _ _ H))) (out_kid _ _ _ Hr) (out_kid _ _ _ Hk) E) as (H1 & H2 & H3). split; [exact H1|]. split; intros Ha; eapply Hback; eauto.
  - intros s IH p r tk m H Hr Hk E. apply runs_fst in E.
    destruct (IH (0 :: p) (RPtr p r) tk _ (Hkid _ _ (Hkids _ _ _ H)) (out_cons _ _ _ _ Hr) (out_kid _ _ _ Hk) E) as (H1 & H2 & H3).
    rewrite (imp_false _ _ H2); [rewrite H1; repeat split; [discriminate|exact H3]|]. intros Hl. specialize (Hl (p, FDr) (or_introl eq_refl)). rewrite (Hself m p FDr H) in Hl. discriminate.
  - intros s IH p r tk m H Hr Hk E. apply runs_init in E as [_ E].
    destruct (IH (0 :: p) (RPtr p r) tk _ (Hkid _ _ (holds_kids_set _ _ _ true _ _ (Hkids _ _ _ H))) (out_cons _ _ _ _ Hr) (out_kid _ _ _ Hk) E) as (H1 & H2 & H3). split; [exact H1|].
    split; intros Ha; eapply Hback; eauto. intros c Hi. apply (H2 Ha). right. exact Hi.
  - intros l IH p r tk m H Hr Hk E. apply runs_init in E as [_ E]. apply runs_fst in E.
    destruct (IH 0 p (RPtr p r) tk _ (holds_kids_set _ _ _ true _ _ (Hkids _ _ _ H)) (out_kids_cons _ _ _ Hr) (out_kids _ _ Hk) E) as (H1 & H2 & H3). split; [exact H1|].
    split; intros Ha; eapply Hback; eauto. intros c Hi. apply (H2 Ha). right. exact Hi.
  - intros l IH p r tk m H Hr Hk E. apply runs_init in E as [_ E]. apply functors_only in E as [Hg E]; [|fields; auto]. apply runs_fst in E.
    destruct (IH 0 p (RPtr p r) ((p, FCs) :: tk) _ (holds_kids_set _ _ _ true _ _ (Hkids _ _ _ H)) (out_kids_cons _ _ _ Hr) (out_kids_cons _ _ _ Hk) E) as (H1 & H2 & H3).
    rewrite Hg, (imp_false _ _ H3); [rewrite H1; repeat split; [|discriminate]; intros Ha; eapply Hback; eauto; intros c Hi; apply (H2 Ha); right; exact Hi|].
    intros Hl. specialize (Hl (p, FCs) (or_introl eq_refl)). revert Hl. fields. rewrite (Hself m p FCs H). discriminate.
  - intros u s IH l IHl i p r tk m H Hr Hk E. apply (kids_split i p [] []) in H as [Ha Hb]; [|apply nothing|apply nothing].
    destruct (IH (i :: p) r tk m Ha (out_i _ _ _ Hr) (out_i _ _ _ Hk) (runs_fst _ _ _ E)) as (H1 & H2 & H3).
    destruct (runs_snd _ _ _ _ _ E (proj1 conn_ok s (i :: p) r tk m H1 Ha H2 H3 (out_i _ _ _ Hr) (out_i _ _ _ Hk))) as (m1 & [Hs Hh] & E1).
    assert (Hdis : forall c, kids (S i) p c -> ~ under (i :: p) c) by (intros c Hkc Hu; exact (kids_not _ _ _ Hu Hkc)).
    destruct (IHl (S i) p r tk m1 (holds_same _ _ _ _ _ Hs Hdis Hb) (out_S _ _ _ Hr) (out_S _ _ _ Hk) E1) as (G1 & G2 & G3). rewrite H1, G1. split; [reflexivity|].
    split; intros Hx; apply orb_true_iff in Hx as [Hx|Hx]; auto; [exact (live_same _ _ _ _ (same_sym _ _ _ Hs) (out_i _ _ _ Hr) (G2 Hx))|exact (live_same _ _ _ _ (same_sym _ _ _ Hs) (out_i _ _ _ Hk) (G3 Hx))].
Qed.

Definition only_d (e : sexp) : Prop := forall p r tk m, holds m (under p) (cc e p ++ cr e p) -> out (under p) (reads r) -> out (under p) tk -> runs m (dtor e p r tk) ->
  okd e = true /\ (asks_d e = true -> live m (reads r)) /\ (toks_d e = true -> live m tk).
Definition only_ds (l : slist) : Prop := forall i p r tk m, holds m (kids i p) (ccs l i p ++ crs l i p) -> out (kids i p) (reads r) -> out (kids i p) tk -> runs m (dtors l i p r tk) ->
  okds l = true /\ (asks_ds l = true -> live m (reads r)) /\ (toks_ds l = true -> live m tk).
Lemma dtor_only : (forall e, only_d e) /\ (forall l, only_ds l).
Proof.
  assert (Hkid : forall m s p, holds m (kids 0 p) (cc s (0 :: p) ++ cr s (0 :: p)) -> holds m (under (0 :: p)) (cc s (0 :: p) ++ cr s (0 :: p))) by (intros m s p H c Hc; apply H; exact (kids_i _ _ _ Hc)).
  assert (Hback : forall m p f b l, out (under p) l -> live (set m (p, f) b) l -> live m l).
  { intros m p f b l Ho. apply live_same with (R := under p); [apply same_sym, same_set, under_self|exact Ho]. }
  apply sexp_slist_ind; unfold only_d, only_ds; cbn [dtor dtors okd okds asks_d asks_ds toks_d toks_ds cc ccs cr crs]; try (intros; repeat split; discriminate).
  - intros l p r tk m _ _ _ H. split; [reflexivity|exact (leaf_only _ _ _ _ _ _ H)].
  - intros s IH p r tk m. exact (IH p (RVal r) tk m).
  - intros s IH p r tk m H Hr Hk E. apply (comp_iff m p [FFn] (cc s (0 :: p) ++ cr s (0 :: p))) in H as [H Hf]; [|apply in_kid|reflexivity].
    exact (IH (0 :: p) r tk m (Hkid _ _ _ H) (out_kid _ _ _ Hr) (out_kid _ _ _ Hk) (runs_fst _ _ _ E)).
  - intros s IH p r tk m H Hr Hk E. apply (comp_iff m p [FCb; FDr; FObs] (cc s (0 :: p) ++ cr s (0 :: p))) in H as [H Hf]; [|apply in_kid|reflexivity].
    apply runs_end in E as [_ E]. apply runs_end in E as [_ E]. apply runs_end in E as [_ E].
    destruct (IH (0 :: p) (RPtr p r) tk _ (Hkid _ _ _ (holds_kids_set _ _ _ _ _ _ (holds_kids_set _ _ _ _ _ _ (holds_kids_set _ _ _ _ _ _ H)))) (out_cons _ _ _ _ Hr) (out_kid _ _ _ Hk) E) as (H1 & H2 & H3).
    rewrite (imp_false _ _ H2); [rewrite H1; repeat split; [discriminate|]; intros Ha; specialize (H3 Ha); do 3 (apply Hback in H3; [|exact Hk]); exact H3|].
    intros Hl. specialize (Hl (p, FDr) (or_introl eq_refl)). revert Hl. fields.
  - intros s IH p r tk m H Hr Hk E. apply (comp_iff m p [FDr] (cc s (0 :: p) ++ cr s (0 :: p))) in H as [H Hf]; [|apply in_kid|reflexivity].
    destruct (IH (0 :: p) (RPtr p r) tk m (Hkid _ _ _ H) (out_cons _ _ _ _ Hr) (out_kid _ _ _ Hk) (runs_fst _ _ _ E)) as (H1 & H2 & H3).
    split; [exact H1|]. split; [|exact H3]. intros Ha c Hi. apply (H2 Ha). right. exact Hi.
  - intros b s1 IH1 s2 IH2 p r tk m H Hr Hk E. assert (IH : only_d (if b then s1 else s2)) by (destruct b; assumption). set (s := if b then s1 else s2) in *.
    apply (comp_iff m p [FDr] (cc s (0 :: p) ++ cr s (0 :: p))) in H as [H Hf]; [|apply in_kid|reflexivity].
    exact (IH (0 :: p) r tk m (Hkid _ _ _ H) (out_kid _ _ _ Hr) (out_kid _ _ _ Hk) (runs_fst _ _ _ E)).
  - intros s IH p r tk m H Hr Hk E. apply (comp_iff m p [FFn; FDr] (cc s (0 :: p) ++ cr s (0 :: p))) in H as [H Hf]; [|apply in_kid|reflexivity].
    exact (IH (0 :: p) r tk m (Hkid _ _ _ H) (out_kid _ _ _ Hr) (out_kid _ _ _ Hk) (runs_fst _ _ _ E)).
  - intros l IH p r tk m H Hr Hk E. apply (comp_iff m p [FDr; FCtr] (ccs l 0 p ++ crs l 0 p)) in H as [H Hf]; [|apply ins_both|reflexivity].
    apply runs_end in E as [_ E]. apply runs_fst in E.
    destruct (IH 0 p (RPtr p r) tk _ (holds_kids_set _ _ _ _ _ _ H) (out_kids_cons _ _ _ Hr) (out_kids _ _ Hk) E) as (H1 & H2 & H3). split; [exact H1|].
    split; intros Ha; eapply Hback; eauto. intros c Hi. apply (H2 Ha). right. exact Hi.
  - intros l IH p r tk m H Hr Hk E. apply (comp_iff m p [FDr; FCs; FCtr] (ccs l 0 p ++ crs l 0 p)) in H as [H Hf]; [|apply ins_both|reflexivity].
    apply runs_end in E as [_ E]. apply runs_end in E as [_ E]. apply runs_fst in E.
    destruct (IH 0 p (RPtr p r) ((p, FCs) :: tk) _ (holds_kids_set _ _ _ _ _ _ (holds_kids_set _ _ _ _ _ _ H)) (out_kids_cons _ _ _ Hr) (out_kids_cons _ _ _ Hk) E) as (H1 & H2 & H3).
    rewrite (imp_false _ _ H3); [rewrite H1; repeat split; [|discriminate]; intros Ha|].
    + assert (Hl : live (set (set m (p, FCtr) false) (p, FCs) false) (reads r)) by (intros c Hi; apply (H2 Ha); right; exact Hi). do 2 (apply Hback in Hl; [|exact Hr]). exact Hl.
    + intros Hl. specialize (Hl (p, FCs) (or_introl eq_refl)). rewrite set_same in Hl. discriminate.
  - intros u s IH l IHl i p r tk m H Hr Hk E.
    apply holds_perm with (Y := (cc s (i :: p) ++ cr s (i :: p)) ++ (ccs l (S i) p ++ crs l (S i) p)) in H; [|intros c; rewrite !in_app_iff; tauto].
    apply kids_split in H as [Ha Hb]; [|apply in_both|apply ins_both].
    destruct (IHl (S i) p r tk m Hb (out_S _ _ _ Hr) (out_S _ _ _ Hk) (runs_fst _ _ _ E)) as (H1 & H2 & H3).
    destruct (runs_snd _ _ _ _ _ E (proj2 dtor_ok l (S i) p r tk m H1 Hb H2 H3 (out_S _ _ _ Hr) (out_S _ _ _ Hk))) as (m1 & [Hs Hh] & E1).
    destruct (IH (i :: p) r tk m1 (holds_same _ _ _ _ _ Hs (kids_not i p) Ha) (out_i _ _ _ Hr) (out_i _ _ _ Hk) E1) as (G1 & G2 & G3). rewrite H1, G1. split; [reflexivity|].
    split; intros Hx; apply orb_true_iff in Hx as [Hx|Hx]; auto; [exact (live_same _ _ _ _ (same_sym _ _ _ Hs) (out_S _ _ _ Hr) (G2 Hx))|exact (live_same _ _ _ _ (same_sym _ _ _ Hs) (out_S _ _ _ Hk) (G3 Hx))].
Qed.

Definition only_g (e : sexp) : Prop := forall p r tk m, holds m (under p) (cc e p) -> live m (reads r) -> live m tk -> out (under p) (reads r) -> out (under p) tk -> runs m (go e p r tk) -> okg e = true.
Lemma boxed_only s p r tk m a : only_g s -> holds m (kids 0 p) [] -> live m (reads r) -> live m tk -> out (kids 0 p) (reads r) -> out (kids 0 p) tk ->
  runs m (conn s (0 :: p) r tk ++ go s (0 :: p) r tk ++ a) -> okc s = true /\ okg s = true.
Proof.
  intros G H He Ht Hr Hk E. assert (Hr' := out_i _ _ _ Hr). assert (Hk' := out_i _ _ _ Hk).
  assert (H0 : holds m (under (0 :: p)) []) by (intros c Hc; apply H; exact (kids_i _ _ _ Hc)).
  destruct (proj1 conn_only s (0 :: p) r tk m H0 Hr' Hk' (runs_fst _ _ _ E)) as (H1 & _).
  destruct (runs_snd _ _ _ _ _ E (proj1 conn_ok s (0 :: p) r tk m H1 H0 (fun _ => He) (fun _ => Ht) Hr' Hk')) as (m1 & [Hs Hh] & E1).
  split; [exact H1|]. exact (G (0 :: p) r tk m1 Hh (live_same _ _ _ _ Hs Hr' He) (live_same _ _ _ _ Hs Hk' Ht) Hr' Hk' (runs_fst _ _ _ E1)).
Qed.
Lemma cycle_only s p r tk m a : only_g s -> holds m (kids 0 p) [] -> live m (reads r) -> live m tk -> out (kids 0 p) (reads r) -> out (kids 0 p) tk ->
  runs m ((conn s (0 :: p) r tk ++ go s (0 :: p) r tk ++ dtor s (0 :: p) r tk) ++ a) -> okc s && okg s && okd s = true.
Proof.
  intros G H He Ht Hr Hk E. apply runs_fst in E. destruct (boxed_only s p r tk m _ G H He Ht Hr Hk E) as [H1 H2]. rewrite H1, H2. rewrite app_assoc in E.
  destruct (runs_snd _ _ _ _ _ E (boxed s p r tk m (proj1 go_ok s) H1 H2 H He Ht Hr Hk)) as (m1 & [Hs Hh] & E1).
  assert (H0 : holds m1 (under (0 :: p)) (cc s (0 :: p) ++ cr s (0 :: p))) by (intros c Hc; apply Hh; exact (kids_i _ _ _ Hc)).
  destruct (proj1 dtor_only s (0 :: p) r tk m1 H0 (out_i _ _ _ Hr) (out_i _ _ _ Hk) E1) as (H3 & _). exact H3.
Qed.
Lemma steps_only l p r tk m a : cares l only_g -> m (p, FDr) = true -> holds m (kids 0 p) [] -> live m (reads r) -> live m tk -> out (kids 0 p) (reads r) -> out (kids 0 p) tk ->
  runs m (steps l p r tk ++ a) -> okal l = true.
Proof.
  revert m. induction l as [|u s l IH]; intros m G Hd H He Ht Hr Hk E; [reflexivity|]. simpl in G. destruct G as [G Gl]. cbn [steps okal] in *. rewrite <- app_assoc in E. apply runs_use in E as [_ E].
  assert (Hc := cycle_only s p r tk m _ G H He Ht Hr Hk E). rewrite Hc.
  destruct (runs_snd _ _ _ _ _ E (cycle s p r tk m (proj1 go_ok s) Hc H He Ht Hr Hk)) as (m1 & [Hs Hh] & E1).
  exact (IH m1 Gl (eq_trans (self_same 0 _ _ _ _ Hs) Hd) Hh (live_same _ _ _ _ Hs Hr He) (live_same _ _ _ _ Hs Hk Ht) Hr Hk E1).
Qed.
Lemma gos_only l i p r tk own m a : cares l only_g -> holds m (kids i p) (ccs l i p) -> live m (reads r) -> live m tk ->
  out (kids i p) (reads r) -> out (kids i p) tk -> runs m (gos l i p r tk own ++ a) -> okgs l = true.
Proof.
  revert i m. induction l as [|u s l IH]; intros i m G H He Ht Hr Hk E; [reflexivity|]. simpl in G. destruct G as [G Gl]. cbn [ccs] in H. cbn [gos okgs] in *. rewrite <- !app_assoc in E.
  apply kids_split in H as [H1 H2]; [|exact (proj1 cc_under s (i :: p))|exact (proj2 cc_under l (S i) p)].
  assert (Hr' := out_i _ _ _ Hr). assert (Hk' := out_i _ _ _ Hk).
  assert (Hc := G (i :: p) r tk m H1 He Ht Hr' Hk' (runs_fst _ _ _ E)). rewrite Hc.
  destruct (runs_snd _ _ _ _ _ E (proj1 go_ok s (i :: p) r tk m Hc H1 He Ht Hr' Hk')) as (m1 & [Hs Hh] & E1). apply runs_uses in E1 as [_ E1].
  assert (Hdis : forall c, kids (S i) p c -> ~ under (i :: p) c) by (intros c Hkc Hu; exact (kids_not _ _ _ Hu Hkc)).
  exact (IH (S i) m1 Gl (holds_same _ _ _ _ _ Hs Hdis H2) (live_same _ _ _ _ Hs Hr' He) (live_same _ _ _ _ Hs Hk' Ht) (out_S _ _ _ Hr) (out_S _ _ _ Hk) E1).
Qed.

Lemma go_only : (forall e, only_g e) /\ (forall l, cares l only_g).
Proof.
  destruct cc_under as [C1 C2].
  assert (Hin : forall s p, inside (kids 0 p) (cc s (0 :: p))) by (intros s p c Hi; exact (kids_i _ _ _ (C1 _ _ _ Hi))).
  assert (Hkid : forall m p X, holds m (kids 0 p) X -> holds m (under (0 :: p)) X) by (intros m p X H c Hc; apply H; exact (kids_i _ _ _ Hc)).
  assert (Hbox : forall m p F, holds m (under p) (map (pair p) F) -> holds m (kids 0 p) [] /\ forall f, m (p, f) = true <-> In f F).
  { intros m p F H. apply (comp_iff m p F [] (map (pair p) F)); [apply nothing|intros c; rewrite app_nil_r; reflexivity|exact H]. }
  apply sexp_slist_ind; try (intros; exact I); unfold only_g; cbn [go okg cc].
  - reflexivity.
  - intros s IH p r tk m. exact (IH p (RVal r) tk m).
  - intros s IH p r tk m H He Ht Hr Hk E. apply (comp_iff m p [FFn] (cc s (0 :: p))) in H as [H Hf]; [|apply Hin|reflexivity].
    exact (IH (0 :: p) r tk m (Hkid _ _ _ H) He Ht (out_kid _ _ _ Hr) (out_kid _ _ _ Hk) E).
  - intros s IH p r tk m H He Ht Hr Hk E. apply (comp_iff m p [FCb; FDr; FObs] (cc s (0 :: p))) in H as [H Hf]; [|apply Hin|reflexivity]. apply runs_use in E as [_ E]. apply runs_fst in E.
    refine (IH (0 :: p) (RPtr p r) tk m (Hkid _ _ _ H) _ Ht (out_cons _ _ _ _ Hr) (out_kid _ _ _ Hk) E). intros c [<-|Hi]; [apply Hf; simpl; auto|exact (He c Hi)].
  - intros s IH p r tk m H He Ht Hr Hk E. apply (comp_iff m p [FDr] (cc s (0 :: p))) in H as [H Hf]; [|apply Hin|reflexivity]. apply runs_use in E as [_ E]. apply runs_fst in E.
    refine (IH (0 :: p) (RPtr p r) tk m (Hkid _ _ _ H) _ Ht (out_cons _ _ _ _ Hr) (out_kid _ _ _ Hk) E). intros c [<-|Hi]; [apply Hf; simpl; auto|exact (He c Hi)].
  - intros b s1 IH1 s2 IH2 p r tk m H He Ht Hr Hk E. assert (IH : only_g (if b then s1 else s2)) by (destruct b; assumption). set (s := if b then s1 else s2) in *.
    apply (Hbox m p [FDr]) in H as [H Hf]. apply runs_use in E as [_ E]. rewrite <- (app_nil_r (go _ _ _ _)) in E.
    destruct (boxed_only s p r tk m _ IH H He Ht (out_kids _ _ Hr) (out_kids _ _ Hk) E) as [-> ->]. reflexivity.
  - intros s IH p r tk m H He Ht Hr Hk E. apply (Hbox m p [FFn; FDr]) in H as [H Hf]. apply runs_use in E as [_ E]. apply runs_use in E as [_ E]. rewrite <- (app_nil_r (go _ _ _ _)) in E.
    destruct (boxed_only s p r tk m _ IH H He Ht (out_kids _ _ Hr) (out_kids _ _ Hk) E) as [-> ->]. reflexivity.
  - intros [|n] s IH p r tk m H He Ht Hr Hk E; [reflexivity|]. apply (Hbox m p [FDr]) in H as [H Hf]. cbn [repeat concat] in E. rewrite <- !(app_assoc _ (concat _)) in E. apply runs_use in E as [Hd E].
    refine (cycle_only s p (RPtr p r) tk m _ IH H _ Ht (out_kids_cons _ _ _ Hr) (out_kids _ _ Hk) E). intros c [<-|Hi]; [exact Hd|exact (He c Hi)].
  - intros l IH p r tk m H He Ht Hr Hk E. apply (Hbox m p [FDr]) in H as [H Hf]. assert (Hd : m (p, FDr) = true) by (apply Hf; simpl; auto).
    refine (steps_only l p (RPtr p r) tk m _ IH Hd H _ Ht (out_kids_cons _ _ _ Hr) (out_kids _ _ Hk) E). intros c [<-|Hi]; [exact Hd|exact (He c Hi)].
  - intros l IH p r tk m H He Ht Hr Hk E. apply (comp_iff m p [FDr; FCtr] (ccs l 0 p)) in H as [H Hf]; [|exact (C2 l 0 p)|reflexivity].
    refine (gos_only l 0 p (RPtr p r) tk _ m _ IH H _ Ht (out_kids_cons _ _ _ Hr) (out_kids _ _ Hk) E). intros c [<-|Hi]; [apply Hf; simpl; auto|exact (He c Hi)].
  - intros l IH p r tk m H He Ht Hr Hk E. apply (comp_iff m p [FDr; FCs; FCtr] (ccs l 0 p)) in H as [H Hf]; [|exact (C2 l 0 p)|reflexivity].
    refine (gos_only l 0 p (RPtr p r) ((p, FCs) :: tk) _ m _ IH H _ _ (out_kids_cons _ _ _ Hr) (out_kids_cons _ _ _ Hk) E); intros c [<-|Hi]; [apply Hf; simpl; auto|exact (He c Hi)|apply Hf; simpl; auto|exact (Ht c Hi)].
  - intros u s IH l IHl. split; [exact IH|exact IHl].
Qed.

Theorem life_only e env x : exec fresh (life e env) = Some x -> careful e = true.
Proof.
  intros E. assert (Ho : forall R, out R []) by (intros R c []). assert (Hl : forall m, live m []) by (intros m c []).
  assert (Hf : holds fresh (under []) []) by (apply false_iff; reflexivity).
  assert (R : runs fresh (life e env)) by (destruct x as [m es]; exists m, es; exact E). unfold life in R.
  destruct (proj1 conn_only e [] (RRoot env) [] fresh Hf (Ho _) (Ho _) (runs_fst _ _ _ R)) as (H1 & _).
  destruct (runs_snd _ _ _ _ _ R (proj1 conn_ok e [] (RRoot env) [] fresh H1 Hf (fun _ => Hl _) (fun _ => Hl _) (Ho _) (Ho _))) as (m1 & [_ Hh1] & R1).
  assert (H2 := proj1 go_only e [] (RRoot env) [] m1 Hh1 (Hl _) (Hl _) (Ho _) (Ho _) (runs_fst _ _ _ R1)).
  destruct (runs_snd _ _ _ _ _ R1 (proj1 go_ok e [] (RRoot env) [] m1 H2 Hh1 (Hl _) (Hl _) (Ho _) (Ho _))) as (m2 & [_ Hh2] & R2).
  destruct (proj1 dtor_only e [] (RRoot env) [] m2 Hh2 (Ho _) (Ho _) R2) as (H3 & _).
  rewrite (proj1 careful_ok), H1, H2, H3. reflexivity.
Qed.
