(** Proofs for determinism of sequential nestings. *)
From Coq Require Import List Arith Bool Lia.
From Verif Require Import Lts M_Nest S_Nest P_Nest S_NestLaws P_NestLaws S_NestDet.
Import ListNotations.

Lemma div_app t t' s s' : diverge t t' -> diverge (t ++ s) (t' ++ s').
Proof. intros (p & e & e' & u & u' & -> & -> & H). exists p, e, e', (u ++ s), (u' ++ s'). rewrite <- !app_assoc. auto. Qed.
Lemma div_pre p t t' : diverge t t' -> diverge (p ++ t) (p ++ t').
Proof. intros (q & e & e' & u & u' & -> & -> & H). exists (p ++ q), e, e', u, u'. rewrite <- !app_assoc. auto. Qed.
Lemma div_cons a t t' : diverge t t' -> diverge (a :: t) (a :: t').
Proof. exact (div_pre [a] t t'). Qed.
Lemma div_ret f a b t t' : a <> b -> diverge (NRet f a :: t) (NRet f b :: t').
Proof. intros H. exists [], (NRet f a), (NRet f b), t, t'. repeat split. constructor. exact H. Qed.
Lemma div_comp f a b t t' : a <> b -> diverge (NComp f a :: t) (NComp f b :: t').
Proof. intros H. exists [], (NComp f a), (NComp f b), t, t'. repeat split. constructor. exact H. Qed.
Definition det (t : list nevent) (v : nat) (t' : list nevent) (v' : nat) : Prop := (t = t' /\ v = v') \/ diverge t t'.
Lemma det_cons a t v t' v' : det t v t' v' -> det (a :: t) v (a :: t') v'.
Proof. intros [[-> ->]|H]; [left; auto|right; apply div_cons; exact H]. Qed.
Lemma det_app t w t' w' s v s' v' : det t w t' w' -> (w = w' -> det s v s' v') -> det (t ++ s) v (t' ++ s') v'.
Proof. intros [[-> ->]|H] H2; [|right; apply div_app; exact H]. destruct (H2 eq_refl) as [[-> ->]|H3]; [left; auto|right; apply div_pre; exact H3]. Qed.
Lemma det_ret f a b t v t' v' : (a = b -> det t v t' v') -> det (NRet f a :: t) v (NRet f b :: t') v'.
Proof. intros H. destruct (Nat.eq_dec a b) as [<-|N]; [apply det_cons; auto|right; apply div_ret; exact N]. Qed.

Lemma seq_det : (forall x t v, beh x t v -> sequential x -> forall t' v', beh x t' v' -> det t v t' v') /\
  (forall x l t v, behs x l t v -> (forall y, In y (x :: l) -> sequential y) -> forall t' v', behs x l t' v' -> det t v t' v') /\
  (forall l ts, behl l ts -> True).
Proof.
  apply beh_all_ind; try (intros; exact I).
  - intros f v _ t' v' B. inv B. apply det_cons. apply det_ret. intros <-. left. auto.
  - intros i v _ t' v' B. inv B. apply det_cons. destruct (Nat.eq_dec v v') as [<-|N]; [left; auto|right; apply div_comp; exact N].
  - intros x f t w v _ IH Q t' v' B. inv Q. inv B. eapply det_app; [apply IH; eassumption|]. intros ->. apply det_cons, det_ret. intros ->. left. auto.
  - intros c a b v t w Hv _ IH Q t' v' B. inv Q. inv B; apply det_cons, det_ret; intros E; subst; [apply IH; assumption|contradiction].
  - intros c a b t w _ IH Q t' v' B. inv Q. inv B; apply det_cons, det_ret; intros E; subst; [congruence|apply IH; assumption].
  - intros c g body _ t' v' B. inv B; apply det_cons, det_ret; intros E; subst; [left; auto|congruence].
  - intros c g body v y t w t' w' Hv _ IH1 _ IH2 Q s s' B. inv B; apply det_cons, det_ret; intros E; subst; [contradiction|]. apply det_cons, det_ret. intros ->.
    eapply det_app; [inv Q; apply IH1; [auto|eassumption]|]. intros _. apply IH2; assumption.
  - intros p g body v y t w _ IH Q t' v' B. inv Q. inv B. apply det_cons, det_ret. intros ->. apply det_cons, det_ret. intros ->. apply IH; auto.
  - intros x l t v _ IH Q t' v' B. inv Q. apply beh_seq in B. apply IH; assumption.
  - intros x l ts t _ _ _ Q. inv Q.
  - intros r x l ts w t _ _ _ _ Q. inv Q.
  - intros x t v _ IH Q t' v' B. apply behs_nil in B. apply IH; [apply Q; now left|exact B].
  - intros x y l t w t' v _ IH1 _ IH2 Q s s' B. inv B. eapply det_app; [apply IH1; [apply Q; now left|eassumption]|]. intros _. apply IH2; [intros z Hz; apply Q; now right|assumption].
Qed.

Lemma prefix_split {A} (a b c d : list A) : a ++ b = c ++ d -> (exists u, a = c ++ u) \/ (exists u, c = a ++ u).
Proof.
  revert c. induction a as [|x a IH]; intros [|y c] H; simpl in H; [left; exists []; reflexivity|right; eexists; reflexivity|left; eexists; reflexivity|].
  injection H as <- H. destruct (IH _ H) as [[u ->]|[u ->]]; [left|right]; exists u; reflexivity.
Qed.
(** prefixes of traces that diverge *)
Lemma div_prefix t t' a a' : diverge t t' -> prefix a t -> prefix a' t' -> prefix a a' \/ prefix a' a \/ diverge a a'.
Proof.
  intros (p & e & e' & u & u' & -> & -> & H) [s E] [s' E'].
  assert (Sp : forall a s e u, p ++ e :: u = a ++ s -> (exists q, p = a ++ q) \/ exists q, a = p ++ e :: q).
  { clear. intros a s e u E. destruct (prefix_split p (e :: u) a s E) as [H|[q ->]]; [left; exact H|]. destruct q as [|e0 q]; [left; exists []; rewrite !app_nil_r; reflexivity|].
    right. rewrite <- app_assoc in E. apply app_inv_head in E. simpl in E. injection E as -> _. exists q. reflexivity. }
  destruct (Sp _ _ _ _ E) as [[q Eq]|[q ->]]; destruct (Sp _ _ _ _ E') as [[q' Eq']|[q' ->]].
  - rewrite Eq in Eq'. destruct (prefix_split _ _ _ _ Eq') as [[v ->]|[v ->]]; [right; left|left]; exists v; reflexivity.
  - left. exists (q ++ e' :: q'). rewrite Eq, <- app_assoc. reflexivity.
  - right. left. exists (q' ++ e :: q). rewrite Eq', <- app_assoc. reflexivity.
  - right. right. exists p, e, e', q, q'. auto.
Qed.
Lemma nest_det x ls o tr ls' o' tr' : sequential x -> run n_step (n_init x) ls = Running o tr -> run n_step (n_init x) ls' = Running o' tr' ->
  prefix tr tr' \/ prefix tr' tr \/ diverge tr tr'.
Proof.
  intros Q R R'. destruct (nest_prefix x ls o tr R) as (t & v & u & B & E). destruct (nest_prefix x ls' o' tr' R') as (t' & v' & u' & B' & E').
  destruct (proj1 seq_det x t v B Q t' v' B') as [[<- <-]|D].
  - rewrite E in E'. destruct (prefix_split _ _ _ _ E') as [[w ->]|[w ->]]; [right; left|left]; exists w; reflexivity.
  - apply (div_prefix _ _ _ _ (div_app _ _ [NDone v] [NDone v'] D)); [exists u; exact E|exists u'; exact E'].
Qed.
Lemma div_said t t' : diverge t t' -> exists p e e' u u', said t = p ++ e :: u /\ said t' = p ++ e' :: u' /\ e <> e'.
Proof.
  intros (p & e & e' & u & u' & -> & -> & H). exists (said p), e, e', (said u), (said u'). unfold said. rewrite !filter_app. inv H; simpl; repeat split; congruence.
Qed.
Lemma nest_det_done x ls o tr v ls' o' tr' v' : sequential x -> run n_step (n_init x) ls = Running o tr -> run n_step (n_init x) ls' = Running o' tr' -> In (NDone v) tr -> In (NDone v') tr' ->
  said tr = said tr' -> tr = tr'.
Proof.
  intros Q R R' D D' S. destruct (nest_done x ls o tr v R D) as (t & -> & _ & B). destruct (nest_done x ls' o' tr' v' R' D') as (t' & -> & _ & B').
  destruct (proj1 seq_det x t v B Q t' v' B') as [[<- <-]|H]; [reflexivity|]. apply (div_app _ _ [NDone v] [NDone v']) in H. apply div_said in H as (p & e & e' & u & u' & E & E' & N). rewrite E, E' in S. apply app_inv_head in S. congruence.
Qed.
