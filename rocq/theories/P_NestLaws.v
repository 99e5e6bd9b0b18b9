(** Proofs of the laws of nested algorithms. *)
From Coq Require Import List Arith Bool Lia Permutation.
From Verif Require Import Lts M_Nest S_Nest P_Nest S_NestLaws.
Import ListNotations.

Scheme eqv_mut := Induction for eqv Sort Prop with eqvl_mut := Induction for eqvl Sort Prop.
Combined Scheme eqv_eqvl_ind from eqv_mut, eqvl_mut.

(** ** Interleavings *)
Lemma set_nth_split {A} (l1 : list A) a l2 b : set_nth (l1 ++ a :: l2) (length l1) b = l1 ++ b :: l2.
Proof. induction l1 as [|c l1 IH]; simpl; [reflexivity|rewrite IH; reflexivity]. Qed.
Lemma nth_split_set {A} (l : list A) i a b : nth_error l i = Some a -> exists l1 l2, l = l1 ++ a :: l2 /\ i = length l1 /\ set_nth l i b = l1 ++ b :: l2.
Proof. intros H. destruct (nth_error_split l i H) as (l1 & l2 & -> & <-). exists l1, l2. repeat split. apply set_nth_split. Qed.
Lemma sh_at {A} (l1 : list (list A)) a u l2 t : shuffle (l1 ++ u :: l2) t -> shuffle (l1 ++ (a :: u) :: l2) (a :: t).
Proof.
  intros H. apply (sh_cons _ (length l1) a u); [rewrite nth_error_app2 by lia; rewrite Nat.sub_diag; reflexivity|]. rewrite set_nth_split. exact H.
Qed.
Lemma shuffle_perm {A} (ts : list (list A)) t : shuffle ts t -> forall ts', Permutation ts ts' -> shuffle ts' t.
Proof.
  induction 1 as [ts H|ts i a u t E H IH]; intros ts' HP.
  - apply sh_nil. intros x Hx. apply H. apply (Permutation_in x (Permutation_sym HP) Hx).
  - destruct (nth_split_set ts i (a :: u) u E) as (l1 & l2 & -> & _ & E'). rewrite E' in IH.
    destruct (in_split (a :: u) ts' (Permutation_in _ HP (in_elt _ _ _))) as (k1 & k2 & ->). apply sh_at. apply IH. apply Permutation_app_inv in HP. apply Permutation_elt. exact HP.
Qed.
Lemma shuffle_in {A} (us : list (list A)) (s : list A) ts t : shuffle us s -> shuffle (s :: ts) t -> shuffle (us ++ ts) t.
Proof.
  intros Hs Ht. remember (s :: ts) as w eqn:E. revert us s ts Hs E. induction Ht as [w H|w i a u t E' H IH]; intros us s ts Hs ->.
  - apply sh_nil. intros x Hx. apply in_app_or in Hx as [Hx|Hx]; [|apply H; right; exact Hx].
    rewrite (H s (or_introl eq_refl)) in Hs. inversion Hs; subst. auto.
  - destruct i as [|i]; simpl in E', H, IH.
    + injection E' as ->. inversion Hs as [|? j ? v ? E2 H2]; subst. destruct (nth_split_set us j (a :: v) v E2) as (l1 & l2 & -> & _ & E3). rewrite E3 in H2. rewrite <- app_assoc. simpl. apply sh_at.
      specialize (IH _ u ts H2 eq_refl). rewrite <- app_assoc in IH. exact IH.
    + destruct (nth_split_set ts i (a :: u) u E') as (l1 & l2 & -> & _ & E3). rewrite E3 in IH. rewrite app_assoc. apply sh_at. rewrite <- app_assoc. exact (IH us s _ Hs eq_refl).
Qed.
Lemma shuffle_out {A} (us ts : list (list A)) t : shuffle (us ++ ts) t -> exists s, shuffle us s /\ shuffle (s :: ts) t.
Proof.
  intros H. remember (us ++ ts) as w eqn:E. revert us ts E. induction H as [w H|w i a u t E' H IH]; intros us ts ->.
  - exists []. split; [apply sh_nil; intros x Hx; apply H; apply in_or_app; auto|]. apply sh_nil. intros x [<-|Hx]; [reflexivity|]. apply H. apply in_or_app. auto.
  - destruct (Nat.lt_ge_cases i (length us)) as [Hi|Hi].
    + rewrite nth_error_app1 in E' by exact Hi. destruct (nth_split_set us i (a :: u) u E') as (l1 & l2 & -> & -> & _). rewrite <- app_assoc in IH. simpl in IH. rewrite set_nth_split in IH.
      destruct (IH (l1 ++ u :: l2) ts) as (s & H1 & H2); [rewrite <- app_assoc; reflexivity|]. exists (a :: s). split; [apply sh_at; exact H1|]. exact (sh_at [] a s ts t H2).
    + rewrite nth_error_app2 in E' by exact Hi. destruct (nth_split_set ts (i - length us) (a :: u) u E') as (l1 & l2 & -> & Ei & _). assert (Ei' : i = length (us ++ l1)) by (rewrite app_length; lia).
      rewrite Ei', app_assoc, set_nth_split in IH. destruct (IH us (l1 ++ u :: l2)) as (s & H1 & H2); [rewrite <- app_assoc; reflexivity|]. exists s. split; [exact H1|]. exact (sh_at (s :: l1) a u l2 t H2).
Qed.

(** ** Meanings *)
Lemma behl_app l ts : behl l ts -> forall m us, behl m us -> behl (l ++ m) (ts ++ us).
Proof. induction l as [|x l IH] in ts |- *; intros H m us Hm; inversion H; subst; simpl; [exact Hm|]. econstructor; eauto. Qed.
Lemma behl_inv_app l : forall m ws, behl (l ++ m) ws -> exists ts us, ws = ts ++ us /\ behl l ts /\ behl m us.
Proof.
  induction l as [|x l IH]; simpl; intros m ws H; [exists [], ws; repeat split; [constructor|exact H]|]. inversion H as [|? ? t v ts B1 B2]; subst. destruct (IH _ _ B2) as (ts1 & us & -> & H1 & H2).
  exists (t :: ts1), us. repeat split; [econstructor; eauto|exact H2].
Qed.
Lemma behl_perm l m : Permutation l m -> forall ts, behl l ts -> exists us, behl m us /\ Permutation ts us.
Proof.
  induction 1 as [|x l m H IH|x y l|l m n H1 IH1 H2 IH2]; intros ts B.
  - exists ts. auto.
  - inversion B as [|? ? t v ts1 B1 B2]; subst. destruct (IH _ B2) as (us & H1 & H2). exists (t :: us). split; [econstructor; eauto|constructor; exact H2].
  - inversion B as [|? ? t v ts1 B1 B2]; subst. inversion B2 as [|? ? t2 v2 ts2 B3 B4]; subst. exists (t2 :: t :: ts2). split; [repeat (econstructor; eauto)|constructor].
  - destruct (IH1 ts B) as (us & B1 & P1). destruct (IH2 us B1) as (ws & B2 & P2). exists ws. split; [exact B2|]. eapply Permutation_trans; eauto.
Qed.
Lemma behs_app l : forall x y m t v, behs x (l ++ y :: m) t v <-> exists t1 w t2, t = t1 ++ t2 /\ behs x l t1 w /\ behs y m t2 v.
Proof.
  induction l as [|z l IH]; intros x y m t v; simpl; split.
  - intros H. inversion H as [|? ? ? t0 w t' ? B1 B2]; subst. exists t0, w, t'. repeat split; [constructor|]; assumption.
  - intros (t1 & w & t2 & -> & H1 & H2). inversion H1; subst. econstructor; eauto.
  - intros H. inversion H as [|? ? ? t0 w ? ? B1 B2]; subst. apply IH in B2 as (t1 & w1 & t2 & -> & H1 & H2). exists (t0 ++ t1), w1, t2. repeat split; [apply app_assoc|econstructor; eauto|exact H2].
  - intros (t1 & w & t2 & -> & H1 & H2). inversion H1 as [|? ? ? t0 w0 t' ? B1 B2]; subst. rewrite <- app_assoc. econstructor; [exact B1|]. apply IH. eauto 6.
Qed.
Lemma beh_seq x l t v : beh (XSeq x l) t v <-> behs x l t v.
Proof. split; intros H; [inversion H; subst; assumption|constructor; exact H]. Qed.
Lemma behs_nil x t v : behs x [] t v <-> beh x t v.
Proof. split; intros H; [inversion H; subst; assumption|constructor; exact H]. Qed.
Lemma behs_cons x l t v : (exists t1 w t2, t = t1 ++ t2 /\ beh x t1 w /\ match l with [] => t2 = [] /\ v = w | y :: m => behs y m t2 v end) <-> behs x l t v.
Proof.
  split.
  - intros (t1 & w & t2 & -> & B & H). destruct l as [|y m]; [destruct H as [-> ->]; rewrite app_nil_r; constructor; exact B|econstructor; eauto].
  - intros H. inversion H; subst; [exists t, v, []; rewrite app_nil_r; auto|eauto 8].
Qed.
(** what follows the first one *)
Lemma behs_first x y l : (forall t w, beh x t w -> beh y t w) -> forall t v, behs x l t v -> behs y l t v.
Proof. intros H t v B. inversion B; subst; [constructor; auto|econstructor; eauto]. Qed.
Lemma rep_map c g body body' : (forall y t w, beh (body y) t w -> beh (body' y) t w) -> forall t w, beh (XRep c g body) t w -> beh (XRep c g body') t w.
Proof. intros H t w B. remember (XRep c g body) as x eqn:E. induction B; try discriminate; injection E as -> -> ->; econstructor; eauto. Qed.
Definition le (x y : ex) : Prop := forall t v, beh x t v -> beh y t v.
Definition lel (l m : list ex) : Prop := (forall ts, behl l ts -> behl m ts) /\ length l = length m /\ (forall x y t v, le x y -> behs x l t v -> behs y m t v).

Ltac inv H := inversion H; subst; clear H.
Lemma laws : (forall x y, eqv x y -> le x y /\ le y x) /\ (forall l m, eqvl l m -> lel l m /\ lel m l).
Proof.
  assert (Ball : forall x y l m, le x y -> lel l m -> le (XAll x l) (XAll y m)).
  { intros x y l m Hx (H1 & _) t v B. inv B. match goal with H : behl _ _ |- _ => inv H end. econstructor; [econstructor; eauto|assumption]. }
  assert (Brace : forall r x y l m, le x y -> lel l m -> le (XRace r x l) (XRace r y m)).
  { intros r x y l m Hx (H1 & H2 & _) t v B. inv B. match goal with H : behl _ _ |- _ => inv H end. simpl in *. rewrite H2 in *. econstructor; [econstructor; eauto|simpl; eassumption|simpl; assumption]. }
  apply eqv_eqvl_ind.
  - intros x. split; intros t v H; exact H.
  - intros x y _ [H1 H2]. auto.
  - intros x y z _ [H1 H2] _ [H3 H4]. split; intros t v H; [exact (H3 _ _ (H1 _ _ H))|exact (H2 _ _ (H4 _ _ H))].
  - intros x y f _ [H1 H2]. split; intros t v B; inv B; econstructor; eauto.
  - intros c a b a' b' _ [H1 H2] _ [H3 H4]. split; intros t v B; inv B; [apply b_then|apply b_else|apply b_then|apply b_else]; auto.
  - intros c g body body' _ H. split; intros t v B; [apply (rep_map c g body body') with (2 := B)|apply (rep_map c g body' body) with (2 := B)]; intros y t' w'; apply (H y).
  - intros p g body body' _ H. split; intros t v B; inv B; econstructor; apply (H y); assumption.
  - intros x y l m _ [H1 H2] _ [(_ & _ & H3) (_ & _ & H4)]. split; intros t v B; apply beh_seq in B; apply beh_seq; eauto.
  - intros x y l m _ [H1 H2] _ [H3 H4]. split; apply Ball; assumption.
  - intros r x y l m _ [H1 H2] _ [H3 H4]. split; apply Brace; assumption.
  - intros x. split; intros t v B; [apply beh_seq, behs_nil in B; exact B|apply beh_seq, behs_nil; exact B].
  - intros x l m. split; intros t v B; apply beh_seq in B; apply beh_seq.
    + destruct m as [|y m]; [rewrite app_nil_r; apply behs_nil, beh_seq in B; exact B|]. inv B. apply behs_app. do 3 eexists. split; [reflexivity|]. split; [apply beh_seq; eassumption|assumption].
    + destruct m as [|y m]; [rewrite app_nil_r in B; apply behs_nil, beh_seq; exact B|]. apply behs_app in B as (t1 & w & t2 & -> & B1 & B2). econstructor; [apply beh_seq; exact B1|exact B2].
  - intros x l y m n. split; intros t v B; apply beh_seq in B; apply beh_seq; apply behs_app in B as (t1 & w & t2 & -> & B1 & B2); apply behs_app; exists t1, w, t2; (split; [reflexivity|]; split; [exact B1|]).
    + destruct n as [|z n]; [rewrite app_nil_r; apply behs_nil, beh_seq in B2; exact B2|]. inv B2. apply behs_app. do 3 eexists. split; [reflexivity|]. split; [apply beh_seq; eassumption|assumption].
    + destruct n as [|z n]; [rewrite app_nil_r in B2; apply behs_nil, beh_seq; exact B2|]. apply behs_app in B2 as (t3 & w3 & t4 & -> & B3 & B4). econstructor; [apply beh_seq; exact B3|exact B4].
  - intros x l y f. split; intros t v B.
    + inv B. match goal with H : beh (XSeq _ _) _ _ |- _ => apply beh_seq, behs_app in H as (t1 & w1 & t2 & -> & B1 & B2) end. apply behs_nil in B2. apply beh_seq, behs_app.
      exists t1, w1, (t2 ++ [NCall f w; NRet f v]). split; [rewrite app_assoc; reflexivity|]. split; [exact B1|]. apply behs_nil. econstructor; eauto.
    + apply beh_seq, behs_app in B as (t1 & w1 & t2 & -> & B1 & B2). apply behs_nil in B2. inv B2. rewrite app_assoc. econstructor. apply beh_seq, behs_app. do 3 eexists. split; [reflexivity|]. split; [exact B1|apply behs_nil; eassumption].
  - intros c a b f. split; intros t v B; inv B; match goal with H : beh _ _ _ |- _ => inv H end; simpl.
    + apply b_then; [assumption|]. econstructor; eauto.
    + apply b_else. econstructor; eauto.
    + apply (b_trans (XIte c a b) f (NCall c 0 :: NRet c v0 :: _)). apply b_then; eassumption.
    + apply (b_trans (XIte c a b) f (NCall c 0 :: NRet c 0 :: _)). apply b_else; eassumption.
  - intros p g body f. split; intros t v B; inv B; match goal with H : beh _ _ _ |- _ => inv H end; simpl.
    + apply b_let. econstructor; eauto.
    + apply (b_trans (XLet p g body) f (NCall p 0 :: NRet p v0 :: NCall g v0 :: NRet g y :: _)). apply b_let; eassumption.
  - intros c a b l. split; intros t v B.
    + apply beh_seq, behs_cons in B as (t1 & w & t2 & -> & B1 & B2). inv B1; simpl; [apply b_then; [assumption|]|apply b_else]; apply beh_seq, behs_cons; eauto 8.
    + apply beh_seq, behs_cons. inv B; match goal with H : beh (XSeq _ _) _ _ |- _ => apply beh_seq, behs_cons in H as (t1 & w & t2 & -> & B1 & B2) end.
      * exists (NCall c 0 :: NRet c v0 :: t1), w, t2. split; [reflexivity|]. split; [apply b_then; assumption|exact B2].
      * exists (NCall c 0 :: NRet c 0 :: t1), w, t2. split; [reflexivity|]. split; [apply b_else; assumption|exact B2].
  - intros p g body l. split; intros t v B.
    + apply beh_seq, behs_cons in B as (t1 & w & t2 & -> & B1 & B2). inv B1; simpl. apply b_let. apply beh_seq, behs_cons; eauto 8.
    + apply beh_seq, behs_cons. inv B; match goal with H : beh (XSeq _ _) _ _ |- _ => apply beh_seq, behs_cons in H as (t1 & w & t2 & -> & B1 & B2) end.
      exists (NCall p 0 :: NRet p v0 :: NCall g v0 :: NRet g y :: t1), w, t2. split; [reflexivity|]. split; [apply b_let; assumption|exact B2].
  - assert (H : forall x y l m, Permutation (x :: l) (y :: m) -> le (XAll x l) (XAll y m)).
    { intros x y l m HP t v B. inv B. match goal with H : behl _ _ |- _ => destruct (behl_perm _ _ HP _ H) as (us & B1 & P1) end. econstructor; [exact B1|]. eapply shuffle_perm; eassumption. }
    intros x y l m HP. split; apply H; [exact HP|apply Permutation_sym; exact HP].
  - intros x l m. split; intros t v B; inv B; match goal with H : behl _ _ |- _ => inv H end.
    + match goal with H : beh (XAll _ _) _ _ |- _ => inv H end. eapply b_all; [exact (behl_app _ _ ltac:(eassumption) m _ ltac:(eassumption))|]. eapply shuffle_in; eassumption.
    + match goal with H : behl (l ++ m) _ |- _ => destruct (behl_inv_app _ _ _ H) as (ts1 & us & -> & B1 & B2) end.
      match goal with H : shuffle (?t0 :: ts1 ++ us) t |- _ => destruct (shuffle_out (t0 :: ts1) us t H) as (s & S1 & S2) end.
      apply (b_all _ _ (s :: us)); [econstructor; [|exact B2]; eapply b_all; [econstructor; eassumption|exact S1]|exact S2].
  - assert (H : lel [] []) by (split; [auto|split; [reflexivity|]]; intros x y t v Hxy B; apply behs_nil in B; apply behs_nil; auto). split; exact H.
  - assert (H : forall x y l m, le x y -> lel l m -> lel (x :: l) (y :: m)).
    { intros x y l m Hx (H1 & H2 & H3). split; [|split; [simpl; congruence|]].
      - intros ts B. inv B. econstructor; eauto.
      - intros x' y' t v Hx' B. inv B. econstructor; [eauto|]. eapply H3; eassumption. }
    intros x y l m _ [H1 H2] _ [H3 H4]. split; apply H; assumption.
Qed.

(** ** Every execution of a sequential program is one of the code. *)
Inductive star : op -> list nevent -> op -> Prop :=
| st_nil : forall o, star o [] o
| st_cons : forall o e o1 es o' es', o_step o [] e = Next o1 es -> star o1 es' o' -> star o (es ++ es') o'.
Lemma star_one o e o1 es : o_step o [] e = Next o1 es -> star o es o1.
Proof. intros H. rewrite <- (app_nil_r es). econstructor; [exact H|constructor]. Qed.
Lemma star_app o es o1 es' o2 : star o es o1 -> star o1 es' o2 -> star o (es ++ es') o2.
Proof. induction 1; simpl; intros H2; [exact H2|]. rewrite <- app_assoc. econstructor; eauto. Qed.
Lemma star_in (C : op -> op) : (forall o e o1 es, o_step o [] e = Next o1 es -> o_step (C o) [] e = within C (o_step o [] e)) -> forall o es o', star o es o' -> star (C o) es (C o').
Proof. intros H o es o' S. induction S as [o|o e o1 es o' es' E S IH]; [constructor|]. econstructor; [|exact IH]. rewrite (H _ _ _ _ E), E. reflexivity. Qed.
Lemma star_trans f o es o' : star o es o' -> star (OTrans f o) es (OTrans f o').
Proof. apply star_in. intros [] e o1 es0 E; simpl in E |- *; try discriminate; reflexivity. Qed.
Lemma star_rep c g body o es o' : star o es o' -> star (ORep c g body o) es (ORep c g body o').
Proof. apply star_in. intros [] e o1 es0 E; simpl in E |- *; try discriminate; reflexivity. Qed.
Lemma star_seq l o es o' : star o es o' -> star (OSeq l o) es (OSeq l o').
Proof. apply star_in. intros [] e o1 es0 E; simpl in E |- *; try discriminate; reflexivity. Qed.
(** [x] can be executed with the events [t] and the result [v]. *)
Definition can (x : ex) (t : list nevent) (v : nat) : Prop := exists o es u, o_start x = (o, es) /\ t = es ++ u /\ star o u (OSet v).

Scheme beh_mut := Induction for beh Sort Prop with behs_mut := Induction for behs Sort Prop with behl_mut := Induction for behl Sort Prop.
Combined Scheme beh_all_ind from beh_mut, behs_mut, behl_mut.
Lemma start_of_can x t v : can x t v -> exists o es u, start_of x = Next o es /\ t = es ++ u /\ star o u (OSet v).
Proof. intros (o & es & u & E & H). exists o, es, u. unfold start_of. rewrite E. auto. Qed.
Lemma seq_can : (forall x t v, beh x t v -> sequential x -> can x t v) /\
  (forall x l t v, behs x l t v -> (forall y, In y (x :: l) -> sequential y) -> exists o es u, o_start x = (o, es) /\ t = es ++ u /\ star (OSeq l o) u (OSet v)) /\
  (forall l ts, behl l ts -> True).
Proof.
  apply beh_all_ind; try (intros; exact I).
  - intros f v _. exists (OFn f KSet), [NCall f 0], [NRet f v]. repeat split. apply (star_one _ (Some v)). reflexivity.
  - intros i v _. exists (OLeaf i), [NLeaf i], [NComp i v]. repeat split. apply (star_one _ (Some v)). reflexivity.
  - intros x f t w v _ IH Q. inv Q. destruct (IH ltac:(assumption)) as (o & es & u & E & -> & S). exists (OTrans f o), es, (u ++ [NCall f w; NRet f v]). split; [simpl; rewrite E; reflexivity|]. split; [rewrite app_assoc; reflexivity|].
    eapply star_app; [exact (star_trans f _ _ _ S)|]. eapply (st_cons _ None _ [NCall f w]); [reflexivity|]. apply (star_one _ (Some v)). reflexivity.
  - intros c a b v t w Hv _ IH Q. inv Q. destruct (start_of_can _ _ _ (IH ltac:(assumption))) as (o & es & u & E & -> & S). exists (OFn c (KIte a b)), [NCall c 0], (NRet c v :: es ++ u). repeat split.
    eapply (st_cons _ (Some v) o (NRet c v :: es)); [|exact S]. simpl. unfold k_step. destruct (Nat.eqb_spec v 0); [contradiction|]. rewrite E. reflexivity.
  - intros c a b t w _ IH Q. inv Q. destruct (start_of_can _ _ _ (IH ltac:(assumption))) as (o & es & u & E & -> & S). exists (OFn c (KIte a b)), [NCall c 0], (NRet c 0 :: es ++ u). repeat split.
    eapply (st_cons _ (Some 0) o (NRet c 0 :: es)); [|exact S]. simpl. unfold k_step. simpl. rewrite E. reflexivity.
  - intros c g body _. exists (OFn c (KRepC c g body)), [NCall c 0], [NRet c 0]. repeat split. apply (star_one _ (Some 0)). reflexivity.
  - intros c g body v y t w t' w' Hv _ IH1 _ IH2 Q. destruct (IH2 Q) as (o2 & es2 & u2 & E2 & -> & S2). inv Q. destruct (start_of_can _ _ _ (IH1 ltac:(auto))) as (o1 & es1 & u1 & E1 & -> & S1).
    simpl in E2. injection E2 as <- <-. exists (OFn c (KRepC c g body)), [NCall c 0], (NRet c v :: NCall g 0 :: NRet g y :: (es1 ++ u1) ++ [NCall c 0] ++ u2). repeat split.
    eapply (st_cons _ (Some v) _ [NRet c v; NCall g 0]); [simpl; unfold k_step; destruct (Nat.eqb_spec v 0); [contradiction|reflexivity]|].
    replace (NRet g y :: (es1 ++ u1) ++ [NCall c 0] ++ u2) with ((NRet g y :: es1) ++ u1 ++ [NCall c 0] ++ u2) by (simpl; rewrite <- app_assoc; reflexivity).
    eapply (st_cons _ (Some y)); [simpl; unfold k_step; rewrite E1; reflexivity|]. eapply star_app; [exact (star_rep c g body _ _ _ S1)|]. eapply (st_cons _ None); [reflexivity|exact S2].
  - intros p g body v y t w _ IH Q. inv Q. destruct (start_of_can _ _ _ (IH ltac:(auto))) as (o & es & u & E & -> & S). exists (OFn p (KLetP g body)), [NCall p 0], (NRet p v :: NCall g v :: NRet g y :: es ++ u). repeat split.
    eapply (st_cons _ (Some v) _ [NRet p v; NCall g v]); [reflexivity|]. eapply (st_cons _ (Some y) o (NRet g y :: es)); [|exact S]. simpl. unfold k_step. rewrite E. reflexivity.
  - intros x l t v _ IH Q. inv Q. destruct (IH ltac:(assumption)) as (o & es & u & E & -> & S). exists (OSeq l o), es, u. split; [simpl; rewrite E; reflexivity|]. auto.
  - intros x l ts t _ _ _ Q. inv Q.
  - intros r x l ts w t _ _ _ _ Q. inv Q.
  - intros x t v _ IH Q. destruct (IH (Q x (or_introl eq_refl))) as (o & es & u & E & -> & S). exists o, es, u. repeat split; [exact E|]. rewrite <- (app_nil_r u). eapply star_app; [exact (star_seq [] _ _ _ S)|]. apply (star_one _ None). reflexivity.
  - intros x y l t w t' v _ IH1 _ IH2 Q. destruct (IH1 (Q x (or_introl eq_refl))) as (o & es & u & E & -> & S). destruct (IH2 (fun z Hz => Q z (or_intror Hz))) as (o2 & es2 & u2 & E2 & -> & S2).
    exists o, es, (u ++ es2 ++ u2). split; [exact E|]. split; [rewrite <- app_assoc; reflexivity|]. eapply star_app; [exact (star_seq _ _ _ _ S)|]. eapply (st_cons _ None); [|exact S2]. simpl. unfold start_of. rewrite E2. reflexivity.
Qed.

Lemma star_run o es o' : star o es o' -> forall tr, exists ls, forall ls', run_from n_step o tr (ls ++ ls') = run_from n_step o' (tr ++ es) ls'.
Proof.
  induction 1 as [o|o e o1 es o' es' E S IH]; intros tr; [exists []; intros ls'; simpl; rewrite app_nil_r; reflexivity|].
  destruct (IH (tr ++ es)) as (ls & H). exists ((match e with Some v => NLEnv [] v | None => NLStep [] end) :: ls). intros ls'. simpl.
  assert (En : n_step o (match e with Some v => NLEnv [] v | None => NLStep [] end) = Next o1 es) by (destruct e; [exact E|destruct o; first [exact E|discriminate]]).
  rewrite En, H, app_assoc. reflexivity.
Qed.
Lemma seq_complete x t v : sequential x -> beh x t v -> exists ls o, run n_step (n_init x) ls = Running o (t ++ [NDone v]).
Proof.
  intros Q B. destruct (proj1 seq_can x t v B Q) as (o & es & u & E & -> & S). destruct (star_run _ _ _ S es) as (ls & H). exists (NLStart :: ls ++ [NLStep []]), OFin.
  unfold run, n_init. simpl. unfold start_of. rewrite E. simpl. rewrite H. reflexivity.
Qed.
