(** Facts about the happens-before layer of M_HB. *)
From Coq Require Import List Arith Bool Lia.
From Verif Require Import Lts ListFacts M_HB.
Import ListNotations.

(** all accesses to l are in v; all writes to l are in v; all accesses are in v *)
Definition kn (g : mlog) (v : hbs) (l : nat) : Prop := forall i a p, nth_error g i = Some (a, p) -> ma_loc a = l -> In i v.
Definition kw (g : mlog) (v : hbs) (l : nat) : Prop := forall i a p, nth_error g i = Some (a, p) -> ma_loc a = l -> ma_wr a = true -> In i v.
Definition ka (g : mlog) (v : hbs) : Prop := forall i, i < length g -> In i v.

Lemma kn_kw g v l : kn g v l -> kw g v l. Proof. intros H i a p Hn Hl _. eauto. Qed.
Lemma ka_kn g v l : ka g v -> kn g v l.
Proof. intros H i a p Hn _. apply H. apply nth_error_Some. rewrite Hn. discriminate. Qed.
Lemma kn_incl g v w l : kn g v l -> incl v w -> kn g w l. Proof. intros H Hi i a p Hn Hl. apply Hi. eauto. Qed.
Lemma kw_incl g v w l : kw g v l -> incl v w -> kw g w l. Proof. intros H Hi i a p Hn Hl Hw. apply Hi. eauto. Qed.
Lemma ka_incl g v w : ka g v -> incl v w -> ka g w. Proof. intros H Hi i Hn. apply Hi. eauto. Qed.
Lemma kn_nil v l : kn [] v l. Proof. intros [] ? ? [=]. Qed.
Lemma ka_nil v : ka [] v. Proof. intros i H. simpl in H. lia. Qed.

Lemma ordered_iff g v a : m_ordered g v a = true <-> (forall i b p, nth_error g i = Some (b, p) -> m_conflict b a = true -> In i v).
Proof.
  unfold m_ordered. rewrite forallb_forall. split.
  - intros H i b p Hn Hc. specialize (H i). rewrite Hn, Hc in H. simpl in H. apply memb_In, H, in_seq.
    assert (i < length g) by (apply nth_error_Some; rewrite Hn; discriminate). lia.
  - intros H i _. destruct (nth_error g i) as [(b & p)|] eqn:Hn; [|reflexivity].
    destruct (m_conflict b a) eqn:Hc; [|reflexivity]. simpl. apply memb_In. eauto.
Qed.
Lemma ordered_wr g v l : m_ordered g v (MA l true) = true <-> kn g v l.
Proof.
  rewrite ordered_iff. unfold kn, m_conflict. simpl. split.
  - intros H i a p Hn Hl. apply (H i a p Hn). rewrite Hl, Nat.eqb_refl, orb_true_r. reflexivity.
  - intros H i b p Hn Hc. apply andb_true_iff in Hc. destruct Hc as [Hl _]. apply Nat.eqb_eq in Hl. eauto.
Qed.
Lemma ordered_rd g v l : m_ordered g v (MA l false) = true <-> kw g v l.
Proof.
  rewrite ordered_iff. unfold kw, m_conflict. simpl. split.
  - intros H i a p Hn Hl Hw. apply (H i a p Hn). rewrite Hl, Hw, Nat.eqb_refl. reflexivity.
  - intros H i b p Hn Hc. apply andb_true_iff in Hc. destruct Hc as [Hl Hw]. apply Nat.eqb_eq in Hl. rewrite orb_false_r in Hw. eauto.
Qed.

Lemma nth_snoc {A} (g : list A) x i y : nth_error (g ++ [x]) i = Some y -> nth_error g i = Some y \/ (i = length g /\ y = x).
Proof.
  intros H. destruct (Nat.lt_ge_cases i (length g)) as [Hl|Hl].
  - rewrite nth_error_app1 in H by exact Hl. auto.
  - rewrite nth_error_app2 in H by exact Hl. right. destruct (i - length g) as [|[]] eqn:Hi; simpl in H; try discriminate.
    injection H as <-. split; [lia|reflexivity].
Qed.

(** The log after one more access *)
Lemma kn_snoc g v l b p : kn g v l -> (ma_loc b = l -> In (length g) v) -> kn (g ++ [(b, p)]) v l.
Proof. intros H Hb i a q Hn Hl. apply nth_snoc in Hn. destruct Hn as [Hn|[-> [= -> ->]]]; eauto. Qed.
Lemma kw_snoc g v l b p : kw g v l -> (ma_loc b = l -> ma_wr b = true -> In (length g) v) -> kw (g ++ [(b, p)]) v l.
Proof. intros H Hb i a q Hn Hl Hw. apply nth_snoc in Hn. destruct Hn as [Hn|[-> [= -> ->]]]; eauto. Qed.
Lemma ka_snoc g v x : ka g v -> In (length g) v -> ka (g ++ [x]) v.
Proof. intros H Hb i. rewrite app_length. simpl. intros Hi. destruct (Nat.eq_dec i (length g)) as [->|]; [exact Hb|]. apply H. lia. Qed.
Lemma kn_pre g v l x : kn (g ++ x) v l -> kn g v l.
Proof. intros H i a p Hn. apply H with p. rewrite nth_error_app1; [exact Hn|]. apply nth_error_Some. rewrite Hn. discriminate. Qed.

(** ** Execution *)
Lemma exec_app m v l1 : forall l2, m_exec m v (l1 ++ l2) = match m_exec m v l1 with Some (m', v') => m_exec m' v' l2 | None => None end.
Proof. revert m v. induction l1 as [|a l1 IH]; intros m v l2; simpl; [reflexivity|]. destruct (m_exec1 m v a) as [[]|]; auto. Qed.
Lemma exec1_mono m v a m' v' : m_exec1 m v a = Some (m', v') ->
  incl (mv_cur v) (mv_cur v') /\ incl (mv_pend v) (mv_pend v') /\ (exists g, mm_log m' = mm_log m ++ g) /\ forall x, incl (mm_rel m x) (mm_rel m' x).
Proof.
  destruct a as [l w|x acq rel|]; simpl.
  - destruct (m_ordered _ _ _); [|discriminate]. intros [= <- <-]. simpl. split; [apply incl_tl, incl_refl|]. split; [apply incl_refl|].
    split; [eauto|]. intros x. apply incl_refl.
  - intros [= <- <-]. simpl. split; [destruct acq; [apply incl_appl|]; apply incl_refl|]. split; [apply incl_appl, incl_refl|].
    split; [exists []; now rewrite app_nil_r|]. intros y. destruct rel; [|apply incl_refl]. unfold upd. destruct (y =? x) eqn:E; [|apply incl_refl].
    apply Nat.eqb_eq in E. subst y. apply incl_appl, incl_refl.
  - intros [= <- <-]. simpl. split; [apply incl_appl, incl_refl|]. split; [apply incl_refl|].
    split; [exists []; now rewrite app_nil_r|]. intros x. apply incl_refl.
Qed.
Lemma exec_mono l : forall m v m' v', m_exec m v l = Some (m', v') ->
  incl (mv_cur v) (mv_cur v') /\ incl (mv_pend v) (mv_pend v') /\ (exists g, mm_log m' = mm_log m ++ g) /\ forall x, incl (mm_rel m x) (mm_rel m' x).
Proof.
  induction l as [|a l IH]; intros m v m' v' H; simpl in H.
  - injection H as <- <-. repeat split; try apply incl_refl; [exists []; now rewrite app_nil_r|intros x; apply incl_refl].
  - destruct (m_exec1 m v a) as [[m1 v1]|] eqn:H1; [|discriminate]. apply exec1_mono in H1. destruct H1 as (A1 & B1 & (g1 & C1) & D1).
    apply IH in H. destruct H as (A2 & B2 & (g2 & C2) & D2). split; [eapply incl_tran; eauto|]. split; [eapply incl_tran; eauto|].
    split; [exists (g1 ++ g2); rewrite C2, C1, app_assoc; reflexivity|]. intros x. eapply incl_tran; eauto.
Qed.

(** What a successful execution does *)
Record eff (m : mmem) (v : mview) (l : list mact) (m' : mmem) (v' : mview) : Prop := Eff {
  ef_cur : incl (mv_cur v) (mv_cur v');
  ef_pend : incl (mv_pend v) (mv_pend v');
  ef_len : length (mm_log m) <= length (mm_log m');
  ef_old : forall i, i < length (mm_log m) -> nth_error (mm_log m') i = nth_error (mm_log m) i;
  ef_new : forall i a p, length (mm_log m) <= i -> nth_error (mm_log m') i = Some (a, p) -> In i (mv_cur v') /\ In (Touch (ma_loc a) (ma_wr a)) l;
  ef_rel : forall x, incl (mm_rel m x) (mm_rel m' x) }.
Lemma eff_exec l : forall m v m' v', m_exec m v l = Some (m', v') -> eff m v l m' v'.
Proof.
  induction l as [|a l IH]; intros m v m' v' H; cbn [m_exec] in H.
  - injection H as <- <-. constructor; auto using incl_refl. intros i a p Hi Hn. exfalso.
    assert (i < length (mm_log m)) by (apply nth_error_Some; rewrite Hn; discriminate). lia.
  - destruct (m_exec1 m v a) as [[m1 v1]|] eqn:H1; [|discriminate]. pose proof (IH _ _ _ _ H) as [A B C D F G].
    pose proof (exec1_mono _ _ _ _ _ H1) as (A1 & B1 & (g1 & C1) & D1). constructor.
    + eapply incl_tran; eauto.
    + eapply incl_tran; eauto.
    + rewrite C1, app_length in C. lia.
    + intros i Hi. rewrite D; [|rewrite C1, app_length; lia]. rewrite C1. now apply nth_error_app1.
    + intros i b p Hi Hn. destruct (Nat.lt_ge_cases i (length (mm_log m1))) as [Hl|Hl].
      * rewrite D in Hn by exact Hl. destruct a as [x w|x acq rel|]; simpl in H1.
        -- destruct (m_ordered _ _ _); [|discriminate]. injection H1 as <- <-. simpl in *. apply nth_snoc in Hn. destruct Hn as [Hn|[-> [= -> ->]]].
           ++ exfalso. assert (i < length (mm_log m)) by (apply nth_error_Some; rewrite Hn; discriminate). lia.
           ++ simpl. split; [|auto]. apply A. left. reflexivity.
        -- injection H1 as <- <-. simpl in *. lia.
        -- injection H1 as <- <-. simpl in *. lia.
      * destruct (F i b p Hl Hn). simpl. auto.
    + intros x. eapply incl_tran; eauto.
Qed.

Section Eff.
Context {m : mmem} {v : mview} {l : list mact} {m' : mmem} {v' : mview}.
Hypothesis He : eff m v l m' v'.
Notation g := (mm_log m). Notation g' := (mm_log m').
Lemma eff_cases i a p : nth_error g' i = Some (a, p) ->
  (i < length g /\ nth_error g i = Some (a, p)) \/ (length g <= i /\ In i (mv_cur v') /\ In (Touch (ma_loc a) (ma_wr a)) l).
Proof.
  intros Hn. destruct (Nat.lt_ge_cases i (length g)) as [Hl|Hl].
  - left. split; [exact Hl|]. rewrite <- (ef_old _ _ _ _ _ He i Hl). exact Hn.
  - right. split; [exact Hl|]. exact (ef_new _ _ _ _ _ He i a p Hl Hn).
Qed.
(** the thread itself *)
Lemma eff_kn x : kn g (mv_cur v) x -> kn g' (mv_cur v') x.
Proof. intros H i a p Hn Hx. destruct (eff_cases _ _ _ Hn) as [[_ Ho]|(_ & Hi & _)]; [|exact Hi]. apply (ef_cur _ _ _ _ _ He). eauto. Qed.
Lemma eff_kw x : kw g (mv_cur v) x -> kw g' (mv_cur v') x.
Proof. intros H i a p Hn Hx Hw. destruct (eff_cases _ _ _ Hn) as [[_ Ho]|(_ & Hi & _)]; [|exact Hi]. apply (ef_cur _ _ _ _ _ He). eauto. Qed.
Lemma eff_ka : ka g (mv_cur v) -> ka g' (mv_cur v').
Proof.
  intros H i Hi. destruct (nth_error g' i) as [[a p]|] eqn:Hn; [|apply nth_error_None in Hn; lia].
  destruct (eff_cases _ _ _ Hn) as [[Hl _]|(_ & Hin & _)]; [|exact Hin]. apply (ef_cur _ _ _ _ _ He). auto.
Qed.
(** the views of other threads, and released views *)
Lemma eff_kn_other u x : kn g u x -> (forall w, ~ In (Touch x w) l) -> kn g' u x.
Proof. intros H Hl i a p Hn Hx. destruct (eff_cases _ _ _ Hn) as [[_ Ho]|(_ & _ & Ht)]; [eauto|]. subst x. now apply Hl in Ht. Qed.
Lemma eff_kw_other u x : kw g u x -> ~ In (Touch x true) l -> kw g' u x.
Proof. intros H Hl i a p Hn Hx Hw. destruct (eff_cases _ _ _ Hn) as [[_ Ho]|(_ & _ & Ht)]; [eauto|]. subst x. rewrite Hw in Ht. now apply Hl in Ht. Qed.
(** every access is known to one of two threads *)
Lemma eff_all2 (w : hbs) : (forall i, i < length g -> In i (mv_cur v) \/ In i w) -> forall i, i < length g' -> In i (mv_cur v') \/ In i w.
Proof.
  intros H i Hi. destruct (nth_error g' i) as [[a p]|] eqn:Hn; [|apply nth_error_None in Hn; lia].
  destruct (eff_cases _ _ _ Hn) as [[Hl _]|(_ & Hin & _)]; [|auto]. destruct (H i Hl); [left|right]; [|assumption]. apply (ef_cur _ _ _ _ _ He). auto.
Qed.
End Eff.

(** An execution succeeds if the thread knows about the accesses that conflict with its own. *)
Lemma exec_ok l : forall m v,
  (forall x, In (Touch x true) l -> kn (mm_log m) (mv_cur v) x) -> (forall x, In (Touch x false) l -> kw (mm_log m) (mv_cur v) x) -> m_exec m v l <> None.
Proof.
  induction l as [|a l IH]; intros m v Hw Hr; cbn [m_exec]; [discriminate|].
  assert (Ha : exists m1 v1, m_exec1 m v a = Some (m1, v1)).
  { destruct a as [x w|x acq rel|]; simpl; eauto. destruct w.
    - rewrite (proj2 (ordered_wr _ _ _) (Hw x (or_introl eq_refl))). eauto.
    - rewrite (proj2 (ordered_rd _ _ _) (Hr x (or_introl eq_refl))). eauto. }
  destruct Ha as (m1 & v1 & Ha). rewrite Ha.
  assert (H1 : m_exec m v [a] = Some (m1, v1)) by (cbn [m_exec]; rewrite Ha; reflexivity).
  apply eff_exec in H1. apply IH; intros x Hx; [apply (eff_kn H1)|apply (eff_kw H1)]; [apply Hw|apply Hr]; right; exact Hx.
Qed.

(** The read-modify-write operation at the end of an execution *)
Definition is_touch (a : mact) : bool := match a with Touch _ _ => true | _ => false end.
Lemma exec_touches l : forall m v m' v', forallb is_touch l = true -> m_exec m v l = Some (m', v') -> mm_rel m' = mm_rel m /\ mv_pend v' = mv_pend v.
Proof.
  induction l as [|a l IH]; intros m v m' v' Hl H; cbn [m_exec] in H; [injection H as <- <-; auto|].
  simpl in Hl. apply andb_true_iff in Hl. destruct Hl as [Ha Hl]. destruct a as [x w|x acq rel|]; try discriminate. simpl in H.
  destruct (m_ordered _ _ _); [|discriminate]. apply IH in H; [|exact Hl]. simpl in H. exact H.
Qed.
Lemma exec_rmw m v l x acq rel m' v' : forallb is_touch l = true -> m_exec m v (l ++ [Rmw x acq rel]) = Some (m', v') ->
  (rel = true -> incl (mv_cur v') (mm_rel m' x)) /\ (acq = true -> incl (mm_rel m x) (mv_cur v')) /\ incl (mm_rel m x) (mv_pend v') /\
  (rel = false -> mm_rel m' x = mm_rel m x) /\ forall y, y <> x -> mm_rel m' y = mm_rel m y.
Proof.
  intros Hl H. rewrite exec_app in H. destruct (m_exec m v l) as [[m1 v1]|] eqn:H1; [|discriminate].
  apply exec_touches in H1; [|exact Hl]. destruct H1 as [Hr Hp]. cbn [m_exec m_exec1] in H. injection H as <- <-. simpl. rewrite Hr.
  split; [intros ->; rewrite upd_same; apply incl_appr, incl_refl|]. split; [intros ->; apply incl_appr, incl_refl|].
  split; [apply incl_appr, incl_refl|]. split; [intros ->; reflexivity|]. intros y Hy. destruct rel; [|reflexivity]. now apply upd_other.
Qed.

Lemma exec_rmw_rel m v l x acq rel m' v' : forallb is_touch l = true -> m_exec m v (l ++ [Rmw x acq rel]) = Some (m', v') -> incl (mm_rel m' x) (mm_rel m x ++ mv_cur v').
Proof.
  intros Hl H. rewrite exec_app in H. destruct (m_exec m v l) as [[m1 v1]|] eqn:H1; [|discriminate].
  apply exec_touches in H1; [|exact Hl]. destruct H1 as [Hr Hp]. cbn [m_exec m_exec1] in H. injection H as <- <-. simpl. rewrite Hr.
  destruct rel; [rewrite upd_same; apply incl_refl|apply incl_appl, incl_refl].
Qed.

(** Critical sections *)
Lemma exec_unlock m v l x acq m' v' : m_exec m v (l ++ [Rmw x acq true]) = Some (m', v') -> incl (mv_cur v') (mm_rel m' x).
Proof.
  intros H. rewrite exec_app in H. destruct (m_exec m v l) as [[m1 v1]|]; [|discriminate]. cbn [m_exec m_exec1] in H. injection H as <- <-. simpl.
  rewrite upd_same. apply incl_appr, incl_refl.
Qed.
Lemma lock_ok m v l x :
  (forall y, In (Touch y true) l -> kn (mm_log m) (mv_cur v ++ mm_rel m x) y) -> (forall y, In (Touch y false) l -> kw (mm_log m) (mv_cur v ++ mm_rel m x) y) ->
  m_exec m v (Lock x :: l) <> None.
Proof.
  intros Hw Hr. change (m_exec (MM (mm_log m) (mm_rel m)) (MV (mv_cur v ++ mm_rel m x) (mv_pend v ++ mm_rel m x)) l <> None). apply exec_ok; assumption.
Qed.
Lemma exec_lock m v l x rel m' v' : m_exec m v (Rmw x true rel :: l) = Some (m', v') -> incl (mm_rel m x) (mv_cur v').
Proof.
  intros H. cbn [m_exec m_exec1] in H. apply exec_mono in H. destruct H as [H _]. simpl in H. eapply incl_tran; [|exact H]. apply incl_appr, incl_refl.
Qed.
Lemma exec_rel_other l x : (forall acq rel, ~ In (Rmw x acq rel) l) -> forall m v m' v', m_exec m v l = Some (m', v') -> mm_rel m' x = mm_rel m x.
Proof.
  induction l as [|a l IH]; intros Hl m v m' v' H; cbn [m_exec] in H; [injection H as <- <-; auto|].
  destruct (m_exec1 m v a) as [[m1 v1]|] eqn:H1; [|discriminate]. rewrite (IH (fun acq rel Hi => Hl acq rel (or_intror Hi)) _ _ _ _ H). destruct a as [y w|y acq rel|]; simpl in H1.
  - destruct (m_ordered _ _ _); [|discriminate]. injection H1 as <- <-. reflexivity.
  - injection H1 as <- <-. simpl. destruct rel; [|reflexivity]. apply upd_other. intros E. apply (Hl acq true). left. congruence.
  - injection H1 as <- <-. reflexivity.
Qed.

(** Critical sections in the middle of a step *)
Lemma mid_lock m v l1 x l2 m' v' : forallb is_touch l1 = true -> m_exec m v (l1 ++ Lock x :: l2) = Some (m', v') -> incl (mm_rel m x) (mv_cur v').
Proof.
  intros Ht H. rewrite exec_app in H. destruct (m_exec m v l1) as [[m1 v1]|] eqn:H1; [|discriminate]. destruct (exec_touches _ _ _ _ _ Ht H1) as [<- _]. exact (exec_lock _ _ _ _ _ _ _ H).
Qed.
Lemma own_kn {m v l m' v'} (Ef : eff m v l m' v') R y : incl R (mv_cur v') -> kn (mm_log m) (mv_cur v ++ R) y -> kn (mm_log m') (mv_cur v') y.
Proof. intros HR H i a p Hn Hl. destruct (eff_cases Ef _ _ _ Hn) as [[_ Ho]|(_ & Hi & _)]; [|exact Hi]. specialize (H _ _ _ Ho Hl). apply in_app_or in H. destruct H; [now apply (ef_cur _ _ _ _ _ Ef)|auto]. Qed.
Lemma own_kw {m v l m' v'} (Ef : eff m v l m' v') R y : incl R (mv_cur v') -> kw (mm_log m) (mv_cur v ++ R) y -> kw (mm_log m') (mv_cur v') y.
Proof. intros HR H i a p Hn Hl Hw. destruct (eff_cases Ef _ _ _ Hn) as [[_ Ho]|(_ & Hi & _)]; [|exact Hi]. specialize (H _ _ _ Ho Hl Hw). apply in_app_or in H. destruct H; [now apply (ef_cur _ _ _ _ _ Ef)|auto]. Qed.
(** Accesses in critical sections *)
Lemma crit m v l1 x l2 l3 m' v' y : (forall b, ~ In (Touch y b) l1) -> (forall b, ~ In (Touch y b) l3) -> m_exec m v (l1 ++ Lock x :: l2 ++ Unlock x :: l3) = Some (m', v') ->
  kn (mm_log m) (mm_rel m x) y -> kn (mm_log m') (mm_rel m' x) y.
Proof.
  intros H1 H3 He Hk. rewrite exec_app in He. destruct (m_exec m v l1) as [[m1 v1]|] eqn:E1; [|discriminate]. pose proof (eff_exec _ _ _ _ _ E1) as F1.
  change (Lock x :: l2 ++ Unlock x :: l3) with (Lock x :: l2 ++ [Unlock x] ++ l3) in He. rewrite app_assoc, app_comm_cons, exec_app in He.
  destruct (m_exec m1 v1 (Lock x :: l2 ++ [Unlock x])) as [[m2 v2]|] eqn:E2; [|discriminate]. pose proof (eff_exec _ _ _ _ _ E2) as F2. pose proof (eff_exec _ _ _ _ _ He) as F3.
  apply (kn_incl _ (mm_rel m2 x)); [|apply (ef_rel _ _ _ _ _ F3)]. apply (eff_kn_other F3); [|exact H3].
  apply (kn_incl _ (mv_cur v2)); [|rewrite app_comm_cons in E2; exact (exec_unlock _ _ _ _ _ _ _ E2)].
  apply (own_kn F2 (mm_rel m1 x)); [exact (exec_lock _ _ _ _ _ _ _ E2)|]. apply (kn_incl _ (mm_rel m1 x)); [|apply incl_appr, incl_refl].
  apply (eff_kn_other F1); [|exact H1]. apply (kn_incl _ _ _ _ Hk). apply (ef_rel _ _ _ _ _ F1).
Qed.
Lemma mid_ok m v l1 x l2 : forallb is_touch l1 = true ->
  (forall y, In (Touch y true) l1 -> kn (mm_log m) (mv_cur v) y) -> (forall y, In (Touch y false) l1 -> kw (mm_log m) (mv_cur v) y) ->
  (forall y, In (Touch y true) l2 -> kn (mm_log m) (mv_cur v ++ mm_rel m x) y) -> (forall y, In (Touch y false) l2 -> kw (mm_log m) (mv_cur v ++ mm_rel m x) y) ->
  m_exec m v (l1 ++ Lock x :: l2) <> None.
Proof.
  intros Ht A B C D. rewrite exec_app. pose proof (exec_ok l1 m v A B) as H1. destruct (m_exec m v l1) as [[m1 v1]|] eqn:E1; [|congruence].
  destruct (exec_touches _ _ _ _ _ Ht E1) as [Er _]. pose proof (eff_exec _ _ _ _ _ E1) as Ef. apply lock_ok; rewrite Er.
  - intros y Hy. specialize (C y Hy). intros i a p Hn Hl. destruct (eff_cases Ef _ _ _ Hn) as [[_ Ho]|(_ & Hi & _)]; apply in_or_app; [|auto].
    specialize (C _ _ _ Ho Hl). apply in_app_or in C. destruct C; [left; now apply (ef_cur _ _ _ _ _ Ef)|auto].
  - intros y Hy. specialize (D y Hy). intros i a p Hn Hl Hw. destruct (eff_cases Ef _ _ _ Hn) as [[_ Ho]|(_ & Hi & _)]; apply in_or_app; [|auto].
    specialize (D _ _ _ Ho Hl Hw). apply in_app_or in D. destruct D; [left; now apply (ef_cur _ _ _ _ _ Ef)|auto].
Qed.

(** ** Runs *)
Section HB.
Context {S L E : Type}.
Variable step : S -> L -> outcome S E.
Variable src dst : S -> L -> list nat.
Variable acts : S -> L -> list mact.
Notation hstep := (m_step step src dst acts).

Definition hview (h : mst (S := S)) (l : L) (v : hbs) : mview :=
  let v0 := mv_join (map (ms_view h) (src (ms_base h) l)) in MV (m_closure (mm_log (ms_mem h)) v ++ mv_cur v0) (mv_pend v0).

Lemma in_hview h l v t : In t (src (ms_base h) l) -> incl (mv_cur (ms_view h t)) (mv_cur (hview h l v)).
Proof.
  intros Ht i Hi. unfold hview. simpl. apply in_or_app. right. apply nodup_In, in_flat_map. exists (ms_view h t). split; [|exact Hi]. now apply in_map.
Qed.
Lemma in_hview_pend h l v t : In t (src (ms_base h) l) -> incl (mv_pend (ms_view h t)) (mv_pend (hview h l v)).
Proof. intros Ht i Hi. unfold hview. simpl. apply nodup_In, in_flat_map. exists (ms_view h t). split; [|exact Hi]. now apply in_map. Qed.
Lemma set_in f l (v : mview) t : In t l -> m_set f l v t = v.
Proof. intros H. unfold m_set. now rewrite (proj2 (memb_In t l) H). Qed.
Lemma set_out f l (v : mview) t : ~ In t l -> m_set f l v t = f t.
Proof. intros H. unfold m_set. now rewrite (proj2 (memb_not_In t l) H). Qed.

Lemma h_next h l v h' es : hstep h (l, v) = Next h' es ->
  exists s' es0 m' v', step (ms_base h) l = Next s' es0 /\ m_exec (ms_mem h) (hview h l v) (acts (ms_base h) l) = Some (m', v') /\
    h' = MS s' m' (m_set (ms_view h) (dst (ms_base h) l) v') /\ es = map (fun e => (e, mv_cur v')) es0.
Proof.
  unfold m_step, hview. destruct (step (ms_base h) l) as [s' es0| |]; try discriminate. cbv zeta.
  destruct (m_exec _ _ _) as [[m' v']|] eqn:He; [|discriminate]. intros [= <- <-]. exists s', es0, m', v'. auto.
Qed.
Lemma map_fst_pair (es : list E) (v : hbs) : map fst (map (fun e => (e, v)) es) = es.
Proof. rewrite map_map. simpl. apply map_id. Qed.

(** A run of the layer is a run of the base model. *)
Lemma h_base ls : forall h0 tr0 h tr, run_from hstep h0 tr0 ls = Running h tr ->
  run_from step (ms_base h0) (map fst tr0) (map fst ls) = Running (ms_base h) (map fst tr).
Proof.
  induction ls as [|[l v] ls IH]; intros h0 tr0 h tr H; cbn [run_from map fst] in *.
  - injection H as <- <-. reflexivity.
  - destruct (hstep h0 (l, v)) as [h1 es| |] eqn:Hs; try discriminate. apply h_next in Hs. destruct Hs as (s' & es0 & m' & v' & Hs & _ & -> & ->).
    rewrite Hs. apply IH in H. rewrite map_app, map_fst_pair in H. exact H.
Qed.
Lemma h_run ls s0 h tr : run hstep (ms_init s0) ls = Running h tr -> run step s0 (map fst ls) = Running (ms_base h) (map fst tr).
Proof. apply (h_base ls (ms_init s0) []). Qed.

Lemma h_snoc ls s0 h tr l v s' es m' v' : run hstep (ms_init s0) ls = Running h tr -> step (ms_base h) l = Next s' es -> m_exec (ms_mem h) (hview h l v) (acts (ms_base h) l) = Some (m', v') ->
  run hstep (ms_init s0) (ls ++ [(l, v)]) = Running (MS s' m' (m_set (ms_view h) (dst (ms_base h) l) v')) (tr ++ map (fun e => (e, mv_cur v')) es).
Proof. intros Hr Hs He. unfold run in *. rewrite run_from_app, Hr. cbn [run_from]. unfold m_step at 1. rewrite Hs. cbv zeta. unfold hview in He. cbv zeta in He. rewrite He. reflexivity. Qed.

(** A failing run of the layer is a failing run of the base model or a data race of its own. *)
Lemma h_failed ls s0 f tr : run hstep (ms_init s0) ls = Failed f tr ->
  (exists ls0, run step s0 ls0 = Failed f (map fst tr)) \/
  (f = DataRace /\ exists ls1 h tr1 l v s' es, run hstep (ms_init s0) ls1 = Running h tr1 /\ m_exec (ms_mem h) (hview h l v) (acts (ms_base h) l) = None /\
     step (ms_base h) l = Next s' es /\ map fst tr = map fst tr1 ++ es).
Proof.
  intros Hr. destruct (run_from_failed hstep ls _ _ _ _ Hr) as (ls1 & [l v] & h & tr1 & es & H1 & H2 & ->).
  unfold m_step in H2. destruct (step (ms_base h) l) as [s' es0| |f0 es0] eqn:Hs; try discriminate.
  - right. fold (hview h l v) in H2. destruct (m_exec _ _ _) as [[]|] eqn:He; [discriminate|]. injection H2 as <- <-. split; [reflexivity|].
    exists ls1, h, tr1, l, v, s', es0. rewrite map_app, map_fst_pair. repeat split; auto.
  - left. injection H2 as <- <-. exists (map fst ls1 ++ [l]). unfold run. rewrite run_from_app.
    pose proof (h_base _ _ _ _ _ H1) as Hb. simpl in Hb. rewrite Hb. cbn [run_from]. rewrite Hs, map_app, map_fst_pair. reflexivity.
Qed.

(** An invariant that holds in all runs whose base trace obeys the rule C *)
Lemma h_inv (C : list E -> Prop) (J : mst (S := S) -> list (E * hbs) -> Prop) s0 :
  (forall tr es, C (tr ++ es) -> C tr) -> J (ms_init s0) [] ->
  (forall ls h tr l v s' es m' v', run hstep (ms_init s0) ls = Running h tr -> J h tr ->
     step (ms_base h) l = Next s' es -> m_exec (ms_mem h) (hview h l v) (acts (ms_base h) l) = Some (m', v') -> C (map fst tr ++ es) ->
     J (MS s' m' (m_set (ms_view h) (dst (ms_base h) l) v')) (tr ++ map (fun e => (e, mv_cur v')) es)) ->
  forall ls h tr, run hstep (ms_init s0) ls = Running h tr -> C (map fst tr) -> J h tr.
Proof.
  intros Hpre H0 Hst. apply (rev_ind (fun ls => forall h tr, run hstep (ms_init s0) ls = Running h tr -> C (map fst tr) -> J h tr)).
  - intros h tr [= <- <-] _. exact H0.
  - intros [l v] ls IH h tr Hr HC. unfold run in *. rewrite run_from_app in Hr. destruct (run_from hstep _ _ ls) as [h1 tr1| |] eqn:H1; try discriminate.
    cbn [run_from] in Hr. destruct (hstep h1 (l, v)) as [h2 es| |] eqn:Hs; try discriminate. injection Hr as <- <-.
    apply h_next in Hs. destruct Hs as (s' & es0 & m' & v' & Hs & He & -> & ->). rewrite map_app, map_fst_pair in HC.
    apply (Hst ls h1 tr1 l v); eauto.
Qed.

(** Views are sets of positions in the log. *)
Definition bd (g : mlog) (v : hbs) : Prop := forall i, In i v -> i < length g.
Record bounded (m : mmem) : Prop := Bd { bd_rel : forall x, bd (mm_log m) (mm_rel m x); bd_log : forall i a p, nth_error (mm_log m) i = Some (a, p) -> bd (mm_log m) p }.
Lemma bd_app g v w : bd g v -> bd g w -> bd g (v ++ w).
Proof. intros H1 H2 i Hi. apply in_app_or in Hi. destruct Hi; auto. Qed.
Lemma bd_le g g' v : bd g v -> length g <= length g' -> bd g' v.
Proof. intros H Hl i Hi. specialize (H i Hi). lia. Qed.
Lemma bd_exec1 m v a m' v' : bounded m -> bd (mm_log m) (mv_cur v) -> bd (mm_log m) (mv_pend v) -> m_exec1 m v a = Some (m', v') ->
  bounded m' /\ bd (mm_log m') (mv_cur v') /\ bd (mm_log m') (mv_pend v').
Proof.
  intros [B1 B2] Hc Hp H. destruct a as [l w|x acq rel|]; simpl in H.
  - destruct (m_ordered _ _ _); [|discriminate]. injection H as <- <-. simpl.
    assert (Hle : length (mm_log m) <= length (mm_log m ++ [(MA l w, mv_cur v)])) by (rewrite app_length; lia).
    split; [constructor; simpl|split].
    + intros x. apply (bd_le _ _ _ (B1 x) Hle).
    + intros i a p Hi. apply nth_snoc in Hi. destruct Hi as [Hi|[_ [= -> ->]]]; [apply (bd_le _ _ _ (B2 _ _ _ Hi) Hle)|apply (bd_le _ _ _ Hc Hle)].
    + intros i [<-|Hi]; [rewrite app_length; simpl; lia|apply (bd_le _ _ _ Hc Hle i Hi)].
    + apply (bd_le _ _ _ Hp Hle).
  - injection H as <- <-. simpl. assert (Hv : bd (mm_log m) (if acq then mv_cur v ++ mm_rel m x else mv_cur v)) by (destruct acq; [apply bd_app|]; auto).
    split; [constructor; simpl; [|exact B2]|split; [exact Hv|now apply bd_app]].
    intros y. destruct rel; [|auto]. unfold upd. destruct (y =? x) eqn:Exy; [|auto]. now apply bd_app.
  - injection H as <- <-. simpl. split; [constructor; auto|]. split; [now apply bd_app|exact Hp].
Qed.
Lemma bd_exec l : forall m v m' v', bounded m -> bd (mm_log m) (mv_cur v) -> bd (mm_log m) (mv_pend v) -> m_exec m v l = Some (m', v') ->
  bounded m' /\ bd (mm_log m') (mv_cur v') /\ bd (mm_log m') (mv_pend v').
Proof.
  induction l as [|a l IH]; intros m v m' v' HB Hc Hp H; cbn [m_exec] in H; [injection H as <- <-; auto|].
  destruct (m_exec1 m v a) as [[m1 v1]|] eqn:H1; [|discriminate]. destruct (bd_exec1 _ _ _ _ _ HB Hc Hp H1) as (A & B & C). eauto.
Qed.
Record hbounded (h : mst (S := S)) (tr : list (E * hbs)) : Prop := HBd {
  hb_mem : bounded (ms_mem h);
  hb_cur : forall t, bd (mm_log (ms_mem h)) (mv_cur (ms_view h t));
  hb_pend : forall t, bd (mm_log (ms_mem h)) (mv_pend (ms_view h t));
  hb_tr : forall e u, In (e, u) tr -> bd (mm_log (ms_mem h)) u }.
Lemma hb_hview h tr l v : hbounded h tr -> bd (mm_log (ms_mem h)) (mv_cur (hview h l v)) /\ bd (mm_log (ms_mem h)) (mv_pend (hview h l v)).
Proof.
  intros [[A0 A] B C D]. unfold hview. simpl. split.
  - apply bd_app.
    + unfold m_closure. apply bd_app; intros i Hi.
      * apply filter_In in Hi. now apply Nat.ltb_lt.
      * apply in_flat_map in Hi. destruct Hi as (j & Hj & Hi). unfold m_before in Hi. destruct (nth_error _ j) as [[a p]|] eqn:Hn; [|destruct Hi]. exact (A _ _ _ Hn i Hi).
    + intros i Hi. apply nodup_In, in_flat_map in Hi. destruct Hi as (w & Hw & Hi). apply in_map_iff in Hw. destruct Hw as (t & <- & _). exact (B t i Hi).
  - intros i Hi. apply nodup_In, in_flat_map in Hi. destruct Hi as (w & Hw & Hi). apply in_map_iff in Hw. destruct Hw as (t & <- & _). exact (C t i Hi).
Qed.
Lemma hb_bounded s0 ls h tr : run hstep (ms_init s0) ls = Running h tr -> hbounded h tr.
Proof.
  intros Hr. apply (h_inv (fun _ => True) hbounded s0) with (ls := ls); auto.
  - constructor; simpl; try (intros; intros i []); [constructor; simpl; [intros x i []|intros [] ? ? [=]]|]. tauto.
  - clear. intros ls h tr l v s' es m' v' _ HB _ He _. destruct (hb_hview _ _ l v HB) as [H1 H2]. destruct HB as [A B C D].
    destruct (bd_exec _ _ _ _ _ A H1 H2 He) as (A' & B' & C'). pose proof (ef_len _ _ _ _ _ (eff_exec _ _ _ _ _ He)) as Hle. constructor; simpl.
    + exact A'.
    + intros t. unfold m_set. destruct (memb _ _); [exact B'|]. exact (bd_le _ _ _ (B t) Hle).
    + intros t. unfold m_set. destruct (memb _ _); [exact C'|]. exact (bd_le _ _ _ (C t) Hle).
    + intros e u Hin. apply in_app_or in Hin. destruct Hin as [Hin|Hin]; [exact (bd_le _ _ _ (D _ _ Hin) Hle)|].
      apply in_map_iff in Hin. destruct Hin as (y & [= _ <-] & _). exact B'.
Qed.

(** Views are closed under happens-before. *)
Definition closed (g : mlog) (v : hbs) : Prop := forall i a p, nth_error g i = Some (a, p) -> In i v -> incl p v.
Record mclosed (m : mmem) : Prop := Cl { cl_rel : forall x, closed (mm_log m) (mm_rel m x); cl_log : forall i a p, nth_error (mm_log m) i = Some (a, p) -> closed (mm_log m) p }.
Lemma closed_app g v w : closed g v -> closed g w -> closed g (v ++ w).
Proof. intros H1 H2 i a p Hn Hi. apply in_app_or in Hi. destruct Hi; [apply incl_appl|apply incl_appr]; eauto. Qed.
Lemma closed_snoc g v x : closed g v -> bd g v -> closed (g ++ [x]) v.
Proof. intros H Hb i a p Hn Hi. apply nth_snoc in Hn. destruct Hn as [Hn|[-> _]]; [eauto|]. specialize (Hb _ Hi). lia. Qed.
Lemma cl_exec1 m v a m' v' : bounded m -> bd (mm_log m) (mv_cur v) -> bd (mm_log m) (mv_pend v) -> mclosed m -> closed (mm_log m) (mv_cur v) -> closed (mm_log m) (mv_pend v) -> m_exec1 m v a = Some (m', v') ->
  mclosed m' /\ closed (mm_log m') (mv_cur v') /\ closed (mm_log m') (mv_pend v').
Proof.
  intros [B1 B2] Bc Bp [C1 C2] Hc Hp H. destruct a as [l w|x acq rel|]; simpl in H.
  - destruct (m_ordered _ _ _); [|discriminate]. injection H as <- <-. simpl. split; [constructor; simpl|split].
    + intros x. apply closed_snoc; auto.
    + intros i a p Hi. apply nth_snoc in Hi. destruct Hi as [Hi|[_ [= -> ->]]]; apply closed_snoc; eauto.
    + intros i a p Hn Hi. apply nth_snoc in Hn. destruct Hn as [Hn|[-> [= -> ->]]]; [|apply incl_tl, incl_refl]. destruct Hi as [<-|Hi]; [assert (length (mm_log m) < length (mm_log m)) by (apply nth_error_Some; congruence); lia|]. apply incl_tl. eauto.
    + apply closed_snoc; auto.
  - injection H as <- <-. simpl. assert (Hv : closed (mm_log m) (if acq then mv_cur v ++ mm_rel m x else mv_cur v)) by (destruct acq; [apply closed_app|]; auto).
    split; [constructor; simpl; [|exact C2]|split; [exact Hv|now apply closed_app]].
    intros y. destruct rel; [|auto]. unfold upd. destruct (y =? x) eqn:Exy; [|auto]. now apply closed_app.
  - injection H as <- <-. simpl. split; [constructor; auto|]. split; [now apply closed_app|exact Hp].
Qed.
Lemma cl_exec l : forall m v m' v', bounded m -> bd (mm_log m) (mv_cur v) -> bd (mm_log m) (mv_pend v) -> mclosed m -> closed (mm_log m) (mv_cur v) -> closed (mm_log m) (mv_pend v) -> m_exec m v l = Some (m', v') ->
  mclosed m' /\ closed (mm_log m') (mv_cur v') /\ closed (mm_log m') (mv_pend v').
Proof.
  induction l as [|a l IH]; intros m v m' v' HB Bc Bp HC Hc Hp H; cbn [m_exec] in H; [injection H as <- <-; auto|].
  destruct (m_exec1 m v a) as [[m1 v1]|] eqn:H1; [|discriminate]. destruct (bd_exec1 _ _ _ _ _ HB Bc Bp H1) as (A & B & C). destruct (cl_exec1 _ _ _ _ _ HB Bc Bp HC Hc Hp H1) as (A' & B' & C'). eauto.
Qed.
Record hclosed (h : mst (S := S)) : Prop := HCl {
  hc_mem : mclosed (ms_mem h);
  hc_cur : forall t, closed (mm_log (ms_mem h)) (mv_cur (ms_view h t));
  hc_pend : forall t, closed (mm_log (ms_mem h)) (mv_pend (ms_view h t)) }.
Lemma closed_join g (f : mview -> hbs) (w : nat -> mview) l : (forall t, closed g (f (w t))) -> closed g (nodup Nat.eq_dec (flat_map f (map w l))).
Proof.
  intros H i a p Hn Hi x Hx. apply nodup_In, in_flat_map in Hi. destruct Hi as (u & Hu & Hi). apply nodup_In, in_flat_map. exists u. split; [exact Hu|]. apply in_map_iff in Hu. destruct Hu as (t & <- & _). exact (H t _ _ _ Hn Hi x Hx).
Qed.
Lemma closed_closure m v : mclosed m -> closed (mm_log m) (m_closure (mm_log m) v).
Proof.
  intros [_ C] i a p Hn Hi x Hx. unfold m_closure in *. apply in_or_app. right. apply in_app_or in Hi. apply in_flat_map. destruct Hi as [Hi|Hi].
  - exists i. split; [exact Hi|]. unfold m_before. rewrite Hn. exact Hx.
  - apply in_flat_map in Hi. destruct Hi as (j & Hj & Hi). exists j. split; [exact Hj|]. unfold m_before in *. destruct (nth_error (mm_log m) j) as [[b q]|] eqn:En; [|destruct Hi]. exact (C _ _ _ En _ _ _ Hn Hi x Hx).
Qed.
Lemma hb_closed s0 ls h tr : run hstep (ms_init s0) ls = Running h tr -> hclosed h.
Proof.
  intros Hr. apply (h_inv (fun _ => True) (fun h _ => hclosed h) s0) with (ls := ls) (tr := tr); auto.
  - constructor; simpl; try (intros; intros [] ? ? [=]). constructor; simpl; intros; intros [] ? ? [=].
  - clear. intros ls h tr l v s' es m' v' Hr [A B C] _ He _. pose proof (hb_bounded _ _ _ _ Hr) as HB. destruct (hb_hview _ _ l v HB) as [H1 H2]. pose proof (ef_len _ _ _ _ _ (eff_exec _ _ _ _ _ He)) as Hle.
    assert (Q1 : closed (mm_log (ms_mem h)) (mv_cur (hview h l v))) by (unfold hview; simpl; apply closed_app; [apply closed_closure; exact A|now apply closed_join]).
    assert (Q2 : closed (mm_log (ms_mem h)) (mv_pend (hview h l v))) by (unfold hview; simpl; now apply closed_join).
    destruct (cl_exec _ _ _ _ _ (hb_mem _ _ HB) H1 H2 A Q1 Q2 He) as (A' & B' & C'). destruct (exec_mono _ _ _ _ _ He) as (_ & _ & [g Eg] & _).
    assert (Old : forall u, closed (mm_log (ms_mem h)) u -> bd (mm_log (ms_mem h)) u -> closed (mm_log m') u).
    { intros u Hu Hb i a p Hn Hi. rewrite Eg, nth_error_app1 in Hn by (apply Hb; exact Hi). eauto. }
    constructor; cbn [ms_mem ms_view].
    + exact A'.
    + intros t. unfold m_set. destruct (memb _ _); [exact B'|]. apply Old; [apply B|exact (hb_cur _ _ HB t)].
    + intros t. unfold m_set. destruct (memb _ _); [exact C'|]. apply Old; [apply C|exact (hb_pend _ _ HB t)].
Qed.
End HB.
