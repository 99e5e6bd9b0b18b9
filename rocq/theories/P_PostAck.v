(** Proofs about post_ack_mechanism. *)
From Coq Require Import List Arith Bool Lia.
From Verif Require Import Lts ListFacts M_Wait S_Wait P_Wait M_PostAck S_PostAck.
Import ListNotations.

(** ** Lists of pairs *)
Definition dl (a : nat) (l : list (nat * nat)) : list nat := map snd (filter (fun x => Nat.eqb (fst x) a) l).
Definition cp (p : nat) (l : list (nat * nat)) : nat := length (filter (fun x => Nat.eqb (snd x) p) l).

Lemma dl_app a l1 l2 : dl a (l1 ++ l2) = dl a l1 ++ dl a l2.
Proof. unfold dl. now rewrite filter_app, map_app. Qed.
Lemma cp_app p l1 l2 : cp p (l1 ++ l2) = cp p l1 + cp p l2.
Proof. unfold cp. now rewrite filter_app, app_length. Qed.
Lemma cp_cons p x l : cp p (x :: l) = (if Nat.eqb (snd x) p then 1 else 0) + cp p l.
Proof. unfold cp. simpl. destruct (Nat.eqb (snd x) p); reflexivity. Qed.
Lemma cp_pos p l : cp p l > 0 <-> exists a, In (a, p) l.
Proof.
  unfold cp. split.
  - destruct (filter (fun x => Nat.eqb (snd x) p) l) as [|[a q] t] eqn:E; simpl; [lia|]. intros _.
    assert (H : In (a, q) (filter (fun x => Nat.eqb (snd x) p) l)) by (rewrite E; now left). apply filter_In in H. simpl in H. destruct H as [H1 H2].
    apply Nat.eqb_eq in H2. subst. eauto.
  - intros [a Ha]. assert (H : In (a, p) (filter (fun x => Nat.eqb (snd x) p) l)) by (apply filter_In; simpl; rewrite Nat.eqb_refl; auto).
    destruct (filter (fun x => Nat.eqb (snd x) p) l); [destruct H|simpl; lia].
Qed.
Lemma dl_In a p l : In p (dl a l) <-> In (a, p) l.
Proof.
  unfold dl. rewrite in_map_iff. split.
  - intros ([a' p'] & H1 & H2). simpl in H1. subst. apply filter_In in H2. simpl in H2. destruct H2 as [H2 H3]. apply Nat.eqb_eq in H3. now subst.
  - intros H. exists (a, p). split; auto. apply filter_In. simpl. now rewrite Nat.eqb_refl.
Qed.

Lemma pair_eqb_true x y : pair_eqb x y = true <-> x = y.
Proof.
  destruct x as [a b], y as [c d]. unfold pair_eqb. simpl. rewrite andb_true_iff, !Nat.eqb_eq. split; [intros [-> ->]; auto|intros [= -> ->]; auto].
Qed.
Lemma drop_dl_other a a' p l : a' <> a -> dl a' (drop_pair (a, p) l) = dl a' l.
Proof.
  intros Hne. induction l as [|[b q] l IH]; simpl; auto. destruct (pair_eqb (b, q) (a, p)) eqn:E.
  - apply pair_eqb_true in E. injection E as -> ->. unfold dl. simpl. destruct (Nat.eqb_spec a a'); [congruence|auto].
  - unfold dl in *. simpl. destruct (Nat.eqb b a'); simpl; congruence.
Qed.
Lemma drop_dl_same a p l rest : dl a l = p :: rest -> dl a (drop_pair (a, p) l) = rest.
Proof.
  induction l as [|[b q] l IH]; [discriminate|]. simpl drop_pair. destruct (pair_eqb (b, q) (a, p)) eqn:E.
  - apply pair_eqb_true in E. injection E as -> ->. unfold dl. simpl. rewrite Nat.eqb_refl. simpl. congruence.
  - unfold dl in *. simpl. destruct (Nat.eqb_spec b a) as [->|]; simpl; auto. intros [= -> H]. exfalso.
    unfold pair_eqb in E. simpl in E. rewrite !Nat.eqb_refl in E. discriminate.
Qed.
Lemma drop_cp x q l : In x l -> cp q (drop_pair x l) + (if Nat.eqb (snd x) q then 1 else 0) = cp q l.
Proof.
  induction l as [|y l IH]; simpl; [tauto|]. intros H. destruct (pair_eqb y x) eqn:E.
  - apply pair_eqb_true in E. subst. rewrite cp_cons. lia.
  - destruct H as [->|H]; [exfalso; rewrite (proj2 (pair_eqb_true x x) eq_refl) in E; discriminate|].
    rewrite !cp_cons. specialize (IH H). lia.
Qed.
Lemma drop_In x y l : In y (drop_pair x l) -> In y l.
Proof. induction l as [|z l IH]; simpl; auto. destruct (pair_eqb z x); simpl; intuition. Qed.

Lemma filter_dl a a' l : dl a' (filter (fun x => negb (Nat.eqb (fst x) a)) l) = if Nat.eqb a' a then [] else dl a' l.
Proof.
  induction l as [|[b q] l IH]; simpl; [now destruct (Nat.eqb a' a)|]. destruct (Nat.eqb_spec b a) as [->|Hne]; simpl.
  - rewrite IH. destruct (Nat.eqb_spec a' a) as [->|Hn]; auto. unfold dl. simpl. destruct (Nat.eqb_spec a a'); [congruence|auto].
  - unfold dl in *. simpl. destruct (Nat.eqb_spec b a') as [->|Hn]; simpl; rewrite IH; destruct (Nat.eqb_spec a' a); try congruence; auto.
Qed.
Lemma filter_cp a q l : cp q (filter (fun x => negb (Nat.eqb (fst x) a)) l) + cnt q (dl a l) = cp q l.
Proof.
  induction l as [|[b p] l IH]; simpl; auto. rewrite cp_cons. simpl. unfold dl in *. simpl. destruct (Nat.eqb_spec b a) as [->|Hne]; simpl.
  - rewrite cnt_cons. destruct (Nat.eq_dec p q) as [->|Hn]; [rewrite Nat.eqb_refl; lia|]. destruct (Nat.eqb_spec p q); [congruence|lia].
  - rewrite cp_cons. simpl. lia.
Qed.
Lemma post_dl a p att : NoDup att -> dl a (map (fun b => (b, p)) att) = if memb a att then [p] else [].
Proof.
  induction 1 as [|b att Hb Hnd IH]; simpl; auto. unfold dl in *. simpl. destruct (Nat.eqb_spec b a) as [->|Hne]; simpl.
  - rewrite Nat.eqb_refl. simpl. rewrite IH. apply memb_not_In in Hb. unfold memb in *. now rewrite Hb.
  - destruct (Nat.eqb_spec a b); [congruence|]. simpl. exact IH.
Qed.
Lemma post_cp q p att : cp q (map (fun b => (b, p)) att) = if Nat.eqb p q then length att else 0.
Proof.
  induction att as [|b att IH]; simpl; [now destruct (Nat.eqb p q)|]. rewrite cp_cons, IH. simpl. destruct (Nat.eqb p q); auto.
Qed.

(** held handles: removing the one of [o] *)
Lemma filter_held o p q l : NoDup (map fst l) -> In (o, p) l ->
  cp q (filter (fun x => negb (Nat.eqb (fst x) o)) l) + (if Nat.eqb p q then 1 else 0) = cp q l.
Proof.
  intros Hnd Hin. rewrite <- (filter_cp o q l). f_equal. revert Hnd Hin. induction l as [|[b r] l IH]; simpl; [tauto|]. intros Hnd Hin.
  inversion Hnd as [|? ? Hb Hl]; subst. unfold dl in *. simpl. destruct (Nat.eqb_spec b o) as [->|Hne].
  - simpl. destruct Hin as [[= ->]|Hin]; [|exfalso; apply Hb; apply in_map_iff; exists (o, p); auto].
    rewrite cnt_cons. replace (map snd (filter (fun x : nat * nat => Nat.eqb (fst x) o) l)) with (@nil nat).
    + rewrite cnt_nil. destruct (Nat.eq_dec p q) as [->|Hn]; [now rewrite Nat.eqb_refl|]. destruct (Nat.eqb_spec p q); [congruence|auto].
    + symmetry. destruct (filter (fun x : nat * nat => Nat.eqb (fst x) o) l) as [|[b' r'] t] eqn:E; auto. exfalso.
      assert (H : In (b', r') (filter (fun x : nat * nat => Nat.eqb (fst x) o) l)) by (rewrite E; now left). apply filter_In in H. simpl in H.
      destruct H as [H1 H2]. apply Nat.eqb_eq in H2. subst. apply Hb, in_map_iff. exists (o, r'). auto.
  - destruct Hin as [[= -> ->]|Hin]; [congruence|]. auto.
Qed.
Lemma filter_map_fst o (l : list (nat * nat)) : NoDup (map fst l) -> NoDup (map fst (filter (fun x => negb (Nat.eqb (fst x) o)) l)).
Proof.
  induction l as [|x l IH]; simpl; auto. intros H. inversion H as [|? ? Hx Hl]; subst. destruct (negb (Nat.eqb (fst x) o)); simpl; auto.
  constructor; auto. intros Hin. apply Hx. apply in_map_iff in Hin. destruct Hin as (y & H1 & H2). apply filter_In in H2. apply in_map_iff. exists y. tauto.
Qed.

Lemma skipn_nth {A} (l : list A) n x : nth_error l n = Some x -> skipn n l = x :: skipn (S n) l.
Proof. revert n. induction l as [|y l IH]; intros [|n]; simpl; try discriminate; [now intros [= ->]|apply IH]. Qed.
Lemma skipn_snoc {A} (l : list A) n x : n <= length l -> skipn n (l ++ [x]) = skipn n l ++ [x].
Proof. revert n. induction l as [|y l IH]; intros [|n]; simpl; intros H; auto; try lia. apply IH. lia. Qed.
Lemma nth_error_skipn {A} n (l : list A) m : nth_error (skipn n l) m = nth_error l (n + m).
Proof. revert l. induction n as [|n IH]; intros [|y l]; simpl; auto. now destruct m. Qed.
Lemma nth_snoc {A} (l : list A) x : nth_error (l ++ [x]) (length l) = Some x.
Proof. rewrite nth_error_app2, Nat.sub_diag; auto. Qed.
Lemma cnt_skipn_cons p n (l : list nat) : nth_error l n = Some p -> cnt p (skipn n l) = S (cnt p (skipn (S n) l)).
Proof. intros H. rewrite (skipn_nth _ _ _ H), cnt_cons. destruct (Nat.eq_dec p p); [auto|congruence]. Qed.

Section Proofs.
Variable T : Type.
Notation P := (post_ack T).

(** ** The wait laws *)
Definition k_inv (s : PS P) : Prop := NoDup (k_pq s) /\ forall o, In o (k_pq s) -> k_pend s o = false /\ k_pnd s o = None.

Lemma det_next_pq (s : kst T) a r es s' taken es' : det_next s a r es = POk s' taken es' ->
  k_pq s' = k_pq s /\ k_pend s' = k_pend s /\ k_pnd s' = k_pnd s /\ taken = [].
Proof. unfold det_next. destruct (Nat.eqb r (g_seq (k_ag s a))); intros [= <- <- _]; auto. Qed.
Lemma retire_pq (s : kst T) a r es s' taken es' : retire_one s a r es = POk s' taken es' ->
  k_pq s' = k_pq s /\ k_pend s' = k_pend s /\ k_pnd s' = k_pnd s /\ taken = [].
Proof.
  unfold retire_one. destruct (negb (q_live s)); [discriminate|]. destruct (find_seq s (g_seq (k_ag s a))) as [p|]; [|discriminate].
  destruct (k_nd s p) as [nd|]; [|discriminate]. destruct (n_acks nd) as [|[|n]]; [discriminate| |].
  - intros [= <- <- _]. auto.
  - intros H. apply det_next_pq in H. exact H.
Qed.
Lemma complete_pq (s s' : kst T) p : post_complete s p = Some s' -> k_pq s' = k_pq s /\ k_pend s' = k_pend s /\ k_pnd s' = k_pnd s.
Proof. unfold post_complete. destruct (k_nd s p) as [nd|]; [|discriminate]. destruct (n_done nd); [discriminate|]. intros [= <-]. auto. Qed.

Lemma step_pq (s s' : kst T) l taken es : k_step s l = POk s' taken es ->
  (k_pq s' = k_pq s /\ k_pend s' = k_pend s /\ k_pnd s' = k_pnd s /\ taken = []) \/
  (exists p, k_pq s' = [] /\ taken = k_pq s /\ k_pend s' = (fun o => if memb o (k_pq s) then true else k_pend s o) /\
     k_pnd s' = (fun o => if memb o (k_pq s) then Some p else k_pnd s o)).
Proof.
  destruct l as [a|a|a|p x|o|o|o]; simpl.
  - destruct (g_mech (k_ag s a)); [discriminate|]. intros [= <- <- _]. auto.
  - destruct (negb (g_mech (k_ag s a))); [discriminate|]. destruct (g_det (k_ag s a)); [discriminate|].
    destruct (k_active s); [discriminate|]. destruct (Nat.ltb (g_seq (k_ag s a)) (k_seq s)).
    + intros H. apply retire_pq in H. simpl in H. auto.
    + intros [= <- <- _]. auto.
  - destruct (g_det (k_ag s a)) as [[r [p|]]|]; [| |discriminate].
    + destruct (post_complete s p) as [s1|] eqn:E; [|discriminate]. apply complete_pq in E. destruct E as (E1 & E2 & E3).
      intros H. apply det_next_pq in H. rewrite E1, E2, E3 in H. auto.
    + intros H. apply retire_pq in H. auto.
  - destruct (k_nd s p); [discriminate|]. destruct (k_active s).
    + destruct (k_pq s) eqn:E; [|discriminate]. intros [= <- <- _]. left. auto.
    + destruct (negb (q_live s)); [discriminate|]. destruct (existsb _ (k_pq s)); [discriminate|]. intros [= <- <- _]. right. exists p. auto.
  - destruct (k_hd s o) as [|p|p|p|p]; try discriminate. destruct (k_nd s p) as [nd|]; [|discriminate]. destruct (n_done nd); [discriminate|].
    destruct (n_acks nd); [discriminate|]. intros [= <- <- _]. auto.
  - destruct (k_hd s o) as [|p|p|p|p]; try discriminate.
    + destruct (negb (q_live s)); [discriminate|]. destruct (memb p (k_q s)); [|discriminate]. intros [= <- <- _]. auto.
    + destruct (post_complete s p) as [s1|] eqn:E; [|discriminate]. apply complete_pq in E. destruct E as (E1 & E2 & E3). intros [= <- <- _]. auto.
  - destruct (k_hd s o) as [|p|p|p|p]; try discriminate; (destruct (k_nd s p) as [nd|]; [|discriminate]); (destruct (n_done nd); [discriminate|]);
      intros [= <- <- _]; auto.
Qed.

Definition post_ack_laws : laws P.
Proof.
  refine (Laws P (fun (s : PS P) o => In o (k_pq s)) k_inv _ _ _ _ _ _).
  - simpl. split; [|auto]. split; [constructor|]. simpl. tauto.
  - intros s o a s' es (H1 & H2) Hn. simpl. unfold k_start. destruct (negb (g_mech (k_ag s a))); [discriminate|].
    destruct (Nat.ltb (g_seq (k_ag s a)) (k_seq s)).
    + destruct (negb (q_live s)); [discriminate|]. destruct (find_seq s (g_seq (k_ag s a))); discriminate.
    + intros [= <- <-]. simpl. split; [|intros o'; apply In_snoc]. split; simpl; [now apply NoDup_snoc|].
      intros o' Ho'. apply In_snoc in Ho'. unfold upd. destruct (Nat.eqb_spec o' o) as [->|Hne]; auto. apply H2. destruct Ho'; congruence.
  - intros s o a s' v es (H1 & H2) Hn. simpl. unfold k_start. destruct (negb (g_mech (k_ag s a))); [discriminate|].
    destruct (Nat.ltb (g_seq (k_ag s a)) (k_seq s)); [|discriminate].
    destruct (negb (q_live s)); [discriminate|]. destruct (find_seq s (g_seq (k_ag s a))) as [p|]; [|discriminate].
    intros [= <- <- <-]. simpl. split; [|tauto]. split; simpl; auto. intros o' Ho'. unfold upd. simpl in Hn. destruct (Nat.eqb_spec o' o) as [->|Hne]; [contradiction|auto].
  - intros s l s' taken es (H1 & H2) Hs. destruct (step_pq s s' l taken es Hs) as [(E1 & E2 & E3 & ->)|(p & E1 & -> & E2 & E3)]; simpl.
    + unfold k_inv. rewrite E1, E2, E3. split; [auto|]. split; [constructor|]. split; [simpl; tauto|]. simpl. tauto.
    + unfold k_inv. rewrite E1. split; [split; [constructor|simpl; tauto]|]. split; [auto|]. split; [auto|]. simpl. tauto.
  - intros s o (H1 & H2) Hin. simpl in Hin. simpl. unfold k_try. destruct (H2 o Hin) as [-> ->]. rewrite (proj2 (memb_In _ _) Hin).
    eexists. split; [reflexivity|]. simpl. split.
    + split; simpl; [now apply NoDup_remove1|]. intros o' Ho'. apply In_remove1_NoDup in Ho'; auto. destruct Ho' as [Ho' Hne].
      rewrite upd_other by auto. auto.
    + intros o'. now apply In_remove1_NoDup.
  - intros s o s' v HI Hn. simpl. unfold k_resume. destruct (k_pnd s o); intros [= <- _]; simpl; (split; [exact HI|tauto]).
Defined.

(** taken means: pending is set *)
Definition post_ack_tlaws : tlaws P post_ack_laws.
Proof.
  refine (TLaws P post_ack_laws (fun (s : PS P) o => k_pend s o = true) _ _ _ _ _ _ _).
  - intros s l s' taken es o HI Hs Ho. destruct (step_pq s s' l taken es Hs) as [(E1 & E2 & E3 & ->)|(p & E1 & -> & E2 & E3)]; [destruct Ho|].
    rewrite E2. now rewrite (proj2 (memb_In _ _) Ho).
  - intros s l s' taken es o HI Hp Hs. destruct (step_pq s s' l taken es Hs) as [(E1 & E2 & E3 & ->)|(p & E1 & -> & E2 & E3)]; rewrite E2; auto.
    now destruct (memb o (k_pq s)).
  - intros s o a s' es o' HI Hp Hne. simpl. unfold k_start. destruct (negb (g_mech (k_ag s a))); [discriminate|].
    destruct (Nat.ltb (g_seq (k_ag s a)) (k_seq s)).
    + destruct (negb (q_live s)); [discriminate|]. destruct (find_seq s (g_seq (k_ag s a))); discriminate.
    + intros [= <- <-]. simpl. now rewrite upd_other.
  - intros s o a s' v es o' HI Hp Hne. simpl. unfold k_start. destruct (negb (g_mech (k_ag s a))); [discriminate|].
    destruct (Nat.ltb (g_seq (k_ag s a)) (k_seq s)); [|discriminate].
    destruct (negb (q_live s)); [discriminate|]. destruct (find_seq s (g_seq (k_ag s a))) as [p|]; [|discriminate].
    intros [= <- <- <-]. simpl. now rewrite upd_other.
  - intros s o s' b o' HI Hp Hne. simpl. unfold k_try. destruct (k_pend s o); [intros [= <- <-]; auto|]. destruct (k_pnd s o); [discriminate|].
    destruct (memb o (k_pq s)); [|discriminate]. intros [= <- <-]. simpl. now rewrite upd_other.
  - intros s o s' v o' HI Hp. simpl. unfold k_resume. destruct (k_pnd s o); intros [= <- _]; auto.
  - intros s o s' b HI Hp. simpl. unfold k_try. rewrite Hp. intros [= <- <-]. auto.
Defined.
End Proofs.
