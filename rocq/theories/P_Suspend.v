(** Invariant and properties of suspend_indefinitely. *)
From Coq Require Import List Arith Bool Lia.
From Verif Require Import Lts ListFacts M_Suspend S_Suspend.
Import ListNotations.

(** ** Sums over the observers *)
Definition live (p : ophase) : nat := match p with OSet => 1 | _ => 0 end.
Definition lives (n : nat) (ph : nat -> ophase) : nat := sum (map (fun i => live (ph i)) (seq 0 n)).

Lemma sum_seq_upd (f : ophase -> nat) g j x a n : a <= j < a + n ->
  sum (map (fun i => f (upd g j x i)) (seq a n)) + f (g j) = sum (map (fun i => f (g i)) (seq a n)) + f x.
Proof.
  revert a. induction n as [|n IH]; intros a H; [lia|]. simpl. destruct (Nat.eq_dec a j) as [->|Hne].
  - rewrite upd_same. enough (E : map (fun i => f (upd g j x i)) (seq (S j) n) = map (fun i => f (g i)) (seq (S j) n)) by (rewrite E; lia).
    apply map_ext_in. intros i Hi. apply in_seq in Hi. rewrite upd_other by lia. auto.
  - rewrite upd_other by auto. specialize (IH (S a) ltac:(lia)). lia.
Qed.
Lemma lives_upd n ph j x : j < n -> lives n (upd ph j x) + live (ph j) = lives n ph + live x.
Proof. intros H. apply sum_seq_upd. lia. Qed.
Lemma sum_split {A} (f g : A -> nat) (p : A -> bool) l : (forall x, In x l -> f x = g x + (if p x then 1 else 0)) -> sum (map f l) = sum (map g l) + length (filter p l).
Proof.
  induction l as [|x l IH]; intros H; simpl; auto. rewrite (H x) by now left. rewrite IH by (intros; apply H; now right). destruct (p x); simpl; lia.
Qed.
Lemma lives_pos n ph i : i < n -> ph i = OSet -> lives n ph > 0.
Proof. intros H E. unfold lives. pose proof (sum_map_le (fun i => live (ph i)) (seq 0 n) i ltac:(apply in_seq; lia)) as L. simpl in L. rewrite E in L. simpl in L. lia. Qed.
Lemma lives_0 n ph : (forall i, i < n -> ph i <> OSet) -> lives n ph = 0.
Proof. intros H. apply sum_map_0. intros i Hi. apply in_seq in Hi. specialize (H i ltac:(lia)). destruct (ph i); simpl; congruence. Qed.

Section Toks.
Variable toks : list (option nat).
Notation N := (u_n toks).
Notation tk := (tk toks).
Notation u_step := (u_step toks).
Notation urun := (run u_step (u_start toks)).

(** ** Sums over the calls *)
Definition debtk (k : ucont) : nat := match k with KStart i => S N - i | KRet => 0 | KLoop r => length r end.
Definition debt (a : uact) : nat :=
  match a with UIdle => S N | USet i => S N - i | UOr _ k => 1 + debtk k | UTry _ c k | USub c k => c + debtk k | ULoop r => length r | UEnd => 0 end.
Definition istry (a : uact) : nat := match a with UTry _ _ _ => 1 | _ => 0 end.
Definition pendk (k : ucont) : nat := match k with KLoop r => length r | _ => 0 end.
Definition pend (a : uact) : nat :=
  match a with UOr c k => (if c then 1 else 0) + pendk k | UTry _ _ k | USub _ k => pendk k | ULoop r => length r | _ => 0 end.
Definition total (f : uact -> nat) (s : ust) : nat := f (u_main s) + sum (map f (u_acts s)).
Definition inact (s : ust) (a : uact) : Prop := exists w, u_act s w = Some a.

Lemma total_with f s w a a' : u_act s w = Some a -> total f (u_with_act s w a') + f a = total f s + f a'.
Proof.
  destruct w as [k|]; simpl; unfold total; simpl; intros H.
  - pose proof (sum_map_set_nth f _ k a' a H). lia.
  - injection H as <-. lia.
Qed.
Lemma total_le f s w a : u_act s w = Some a -> f a <= total f s.
Proof.
  destruct w as [k|]; simpl; unfold total; simpl; intros H.
  - pose proof (sum_map_le f _ _ (nth_error_In _ _ H)). lia.
  - injection H as <-. lia.
Qed.
Lemma total_two f s w w' a a' : u_act s w = Some a -> u_act s w' = Some a' -> w <> w' -> f a + f a' <= total f s.
Proof.
  intros H H' Hne. pose proof (total_with f s w a UEnd H) as E. assert (H2 : u_act (u_with_act s w UEnd) w' = Some a').
  { destruct w as [k|], w' as [k'|]; simpl in *; auto; [rewrite nth_error_set_nth_other; auto; congruence|congruence]. }
  pose proof (total_le f _ _ _ H2). assert (f UEnd <= total f (u_with_act s w UEnd)).
  { apply (total_le f _ w). destruct w as [k|]; simpl in *; auto. eapply nth_error_set_nth_same; eauto. }
  enough (f a' + f UEnd <= total f (u_with_act s w UEnd)) by lia.
  clear - H H2 Hne. destruct w as [k|], w' as [k'|]; simpl in *; unfold total; simpl.
  - pose proof (sum_map_set_nth f (u_acts s) k UEnd a H) as E1.
    assert (Hk : nth_error (set_nth (u_acts s) k UEnd) k' = Some a') by auto. pose proof (nth_error_set_nth_same _ _ UEnd _ H) as Hk2.
    set (l := set_nth (u_acts s) k UEnd) in *. clearbody l. clear - Hk Hk2 Hne.
    enough (f a' + f UEnd <= sum (map f l)) by lia. assert (k <> k') by congruence. clear Hne. revert k k' Hk Hk2 H. induction l as [|x l IH]; intros [|k] [|k'] H1 H2 H3; simpl in *; try discriminate; try congruence.
    + injection H2 as ->. pose proof (sum_map_le f _ _ (nth_error_In _ _ H1)). lia.
    + injection H1 as ->. pose proof (sum_map_le f _ _ (nth_error_In _ _ H2)). lia.
    + specialize (IH _ _ H1 H2 ltac:(congruence)). lia.
  - injection H2 as ->. pose proof (sum_map_le f _ _ (nth_error_In _ _ (nth_error_set_nth_same _ _ UEnd _ H))). lia.
  - pose proof (sum_map_le f _ _ (nth_error_In _ _ H2)). lia.
  - congruence.
Qed.
Lemma act_with_same s w a a' : u_act s w = Some a -> u_act (u_with_act s w a') w = Some a'.
Proof. destruct w as [k|]; simpl; auto. intros H. eapply nth_error_set_nth_same; eauto. Qed.
Lemma act_with_other s w w' a' : w <> w' -> u_act (u_with_act s w a') w' = u_act s w'.
Proof. destruct w as [k|], w' as [k'|]; simpl; auto; intros H; [rewrite nth_error_set_nth_other; auto; congruence|congruence]. Qed.
Lemma act_with_inv s w a a' w' b : u_act s w = Some a -> u_act (u_with_act s w a') w' = Some b -> (w = w' /\ b = a') \/ (w <> w' /\ u_act s w' = Some b).
Proof.
  intros H Hb. assert (D : w = w' \/ w <> w') by (destruct w as [k|], w' as [k'|]; try (right; discriminate); auto; destruct (Nat.eq_dec k k'); [left; congruence|right; congruence]).
  destruct D as [<-|D]; [left; rewrite (act_with_same _ _ _ _ H) in Hb; split; congruence|right; rewrite act_with_other in Hb by auto; auto].
Qed.

(** ** Shapes of calls *)
Definition pos (a : uact) : nat :=
  match a with UIdle => 0 | USet i => i | UOr _ (KStart i) | UTry _ _ (KStart i) | USub _ (KStart i) => i | _ => N end.
Definition past (a : uact) : bool := match a with UTry _ _ KRet | USub _ KRet | UEnd => true | _ => false end.
Definition mshape (a : uact) : Prop :=
  match a with
  | ULoop _ => False | UIdle | UEnd => True | USet i => i <= N
  | UOr c (KStart i) => c = true /\ i <= N | UOr c KRet => c = false | UOr _ (KLoop _) => False
  | UTry _ c (KStart i) | USub c (KStart i) => i <= N /\ c > 0 | UTry _ c KRet | USub c KRet => c > 0 | UTry _ _ (KLoop _) | USub _ (KLoop _) => False
  end.
Definition cshape (a : uact) : Prop :=
  match a with
  | ULoop _ | UEnd => True | UOr c (KLoop _) => c = true | UTry _ c (KLoop _) | USub c (KLoop _) => c > 0 | _ => False
  end.
Definition shape (w : option nat) (a : uact) : Prop := match w with None => mshape a | Some _ => cshape a end.

(** ** The invariant *)
Record UI (s : ust) (tr : list uevent) : Prop := {
  i_shape : forall w a, u_act s w = Some a -> shape w a;
  i_ctr : u_ctr s = total debt s + lives N (u_ph s);
  i_pos : forall i, i < N -> (u_ph s i = OUnset <-> pos (u_main s) <= i);
  i_init : u_init s = past (u_main s);
  i_try1 : total istry s <= 1;
  i_try0 : u_init s && u_canc s = false -> total istry s = 0 /\ forall i, i < N -> u_ph s i <> OGone;
  i_try2 : forall w j c k, u_act s w = Some (UTry j c k) -> forall i, i < N -> u_ph s i = OGone -> i < j;
  i_both : u_init s && u_canc s = true -> forall i, i < N -> u_ph s i = OSet -> exists w j c k, u_act s w = Some (UTry j c k) /\ j <= i;
  i_set : forall i e, i < N -> u_ph s i = OSet -> tk i = Some e -> u_req s e = false;
  i_taken : forall i, i < N -> u_ph s i = OTaken -> (exists e, tk i = Some e /\ u_req s e = true) /\ (u_canc s = true \/ total pend s > 0);
  i_cause : (exists i e, i < N /\ tk i = Some e /\ u_req s e = true) \/ (total pend s = 0 /\ u_canc s = false);
  i_dead : u_dead s = (u_ctr s =? 0);
  i_done : u_dones tr = (if u_dead s then 1 else 0);
  i_req : forall e, u_req s e = true <-> In (ECancel e) tr;
  i_start : In EStart tr <-> u_main s <> UIdle
}.

Lemma ui_init : UI (u_start toks) [].
Proof.
  constructor; simpl.
  - intros [[|]|] a; simpl; try discriminate. now intros [= <-].
  - unfold total. simpl. rewrite lives_0 by discriminate. lia.
  - intros i Hi. split; auto. lia.
  - reflexivity.
  - unfold total. simpl. lia.
  - intros _. split; [reflexivity|discriminate].
  - discriminate.
  - discriminate.
  - discriminate.
  - discriminate.
  - right. auto.
  - destruct N; reflexivity.
  - reflexivity.
  - intros e. split; [discriminate|tauto].
  - split; [tauto|congruence].
Qed.

Lemma u_dones_app a b : u_dones (a ++ b) = u_dones a + u_dones b.
Proof. unfold u_dones. now rewrite filter_app, app_length. Qed.

(** a call that still has something to do keeps the operation alive *)
Lemma ui_alive s tr w a : UI s tr -> u_act s w = Some a -> debt a > 0 -> u_dead s = false.
Proof. intros HI Ha Hd. rewrite (i_dead _ _ HI). apply Nat.eqb_neq. rewrite (i_ctr _ _ HI). pose proof (total_le debt _ _ _ Ha). lia. Qed.
Lemma ui_alive_set s tr i : UI s tr -> i < N -> u_ph s i = OSet -> u_dead s = false.
Proof. intros HI Hi E. rewrite (i_dead _ _ HI). apply Nat.eqb_neq. rewrite (i_ctr _ _ HI). pose proof (lives_pos N _ _ Hi E). lia. Qed.

Definition uok (tr : list uevent) (r : outcome ust uevent) : Prop :=
  match r with Next s' es => UI s' (tr ++ es) | Disabled => True | Fail _ _ => False end.

Definition u_ph_set (s : ust) (ph : nat -> ophase) : ust := US (u_dead s) (u_init s) (u_canc s) (u_ctr s) ph (u_req s) (u_main s) (u_acts s).
Lemma total_ph f s ph : total f (u_ph_set s ph) = total f s.
Proof. reflexivity. Qed.
Lemma act_ph s ph w : u_act (u_ph_set s ph) w = u_act s w.
Proof. reflexivity. Qed.

Lemma with_proj s w a : u_dead (u_with_act s w a) = u_dead s /\ u_init (u_with_act s w a) = u_init s /\ u_canc (u_with_act s w a) = u_canc s /\ u_ctr (u_with_act s w a) = u_ctr s /\
  u_ph (u_with_act s w a) = u_ph s /\ u_req (u_with_act s w a) = u_req s /\ u_main (u_with_act s w a) = (match w with None => a | Some _ => u_main s end).
Proof. destruct w; simpl; auto 10. Qed.

(** A step of call [w] that may change the observers *)
Lemma ui_move s tr w a a' ph' : UI s tr -> u_act s w = Some a -> shape w a' ->
  debt a' + lives N ph' = debt a + lives N (u_ph s) ->
  istry a' = istry a ->
  (pend a' = pend a \/ (pend a' > pend a /\ exists i e, i < N /\ tk i = Some e /\ u_req s e = true)) ->
  (w = None -> past a' = past a /\ a' <> UIdle /\ a <> UIdle) ->
  (forall i, i < N -> (ph' i = OUnset <-> (match w with None => pos a' <= i | Some _ => u_ph s i = OUnset end))) ->
  (forall i, i < N -> ph' i = OGone -> u_ph s i = OGone \/ (u_init s && u_canc s = true)) ->
  (forall j c k, a' = UTry j c k -> forall i, i < N -> ph' i = OGone -> i < j) ->
  (istry a = 0 -> forall i, i < N -> ph' i = OGone -> u_ph s i = OGone) ->
  (u_init s && u_canc s = true -> forall i, i < N -> ph' i = OSet -> u_ph s i = OSet /\ (forall j c k, a = UTry j c k -> j <= i -> exists j' c' k', a' = UTry j' c' k' /\ j' <= i)) ->
  (forall i e, i < N -> ph' i = OSet -> tk i = Some e -> u_req s e = false) ->
  (forall i, i < N -> ph' i = OTaken -> u_ph s i = OTaken \/ ((exists e, tk i = Some e /\ u_req s e = true) /\ pend a' > 0)) ->
  UI (u_with_act (u_ph_set s ph') w a') (tr ++ []).
Proof.
  intros HI Ha Hsh Hdebt Htry Hpend Hmain Hun Hgone Htry2 Hgone0 Hboth Hset Htaken. rewrite app_nil_r.
  pose proof (total_with debt (u_ph_set s ph') w a a' Ha) as Td. pose proof (total_with istry (u_ph_set s ph') w a a' Ha) as Tt. pose proof (total_with pend (u_ph_set s ph') w a a' Ha) as Tp.
  rewrite total_ph in Td, Tt, Tp. destruct (with_proj (u_ph_set s ph') w a') as (E1 & E2 & E3 & E4 & E5 & E6 & E7). simpl in E1, E2, E3, E4, E5, E6, E7.
  pose proof (i_ctr _ _ HI) as Hc. constructor; rewrite ?E1, ?E2, ?E3, ?E4, ?E5, ?E6; try apply HI.
  - intros w' b Hb. destruct (act_with_inv _ _ _ _ _ _ (Ha : u_act (u_ph_set s ph') w = Some a) Hb) as [[<- ->]|[_ H]]; auto. now apply (i_shape _ _ HI).
  - lia.
  - intros i Hi. rewrite E7, (Hun i Hi). destruct w; [|tauto]. now apply (i_pos _ _ HI).
  - rewrite E7, (i_init _ _ HI). destruct w; auto. destruct (Hmain eq_refl) as [E _]. simpl in Ha. injection Ha as ->. auto.
  - pose proof (i_try1 _ _ HI). lia.
  - intros Hb. destruct (i_try0 _ _ HI Hb) as [H1 H2]. split; [lia|]. intros i Hi E. destruct (Hgone i Hi E) as [H|H]; [now apply (H2 i Hi)|congruence].
  - intros w' j c k Hb i Hi E. destruct (act_with_inv _ _ _ _ _ _ (Ha : u_act (u_ph_set s ph') w = Some a) Hb) as [[<- Eb]|[Hne H]]; [now apply (Htry2 j c k)|].
    rewrite act_ph in H. apply (i_try2 _ _ HI _ _ _ _ H); auto. apply Hgone0; auto.
    pose proof (total_two istry _ _ _ _ _ Ha H Hne) as H2. pose proof (i_try1 _ _ HI). simpl in H2. lia.
  - intros Hb i Hi E. destruct (Hboth Hb i Hi E) as [E' H]. destruct (i_both _ _ HI Hb i Hi E') as (w' & j & c & k & Hw & Hj).
    assert (D : w = w' \/ w <> w') by (destruct w as [q|], w' as [q'|]; try (right; discriminate); auto; destruct (Nat.eq_dec q q'); [left; congruence|right; congruence]).
    destruct D as [<-|D].
    + rewrite Ha in Hw. injection Hw as ->. destruct (H _ _ _ eq_refl Hj) as (j' & c' & k' & -> & Hj'). exists w, j', c', k'. split; auto. eapply act_with_same. exact Ha.
    + exists w', j, c, k. split; auto. rewrite act_with_other by auto. exact Hw.
  - exact Hset.
  - intros i Hi E. destruct (Htaken i Hi E) as [H|[H Hp]].
    + destruct (i_taken _ _ HI i Hi H) as [H1 H2]. split; auto. destruct H2; [auto|right]. lia.
    + split; auto. right. pose proof (total_le pend _ _ _ (act_with_same (u_ph_set s ph') w a a' Ha)). lia.
  - destruct (i_cause _ _ HI) as [H|[H1 H2]]; [auto|]. destruct Hpend as [Hp|[_ H]]; [right; split; [lia|auto]|left; auto].
  - rewrite (i_start _ _ HI), E7. destruct w; [tauto|]. simpl in Ha. injection Ha as E. rewrite E. destruct (Hmain eq_refl) as (_ & H1 & H2). tauto.
Qed.
Lemma ph_same s w a : u_with_act s w a = u_with_act (u_ph_set s (u_ph s)) w a.
Proof. destruct s, w; reflexivity. Qed.
Lemma ph_upd s i x : u_with_ph s i x = u_ph_set s (upd (u_ph s) i x).
Proof. reflexivity. Qed.

Lemma both_past s tr : UI s tr -> u_init s && u_canc s = true -> past (u_main s) = true.
Proof. intros HI H. apply andb_true_iff in H. rewrite <- (i_init _ _ HI). tauto. Qed.

Ltac upds := repeat match goal with |- context [upd _ ?i _ ?j] => unfold upd; destruct (Nat.eqb_spec j i) as [->|] | H : context [upd _ ?i _ ?j] |- _ => unfold upd in H; destruct (Nat.eqb_spec j i) as [->|] end.

Lemma ui_uset s tr i : UI s tr -> u_main s = USet i -> uok tr (uact_step toks s None (USet i)).
Proof.
  intros HI Hm. assert (Ha : u_act s None = Some (USet i)) by (simpl; congruence). pose proof (i_shape _ _ HI _ _ Ha) as Hs. simpl in Hs. pose proof (i_pos _ _ HI) as Hp. rewrite Hm in Hp. cbn [pos] in Hp.
  assert (Hb : u_init s = false) by (rewrite (i_init _ _ HI), Hm; reflexivity).
  cbn [uact_step]. rewrite (ui_alive _ _ _ _ HI Ha) by (cbn [debt debtk]; lia). destruct (i <? N) eqn:Hi; [apply Nat.ltb_lt in Hi|apply Nat.ltb_ge in Hi].
  - assert (Hu : u_ph s i = OUnset) by (apply (Hp i Hi); lia).
    assert (HS : (forall e, tk i = Some e -> u_req s e = false) -> UI (u_with_act (u_with_ph s i OSet) None (USet (S i))) (tr ++ [])).
    { intros Hreq. rewrite ph_upd. apply (ui_move s tr None (USet i)); auto; try (simpl; lia).
      - pose proof (lives_upd N (u_ph s) i OSet Hi) as L. rewrite Hu in L. simpl in L. cbn [debt]. lia.
      - intros _. repeat split; discriminate.
      - intros j Hj. cbn [pos]. upds; [split; [discriminate|intros; exfalso; lia]|]. rewrite (Hp j Hj). lia.
      - intros j Hj E. upds; [discriminate|auto].
      - discriminate.
      - intros _ j Hj E. upds; [discriminate|auto].
      - rewrite Hb. discriminate.
      - intros j e Hj E Ht. upds; [auto|]. now apply (i_set _ _ HI j).
      - intros j Hj E. upds; [discriminate|auto]. }
    destruct (tk i) as [e|] eqn:Ht; [|apply HS; discriminate]. rewrite Hu. destruct (u_req s e) eqn:Hr; [|apply HS; congruence].
    unfold uok. rewrite ph_upd. apply (ui_move s tr None (USet i)); auto; try (simpl; lia).
    + pose proof (lives_upd N (u_ph s) i OTaken Hi) as L. rewrite Hu in L. simpl in L. cbn [debt debtk]. lia.
    + right. split; [simpl; lia|]. eauto.
    + intros _. repeat split; discriminate.
    + intros j Hj. cbn [pos]. upds; [split; [discriminate|intros; exfalso; lia]|]. rewrite (Hp j Hj). lia.
    + intros j Hj E. upds; [discriminate|auto].
    + discriminate.
    + intros _ j Hj E. upds; [discriminate|auto].
    + rewrite Hb. discriminate.
    + intros j e' Hj E Ht'. upds; [discriminate|]. now apply (i_set _ _ HI j).
    + intros j Hj E. upds; [right; split; [eauto|simpl; lia]|auto].
  - unfold uok. rewrite ph_same. apply (ui_move s tr None (USet i)); auto; try (simpl; lia); try reflexivity.
    + cbn [debt debtk]. lia.
    + intros _. repeat split; discriminate.
    + intros j Hj. cbn [pos]. rewrite (Hp j Hj). lia.
    + discriminate.
    + rewrite Hb. discriminate.
    + apply (i_set _ _ HI).
Qed.

(** shapes of the parts of transition_() *)
Lemma shape_ret w k : shape w (USub 1 k) -> shape w (uret k).
Proof. destruct w, k; simpl; tauto. Qed.
Lemma shape_try w j c k : shape w (UTry j c k) <-> shape w (USub c k).
Proof. destruct w, k; simpl; tauto. Qed.
Lemma shape_or w c k : shape w (UOr c k) -> shape w (USub 1 k).
Proof. destruct w, k; simpl; intuition lia. Qed.
Lemma shape_sub w c c' k : c' > 0 -> shape w (USub c k) -> shape w (USub c' k).
Proof. destruct w, k; simpl; tauto. Qed.
Lemma sub_ctr w c k : shape w (USub c k) -> c > 0.
Proof. destruct w, k; simpl; tauto. Qed.

Lemma ui_utry s tr w i ctr k : UI s tr -> u_act s w = Some (UTry i ctr k) -> uok tr (uact_step toks s w (UTry i ctr k)).
Proof.
  intros HI Ha. pose proof (i_shape _ _ HI _ _ Ha) as Hs. rewrite shape_try in Hs. pose proof (sub_ctr _ _ _ Hs) as Hctr.
  assert (Hboth : u_init s && u_canc s = true).
  { destruct (u_init s && u_canc s) eqn:E; auto. destruct (i_try0 _ _ HI E) as [H _]. pose proof (total_le istry _ _ _ Ha). simpl in *. lia. }
  assert (Hp : forall j, j < N -> u_ph s j <> OUnset).
  { intros j Hj E. apply (i_pos _ _ HI j Hj) in E. pose proof (both_past _ _ HI Hboth) as H. destruct (u_main s) as [|?|? []|? ? []|? []|?|]; simpl in *; try discriminate; lia. }
  assert (Hmain : w = None -> k = KRet).
  { intros ->. pose proof (both_past _ _ HI Hboth) as H. simpl in Ha. injection Ha as E. rewrite E in H. destruct k; simpl in *; try discriminate; auto. }
  assert (HS : i < N -> (u_ph s i = OSet) -> UI (u_with_act (u_with_ph s i OGone) w (UTry (S i) (S ctr) k)) (tr ++ [])).
  { intros Hi E. rewrite ph_upd. apply (ui_move s tr w (UTry i ctr k)); auto.
    - apply shape_try. eapply shape_sub; [|exact Hs]. lia.
    - pose proof (lives_upd N (u_ph s) i OGone Hi) as L. rewrite E in L. simpl in L. cbn [debt]. lia.
    - intros Hw. rewrite (Hmain Hw). repeat split; discriminate.
    - intros j Hj. destruct w.
      + upds; [rewrite E; split; discriminate|tauto].
      + rewrite (Hmain eq_refl). simpl. specialize (Hp j Hj). upds; split; try congruence; lia.
    - intros j c' k' [= <- <- <-] x Hx E'. upds; [lia|]. pose proof (i_try2 _ _ HI _ _ _ _ Ha x Hx E'). lia.
    - discriminate.
    - intros _ j Hj E'. upds; [discriminate|]. split; auto. intros j' c' k' [= <- <- <-] Hle. exists (S i), (S ctr), k. split; auto. lia.
    - intros j e Hj E' Ht. upds; [discriminate|]. now apply (i_set _ _ HI j).
    - intros j Hj E'. upds; [discriminate|auto]. }
  cbn [uact_step]. destruct (i <? N) eqn:Hi; [apply Nat.ltb_lt in Hi|apply Nat.ltb_ge in Hi].
  - rewrite (ui_alive _ _ _ _ HI Ha) by (cbn [debt debtk]; lia). specialize (Hp i Hi) as Hun.
    assert (Hng : u_ph s i <> OGone) by (intros E; pose proof (i_try2 _ _ HI _ _ _ _ Ha i Hi E); lia).
    destruct (tk i) as [e|] eqn:Ht.
    + destruct (u_ph s i) eqn:E; try congruence.
      * rewrite (i_set _ _ HI i e Hi E Ht). apply HS; auto.
      * destruct (i_taken _ _ HI i Hi E) as [(e' & Ht' & Hr) _]. replace e' with e in Hr by congruence. rewrite Hr. unfold uok. rewrite ph_same. apply (ui_move s tr w (UTry i ctr k)); auto.
        -- intros Hw. rewrite (Hmain Hw). repeat split; discriminate.
        -- intros j Hj. destruct w; [tauto|]. rewrite (Hmain eq_refl). simpl. specialize (Hp j Hj). split; [congruence|intros; exfalso; lia].
        -- intros j c' k' [= <- <- <-] x Hx E'. pose proof (i_try2 _ _ HI _ _ _ _ Ha x Hx E'). lia.
        -- intros _ j Hj E'. split; auto. intros j' c' k' [= <- <- <-] Hle. exists (S i), ctr, k. split; auto. assert (j <> i) by congruence. lia.
        -- apply (i_set _ _ HI).
    + assert (E : u_ph s i = OSet). { destruct (u_ph s i) eqn:E; try congruence. destruct (i_taken _ _ HI i Hi E) as [(e' & Ht' & Hr) _]. congruence. }
      apply HS; auto.
  - assert (Hnone : forall j, j < N -> u_ph s j <> OSet).
    { intros j Hj E. destruct (i_both _ _ HI Hboth j Hj E) as (w' & j' & c' & k' & Hw' & Hle).
      assert (D : w = w' \/ w <> w') by (destruct w as [q|], w' as [q'|]; try (right; discriminate); auto; destruct (Nat.eq_dec q q'); [left; congruence|right; congruence]).
      destruct D as [<-|D]; [rewrite Ha in Hw'; injection Hw' as <- _ _; lia|]. pose proof (total_two istry _ _ _ _ _ Ha Hw' D). pose proof (i_try1 _ _ HI). simpl in *. lia. }
    unfold uok. rewrite app_nil_r.
    pose proof (total_with debt s w _ (USub ctr k) Ha) as Td. pose proof (total_with istry s w _ (USub ctr k) Ha) as Tt. pose proof (total_with pend s w _ (USub ctr k) Ha) as Tp.
    destruct (with_proj s w (USub ctr k)) as (E1 & E2 & E3 & E4 & E5 & E6 & E7). simpl in Td, Tt, Tp.
    constructor; rewrite ?E1, ?E2, ?E3, ?E4, ?E5, ?E6; try apply HI.
    + intros w' b Hb. destruct (act_with_inv _ _ _ _ _ _ Ha Hb) as [[<- ->]|[_ H]]; auto. now apply (i_shape _ _ HI).
    + rewrite (i_ctr _ _ HI). lia.
    + intros j Hj. rewrite E7. destruct w; [now apply (i_pos _ _ HI)|]. rewrite (Hmain eq_refl). simpl. specialize (Hp j Hj). split; [congruence|intros; exfalso; lia].
    + rewrite E7, (i_init _ _ HI). destruct w; auto. simpl in Ha. injection Ha as ->. rewrite (Hmain eq_refl). reflexivity.
    + pose proof (i_try1 _ _ HI). lia.
    + congruence.
    + intros w' j c' k' Hb x Hx E. destruct (act_with_inv _ _ _ _ _ _ Ha Hb) as [[_ Eb]|[_ H]]; [discriminate|]. now apply (i_try2 _ _ HI _ _ _ _ H).
    + intros _ j Hj E. destruct (Hnone j Hj E).
    + intros j Hj E. destruct (i_taken _ _ HI j Hj E) as [H1 H2]. split; auto. destruct H2; [auto|right; lia].
    + destruct (i_cause _ _ HI) as [H|[H1 H2]]; [auto|right; split; [lia|auto]].
    + rewrite (i_start _ _ HI), E7. destruct w; [tauto|]. simpl in Ha. injection Ha as ->. split; congruence.
Qed.

Lemma weq (w w' : option nat) : w = w' \/ w <> w'.
Proof. destruct w as [q|], w' as [q'|]; try (right; discriminate); auto. destruct (Nat.eq_dec q q'); [left; congruence|right; congruence]. Qed.

Definition u_bits (s : ust) (i c : bool) : ust := US (u_dead s) i c (u_ctr s) (u_ph s) (u_req s) (u_main s) (u_acts s).

Lemma ui_uor s tr w c k : UI s tr -> u_act s w = Some (UOr c k) -> uok tr (uact_step toks s w (UOr c k)).
Proof.
  intros HI Ha. pose proof (i_shape _ _ HI _ _ Ha) as Hs. pose proof (shape_or _ _ _ Hs) as Hs1.
  cbn [uact_step]. rewrite (ui_alive _ _ _ _ HI Ha) by (cbn [debt debtk]; lia). cbn zeta. change (US false) with (US false).
  assert (Hd : u_dead s = false) by (apply (ui_alive _ _ _ _ HI Ha); cbn [debt debtk]; lia).
  set (a' := if negb (u_init s && u_canc s) && ((u_init s || negb c) && (u_canc s || c)) then UTry 0 1 k else USub 1 k).
  unfold uok. rewrite app_nil_r. fold (u_bits s (u_init s || negb c) (u_canc s || c)).
  replace (US false (u_init s || negb c) (u_canc s || c) (u_ctr s) (u_ph s) (u_req s) (u_main s) (u_acts s)) with (u_bits s (u_init s || negb c) (u_canc s || c)) by (unfold u_bits; now rewrite Hd).
  set (s1 := u_bits s (u_init s || negb c) (u_canc s || c)).
  assert (Ha1 : u_act s1 w = Some (UOr c k)) by exact Ha.
  pose proof (total_with debt s1 w _ a' Ha1) as Td. pose proof (total_with istry s1 w _ a' Ha1) as Tt. pose proof (total_with pend s1 w _ a' Ha1) as Tp.
  change (total debt s1) with (total debt s) in Td. change (total istry s1) with (total istry s) in Tt. change (total pend s1) with (total pend s) in Tp.
  assert (Ed : debt a' = debt (UOr c k)) by (unfold a'; destruct (_ && _); reflexivity).
  assert (Ep : pend a' = pendk k) by (unfold a'; destruct (_ && _); reflexivity). cbn [pend] in Tp. cbn [istry] in Tt.
  assert (Esh : shape w a') by (unfold a'; destruct (_ && _); [apply shape_try|]; auto).
  assert (Epos : w = None -> pos a' = pos (UOr c k)) by (unfold a'; destruct (_ && _); reflexivity).
  assert (Hinit : w = None -> past a' = u_init s || negb c).
  { intros ->. rewrite (i_init _ _ HI). simpl in Ha. injection Ha as E. rewrite E. destruct k as [i| |r]; simpl in Hs; [destruct Hs as [Hs _]| |destruct Hs]; unfold a'; rewrite Hs; match goal with |- past (if ?b then _ else _) = _ => destruct b end; reflexivity. }
  assert (Hc : forall q, w = Some q -> c = true) by (intros q ->; destruct k; simpl in Hs; try tauto; auto).
  assert (Hor : negb c = false -> u_init s || negb c = u_init s) by (intros ->; apply orb_false_r).
  destruct (with_proj s1 w a') as (E1 & E2 & E3 & E4 & E5 & E6 & E7). unfold s1 at 2, u_bits in E1. unfold s1 at 2, u_bits in E2. unfold s1 at 2, u_bits in E3. unfold s1 at 2, u_bits in E4. unfold s1 at 2, u_bits in E5. unfold s1 at 2, u_bits in E6. unfold s1 at 2, u_bits in E7. simpl in E1, E2, E3, E4, E5, E6, E7.
  constructor; rewrite ?E1, ?E2, ?E3, ?E4, ?E5, ?E6; try apply HI.
  - intros w' b Hb. destruct (act_with_inv _ _ _ _ _ _ Ha1 Hb) as [[<- ->]|[_ H]]; auto. now apply (i_shape _ _ HI).
  - rewrite (i_ctr _ _ HI). lia.
  - intros j Hj. rewrite E7, (i_pos _ _ HI j Hj). destruct w; [tauto|]. rewrite (Epos eq_refl). simpl in Ha. injection Ha as ->. reflexivity.
  - rewrite E7. destruct w; [|now rewrite Hinit]. rewrite (Hc _ eq_refl). simpl. rewrite orb_false_r. apply (i_init _ _ HI).
  - destruct (u_init s && u_canc s) eqn:Eb.
    + assert (istry a' = 0) by reflexivity. pose proof (i_try1 _ _ HI). lia.
    + destruct (i_try0 _ _ HI Eb) as [H _]. assert (istry a' <= 1) by (unfold a'; match goal with |- istry (if ?b then _ else _) <= _ => destruct b end; simpl; lia). lia.
  - intros Hb. assert (Eb : u_init s && u_canc s = false) by (destruct (u_init s), (u_canc s); simpl in *; congruence).
    destruct (i_try0 _ _ HI Eb) as [H1 H2]. split; auto. assert (istry a' = 0) by (unfold a'; rewrite Hb, andb_false_r; reflexivity). lia.
  - intros w' j c' k' Hb i Hi E. destruct (act_with_inv _ _ _ _ _ _ Ha1 Hb) as [[<- Eb]|[Hne H]].
    + unfold a' in Eb. destruct (u_init s && u_canc s) eqn:Eb2; [discriminate|]. destruct (i_try0 _ _ HI Eb2) as [_ H]. destruct (H i Hi E).
    + now apply (i_try2 _ _ HI _ _ _ _ H).
  - intros Hb i Hi E. destruct (u_init s && u_canc s) eqn:Eb.
    + destruct (i_both _ _ HI Eb i Hi E) as (w' & j & c' & k' & Hw & Hj). exists w', j, c', k'. split; auto.
      destruct (weq w w') as [<-|D]; [rewrite Ha in Hw; discriminate|]. rewrite act_with_other by auto. exact Hw.
    + exists w, 0, 1, k. split; [|lia]. rewrite (act_with_same _ _ _ _ Ha1). unfold a'. rewrite Hb. reflexivity.
  - intros i Hi E. destruct (i_taken _ _ HI i Hi E) as [H1 H2]. split; auto. destruct c; [left; apply orb_true_r|]. destruct H2 as [->|H2]; [auto|right; lia].
  - destruct (i_cause _ _ HI) as [H|[H1 H2]]; [auto|]. pose proof (total_le pend _ _ _ Ha) as Hp. simpl in Hp. destruct c; [simpl in Hp; lia|]. right. rewrite H2. split; [lia|reflexivity].
  - rewrite (i_start _ _ HI), E7. destruct w; [tauto|]. simpl in Ha. injection Ha as ->. assert (a' <> UIdle) by (unfold a'; destruct (_ && _); discriminate). split; congruence.
Qed.

Lemma debt_ret k : debt (uret k) = debtk k.
Proof. destruct k; reflexivity. Qed.
Lemma pend_ret k : pend (uret k) = pendk k.
Proof. destruct k; reflexivity. Qed.

Lemma ui_usub s tr w c k : UI s tr -> u_act s w = Some (USub c k) -> uok tr (uact_step toks s w (USub c k)).
Proof.
  intros HI Ha. pose proof (i_shape _ _ HI _ _ Ha) as Hs. pose proof (sub_ctr _ _ _ Hs) as Hctr.
  assert (Hd : u_dead s = false) by (apply (ui_alive _ _ _ _ HI Ha); cbn [debt debtk]; lia).
  pose proof (total_le debt _ _ _ Ha) as Hle. cbn [debt] in Hle. pose proof (i_ctr _ _ HI) as Hc. cbn [uact_step]. rewrite Hd.
  replace (u_ctr s <? c) with false by (symmetry; apply Nat.ltb_ge; lia).
  assert (Hk : u_ctr s = c -> u_init s = true).
  { intros E. rewrite (i_init _ _ HI). destruct w as [q|].
    - pose proof (total_two debt s (Some q) None _ _ Ha eq_refl ltac:(discriminate)) as H2. cbn [debt] in H2.
      assert (Hm : debt (u_main s) = 0) by lia. pose proof (i_shape _ _ HI None _ eq_refl) as Hms. simpl in Hms. destruct (u_main s) as [|i|b k'|i c' k'|c' k'|r|]; cbn [debt] in Hm; simpl in Hms; try lia; try reflexivity; destruct k'; try lia; tauto.
    - simpl in Ha. injection Ha as ->. assert (debtk k = 0) by lia. destruct k as [i| |r]; simpl in Hs; [cbn [debtk] in *; lia|reflexivity|destruct Hs]. }
  assert (HU : forall d tr', d = (u_ctr s - c =? 0) -> u_dones tr' = (if d then 1 else 0) -> (forall e, In (ECancel e) tr' <-> In (ECancel e) tr) -> (In EStart tr' <-> In EStart tr) ->
    UI (u_with_act (US d (u_init s) (u_canc s) (u_ctr s - c) (u_ph s) (u_req s) (u_main s) (u_acts s)) w (uret k)) tr').
  { intros d tr' Edead Edone Ecan Est.
    set (s1 := US d (u_init s) (u_canc s) (u_ctr s - c) (u_ph s) (u_req s) (u_main s) (u_acts s)).
    assert (Ha1 : u_act s1 w = Some (USub c k)) by exact Ha.
    pose proof (total_with debt s1 w _ (uret k) Ha1) as Td. pose proof (total_with istry s1 w _ (uret k) Ha1) as Tt. pose proof (total_with pend s1 w _ (uret k) Ha1) as Tp.
    change (total debt s1) with (total debt s) in Td. change (total istry s1) with (total istry s) in Tt. change (total pend s1) with (total pend s) in Tp.
    rewrite debt_ret in Td. rewrite pend_ret in Tp. cbn [debt] in Td. cbn [pend] in Tp.
    assert (Etry : istry (uret k) = 0) by (destruct k; reflexivity). simpl in Tt.
    destruct (with_proj s1 w (uret k)) as (E1 & E2 & E3 & E4 & E5 & E6 & E7). cbn [s1 u_dead u_init u_canc u_ctr u_ph u_req u_main] in E1, E2, E3, E4, E5, E6, E7.
    constructor; rewrite ?E1, ?E2, ?E3, ?E4, ?E5, ?E6; try apply HI; auto.
    - intros w' b Hb. destruct (act_with_inv _ _ _ _ _ _ Ha1 Hb) as [[<- ->]|[_ H]]; [|now apply (i_shape _ _ HI)]. apply shape_ret. eapply shape_sub; [|exact Hs]. lia.
    - lia.
    - intros j Hj. rewrite E7, (i_pos _ _ HI j Hj). destruct w; [tauto|]. simpl in Ha. injection Ha as ->. destruct k; simpl in *; tauto.
    - rewrite E7, (i_init _ _ HI). destruct w; auto. simpl in Ha. injection Ha as ->. destruct k; simpl in *; tauto.
    - pose proof (i_try1 _ _ HI). lia.
    - intros Hb. destruct (i_try0 _ _ HI Hb). split; auto. lia.
    - intros w' j c' k' Hb i Hi E. destruct (act_with_inv _ _ _ _ _ _ Ha1 Hb) as [[<- Eb]|[Hne H]]; [destruct k; discriminate|]. now apply (i_try2 _ _ HI _ _ _ _ H).
    - intros Hb i Hi E. destruct (i_both _ _ HI Hb i Hi E) as (w' & j & c' & k' & Hw & Hj). exists w', j, c', k'. split; auto.
      destruct (weq w w') as [<-|D]; [rewrite Ha in Hw; discriminate|]. rewrite act_with_other by auto. exact Hw.
    - intros i Hi E. destruct (i_taken _ _ HI i Hi E) as [H1 H2]. split; auto. destruct H2 as [H2|H2]; [auto|right; lia].
    - destruct (i_cause _ _ HI) as [H|[H1 H2]]; [auto|right; split; [lia|auto]].
    - intros e. rewrite (Ecan e). apply (i_req _ _ HI).
    - rewrite Est, (i_start _ _ HI), E7. destruct w; [tauto|]. simpl in Ha. injection Ha as ->. destruct k; simpl in *; try tauto; split; discriminate. }
  destruct (u_ctr s =? c) eqn:E; [apply Nat.eqb_eq in E|apply Nat.eqb_neq in E].
  - rewrite (Hk E). replace (u_ctr s =? 0) with false by (symmetry; apply Nat.eqb_neq; lia). cbn [negb orb uok].
    replace 0 with (u_ctr s - c) by lia. rewrite (Hk E) in HU. apply HU.
    + symmetry. apply Nat.eqb_eq. lia.
    + rewrite u_dones_app, (i_done _ _ HI), Hd. reflexivity.
    + intros e. rewrite In_snoc. intuition discriminate.
    + rewrite In_snoc. intuition discriminate.
  - unfold uok. apply HU.
    + symmetry. apply Nat.eqb_neq. lia.
    + rewrite app_nil_r, (i_done _ _ HI), Hd. reflexivity.
    + intros e. rewrite app_nil_r. tauto.
    + rewrite app_nil_r. tauto.
Qed.

Lemma ui_uloop s tr w r : UI s tr -> u_act s w = Some (ULoop r) -> uok tr (uact_step toks s w (ULoop r)).
Proof.
  intros HI Ha. pose proof (i_shape _ _ HI _ _ Ha) as Hs. destruct w as [q|]; [|destruct Hs]. destruct r as [|i r]; cbn [uact_step].
  - unfold uok. rewrite ph_same. apply (ui_move s tr (Some q) (ULoop [])); auto; try (simpl; lia); try discriminate; try tauto; try apply (i_set _ _ HI).
    intros _ i Hi E. split; auto. discriminate.
  - rewrite (ui_alive _ _ _ _ HI Ha) by (cbn [debt length]; lia). unfold uok. rewrite ph_same. apply (ui_move s tr (Some q) (ULoop (i :: r))); auto; try (simpl; lia); try discriminate; try tauto; try apply (i_set _ _ HI).
    intros _ j Hj E. split; auto. discriminate.
Qed.

Lemma ui_start s tr : UI s tr -> uok tr (u_step s LStart).
Proof.
  intros HI. simpl. destruct (u_main s) eqn:Hm; simpl; auto. assert (Ha : u_act s None = Some UIdle) by (simpl; congruence).
  pose proof (total_with debt s None _ (USet 0) Ha) as Td. pose proof (total_with istry s None _ (USet 0) Ha) as Tt. pose proof (total_with pend s None _ (USet 0) Ha) as Tp. cbn [debt istry pend] in Td, Tt, Tp.
  assert (Hi0 : u_init s = false) by (rewrite (i_init _ _ HI), Hm; reflexivity).
  constructor; try apply HI; unfold u_with_act in *; cbn [u_dead u_init u_canc u_ctr u_ph u_req u_main u_acts] in *.
  - intros w' b Hb. destruct w' as [q|]; [now apply (i_shape _ _ HI (Some q))|]. simpl in Hb. injection Hb as <-. simpl. lia.
  - pose proof (i_ctr _ _ HI). lia.
  - intros i Hi. rewrite (i_pos _ _ HI i Hi), Hm. simpl. tauto.
  - now rewrite Hi0.
  - pose proof (i_try1 _ _ HI). lia.
  - intros Hb. destruct (i_try0 _ _ HI Hb). split; auto. lia.
  - intros w' j c k Hb. destruct w' as [q|]; [now apply (i_try2 _ _ HI (Some q) j c k)|discriminate].
  - rewrite Hi0. discriminate.
  - intros i Hi E. destruct (i_taken _ _ HI i Hi E) as [H1 H2]. split; auto. destruct H2 as [H2|H2]; [auto|right; lia].
  - destruct (i_cause _ _ HI) as [H|[H1 H2]]; [auto|right; split; [lia|auto]].
  - rewrite u_dones_app, (i_done _ _ HI). unfold u_dones. simpl. lia.
  - intros e. rewrite In_snoc, (i_req _ _ HI). intuition discriminate.
  - rewrite In_snoc. split; [discriminate|auto].
Qed.

Lemma ui_cancel s tr e : UI s tr -> uok tr (u_step s (LCancel e)).
Proof.
  intros HI. cbn [M_Suspend.u_step]. cbn zeta. set (taken := filter (linked toks s e) (seq 0 N)).
  set (ph' := fun i => if (i <? N) && linked toks s e i then OTaken else u_ph s i).
  assert (Hin : forall i, In i taken <-> i < N /\ u_ph s i = OSet /\ tk i = Some e).
  { intros i. unfold taken, linked. rewrite filter_In, in_seq, andb_true_iff. destruct (u_ph s i); simpl; try (intuition discriminate). destruct (tk i) as [e'|]; [|intuition discriminate]. rewrite Nat.eqb_eq. intuition; try congruence; lia. }
  assert (Hph : forall i, i < N -> ph' i = OTaken /\ u_ph s i = OSet /\ tk i = Some e \/ ph' i = u_ph s i /\ (u_ph s i = OSet -> tk i <> Some e)).
  { intros i Hi. unfold ph'. replace (i <? N) with true by (symmetry; now apply Nat.ltb_lt). simpl. unfold linked. destruct (u_ph s i); simpl; try (right; split; [auto|discriminate]). destruct (tk i) as [e'|]; [|right; split; auto; discriminate]. destruct (Nat.eqb_spec e' e) as [->|]; [left; auto|right; split; auto; congruence]. }
  assert (Hlen : lives N (u_ph s) = lives N ph' + length taken).
  { unfold lives, taken. apply sum_split. intros i Hi. apply in_seq in Hi. unfold ph'. replace (i <? N) with true by (symmetry; apply Nat.ltb_lt; lia). simpl. unfold linked. destruct (u_ph s i); simpl; auto. destruct (tk i) as [e'|]; auto. destruct (e' =? e); auto. }
  assert (Hchk : u_dead s && negb (length taken =? 0) = false).
  { destruct (u_dead s) eqn:Hd; auto. simpl. apply negb_false_iff, Nat.eqb_eq. rewrite (i_dead _ _ HI) in Hd. apply Nat.eqb_eq in Hd. rewrite (i_ctr _ _ HI) in Hd. lia. }
  rewrite Hchk. cbn [uok].
  set (s' := US (u_dead s) (u_init s) (u_canc s) (u_ctr s) ph' (upd (u_req s) e true) (u_main s) (u_acts s ++ [ULoop taken])).
  assert (T : forall f, total f s' = total f s + f (ULoop taken)) by (intros f; unfold total, s'; simpl; rewrite map_app, sum_app; simpl; lia).
  assert (Hact : forall w b, u_act s' w = Some b -> u_act s w = Some b \/ (exists q, w = Some q) /\ b = ULoop taken).
  { intros [q|] b; simpl; auto. intros H. destruct (lt_dec q (length (u_acts s))) as [Hq|Hq]; [rewrite nth_error_app1 in H by auto; auto|]. rewrite nth_error_app2 in H by lia. destruct (q - length (u_acts s)) as [|[|]]; simpl in H; try discriminate. injection H as <-. eauto. }
  assert (Hact2 : forall w b, u_act s w = Some b -> u_act s' w = Some b).
  { intros [q|] b; simpl; auto. intros H. rewrite nth_error_app1; auto. apply nth_error_Some. congruence. }
  pose proof (T debt) as Td. pose proof (T istry) as Tt. pose proof (T pend) as Tp. simpl in Td, Tt, Tp.
  constructor; cbn [s' u_dead u_init u_canc u_ctr u_ph u_req u_main u_acts]; try apply HI; fold s'.
  - intros w b Hb. destruct (Hact _ _ Hb) as [H|[[q ->] ->]]; [now apply (i_shape _ _ HI)|exact I].
  - rewrite (i_ctr _ _ HI). lia.
  - intros i Hi. rewrite <- (i_pos _ _ HI i Hi). destruct (Hph i Hi) as [(-> & -> & _)|(-> & _)]; split; congruence.
  - pose proof (i_try1 _ _ HI). lia.
  - intros Hb. destruct (i_try0 _ _ HI Hb) as [H1 H2]. split; [lia|]. intros i Hi E. destruct (Hph i Hi) as [(E' & _)|(E' & _)]; [congruence|]. apply (H2 i Hi). congruence.
  - intros w j c k Hb i Hi E. destruct (Hph i Hi) as [(E' & _)|(E' & _)]; [congruence|]. destruct (Hact _ _ Hb) as [H|[_ H]]; [|discriminate]. apply (i_try2 _ _ HI _ _ _ _ H); congruence.
  - intros Hb i Hi E. destruct (Hph i Hi) as [(E' & _)|(E' & _)]; [congruence|]. destruct (i_both _ _ HI Hb i Hi) as (w & j & c & k & Hw & Hj); [congruence|]. exists w, j, c, k. auto.
  - intros i e' Hi E Ht. destruct (Hph i Hi) as [(E' & _)|(E' & Hn)]; [congruence|]. upds; [rewrite E' in E; destruct (Hn E Ht)|]. apply (i_set _ _ HI i); congruence.
  - intros i Hi E. destruct (Hph i Hi) as [(_ & E' & Ht)|(E' & _)].
    + split; [exists e; split; [auto|apply upd_same]|]. right. assert (In i taken) by (apply Hin; auto). destruct taken; [contradiction|simpl in Tp; lia].
    + rewrite E' in E. destruct (i_taken _ _ HI i Hi E) as [(e' & H1 & H2) H3]. split; [exists e'; split; [auto|upds; auto]|]. destruct H3; [auto|right; lia].
  - destruct (i_cause _ _ HI) as [(i & e' & Hi & Ht & Hr)|[H1 H2]].
    + left. exists i, e'. repeat split; auto. upds; auto.
    + destruct taken as [|i t] eqn:Et; [right; split; [simpl in Tp; lia|auto]|]. left. assert (H : In i (i :: t)) by now left. apply Hin in H. exists i, e. repeat split; try tauto. apply upd_same.
  - rewrite u_dones_app, (i_done _ _ HI). unfold u_dones. simpl. lia.
  - intros e'. rewrite In_snoc. upds; [intuition|]. rewrite (i_req _ _ HI). intuition. congruence.
  - rewrite In_snoc, (i_start _ _ HI). intuition discriminate.
Qed.

Lemma ui_step s tr l : UI s tr -> uok tr (u_step s l).
Proof.
  intros HI. destruct l as [|e|w]; [now apply ui_start|now apply ui_cancel|]. cbn [M_Suspend.u_step]. destruct (u_act s w) as [a|] eqn:Ha; [|exact I]. destruct a as [|i|c k|i c k|c k|r|]; try exact I.
  - pose proof (i_shape _ _ HI _ _ Ha) as Hs. destruct w; [destruct Hs|]. simpl in Ha. apply ui_uset; congruence.
  - now apply ui_uor.
  - now apply ui_utry.
  - now apply ui_usub.
  - now apply ui_uloop.
Qed.

Lemma ui_run ls s tr : urun ls = Running s tr -> UI s tr.
Proof.
  apply (run_inv u_step UI); [apply ui_init|]. intros s0 tr0 l s' es HI Hs. pose proof (ui_step _ _ l HI) as H. rewrite Hs in H. exact H.
Qed.

(** ** The properties *)
Lemma u_safe ls f tr : urun ls <> Failed f tr.
Proof.
  apply (run_safe u_step UI); [apply ui_init| |].
  - intros s0 tr0 l s' es HI Hs. pose proof (ui_step _ _ l HI) as H. rewrite Hs in H. exact H.
  - intros s0 tr0 l f0 es HI Hs. pose proof (ui_step _ _ l HI) as H. rewrite Hs in H. exact H.
Qed.
Lemma u_once ls s tr : urun ls = Running s tr -> u_dones tr <= 1.
Proof. intros H. rewrite (i_done _ _ (ui_run _ _ _ H)). destruct (u_dead s); lia. Qed.

Lemma tk_In i e : tk i = Some e -> In (Some e) toks.
Proof. unfold M_Suspend.tk. intros H. destruct (lt_dec i (length toks)); [rewrite <- H; now apply nth_In|]. rewrite nth_overflow in H by lia. discriminate. Qed.
Lemma In_tk e : In (Some e) toks -> exists i, i < N /\ tk i = Some e.
Proof. intros H. apply (In_nth _ _ None) in H. exact H. Qed.

Lemma u_after ls s t1 t2 : toks <> [] -> urun ls = Running s (t1 ++ EDone :: t2) -> In EStart t1 /\ exists e, In (Some e) toks /\ In (ECancel e) t1.
Proof.
  intros Hne Hrun. destruct (run_split_event u_step _ _ _ _ _ _ Hrun) as (ls1 & l & ls2 & s1 & s2 & tr1 & e1 & e2 & -> & Hr1 & Hst & -> & Hr2).
  pose proof (ui_run _ _ _ Hr1) as HI. destruct l as [|e|w].
  - simpl in Hst. destruct (u_main s1); try discriminate. injection Hst as _ E. destruct e1 as [|? [|]]; discriminate.
  - cbn [M_Suspend.u_step] in Hst. cbn zeta in Hst. destruct (_ && _); try discriminate. injection Hst as _ E. destruct e1 as [|? [|]]; discriminate.
  - pose proof (ui_step _ _ (LStep w) HI) as Hok. rewrite Hst in Hok. simpl in Hok.
    cbn [M_Suspend.u_step] in Hst. destruct (u_act s1 w) as [a|] eqn:Ha; [|discriminate].
    assert (Hd : u_dead s2 = true). { pose proof (i_done _ _ Hok) as H. rewrite !u_dones_app in H. change (EDone :: e2) with ([EDone] ++ e2) in H. rewrite u_dones_app in H. unfold u_dones at 3 in H. simpl in H. destruct (u_dead s2); [auto|lia]. }
    assert (He : e1 = [] /\ exists c k, a = USub c k).
    { destruct a as [|i|c k|i c k|c k|r|]; simpl in Hst; try discriminate.
      - destruct (u_dead s1), (i <? N); try discriminate; [destruct (tk i); [destruct (u_ph s1 i), (u_req s1 n)|]|]; try discriminate; injection Hst as _ E; destruct e1; discriminate.
      - destruct (u_dead s1); try discriminate. injection Hst as _ E; destruct e1; discriminate.
      - destruct (u_dead s1), (i <? N); try discriminate; try (destruct (tk i); destruct (u_ph s1 i); try destruct (u_req s1 n)); try discriminate; injection Hst as _ E; destruct e1; discriminate.
      - destruct (u_dead s1), (u_ctr s1 <? c), (u_ctr s1 =? c); try discriminate; [destruct (negb _ || _); try discriminate|]; injection Hst as _ E; [|destruct e1; discriminate]. destruct e1 as [|? [|]]; try discriminate. eauto.
      - destruct r; [|destruct (u_dead s1); try discriminate]; injection Hst as _ E; destruct e1; discriminate. }
    destruct He as (-> & c & k & ->). rewrite app_nil_r. split.
    + apply (i_start _ _ HI). intros Hm. assert (debt (u_main s2) = 0).
      { rewrite (i_dead _ _ Hok) in Hd. apply Nat.eqb_eq in Hd. rewrite (i_ctr _ _ Hok) in Hd. unfold total in Hd. lia. }
      assert (u_main s2 = u_main s1 \/ w = None) as [E|E].
      { simpl in Hst. destruct (u_dead s1), (u_ctr s1 <? c), (u_ctr s1 =? c); try discriminate; destruct (negb _ || _); try discriminate; injection Hst as <- _; destruct w; simpl; auto. }
      * rewrite E, Hm in H. discriminate.
      * subst w. simpl in Ha. congruence.
    + enough (exists i e, i < N /\ tk i = Some e /\ u_req s1 e = true) as (i & e & _ & Ht & Hr). { exists e. split; [eapply tk_In; eauto|]. now apply (i_req _ _ HI). }
      destruct (i_cause _ _ HI) as [H|[Hp Hc]]; auto. exfalso.
      (* nothing was cancelled: the observers are all set *)
      assert (Hph : u_ph s2 = u_ph s1 /\ u_canc s2 = false).
      { simpl in Hst. destruct (u_dead s1), (u_ctr s1 <? c), (u_ctr s1 =? c); try discriminate; destruct (negb _ || _); try discriminate; injection Hst as <- _; destruct w; simpl; auto. }
      destruct Hph as [Hph Hc2].
      rewrite (i_dead _ _ Hok) in Hd. apply Nat.eqb_eq in Hd. rewrite (i_ctr _ _ Hok) in Hd.
      assert (HN : 0 < N) by (unfold u_n; destruct toks; [congruence|simpl; lia]).
      destruct (u_ph s2 0) eqn:E.
      * apply (i_pos _ _ Hok 0 HN) in E. pose proof (i_shape _ _ Hok None _ eq_refl) as Hs. simpl in Hs. unfold total in Hd. destruct (u_main s2) as [|i|? [i| |]|? ? [i| |]|? [i| |]|?|]; cbn [debt debtk pos] in *; try lia; simpl in Hs; tauto.
      * pose proof (lives_pos N _ _ HN E). lia.
      * rewrite Hph in E. destruct (i_taken _ _ HI 0 HN E) as [_ [H|H]]; [congruence|lia].
      * rewrite Hph in E. destruct (i_try0 _ _ HI) as [_ H]; [rewrite Hc; apply andb_false_r|]. destruct (H 0 HN E).
Qed.

Lemma u_complete ls s tr e : urun ls = Running s tr -> u_quiet s -> In EStart tr -> In (Some e) toks -> In (ECancel e) tr -> In EDone tr.
Proof.
  intros Hrun [Hm Hq] Hst Htok Hcan. pose proof (ui_run _ _ _ Hrun) as HI. apply (i_start _ _ HI) in Hst. assert (Em : u_main s = UEnd) by tauto.
  assert (T0 : forall f, f UEnd = 0 -> total f s = 0). { intros f Hf. unfold total. rewrite Em, Hf. simpl. apply sum_map_0. intros a Ha. now rewrite (Hq a Ha). }
  assert (Hc : u_canc s = true).
  { destruct (In_tk _ Htok) as (i & Hi & Ht). apply (i_req _ _ HI) in Hcan. destruct (u_ph s i) eqn:E.
    - apply (i_pos _ _ HI i Hi) in E. rewrite Em in E. simpl in E. lia.
    - pose proof (i_set _ _ HI i e Hi E Ht). congruence.
    - destruct (i_taken _ _ HI i Hi E) as [_ [H|H]]; auto. rewrite (T0 pend eq_refl) in H. lia.
    - destruct (u_init s && u_canc s) eqn:Eb; [apply andb_true_iff in Eb; tauto|]. destruct (i_try0 _ _ HI Eb) as [_ H]. destruct (H i Hi E). }
  assert (Hi : u_init s = true) by (rewrite (i_init _ _ HI), Em; reflexivity).
  assert (Hl : lives N (u_ph s) = 0).
  { apply lives_0. intros i Hin E. destruct (i_both _ _ HI) with (i := i) as (w & j & c & k & Hw & _); auto; [now rewrite Hi, Hc|]. pose proof (total_le istry _ _ _ Hw) as H. rewrite (T0 istry eq_refl) in H. simpl in H. lia. }
  assert (Hd : u_dead s = true) by (rewrite (i_dead _ _ HI), (i_ctr _ _ HI), (T0 debt eq_refl), Hl; reflexivity).
  pose proof (i_done _ _ HI) as H. rewrite Hd in H. clear - H. induction tr as [|x tr IH]; [discriminate|]. destruct x; simpl in *; auto.
Qed.

Lemma u_progress ls s tr : urun ls = Running s tr -> (forall w, u_step s (LStep w) = Disabled) -> u_quiet s.
Proof.
  intros Hrun H. pose proof (ui_run _ _ _ Hrun) as HI.
  assert (E : forall w a, u_act s w = Some a -> a = UIdle \/ a = UEnd).
  { intros w a Ha. specialize (H w). cbn [M_Suspend.u_step] in H. rewrite Ha in H. pose proof (ui_step _ _ (LStep w) HI) as Hok. cbn [M_Suspend.u_step] in Hok. rewrite Ha in Hok.
    destruct a as [|i|c k|i c k|c k|r|]; auto; exfalso; clear Hok; simpl in H.
    - destruct (u_dead s), (i <? N); try discriminate. destruct (tk i); [destruct (u_ph s i)|]; try discriminate. destruct (u_req s n); discriminate.
    - destruct (u_dead s); discriminate.
    - destruct (i <? N), (u_dead s); try discriminate. destruct (tk i), (u_ph s i); try discriminate; destruct (u_req s n); discriminate.
    - destruct (u_dead s), (u_ctr s <? c), (u_ctr s =? c); try discriminate. destruct (negb _ || _); discriminate.
    - destruct r; [discriminate|]. destruct (u_dead s); discriminate. }
  split; [apply (E None); reflexivity|]. intros a Ha. apply In_nth_error in Ha. destruct Ha as [q Hq]. pose proof (i_shape _ _ HI (Some q) a Hq) as Hs. destruct (E (Some q) a Hq) as [->| ->]; [destruct Hs|reflexivity].
Qed.

(** measure *)
Definition B : nat := N + 6.
Definition wk (k : ucont) : nat := match k with KStart i => (S N - i) * B + 1 | KRet => 0 | KLoop r => B * length r + 1 end.
Definition wt (a : uact) : nat :=
  match a with
  | UIdle => 0 | USet i => (S N - i) * B + 1 | UOr _ k => N + 4 + wk k | UTry i _ k => 2 + (N - i) + wk k | USub _ k => 1 + wk k
  | ULoop r => B * length r + 1 | UEnd => 0
  end.
Lemma wt_ret k : wt (uret k) = wk k.
Proof. destruct k; reflexivity. Qed.
Lemma total_upto f s s' w a' : u_main s = u_main s' -> u_acts s = u_acts s' -> total f (u_with_act s w a') = total f (u_with_act s' w a').
Proof. intros E1 E2. unfold total. destruct w; simpl; rewrite ?E1, ?E2; reflexivity. Qed.

Lemma wt_step s l s' es : (forall i, u_main s = USet i -> i <= N) -> (forall q i, nth_error (u_acts s) q <> Some (USet i)) -> u_internal l -> u_step s l = Next s' es -> total wt s' < total wt s.
Proof.
  intros Hmi Hai Hl Hst. destruct l as [|e|w]; try contradiction. cbn [M_Suspend.u_step] in Hst. destruct (u_act s w) as [a|] eqn:Ha; [|discriminate].
  assert (K : forall s1 a', u_main s1 = u_main s -> u_acts s1 = u_acts s -> wt a' < wt a -> total wt (u_with_act s1 w a') < total wt s).
  { intros s1 a' E1 E2 Hlt. rewrite (total_upto wt s1 s) by auto. pose proof (total_with wt s w a a' Ha). lia. }
  destruct a as [|i|c k|i c k|c k|r|]; simpl in Hst; try discriminate.
  - assert (Hi : i <= N) by (destruct w; simpl in Ha; [destruct (Hai _ _ Ha)|injection Ha as E; eauto]).
    destruct (u_dead s); try discriminate. destruct (i <? N) eqn:E; [apply Nat.ltb_lt in E|apply Nat.ltb_ge in E].
    + assert (L1 : wt (USet (S i)) < wt (USet i)) by (cbn [wt]; replace (S N - i) with (S (S N - S i)) by lia; unfold B; simpl; lia).
      assert (L2 : wt (UOr true (KStart (S i))) < wt (USet i)) by (cbn [wt wk]; replace (S N - i) with (S (S N - S i)) by lia; unfold B; simpl; lia).
      destruct (tk i) as [e|]; [destruct (u_ph s i); try discriminate; destruct (u_req s e)|]; injection Hst as <- _; apply K; auto.
    + injection Hst as <- _. apply K; auto. cbn [wt wk]. replace (S N - i) with 1 by lia. unfold B. lia.
  - destruct (u_dead s); try discriminate. injection Hst as <- _. apply K; auto. destruct (_ && _); cbn [wt wk]; lia.
  - destruct (i <? N) eqn:E; [apply Nat.ltb_lt in E|apply Nat.ltb_ge in E].
    + destruct (u_dead s); try discriminate. destruct (tk i) as [e|], (u_ph s i); try discriminate; try (destruct (u_req s e)); try discriminate; injection Hst as <- _; apply K; auto; cbn [wt]; lia.
    + injection Hst as <- _. apply K; auto. cbn [wt]. lia.
  - destruct (u_dead s), (u_ctr s <? c), (u_ctr s =? c); try discriminate; [destruct (negb _ || _); try discriminate|]; injection Hst as <- _; apply K; auto; rewrite wt_ret; cbn [wt]; lia.
  - destruct r as [|x r]; [|destruct (u_dead s); try discriminate]; injection Hst as <- _; apply K; auto; cbn [wt wk length]; unfold B; lia.
Qed.

Lemma u_finishes ls s tr : urun ls = Running s tr -> exists n, forall ls' s' tr', Forall u_internal ls' -> run_from u_step s tr ls' = Running s' tr' -> length ls' <= n.
Proof.
  intros Hrun. exists (total wt s). pose proof (ui_run _ _ _ Hrun) as HI. clear ls Hrun. intros ls'. revert s tr HI. induction ls' as [|l ls' IH]; intros s tr HI s' tr' Hf Hr; simpl; [lia|].
  inversion Hf as [|? ? Hl Hf']; subst. simpl in Hr. destruct (u_step s l) as [s1 es| |] eqn:Hs; try discriminate.
  pose proof (ui_step _ _ l HI) as Hok. rewrite Hs in Hok. simpl in Hok. specialize (IH _ _ Hok _ _ Hf' Hr).
  assert (total wt s1 < total wt s); [|lia]. eapply wt_step; eauto.
  - intros i E. pose proof (i_shape _ _ HI None _ eq_refl) as H. simpl in H. rewrite E in H. exact H.
  - intros q i E. destruct (i_shape _ _ HI (Some q) _ E).
Qed.
End Toks.
