(** What the steps of M_PostAckHB touch; its invariant for happens-before. *)
From Coq Require Import List Arith Bool Lia.
From Verif Require Import Lts ListFacts M_HB P_HB M_PostAckHB S_PostAckHB P_PostAckHB.
Import ListNotations.

Ltac lne := unfold l_mech, l_obj, l_hook, l_acks, l_rcv, l_ag in *; lia.
Ltac tne := unfold t_a, t_l, t_o, t_c, t_p in *; lia.
Ltac kinv H := cbn [k_step] in H; unfold retire, complete, node, walk in H;
  repeat (match type of H with context[match ?x with _ => _ end] => destruct x eqn:?; try discriminate H end); try (injection H as <- <-).

Definition plocs (p : nat) : list nat := [l_obj p; l_hook p; l_acks p; l_rcv p].
Definition isq (s : kst) (p : nat) : Prop := exists n, nth_error (k_nd s) p = Some n /\ n_q n = true.
Definition isf (s : kst) (p : nat) : Prop := exists n, nth_error (k_nd s) p = Some n /\ n_fast n || n_done n = true.
Definition isc (s : kst) (o p : nat) : Prop := at_of s o = PComp p.
Definition isd (s : kst) (a p : nat) : Prop := exists r, det_of s a = Some (r, Some p).

Lemma at_po s o r : nth_error (k_po s) o = Some r -> at_of s o = o_at r.
Proof. unfold at_of. now intros ->. Qed.
Lemma at_some s o p : isc s o p -> exists r, nth_error (k_po s) o = Some r /\ o_at r = PComp p.
Proof. unfold isc, at_of. destruct (nth_error (k_po s) o) as [r|]; [eauto|discriminate]. Qed.
Lemma det_some s a p : isd s a p -> exists g r, nth_error (k_ag s) a = Some g /\ g_det g = Some (r, Some p).
Proof. intros [r H]. unfold det_of in H. destruct (nth_error (k_ag s) a) as [g|]; [eauto|discriminate]. Qed.

(** ** The phases of a node *)
Section Phase.
Context {s : kst}. Hypothesis B : BI s.
Lemma in_er o r p : nth_error (k_po s) o = Some r -> o_at r = PErase p -> 1 <= sm (er p) (k_po s).
Proof. intros Ho E. pose proof (sm_in (er p) _ _ _ Ho) as K. unfold er at 1 in K. rewrite E, Nat.eqb_refl in K. exact K. Qed.
Lemma in_hs o r p : nth_error (k_po s) o = Some r -> o_at r = PHas p -> 1 <= sm (hs p) (k_po s).
Proof. intros Ho E. pose proof (sm_in (hs p) _ _ _ Ho) as K. unfold hs at 1 in K. rewrite E, Nat.eqb_refl in K. exact K. Qed.
Lemma in_co o p : isc s o p -> 1 <= sm (co p) (k_po s).
Proof. intros H. apply at_some in H. destruct H as (r & Ho & E). pose proof (sm_in (co p) _ _ _ Ho) as K. unfold co at 1 in K. rewrite E, Nat.eqb_refl in K. exact K. Qed.
Lemma in_dc a p : isd s a p -> 1 <= sm (dc p) (k_ag s).
Proof. intros H. apply det_some in H. destruct H as (g & r & Ha & E). pose proof (sm_in (dc p) _ _ _ Ha) as K. unfold dc at 1 in K. rewrite E, Nat.eqb_refl in K. exact K. Qed.
Lemma lt_po o r p : nth_error (k_po s) o = Some r -> o_at r = PTaken p \/ o_at r = PHas p \/ o_at r = PErase p \/ o_at r = PComp p -> p < length (k_nd s).
Proof. intros Ho H. pose proof (b_po _ B _ _ Ho) as K. unfold PI in K. destruct H as [E|[E|[E|E]]]; rewrite E in K; tauto. Qed.
Lemma lt_isd a p : isd s a p -> p < length (k_nd s).
Proof. intros H. apply det_some in H. destruct H as (g & r & Ha & E). pose proof (a_det _ _ _ (b_ag _ B _ _ Ha)) as K. rewrite E in K. tauto. Qed.
Lemma lt_isc o p : isc s o p -> p < length (k_nd s).
Proof. intros H. apply at_some in H. destruct H as (r & Ho & E). eapply lt_po; eauto. Qed.
Lemma lt_isq p : isq s p -> p < length (k_nd s). Proof. intros (n & Hn & _). apply nth_error_Some. congruence. Qed.
Lemma lt_isf p : isf s p -> p < length (k_nd s). Proof. intros (n & Hn & _). apply nth_error_Some. congruence. Qed.
Lemma isq_sums p : isq s p -> sm (co p) (k_po s) = 0 /\ sm (dc p) (k_ag s) = 0 /\ ~ isf s p.
Proof.
  intros (n & Hn & Eq). destruct (b_nd _ B _ _ Hn) as [A P Z D]. destruct (Nat.eq_dec (n_acks n) 0) as [E0|E0].
  - destruct (Z E0) as [Z1 Z2]. rewrite Eq in Z2. simpl in Z2. split; [lia|]. split; [lia|]. intros (n' & Hn' & F). rewrite Hn in Hn'. injection Hn' as <-. destruct (n_fast n), (n_done n); simpl in *; try discriminate; lia.
  - destruct P as (? & ? & ? & F1 & F2 & ?); [lia|]. split; [lia|]. split; [lia|]. intros (n' & Hn' & F). rewrite Hn in Hn'. injection Hn' as <-. rewrite F1, F2 in F. discriminate.
Qed.
Lemma isf_sums p : isf s p -> sm (co p) (k_po s) = 0 /\ sm (dc p) (k_ag s) = 0.
Proof.
  intros (n & Hn & Eq). destruct (b_nd _ B _ _ Hn) as [A P Z D]. destruct (Nat.eq_dec (n_acks n) 0) as [E0|E0].
  - destruct (Z E0) as [Z1 Z2]. destruct (n_fast n), (n_done n); simpl in *; try discriminate; lia.
  - destruct P as (? & ? & ? & F1 & F2 & ?); [lia|]. rewrite F1, F2 in Eq. discriminate.
Qed.
Lemma one_cd p : p < length (k_nd s) -> sm (co p) (k_po s) + sm (dc p) (k_ag s) <= 1.
Proof.
  intros Hp. destruct (nd_some _ _ Hp) as [n Hn]. destruct (b_nd _ B _ _ Hn) as [A P Z D]. destruct (Nat.eq_dec (n_acks n) 0) as [E0|E0]; [destruct (Z E0); lia|destruct P as (? & ? & ? & _); lia].
Qed.
Lemma isc_uniq o o' p : isc s o p -> isc s o' p -> o = o'.
Proof.
  intros H1 H2. pose proof (one_cd p (lt_isc _ _ H1)) as K. apply at_some in H1. apply at_some in H2. destruct H1 as (r & Ho & E), H2 as (r' & Ho' & E'). destruct (Nat.eq_dec o o') as [|Hne]; [auto|].
  pose proof (sm_two (co p) _ _ _ _ _ Ho Ho' Hne) as Q. unfold co at 1 2 in Q. rewrite E, E', Nat.eqb_refl in Q. simpl in Q. lia.
Qed.
Lemma isd_uniq a a' p : isd s a p -> isd s a' p -> a = a'.
Proof.
  intros H1 H2. pose proof (one_cd p (lt_isd _ _ H1)) as K. apply det_some in H1. apply det_some in H2. destruct H1 as (g & r & Ha & E), H2 as (g' & r' & Ha' & E'). destruct (Nat.eq_dec a a') as [|Hne]; [auto|].
  pose proof (sm_two (dc p) _ _ _ _ _ Ha Ha' Hne) as Q. unfold dc at 1 2 in Q. rewrite E, E', Nat.eqb_refl in Q. simpl in Q. lia.
Qed.
Lemma isc_isd o a p : isc s o p -> isd s a p -> False.
Proof. intros H1 H2. pose proof (one_cd p (lt_isc _ _ H1)). pose proof (in_co _ _ H1). pose proof (in_dc _ _ H2). lia. Qed.
Lemma isq_isc o p : isq s p -> isc s o p -> False. Proof. intros H1 H2. pose proof (isq_sums _ H1). pose proof (in_co _ _ H2). lia. Qed.
Lemma isq_isd a p : isq s p -> isd s a p -> False. Proof. intros H1 H2. pose proof (isq_sums _ H1). pose proof (in_dc _ _ H2). lia. Qed.
Lemma isf_isc o p : isf s p -> isc s o p -> False. Proof. intros H1 H2. pose proof (isf_sums _ H1). pose proof (in_co _ _ H2). lia. Qed.
Lemma isf_isd a p : isf s p -> isd s a p -> False. Proof. intros H1 H2. pose proof (isf_sums _ H1). pose proof (in_dc _ _ H2). lia. Qed.
Lemma isq_isf p : isq s p -> isf s p -> False. Proof. intros H. now apply isq_sums. Qed.
Lemma pos_isq p n : nth_error (k_nd s) p = Some n -> 0 < n_acks n -> isq s p.
Proof. intros Hn H. exists n. split; [auto|]. now apply (i_pos _ _ _ _ _ _ (b_nd _ B _ _ Hn)). Qed.
Lemma has_pos o r p n : nth_error (k_po s) o = Some r -> o_at r = PHas p -> nth_error (k_nd s) p = Some n -> 0 < n_acks n.
Proof. intros Ho E Hn. rewrite (i_acks _ _ _ _ _ _ (b_nd _ B _ _ Hn)). pose proof (in_hs _ _ _ Ho E). lia. Qed.
Lemma has_isq o r p : nth_error (k_po s) o = Some r -> o_at r = PHas p -> isq s p.
Proof. intros Ho E. destruct (nd_some s p) as [n Hn]; [eapply lt_po; eauto|]. eapply pos_isq; eauto. eapply has_pos; eauto. Qed.
Lemma taken_isq o r p : nth_error (k_po s) o = Some r -> o_at r = PTaken p -> isq s p.
Proof.
  intros Ho E. destruct (nd_some s p) as [n Hn]; [eapply lt_po; eauto|]. eapply pos_isq; eauto. rewrite (i_acks _ _ _ _ _ _ (b_nd _ B _ _ Hn)).
  pose proof (b_po _ B _ _ Ho) as K. unfold PI in K. rewrite E in K. destruct K as (_ & g & Ha & Hon & Hs). pose proof (on_det _ _ _ (b_ag _ B _ _ Ha) Hon) as Hd.
  pose proof (sm_in (ow p) _ _ _ Ha) as Q. unfold ow at 1 in Q. rewrite Hd, Hon, Hs, Nat.leb_refl in Q. simpl in Q. lia.
Qed.
Lemma erase_isq o r p : nth_error (k_po s) o = Some r -> o_at r = PErase p -> isq s p /\ forall n, nth_error (k_nd s) p = Some n -> n_acks n = 0.
Proof.
  intros Ho E. destruct (nd_some s p) as [n Hn]; [eapply lt_po; eauto|]. pose proof (in_er _ _ _ Ho E) as K. destruct (b_nd _ B _ _ Hn) as [A P Z D].
  assert (E0 : n_acks n = 0) by (destruct (Nat.eq_dec (n_acks n) 0); [auto|]; destruct P; lia). destruct (Z E0) as [Z1 Z2]. split; [|intros n' Hn'; congruence]. exists n. split; [auto|]. destruct (n_q n); [reflexivity|simpl in Z2; lia].
Qed.
Lemma owes_isq a g : nth_error (k_ag s) a = Some g -> (g_on g = true /\ g_seq g < length (k_nd s)) \/ (exists r, g_det g = Some (r, None)) -> exists n, nth_error (k_nd s) (g_seq g) = Some n /\ n_q n = true /\ 0 < n_acks n.
Proof.
  intros Ha H. assert (K : ow (g_seq g) g = 1 /\ g_seq g < length (k_nd s)).
  { pose proof (b_ag _ B _ _ Ha) as I. destruct H as [[Hon Hl]|[r Hd]].
    - split; [|auto]. unfold ow. rewrite (on_det _ _ _ I Hon), Hon, Nat.leb_refl. reflexivity.
    - pose proof (a_det _ _ _ I) as K. rewrite Hd in K. split; [|lia]. unfold ow. rewrite Hd, Nat.leb_refl. destruct (Nat.ltb_spec (g_seq g) r); [reflexivity|lia]. }
  destruct K as [K Hl]. destruct (nd_some s _ Hl) as [n Hn]. exists n. pose proof (sm_in (ow (g_seq g)) _ _ _ Ha) as Q. assert (Hp : 0 < n_acks n) by (rewrite (i_acks _ _ _ _ _ _ (b_nd _ B _ _ Hn)); lia).
  repeat split; auto. now apply (i_pos _ _ _ _ _ _ (b_nd _ B _ _ Hn)).
Qed.
End Phase.

Lemma linked_iff s p : In p (linked s) <-> isq s p.
Proof.
  unfold linked, isq. rewrite filter_In, in_seq. split.
  - intros [_ H]. destruct (nth_error (k_nd s) p) as [n|]; [eauto|discriminate].
  - intros (n & Hn & E). rewrite Hn. split; [|exact E]. assert (p < length (k_nd s)) by (apply nth_error_Some; congruence). lia.
Qed.
Lemma in_hooks s x w : In (Touch x w) (hooks s) <-> w = true /\ exists p, isq s p /\ x = l_hook p.
Proof.
  unfold hooks. rewrite in_map_iff. split.
  - intros (p & [= <- <-] & H). apply linked_iff in H. eauto.
  - intros (-> & p & H & ->). exists p. split; [reflexivity|]. now apply linked_iff.
Qed.
Lemma no_rmw_hooks s x a r : ~ In (Rmw x a r) (hooks s).
Proof. unfold hooks. rewrite in_map_iff. intros (p & [=] & _). Qed.
Lemma waiting_iff s o : In o (waiting s) <-> exists r, nth_error (k_po s) o = Some r /\ o_at r = PQueued.
Proof.
  unfold waiting, at_of. rewrite filter_In, in_seq. split.
  - intros [_ H]. destruct (nth_error (k_po s) o) as [r|]; [|discriminate]. exists r. split; [auto|]. destruct (o_at r); try discriminate; auto.
  - intros (r & Hr & E). rewrite Hr, E. assert (o < length (k_po s)) by (apply nth_error_Some; congruence). split; [lia|auto].
Qed.

(** ** The node, polls and agent that a step is about *)
Definition sp (s : kst) (l : klabel) : list nat :=
  match l with
  | LPost => [length (k_nd s)] | LFast p | LDestroy p => [p] | LDetach a | LPoll a => [seq_of s a]
  | LDet a => match det_of s a with Some (_, None) => [seq_of s a] | Some (_, Some p) => [p] | None => [] end
  | LNotify o | LAck o | LAckStep o | LRead o => match at_of s o with PTaken p | PHas p | PErase p | PComp p => [p] | _ => [] end
  | _ => []
  end.
Definition so (s : kst) (l : klabel) : list nat :=
  match l with LPost => if k_act s =? 0 then [] else waiting s | LPoll _ => [length (k_po s)] | LTry o | LNotify o | LAck o | LAckStep o | LRead o => [o] | _ => [] end.
Definition sa (s : kst) (l : klabel) : list nat :=
  match l with LAttach => [length (k_ag s)] | LDetach a | LDet a | LPoll a => [a] | LTry o | LNotify o => [ag_of s o] | _ => [] end.
Definition cr (s : kst) (l : klabel) : bool :=
  match l with
  | LAttach | LDetach _ | LPost | LPoll _ | LTry _ => true
  | LDet a => match det_of s a with Some (_, None) => true | _ => false end
  | LAckStep o => match at_of s o with PErase _ => true | _ => false end
  | _ => false
  end.

Lemma nth_app_ne {A} (l : list A) x i : i <> length l -> nth_error (l ++ [x]) i = nth_error l i.
Proof.
  intros H. destruct (Nat.lt_ge_cases i (length l)) as [K|K]; [now apply nth_error_app1|]. rewrite (proj2 (nth_error_None l i) K). apply nth_error_None. rewrite app_length. simpl. lia.
Qed.
Lemma nth_ne {A} (l : list A) x i j : i <> j -> nth_error (set_nth l i x) j = nth_error l j.
Proof. intros H. apply nth_error_set_nth_other. exact H. Qed.

Section Agree.
Context {s : kst} {l : klabel} {s' : kst} {es : list kevent}.
Hypothesis B : BI s.
Hypothesis Hs : k_step s l = Next s' es.
Lemma ag_keep a : ~ In a (sa s l) -> nth_error (k_ag s') a = nth_error (k_ag s) a.
Proof.
  destruct l; kinv Hs; cbn [sa In k_ag with_nd with_ag with_po]; intros N; try reflexivity; try (apply nth_ne; intuition congruence); try (apply nth_app_ne; intuition congruence).
  all: apply nth_ne; intros E; apply N; left; unfold ag_of; match goal with H : nth_error (k_po s) _ = Some _ |- _ => rewrite H end; congruence.
Qed.
Lemma nd_keep p : ~ In p (sp s l) -> nth_error (k_nd s') p = nth_error (k_nd s) p.
Proof.
  destruct l; unfold sp, seq_of, det_of, at_of; kinv Hs; cbn [In k_nd with_nd with_ag with_po];
    repeat match goal with H : nth_error _ _ = Some _ |- _ => rewrite H end;
    repeat match goal with H : g_det _ = _ |- _ => rewrite H | H : o_at _ = _ |- _ => rewrite H end;
    intros N; try reflexivity; try (apply nth_ne; intuition congruence); try (apply nth_app_ne; intuition congruence).
Qed.
Lemma po_keep o : ~ In o (so s l) -> nth_error (k_po s') o = nth_error (k_po s) o.
Proof.
  destruct l; unfold so; kinv Hs; cbn [In k_po with_nd with_ag with_po]; try rewrite Heqb; intros N; try reflexivity; try (apply nth_ne; intuition congruence); try (apply nth_app_ne; intuition congruence).
  rewrite nth_error_map. destruct (nth_error (k_po s) o) as [r|] eqn:E; [|reflexivity]. simpl. f_equal. unfold take. destruct (o_at r) eqn:Er; try reflexivity. exfalso. apply N, waiting_iff. eauto.
Qed.
End Agree.

Lemma det_owes s a r : BI s -> det_of s a = Some (r, None) -> exists n, nth_error (k_nd s) (seq_of s a) = Some n /\ n_q n = true /\ 0 < n_acks n.
Proof. intros B. unfold det_of, seq_of. destruct (nth_error (k_ag s) a) as [g|] eqn:Ha; [|discriminate]. intros E. eapply owes_isq; eauto. Qed.
Lemma detach_owes s s' es a : BI s -> k_step s (LDetach a) = Next s' es \/ k_step s (LPoll a) = Next s' es -> seq_of s a < length (k_nd s) -> exists n, nth_error (k_nd s) (seq_of s a) = Some n /\ n_q n = true /\ 0 < n_acks n.
Proof.
  intros B E H. unfold seq_of in *. destruct (nth_error (k_ag s) a) as [g|] eqn:Ha; [|destruct E as [Hs|Hs]; simpl in Hs; rewrite Ha in Hs; discriminate].
  eapply owes_isq; eauto. left. split; [|auto]. destruct (g_on g) eqn:Hon; [auto|]. destruct E as [Hs|Hs]; simpl in Hs; rewrite Ha, Hon in Hs; discriminate.
Qed.

Section Orders.
Variables k_acq k_rel d_acq d_rel : bool.
Notation acts := (kh_acts k_acq k_rel d_acq d_rel).

Definition ph (s : kst) (l : klabel) (p x : nat) (w : bool) : Prop :=
  (p = length (k_nd s) /\ l = LPost) \/ (exists n, nth_error (k_nd s) p = Some n /\ n_done n = true) \/
  (w = false /\ x <> l_hook p /\ (isq s p \/ isf s p \/ (exists o, In o (so s l) /\ isc s o p) \/ (exists a, In a (sa s l) /\ isd s a p))).

Section Touch.
Context {s : kst} {l : klabel} {s' : kst} {es : list kevent}.
Hypothesis B : BI s.
Hypothesis Hs : k_step s l = Next s' es.

Lemma retire_touch q x w : In (Touch x w) (retire_acts d_acq d_rel s q) -> (exists p, isq s p /\ x = l_hook p) \/ (x = l_acks q /\ w = false).
Proof.
  unfold retire_acts. intros H. apply in_app_or in H. destruct H as [H|[[= <- <-]|[[=]|[]]]]; [|auto]. apply in_hooks in H. destruct H as (_ & p & H & ->). eauto.
Qed.
Lemma crit_touch x w c : In (Touch x w) (M_PostAckHB.crit c) -> x = l_mech \/ In (Touch x w) c.
Proof. unfold M_PostAckHB.crit, Lock, Unlock. intros [[=]|[[= <- <-]|H]]; [auto|]. apply in_app_or in H. destruct H as [H|[[=]|[]]]; auto. Qed.

Lemma touch_cases x w : In (Touch x w) (acts s l) ->
  (x = l_mech /\ cr s l = true) \/ (exists a, x = l_ag a /\ In a (sa s l)) \/ (exists p, isq s p /\ x = l_hook p /\ cr s l = true) \/ (exists p, In p (sp s l) /\ In x (plocs p) /\ ph s l p x w).
Proof.
  intros H. destruct l as [|a|a| |p|a|o|o|o|o|o|p]; cbn [kh_acts] in H; cbv zeta in H.
  - destruct H as [[= <- <-]|H]; [right; left; eexists; split; [reflexivity|left; reflexivity]|]. apply crit_touch in H. destruct H as [->|[]]. left. auto.
  - destruct H as [[= <- <-]|H]; [right; left; eexists; split; [reflexivity|left; reflexivity]|]. apply crit_touch in H. destruct H as [->|H]; [left; auto|].
    destruct (Nat.ltb_spec (seq_of s a) (length (k_nd s))) as [Hl|_]; [|destruct H]. apply retire_touch in H. destruct H as [(p & Hq & ->)|[-> ->]]; [right; right; left; eauto|]. right. right. right. exists (seq_of s a).
    split; [left; reflexivity|]. split; [simpl; auto|]. right. right. split; [auto|]. split; [lne|]. left. destruct (detach_owes s _ _ a B (or_introl Hs) Hl) as (n & Hn & Hq & _). exists n; auto.
  - destruct (det_of s a) as [[r [p|]]|] eqn:Ed; [| |destruct H].
    + destruct H as [[= <- <-]|[]]. right. right. right. exists p. cbn [sp]. rewrite Ed. split; [left; reflexivity|]. split; [simpl; auto|]. right. right. split; [auto|]. split; [lne|]. right. right. right. exists a. split; [left; reflexivity|]. exists r. exact Ed.
    + destruct H as [[= <- <-]|H]; [right; left; eexists; split; [reflexivity|left; reflexivity]|]. apply crit_touch in H. cbn [cr sp]. rewrite Ed. destruct H as [->|H]; [left; auto|].
      apply retire_touch in H. destruct H as [(p & Hq & ->)|[-> ->]]; [right; right; left; eauto|]. right. right. right. exists (seq_of s a).
      split; [left; reflexivity|]. split; [simpl; auto|]. right. right. split; [auto|]. split; [lne|]. left. destruct (det_owes s a r B Ed) as (n & Hn & Hq & _). exists n; auto.
  - apply in_app_or in H. destruct H as [H|H].
    + right. right. right. exists (length (k_nd s)). split; [left; reflexivity|]. split; [|left; auto]. simpl in H. unfold plocs. simpl. destruct H as [[= <- _]|[[= <- _]|[[= <- _]|[[= <- _]|[]]]]]; auto.
    + apply crit_touch in H. destruct H as [->|[[= <- <-]|H]]; [left; auto| |].
      * right. right. right. exists (length (k_nd s)). split; [left; reflexivity|]. split; [simpl; auto|left; auto].
      * destruct (k_act s =? 0); [destruct H|]. destruct H as [[= <- <-]|H].
        -- right. right. right. exists (length (k_nd s)). split; [left; reflexivity|]. split; [simpl; auto|left; auto].
        -- apply in_hooks in H. destruct H as (_ & p & Hq & ->). right. right. left. eauto.
  - destruct H as [[= <- <-]|[]]. right. right. right. exists p. split; [left; reflexivity|]. split; [simpl; auto|]. right. right. split; [auto|]. split; [lne|]. right. left. cbn [k_step] in Hs. destruct (nth_error (k_nd s) p) as [n|] eqn:Hn; [|discriminate].
    destruct (n_fast n) eqn:Ef; [|discriminate]. exists n. rewrite Ef. auto.
  - destruct H as [[= <- <-]|H]; [right; left; eexists; split; [reflexivity|left; reflexivity]|]. apply crit_touch in H. destruct H as [->|H]; [left; auto|].
    destruct (Nat.ltb_spec (seq_of s a) (length (k_nd s))) as [Hl|_]; [|destruct H]. apply in_hooks in H. destruct H as (_ & p & Hq & ->). right. right. left. eauto.
  - destruct H as [[= <- <-]|H]; [right; left; eexists; split; [reflexivity|left; reflexivity]|]. apply crit_touch in H. destruct H as [->|[]]. left; auto.
  - destruct H as [[= <- <-]|[]]. right. left. eexists; split; [reflexivity|left; reflexivity].
  - destruct (at_of s o) as [|p| | |p|p|p|p] eqn:Ea; try (destruct H; fail). destruct H as [[= <- <-]|[[=]|[]]]. right. right. right. exists p. cbn [sp]. rewrite Ea. split; [left; reflexivity|]. split; [simpl; auto|]. right. right. split; [auto|]. split; [lne|]. left.
    unfold at_of in Ea. destruct (nth_error (k_po s) o) as [r|] eqn:Ho; [|discriminate]. eapply has_isq; eauto.
  - destruct (at_of s o) as [|p| | |p|p|p|p] eqn:Ea; try (destruct H; fail).
    + apply crit_touch in H. cbn [cr sp]. rewrite Ea. destruct H as [->|H]; [left; auto|]. apply in_hooks in H. destruct H as (_ & q & Hq & ->). right. right. left. eauto.
    + destruct H as [[= <- <-]|[]]. right. right. right. exists p. cbn [sp]. rewrite Ea. split; [left; reflexivity|]. split; [simpl; auto|]. right. right. split; [auto|]. split; [lne|]. right. right. left. exists o. split; [left; reflexivity|exact Ea].
  - destruct (at_of s o) as [|p| | |p|p|p|p] eqn:Ea; try (destruct H; fail). destruct H as [[= <- <-]|[]]. right. right. right. exists p. cbn [sp]. rewrite Ea. split; [left; reflexivity|]. split; [simpl; auto|]. right. right. split; [auto|]. split; [lne|]. left.
    unfold at_of in Ea. destruct (nth_error (k_po s) o) as [r|] eqn:Ho; [|discriminate]. eapply has_isq; eauto.
  - right. right. right. exists p. split; [left; reflexivity|]. split; [simpl in H; unfold plocs; simpl; destruct H as [[= <- _]|[[= <- _]|[[= <- _]|[[= <- _]|[]]]]]; auto|]. right. left. cbn [k_step] in Hs. destruct (nth_error (k_nd s) p) as [n|] eqn:Hn; [|discriminate].
    destruct (n_done n) eqn:Ef; [|discriminate]. eauto.
Qed.

Lemma event_cases e p : In e es -> about p e = true -> In p (sp s l) /\ (e = EPost p /\ p = length (k_nd s) /\ l = LPost \/ isq s p /\ p < length (k_nd s)).
Proof.
  intros He Ha. assert (Q : In p (sp s l) /\ (e = EPost p /\ p = length (k_nd s) /\ l = LPost \/ isq s p)).
  { destruct l as [|a|a| |q|a|o|o|o|o|o|q]; unfold sp, seq_of, det_of, at_of; kinv Hs; cbn [In] in He; try tauto;
      repeat (match goal with H : nth_error _ _ = Some _ |- _ => rewrite H end); repeat (match goal with H : g_det _ = _ |- _ => rewrite H | H : o_at _ = _ |- _ => rewrite H end);
      destruct He as [<-|[]]; cbn [about] in Ha; try discriminate; apply Nat.eqb_eq in Ha; subst; (split; [left; reflexivity|]); try (left; auto; fail); right.
    all: try (eexists; split; [eassumption|]; match goal with H : negb ?b = false |- _ => now apply negb_false_iff in H | _ => assumption end).
    all: first [eapply has_isq; eassumption|eapply taken_isq; eassumption]. }
  destruct Q as [Q1 [Q2|Q2]]; split; auto. right. split; [auto|]. now apply lt_isq.
Qed.

Lemma crit_shape : cr s l = true -> exists l1 l2, acts s l = l1 ++ Lock x_mtx :: l2 ++ Unlock x_mtx :: [] /\ forallb is_touch l1 = true /\ (forall b, ~ In (Touch l_mech b) l1) /\ (forall p b, p < length (k_nd s) -> ~ In (Touch (l_hook p) b) l1).
Proof.
  assert (K : forall x c, exists l1 l2, Touch (l_ag x) true :: M_PostAckHB.crit c = l1 ++ Lock x_mtx :: l2 ++ Unlock x_mtx :: [] /\ forallb is_touch l1 = true /\ (forall b, ~ In (Touch l_mech b) l1) /\ (forall p b, p < length (k_nd s) -> ~ In (Touch (l_hook p) b) l1)).
  { intros x c. exists [Touch (l_ag x) true], (Touch l_mech true :: c). repeat split; [intros b [[=]|[]]; lne|intros p b _ [[=]|[]]; lne]. }
  destruct l as [|a|a| |p|a|o|o|o|o|o|p]; cbn [cr kh_acts]; try discriminate; cbv zeta; intros E; auto.
  - destruct (det_of s a) as [[r [p|]]|]; try discriminate. apply K.
  - exists [Touch (l_obj (length (k_nd s))) true; Touch (l_rcv (length (k_nd s))) true; Touch (l_hook (length (k_nd s))) true; Touch (l_acks (length (k_nd s))) true]. eexists. split; [unfold M_PostAckHB.crit; rewrite app_comm_cons; reflexivity|].
    split; [reflexivity|]. split; [intros b H; simpl in H; repeat (destruct H as [H|H]; [injection H as ?; lne|]); destruct H|]. intros q b Hq H; simpl in H; repeat (destruct H as [H|H]; [injection H as ?; lne|]); destruct H.
  - exists [Touch (l_ag (ag_of s o)) false], [Touch l_mech true]. repeat split; [intros b [[=]|[]]; lne|intros p b _ [[=]|[]]; lne].
  - destruct (at_of s o) as [|p| | |p|p|p|p]; try discriminate. exists [], (Touch l_mech true :: hooks s). repeat split; auto.
Qed.
Lemma noncrit : cr s l = false -> (forall a r, ~ In (Rmw x_mtx a r) (acts s l)).
Proof.
  destruct l as [|a|a| |p|a|o|o|o|o|o|p]; cbn [cr kh_acts]; try discriminate; intros E u v H.
  - destruct (det_of s a) as [[r [p|]]|]; try discriminate; [destruct H as [[=]|[]]|destruct H].
  - destruct H as [[=]|[]].
  - destruct H as [[=]|[]].
  - destruct (at_of s o) as [|p| | |p|p|p|p]; try (destruct H; fail). destruct H as [[=]|[[=]|[]]]. unfold x_mtx, x_acks in *. lia.
  - destruct (at_of s o) as [|p| | |p|p|p|p]; try discriminate; try (destruct H; fail). destruct H as [[=]|[]].
  - destruct (at_of s o) as [|p| | |p|p|p|p]; try (destruct H; fail). destruct H as [[=]|[]].
  - simpl in H. repeat (destruct H as [H|H]; [discriminate|]). destruct H.
Qed.
Lemma crit_rmw x a r c : In (Rmw x a r) (M_PostAckHB.crit c) -> x = x_mtx \/ In (Rmw x a r) c.
Proof. unfold M_PostAckHB.crit, Lock, Unlock. intros [[= <- _ _]|[[=]|H]]; [auto|]. apply in_app_or in H. destruct H as [H|[[= <- _ _]|[]]]; auto. Qed.
Lemma retire_rmw q x a r : In (Rmw x a r) (retire_acts d_acq d_rel s q) -> x = x_acks q.
Proof. unfold retire_acts. intros H. apply in_app_or in H. destruct H as [H|[[=]|[[= <- _ _]|[]]]]; [|reflexivity]. destruct (no_rmw_hooks _ _ _ _ H). Qed.
Lemma rmw_cases p u v : In (Rmw (x_acks p) u v) (acts s l) -> exists n, nth_error (k_nd s) p = Some n /\ 0 < n_acks n.
Proof.
  assert (M : forall q, x_acks q = x_mtx -> False) by (unfold x_acks, x_mtx; lia). assert (I : forall q, x_acks p = x_acks q -> p = q) by (unfold x_acks; intros; lia).
  destruct l as [|a|a| |q|a|o|o|o|o|o|q]; cbn [kh_acts]; cbv zeta; intros H.
  - destruct H as [[=]|H]. apply crit_rmw in H. destruct H as [H|[]]. destruct (M _ H).
  - destruct H as [[=]|H]. apply crit_rmw in H. destruct H as [H|H]; [destruct (M _ H)|]. destruct (Nat.ltb_spec (seq_of s a) (length (k_nd s))) as [Hl|_]; [|destruct H]. apply retire_rmw, I in H. subst p. destruct (detach_owes s _ _ a B (or_introl Hs) Hl) as (n & Hn & _ & Hq). eauto.
  - destruct (det_of s a) as [[r [q|]]|] eqn:Ed; [destruct H as [[=]|[]]| |destruct H]. destruct H as [[=]|H]. apply crit_rmw in H. destruct H as [H|H]; [destruct (M _ H)|]. apply retire_rmw, I in H. subst p. destruct (det_owes s a r B Ed) as (n & Hn & _ & Hq). eauto.
  - apply in_app_or in H. destruct H as [H|H]; [simpl in H; repeat (destruct H as [H|H]; [discriminate|]); destruct H|]. apply crit_rmw in H. destruct H as [H|[[=]|H]]; [destruct (M _ H)|]. destruct (k_act s =? 0); [destruct H|]. destruct H as [[=]|H]. destruct (no_rmw_hooks _ _ _ _ H).
  - destruct H as [[=]|[]].
  - destruct H as [[=]|H]. apply crit_rmw in H. destruct H as [H|H]; [destruct (M _ H)|]. destruct (seq_of s a <? length (k_nd s)); [|destruct H]. destruct (no_rmw_hooks _ _ _ _ H).
  - destruct H as [[=]|H]. apply crit_rmw in H. destruct H as [H|[]]. destruct (M _ H).
  - destruct H as [[=]|[]].
  - destruct (at_of s o) as [|q| | |q|q|q|q] eqn:Ea; try (destruct H; fail). destruct H as [[=]|[[= H _ _]|[]]]. symmetry in H. apply I in H. subst q. unfold at_of in Ea. destruct (nth_error (k_po s) o) as [r|] eqn:Ho; [|discriminate].
    destruct (nd_some s p) as [n Hn]; [eapply lt_po; eauto|]. exists n. split; [auto|]. eapply has_pos; eauto.
  - destruct (at_of s o) as [|q| | |q|q|q|q]; try (destruct H; fail); [|destruct H as [[=]|[]]]. apply crit_rmw in H. destruct H as [H|H]; [destruct (M _ H)|]. destruct (no_rmw_hooks _ _ _ _ H).
  - destruct (at_of s o) as [|q| | |q|q|q|q]; try (destruct H; fail). destruct H as [[=]|[]].
  - simpl in H. repeat (destruct H as [H|H]; [discriminate|]). destruct H.
Qed.
Lemma dst_cases t : In t (kh_dst s l) -> (exists p, In p (sp s l) /\ t = t_p p) \/ (exists o, In o (so s l) /\ (t = t_l o \/ t = t_o o \/ t = t_c o)) \/ (exists a, In a (sa s l) /\ t = t_a a).
Proof.
  destruct l as [|a|a| |q|a|o|o|o|o|o|q]; cbn [kh_dst sp so sa]; cbv zeta; intros H.
  - destruct H as [<-|[]]. right. right. eexists. split; [left|]; reflexivity.
  - destruct H as [<-|[]]. right. right. eexists. split; [left|]; reflexivity.
  - destruct H as [<-|H]; [right; right; eexists; split; [left|]; reflexivity|]. destruct (det_of s a) as [[r [q|]]|]; try (destruct H; fail). destruct H as [<-|[]]. left. eexists. split; [left|]; reflexivity.
  - destruct H as [<-|H]; [left; eexists; split; [left|]; reflexivity|]. destruct (k_act s =? 0); [destruct H|]. apply in_map_iff in H. destruct H as (o & <- & H). right. left. exists o. auto.
  - destruct H as [<-|[]]. left. eexists. split; [left|]; reflexivity.
  - destruct H as [<-|[<-|[<-|[]]]]; [right; right; eexists; split; [left|]; reflexivity| |]; right; left; eexists; (split; [left; reflexivity|]); auto.
  - destruct H as [<-|[]]. right. left. eexists. split; [left; reflexivity|]. auto.
  - destruct H as [<-|[<-|[]]]; [right; left; eexists; split; [left; reflexivity|]; auto|]. right. right. eexists. split; [left|]; reflexivity.
  - destruct H as [<-|[]]. right. left. eexists. split; [left; reflexivity|]. auto.
  - destruct H as [<-|H]; [right; left; eexists; split; [left; reflexivity|]; auto|]. destruct (at_of s o) as [|q| | |q|q|q|q]; try (destruct H; fail). destruct H as [<-|[]]. left. eexists. split; [left|]; reflexivity.
  - destruct H as [<-|[]]. right. left. eexists. split; [left; reflexivity|]. auto.
  - destruct H as [<-|[]]. left. eexists. split; [left|]; reflexivity.
Qed.
End Touch.
End Orders.
