(** The counting invariant of M_PostAckHB. *)
From Coq Require Import List Arith Bool Lia.
From Verif Require Import Lts ListFacts M_HB M_PostAckHB.
Import ListNotations.

Definition b2n (b : bool) : nat := if b then 1 else 0.
(** Agents that have not polled p; about to call complete() of p; handles of p that are not acknowledged; about to unlink it; about to call complete(); polls of a in progress *)
Definition ow (p : nat) (g : ag) : nat := match g_det g with Some (r, _) => b2n ((g_seq g <=? p) && (p <? r)) | None => b2n (g_on g && (g_seq g <=? p)) end.
Definition dc (p : nat) (g : ag) : nat := match g_det g with Some (_, Some q) => b2n (q =? p) | _ => 0 end.
Definition hs (p : nat) (r : po) : nat := match o_at r with PHas q => b2n (q =? p) | _ => 0 end.
Definition er (p : nat) (r : po) : nat := match o_at r with PErase q => b2n (q =? p) | _ => 0 end.
Definition co (p : nat) (r : po) : nat := match o_at r with PComp q => b2n (q =? p) | _ => 0 end.
Definition bz (a : nat) (r : po) : nat := match o_at r with PQueued | PTaken _ | PCanc => b2n (o_ag r =? a) | _ => 0 end.
Notation sm f l := (sum (map f l)).

Record NI (n : nd) (O H E C D : nat) : Prop := {
  i_acks : n_acks n = O + H;
  i_pos : 0 < n_acks n -> E = 0 /\ C = 0 /\ D = 0 /\ n_fast n = false /\ n_done n = false /\ n_q n = true;
  i_zero : n_acks n = 0 -> E + C + D + b2n (n_fast n) + b2n (n_done n) = 1 /\ b2n (n_q n) = E;
  i_dead : n_dead n = true -> n_done n = true }.
Record AI (len : nat) (bzy : nat) (g : ag) : Prop := {
  a_len : g_seq g <= len;
  a_det : match g_det g with None => True | Some (r, None) => g_on g = false /\ g_seq g < r /\ r <= len | Some (r, Some p) => g_on g = false /\ g_seq g <= r /\ r <= len /\ p < len end;
  a_poll : g_poll g = true -> g_on g = true;
  a_busy : bzy = b2n (g_poll g) }.
Definition PI (s : kst) (r : po) : Prop :=
  match o_at r with
  | PQueued => o_try r = false /\ exists g, nth_error (k_ag s) (o_ag r) = Some g /\ g_on g = true /\ g_seq g = length (k_nd s)
  | PTaken p => p < length (k_nd s) /\ exists g, nth_error (k_ag s) (o_ag r) = Some g /\ g_on g = true /\ g_seq g = p
  | PCanc => o_try r = true /\ exists g, nth_error (k_ag s) (o_ag r) = Some g /\ g_on g = true
  | PHas p | PErase p | PComp p => p < length (k_nd s)
  | _ => True
  end.
Record BI (s : kst) : Prop := {
  b_act : k_act s = sm (fun g => b2n (g_on g)) (k_ag s);
  b_ag : forall a g, nth_error (k_ag s) a = Some g -> AI (length (k_nd s)) (sm (bz a) (k_po s)) g;
  b_po : forall o r, nth_error (k_po s) o = Some r -> PI s r;
  b_nd : forall p n, nth_error (k_nd s) p = Some n -> NI n (sm (ow p) (k_ag s)) (sm (hs p) (k_po s)) (sm (er p) (k_po s)) (sm (co p) (k_po s)) (sm (dc p) (k_ag s)) }.

Lemma sm_app {A} (f : A -> nat) l1 l2 : sm f (l1 ++ l2) = sm f l1 + sm f l2.
Proof. rewrite map_app. apply sum_app. Qed.
Lemma sm_set {A} (f : A -> nat) l i x y : nth_error l i = Some y -> sm f (set_nth l i x) + f y = sm f l + f x.
Proof. apply sum_map_set_nth. Qed.
Lemma sm_in {A} (f : A -> nat) l i x : nth_error l i = Some x -> f x <= sm f l.
Proof. intros H. apply sum_map_le. eapply nth_error_In; eauto. Qed.
Lemma sm_two {A} (f : A -> nat) l i j x y : nth_error l i = Some x -> nth_error l j = Some y -> i <> j -> f x + f y <= sm f l.
Proof.
  revert i j. induction l as [|a l IH]; intros [|i] [|j] Hi Hj Hij; simpl in *; try discriminate; try congruence.
  - injection Hi as ->. pose proof (sm_in f _ _ _ Hj). lia.
  - injection Hj as ->. pose proof (sm_in f _ _ _ Hi). lia.
  - assert (f x + f y <= sm f l) by (apply (IH i j); auto). lia.
Qed.
Lemma b2n_le b : b2n b <= 1. Proof. destruct b; simpl; lia. Qed.
Lemma nth_set {A} (l : list A) i j x y : nth_error (set_nth l i x) j = Some y -> (j = i /\ y = x /\ i < length l) \/ (j <> i /\ nth_error l j = Some y).
Proof.
  intros H. destruct (Nat.eq_dec j i) as [->|Hn].
  - left. destruct (nth_error l i) as [z|] eqn:E; [rewrite (nth_error_set_nth_same _ _ _ _ E) in H; injection H as <-; split; [auto|]; split; [auto|]; apply nth_error_Some; congruence|].
    exfalso. apply nth_error_None in E. rewrite <- (set_nth_length l i x) in E. apply nth_error_None in E. congruence.
  - right. split; [exact Hn|]. now rewrite nth_error_set_nth_other in H by auto.
Qed.
Lemma nth_app1 {A} (l : list A) x j y : nth_error (l ++ [x]) j = Some y -> (j = length l /\ y = x) \/ nth_error l j = Some y.
Proof.
  intros H. destruct (Nat.lt_ge_cases j (length l)) as [Hl|Hl]; [rewrite nth_error_app1 in H by auto; auto|]. rewrite nth_error_app2 in H by auto. left.
  destruct (j - length l) as [|k] eqn:E; [injection H as <-; split; [lia|auto]|]. destruct k; discriminate.
Qed.

Lemma set_set {A} (l : list A) i x y : set_nth (set_nth l i x) i y = set_nth l i y.
Proof. revert i. induction l as [|a l IH]; intros [|i]; simpl; auto. now rewrite IH. Qed.
Lemma on_det len b g : AI len b g -> g_on g = true -> g_det g = None.
Proof. intros [_ H _ _] E. destruct (g_det g) as [[r [p|]]|]; [destruct H; congruence|destruct H; congruence|reflexivity]. Qed.
Definition busy (r : po) : bool := match o_at r with PQueued | PTaken _ | PCanc => true | _ => false end.
Lemma bz_busy a r : bz a r = b2n (busy r && (o_ag r =? a)).
Proof. unfold bz, busy. destruct (o_at r); reflexivity. Qed.
Lemma busy_ag s o r : BI s -> nth_error (k_po s) o = Some r -> busy r = true -> exists g, nth_error (k_ag s) (o_ag r) = Some g /\ g_on g = true /\ g_poll g = true /\ g_det g = None.
Proof.
  intros B Ho Hb. pose proof (b_po _ B _ _ Ho) as K. assert (Q : exists g, nth_error (k_ag s) (o_ag r) = Some g /\ g_on g = true).
  { unfold busy in Hb. unfold PI in K. destruct (o_at r); try discriminate; destruct K as (_ & g & H1 & H2); try destruct H2; eauto. }
  destruct Q as (g & H1 & H2). exists g. pose proof (b_ag _ B _ _ H1) as I. split; [auto|]. split; [auto|]. split; [|eapply on_det; eauto].
  pose proof (a_busy _ _ _ I) as Q. pose proof (sm_in (bz (o_ag r)) _ _ _ Ho) as Q2. rewrite bz_busy, Hb, Nat.eqb_refl in Q2. simpl in Q2. destruct (g_poll g); [reflexivity|simpl in Q; lia].
Qed.
Lemma busy_other s o r a g : BI s -> nth_error (k_po s) o = Some r -> busy r = true -> nth_error (k_ag s) a = Some g -> g_poll g = false -> o_ag r <> a.
Proof. intros B Ho Hb Ha Hp E. destruct (busy_ag _ _ _ B Ho Hb) as (g' & H1 & _ & H2 & _). congruence. Qed.
Lemma busy_uniq s o r o' r' : BI s -> nth_error (k_po s) o = Some r -> nth_error (k_po s) o' = Some r' -> busy r = true -> busy r' = true -> o_ag r = o_ag r' -> o = o'.
Proof.
  intros B H1 H2 B1 B2 E. destruct (Nat.eq_dec o o') as [|Hn]; [auto|]. destruct (busy_ag _ _ _ B H1 B1) as (g & Hg & _ & Hp & _). pose proof (a_busy _ _ _ (b_ag _ B _ _ Hg)) as Q.
  pose proof (sm_two (bz (o_ag r)) _ _ _ _ _ H1 H2 Hn) as Q2. rewrite !bz_busy, B1, B2, E, Nat.eqb_refl in Q2. rewrite E, Hp in Q. simpl in *. lia.
Qed.
(** PI when the agent of r does not change *)
Lemma PI_ag s s' r : PI s r -> length (k_nd s') = length (k_nd s) -> (busy r = true -> nth_error (k_ag s') (o_ag r) = nth_error (k_ag s) (o_ag r)) -> PI s' r.
Proof.
  intros K Hl Ha. unfold PI in *. unfold busy in Ha. destruct (o_at r); try (rewrite Ha by reflexivity); rewrite ?Hl; exact K.
Qed.
Lemma BI_init : BI k_start.
Proof. constructor; simpl; auto; intros [|] ? [=]. Qed.
Lemma walk_ok s k : BI s -> walk s k = k.
Proof.
  intros B. unfold walk. destruct (existsb _ _) eqn:E; [|reflexivity]. exfalso. apply existsb_exists in E. destruct E as (n & Hn & E). apply In_nth_error in Hn. destruct Hn as [p Hn].
  apply andb_true_iff in E. destruct E as [Eq Ed]. destruct (b_nd _ B _ _ Hn) as [A P Z D]. specialize (D Ed). destruct (Nat.eq_dec (n_acks n) 0) as [E0|E0].
  - destruct (Z E0) as [Z1 Z2]. rewrite D in Z1. rewrite Eq in Z2. simpl in *. lia.
  - destruct P as (_ & _ & _ & _ & K & _); [lia|congruence].
Qed.
Lemma alive_node s p n k : BI s -> nth_error (k_nd s) p = Some n -> n_done n = false -> node s p k = k n.
Proof. intros B Hn Hd. unfold node. rewrite Hn. destruct (n_dead n) eqn:E; [|reflexivity]. rewrite (i_dead _ _ _ _ _ _ (b_nd _ B _ _ Hn) E) in Hd. discriminate. Qed.
Lemma alive_complete s p n k : BI s -> nth_error (k_nd s) p = Some n -> n_done n = false -> complete s p k = k (with_nd s p (Nd (n_acks n) (n_q n) false true false)).
Proof. intros B Hn Hd. unfold complete. rewrite (alive_node _ _ _ _ B Hn Hd), Hd. reflexivity. Qed.
Lemma nd_some s p : p < length (k_nd s) -> exists n, nth_error (k_nd s) p = Some n.
Proof. intros H. destruct (nth_error (k_nd s) p) as [n|] eqn:E; [eauto|]. apply nth_error_None in E. lia. Qed.

Definition good (s : kst) (l : klabel) : Prop := match k_step s l with Next s' _ => BI s' | Disabled => True | Fail _ _ => False end.

Lemma BI_attach s : BI s -> good s LAttach.
Proof.
  intros B. unfold good. simpl. constructor; simpl.
  - rewrite sm_app. simpl. rewrite (b_act _ B). lia.
  - intros a g Hn. apply nth_app1 in Hn. destruct Hn as [[-> ->]|Hn]; [|exact (b_ag _ B _ _ Hn)]. constructor; simpl; auto; try discriminate.
    apply sum_map_0. intros r Hr. apply In_nth_error in Hr. destruct Hr as [o Ho]. rewrite bz_busy. destruct (busy r) eqn:E; [|reflexivity]. destruct (busy_ag _ _ _ B Ho E) as (g & Hg & _).
    assert (o_ag r < length (k_ag s)) by (apply nth_error_Some; congruence). destruct (Nat.eqb_spec (o_ag r) (length (k_ag s))); [lia|reflexivity].
  - intros o r Ho. apply (PI_ag s); auto; [exact (b_po _ B _ _ Ho)|]. intros E. destruct (busy_ag _ _ _ B Ho E) as (g & Hg & _). apply nth_error_app1. apply nth_error_Some. congruence.
  - intros p n Hn. assert (Hp : p < length (k_nd s)) by (apply nth_error_Some; congruence). rewrite !sm_app. cbn [map]. unfold ow at 2, dc at 2. simpl. destruct (Nat.leb_spec (length (k_nd s)) p); [lia|]. simpl. rewrite !Nat.add_0_r.
    exact (b_nd _ B _ _ Hn).
Qed.
Lemma BI_det_end s a g : BI s -> nth_error (k_ag s) a = Some g -> g_on g = true -> g_poll g = false -> forall c q d, k_act s = S c -> q <= length (k_nd s) ->
  (d = None /\ q = length (k_nd s) /\ g_seq g = q \/ d = Some (length (k_nd s), None) /\ g_seq g = q /\ q < length (k_nd s)) ->
  BI (with_ag (KS c (k_nd s) (k_ag s) (k_po s)) a (Ag false q false d)).
Proof.
  intros B Ha Hon Hp c q d Hc Hq Hd. pose proof (on_det _ _ _ (b_ag _ B _ _ Ha) Hon) as Edet. constructor; simpl.
  - pose proof (sm_set (fun g => b2n (g_on g)) _ _ (Ag false q false d) _ Ha) as K. simpl in K. rewrite Hon in K. pose proof (b_act _ B). simpl in K. lia.
  - intros a' g' Hn. apply nth_set in Hn. destruct Hn as [(-> & -> & _)|[Hne Hn]]; [|exact (b_ag _ B _ _ Hn)]. pose proof (a_busy _ _ _ (b_ag _ B _ _ Ha)) as K. rewrite Hp in K. constructor; simpl; auto; try discriminate.
    destruct Hd as [(-> & _)|(-> & _ & ?)]; auto.
  - intros o r Ho. apply (PI_ag s); simpl; auto; [exact (b_po _ B _ _ Ho)|]. intros E. apply nth_error_set_nth_other. intros E2. exact (busy_other _ _ _ _ _ B Ho E Ha Hp (eq_sym E2)).
  - intros p n Hn. assert (Hlen : p < length (k_nd s)) by (apply nth_error_Some; congruence). pose proof (b_nd _ B _ _ Hn) as K.
    pose proof (sm_set (ow p) _ _ (Ag false q false d) _ Ha) as K1. pose proof (sm_set (dc p) _ _ (Ag false q false d) _ Ha) as K2.
    assert (E1 : ow p (Ag false q false d) = ow p g). { unfold ow. rewrite Edet, Hon. simpl. destruct Hd as [(-> & -> & ->)|(-> & -> & _)]; simpl. - destruct (Nat.leb_spec (length (k_nd s)) p); [lia|reflexivity]. - destruct (Nat.ltb_spec p (length (k_nd s))); [|lia]. now rewrite andb_true_r. }
    assert (E2 : dc p (Ag false q false d) = dc p g). { unfold dc. rewrite Edet. simpl. destruct Hd as [(-> & _)|(-> & _)]; reflexivity. }
    rewrite E1 in K1. rewrite E2 in K2. replace (sm (ow p) (set_nth _ _ _)) with (sm (ow p) (k_ag s)) by lia. replace (sm (dc p) (set_nth _ _ _)) with (sm (dc p) (k_ag s)) by lia. exact K.
Qed.
Lemma BI_retire s a g r : BI s -> nth_error (k_ag s) a = Some g -> g_det g = Some (r, None) ->
  match retire s a (g_seq g) r with Next s' _ => BI s' | Disabled => True | Fail _ _ => False end.
Proof.
  intros B Ha Hd. destruct (b_ag _ B _ _ Ha) as [AL AD AP AB]. rewrite Hd in AD. destruct AD as (Aon & Alt & Ale). set (q := g_seq g) in *.
  assert (Hq : q < length (k_nd s)) by lia. destruct (nd_some _ _ Hq) as [n Hn]. unfold retire. rewrite walk_ok by auto. rewrite Hn. pose proof (b_nd _ B _ _ Hn) as N.
  pose proof (sm_in (ow q) _ _ _ Ha) as Ho. assert (E1 : ow q g = 1). { unfold ow. rewrite Hd. fold q. rewrite Nat.leb_refl. destruct (Nat.ltb_spec q r); [reflexivity|lia]. } rewrite E1 in Ho.
  destruct (i_pos _ _ _ _ _ _ N) as (NE & NC & ND & NF & NDn & NQ); [rewrite (i_acks _ _ _ _ _ _ N); lia|]. rewrite NQ. simpl.
  assert (Gp : g_poll g = false) by (destruct (g_poll g); [specialize (AP eq_refl); congruence|reflexivity]).
  pose proof (i_acks _ _ _ _ _ _ N) as NA.
  assert (common : forall n' g', g_on g' = false -> g_poll g' = false -> AI (length (k_nd s)) 0 g' -> NI n' (sm (ow q) (k_ag s) - 1) (sm (hs q) (k_po s)) 0 0 (dc q g') ->
    ow q g' = 0 -> (forall p, p <> q -> ow p g' = ow p g /\ dc p g' = 0) -> BI (with_ag (with_nd s q n') a g')).
  { intros n' g' G1 G2 G3 N' W0 W1. constructor; simpl.
    - pose proof (sm_set (fun g => b2n (g_on g)) _ _ g' _ Ha) as K. simpl in K. rewrite Aon, G1 in K. pose proof (b_act _ B). lia.
    - intros a' g0 Hg. rewrite set_nth_length. apply nth_set in Hg. destruct Hg as [(-> & -> & _)|[Hne Hg]]; [|exact (b_ag _ B _ _ Hg)]. rewrite AB, Gp. exact G3.
    - intros o r0 Hr. apply (PI_ag s); simpl; [exact (b_po _ B _ _ Hr)|apply set_nth_length|]. intros E. apply nth_error_set_nth_other. intros E2. exact (busy_other _ _ _ _ _ B Hr E Ha Gp (eq_sym E2)).
    - intros p n0 Hp. pose proof (sm_set (ow p) _ _ g' _ Ha) as K1. pose proof (sm_set (dc p) _ _ g' _ Ha) as K2. assert (D0 : dc p g = 0) by (unfold dc; rewrite Hd; reflexivity). rewrite D0 in K2.
      apply nth_set in Hp. destruct Hp as [(-> & -> & _)|[Hne Hp]].
      + rewrite E1, W0 in K1. rewrite NE, NC. replace (sm (ow q) (set_nth _ _ _)) with (sm (ow q) (k_ag s) - 1) by lia. replace (sm (dc q) (set_nth _ _ _)) with (dc q g') by lia. exact N'.
      + destruct (W1 p) as [W2 W3]; [congruence|]. rewrite W2 in K1. rewrite W3 in K2. replace (sm (ow p) (set_nth _ _ _)) with (sm (ow p) (k_ag s)) by lia. replace (sm (dc p) (set_nth _ _ _)) with (sm (dc p) (k_ag s)) by lia. exact (b_nd _ B _ _ Hp). }
  destruct (n_acks n) as [|[|m]] eqn:En; [lia| |].
  - apply common; auto.
    + constructor; simpl; auto; try lia.
    + unfold dc; simpl. rewrite Nat.eqb_refl. constructor; simpl; rewrite ?NF, ?NDn; try lia; simpl; auto. intros K. rewrite <- NDn. exact (i_dead _ _ _ _ _ _ N K).
    + unfold ow. simpl. destruct (Nat.leb_spec (q+1) q); [lia|reflexivity].
    + intros p Hp. unfold ow, dc. rewrite Hd. simpl. fold q. destruct (Nat.eqb_spec q p); [congruence|]. split; [|reflexivity]. f_equal. f_equal. destruct (Nat.leb_spec (q+1) p), (Nat.leb_spec q p); auto; lia.
  - unfold det_next. apply common; auto.
    + constructor; simpl; auto; try lia. destruct (Nat.eqb_spec r (q+1)); auto. repeat split; auto; lia.
    + assert (dc q {| g_on := false; g_seq := q + 1; g_poll := false; g_det := if r =? q + 1 then None else Some (r, None) |} = 0) as -> by (unfold dc; simpl; destruct (r =? q+1); reflexivity).
      constructor; simpl; rewrite ?NF, ?NDn; try lia; simpl; auto. intros K. rewrite <- NDn. exact (i_dead _ _ _ _ _ _ N K).
    + unfold ow. simpl. destruct (r =? q+1); simpl; [reflexivity|]. destruct (Nat.leb_spec (q+1) q); [lia|reflexivity].
    + intros p Hp. unfold ow, dc. rewrite Hd. simpl. fold q. destruct (Nat.eqb_spec r (q+1)) as [->|Hr]; simpl; split; auto.
      * destruct (Nat.leb_spec q p), (Nat.ltb_spec p (q+1)); auto; lia.
      * f_equal. f_equal. destruct (Nat.leb_spec (q+1) p), (Nat.leb_spec q p); auto; lia.
Qed.
Lemma walk_nd s s1 k : k_nd s = k_nd s1 -> walk s k = walk s1 k.
Proof. unfold walk. now intros ->. Qed.
Lemma BI_detach s a : BI s -> good s (LDetach a).
Proof.
  intros B. unfold good. simpl. destruct (nth_error (k_ag s) a) as [g|] eqn:Ha; auto. destruct (g_on g) eqn:Hon; simpl; auto. destruct (g_poll g) eqn:Hp; simpl; auto.
  destruct (k_act s) as [|c] eqn:Hc. { pose proof (b_act _ B) as K. pose proof (sm_in (fun g => b2n (g_on g)) _ _ _ Ha) as K2. simpl in K2. rewrite Hon in K2. simpl in K2. lia. }
  pose proof (a_len _ _ _ (b_ag _ B _ _ Ha)) as HL. destruct (Nat.ltb_spec (g_seq g) (length (k_nd s))) as [Hlt|Hge].
  - pose proof (BI_det_end s a g B Ha Hon Hp c (g_seq g) (Some (length (k_nd s), None)) Hc HL (or_intror (conj eq_refl (conj eq_refl Hlt)))) as B1.
    assert (La : a < length (k_ag s)) by (apply nth_error_Some; congruence).
    pose proof (BI_retire _ a (Ag false (g_seq g) false (Some (length (k_nd s), None))) (length (k_nd s)) B1) as K. unfold with_ag in K. cbn [k_ag k_act k_nd k_po g_seq g_det] in K.
    specialize (K (nth_error_set_nth_same _ _ _ _ Ha) eq_refl).
    unfold retire in *. rewrite walk_ok in K by exact B1. rewrite (walk_nd _ (with_ag (KS c (k_nd s) (k_ag s) (k_po s)) a (Ag false (g_seq g) false (Some (length (k_nd s), None))))) by reflexivity. rewrite walk_ok by exact B1.
    cbn [k_nd] in *. destruct (nth_error (k_nd s) (g_seq g)) as [n|]; auto. destruct (negb (n_q n)); auto. unfold with_ag, with_nd in *. cbn [k_ag k_act k_nd k_po] in *. destruct (n_acks n) as [|[|m]]; auto; rewrite set_set in K; exact K.
  - apply (BI_det_end s a g); auto. left. repeat split; lia.
Qed.
Lemma BI_det s a : BI s -> good s (LDet a).
Proof.
  intros B. unfold good. simpl. destruct (nth_error (k_ag s) a) as [g|] eqn:Ha; auto. destruct (g_det g) as [[r [p|]]|] eqn:Hd; auto; [|exact (BI_retire _ _ _ _ B Ha Hd)].
  destruct (b_ag _ B _ _ Ha) as [AL AD AP AB]. rewrite Hd in AD. destruct AD as (Aon & Alt & Ale & Hp). destruct (nd_some _ _ Hp) as [n Hn]. pose proof (b_nd _ B _ _ Hn) as N.
  pose proof (sm_in (dc p) _ _ _ Ha) as Ho. assert (E1 : dc p g = 1) by (unfold dc; rewrite Hd, Nat.eqb_refl; reflexivity). rewrite E1 in Ho.
  assert (Gp : g_poll g = false) by (destruct (g_poll g); [specialize (AP eq_refl); congruence|reflexivity]).
  assert (N0 : n_acks n = 0) by (destruct (Nat.eq_dec (n_acks n) 0); [auto|]; destruct (i_pos _ _ _ _ _ _ N) as (_ & _ & ? & _); lia). destruct (i_zero _ _ _ _ _ _ N N0) as [Z1 Z2].
  assert (ND : n_done n = false) by (destruct (n_done n); [simpl in Z1; lia|reflexivity]). assert (NF : n_fast n = false) by (destruct (n_fast n); [simpl in Z1; lia|reflexivity]). rewrite ND, NF in Z1. simpl in Z1.
  rewrite (alive_complete _ _ _ _ B Hn ND). unfold det_next. set (g' := Ag _ _ _ _). assert (Wo : forall q, ow q g' = ow q g).
  { intros q. unfold ow, g'. rewrite Hd. simpl. destruct (Nat.eqb_spec r (g_seq g)) as [->|]; simpl; auto. destruct (Nat.leb_spec (g_seq g) q), (Nat.ltb_spec q (g_seq g)); auto; lia. }
  assert (Wd : forall q, dc q g' = 0) by (intros q; unfold dc, g'; simpl; destruct (r =? g_seq g); reflexivity).
  constructor; simpl.
  - pose proof (sm_set (fun g => b2n (g_on g)) _ _ g' _ Ha) as K. simpl in K. rewrite Aon in K. pose proof (b_act _ B). simpl in K. lia.
  - intros a' g0 Hg. rewrite set_nth_length. apply nth_set in Hg. destruct Hg as [(-> & -> & _)|[Hne Hg]]; [|exact (b_ag _ B _ _ Hg)]. rewrite AB, Gp. constructor; simpl; auto; try lia. destruct (Nat.eqb_spec r (g_seq g)); auto. repeat split; auto; lia.
  - intros o r0 Hr. apply (PI_ag s); simpl; [exact (b_po _ B _ _ Hr)|apply set_nth_length|]. intros E. apply nth_error_set_nth_other. intros E2. exact (busy_other _ _ _ _ _ B Hr E Ha Gp (eq_sym E2)).
  - intros q n0 Hq. pose proof (sm_set (ow q) _ _ g' _ Ha) as K1. pose proof (sm_set (dc q) _ _ g' _ Ha) as K2. rewrite Wo in K1. rewrite Wd in K2. replace (sm (ow q) (set_nth _ _ _)) with (sm (ow q) (k_ag s)) by lia.
    apply nth_set in Hq. destruct Hq as [(-> & -> & _)|[Hne Hq]].
    + replace (sm (dc p) (set_nth _ _ _)) with (sm (dc p) (k_ag s) - 1) by lia. constructor; simpl; try lia; try discriminate. exact (i_acks _ _ _ _ _ _ N).
    + assert (dc q g = 0) as E0 by (unfold dc; rewrite Hd; destruct (Nat.eqb_spec p q); [congruence|reflexivity]). rewrite E0 in K2. replace (sm (dc q) (set_nth _ _ _)) with (sm (dc q) (k_ag s)) by lia. exact (b_nd _ B _ _ Hq).
Qed.
Lemma take_po s o r : nth_error (map (take (length (k_nd s))) (k_po s)) o = Some r -> exists r0, nth_error (k_po s) o = Some r0 /\ r = take (length (k_nd s)) r0.
Proof. rewrite nth_error_map. destruct (nth_error (k_po s) o) as [r0|]; simpl; intros [=]; eauto. Qed.
Lemma sm_take f p l : (forall r, f (take p r) = f r) -> sm f (map (take p) l) = sm f l.
Proof. intros H. rewrite map_map. apply sum_map_ext. intros r _. apply H. Qed.
Lemma ow_new s g : BI s -> In g (k_ag s) -> ow (length (k_nd s)) g = b2n (g_on g) /\ dc (length (k_nd s)) g = 0.
Proof.
  intros B Hi. apply In_nth_error in Hi. destruct Hi as [a Ha]. destruct (b_ag _ B _ _ Ha) as [AL AD AP AB]. unfold ow, dc. destruct (g_det g) as [[r [p|]]|].
  - destruct AD as (-> & ? & ? & ?). destruct (Nat.ltb_spec (length (k_nd s)) r); [lia|]. rewrite andb_false_r. destruct (Nat.eqb_spec p (length (k_nd s))); [lia|]. auto.
  - destruct AD as (-> & ? & ?). destruct (Nat.ltb_spec (length (k_nd s)) r); [lia|]. rewrite andb_false_r. auto.
  - destruct (Nat.leb_spec (g_seq g) (length (k_nd s))); [|lia]. now rewrite andb_true_r.
Qed.
Lemma po_new s r : BI s -> In r (k_po s) -> hs (length (k_nd s)) r = 0 /\ er (length (k_nd s)) r = 0 /\ co (length (k_nd s)) r = 0.
Proof.
  intros B Hi. apply In_nth_error in Hi. destruct Hi as [o Ho]. pose proof (b_po _ B _ _ Ho) as K. unfold PI in K. unfold hs, er, co. destruct (o_at r); auto; (destruct (Nat.eqb_spec p (length (k_nd s))); [lia|]; auto).
Qed.
Lemma AI_len len len' b g : AI len b g -> len <= len' -> AI len' b g.
Proof. intros [A D P Z] H. constructor; auto; [lia|]. destruct (g_det g) as [[r [p|]]|]; auto; intuition lia. Qed.
Lemma BI_post s : BI s -> good s LPost.
Proof.
  intros B. unfold good. simpl.
  assert (N0 : forall p n, nth_error (k_nd s ++ [n]) p = Some n -> True) by auto. clear N0.
  assert (SH : sm (hs (length (k_nd s))) (k_po s) = 0) by (apply sum_map_0; intros r Hr; apply (po_new _ _ B Hr)).
  assert (SE : sm (er (length (k_nd s))) (k_po s) = 0) by (apply sum_map_0; intros r Hr; apply (po_new _ _ B Hr)).
  assert (SC : sm (co (length (k_nd s))) (k_po s) = 0) by (apply sum_map_0; intros r Hr; apply (po_new _ _ B Hr)).
  assert (SD : sm (dc (length (k_nd s))) (k_ag s) = 0) by (apply sum_map_0; intros r Hr; apply (ow_new _ _ B Hr)).
  assert (SO : sm (ow (length (k_nd s))) (k_ag s) = k_act s). { rewrite (b_act _ B). apply sum_map_ext. intros g Hg. apply (ow_new _ _ B Hg). }
  destruct (Nat.eqb_spec (k_act s) 0) as [Ea|Ea].
  - assert (NQ : forall o r, nth_error (k_po s) o = Some r -> busy r = false).
    { intros o r Hr. destruct (busy r) eqn:E; [|reflexivity]. destruct (busy_ag _ _ _ B Hr E) as (g & Hg & Hon & _). pose proof (sm_in (fun g => b2n (g_on g)) _ _ _ Hg) as K. simpl in K. rewrite Hon, <- (b_act _ B) in K. simpl in K. lia. }
    destruct (existsb queued (k_po s)) eqn:Eq.
    + apply existsb_exists in Eq. destruct Eq as (r & Hr & Eq). apply In_nth_error in Hr. destruct Hr as [o Hr]. specialize (NQ _ _ Hr). unfold queued in Eq. unfold busy in NQ. destruct (o_at r); discriminate.
    + constructor; simpl; [exact (b_act _ B)| | |].
      * intros a g Hg. rewrite app_length. simpl. eapply AI_len; [exact (b_ag _ B _ _ Hg)|lia].
      * intros o r Hr. pose proof (b_po _ B _ _ Hr) as K. specialize (NQ _ _ Hr). unfold PI, busy in *. simpl. rewrite app_length. simpl. destruct (o_at r); try discriminate; auto; lia.
      * intros p n Hn. apply nth_app1 in Hn. destruct Hn as [[-> ->]|Hn]; [|exact (b_nd _ B _ _ Hn)]. rewrite SO, SH, SE, SC, SD. constructor; simpl; auto; try lia; discriminate.
  - rewrite walk_ok by auto. constructor; simpl; [exact (b_act _ B)| | |].
    + intros a g Hg. rewrite app_length. simpl. rewrite sm_take. eapply AI_len; [exact (b_ag _ B _ _ Hg)|lia]. intros r. unfold bz, take. destruct (o_at r) eqn:E; simpl; rewrite ?E; reflexivity.
    + intros o r Hr. apply take_po in Hr. destruct Hr as (r0 & Hr & ->). pose proof (b_po _ B _ _ Hr) as K. unfold PI, take in *. destruct (o_at r0) eqn:E; simpl; rewrite ?E, ?app_length; simpl; auto; try lia.
      * destruct K as (_ & g & ? & ? & ?). split; [lia|eauto].
      * destruct K as (? & K). split; [lia|exact K].
    + intros p n Hn. rewrite !sm_take by (intros r; unfold hs, er, co, take; destruct (o_at r) eqn:E; simpl; rewrite ?E; reflexivity).
      apply nth_app1 in Hn. destruct Hn as [[-> ->]|Hn]; [|exact (b_nd _ B _ _ Hn)]. rewrite SO, SH, SE, SC, SD. constructor; simpl; auto; try lia; try discriminate.
Qed.
(** Steps that change a node and leave the agents and polls *)
Lemma BI_nd s p n n' : BI s -> nth_error (k_nd s) p = Some n ->
  NI n' (sm (ow p) (k_ag s)) (sm (hs p) (k_po s)) (sm (er p) (k_po s)) (sm (co p) (k_po s)) (sm (dc p) (k_ag s)) -> BI (with_nd s p n').
Proof.
  intros B Hn N'. constructor; simpl.
  - exact (b_act _ B).
  - intros a g Hg. rewrite set_nth_length. exact (b_ag _ B _ _ Hg).
  - intros o r Hr. apply (PI_ag s); simpl; auto; [exact (b_po _ B _ _ Hr)|apply set_nth_length].
  - intros q n0 Hq. apply nth_set in Hq. destruct Hq as [(-> & -> & _)|[Hne Hq]]; [exact N'|exact (b_nd _ B _ _ Hq)].
Qed.
Lemma BI_fast s p : BI s -> good s (LFast p).
Proof.
  intros B. unfold good. simpl. destruct (nth_error (k_nd s) p) as [n|] eqn:Hn; auto. pose proof (b_nd _ B _ _ Hn) as N. destruct (n_fast n) eqn:Ef; auto.
  assert (N0 : n_acks n = 0) by (destruct (Nat.eq_dec (n_acks n) 0); [auto|]; destruct (i_pos _ _ _ _ _ _ N) as (_ & _ & _ & ? & _); [lia|congruence]). destruct (i_zero _ _ _ _ _ _ N N0) as [Z1 Z2]. rewrite Ef in Z1.
  assert (ND : n_done n = false) by (destruct (n_done n); [simpl in Z1; lia|reflexivity]). rewrite ND in Z1. simpl in Z1.
  rewrite (alive_complete _ _ _ _ B Hn ND). apply (BI_nd _ _ _ _ B Hn). constructor; simpl; try lia; try discriminate. exact (i_acks _ _ _ _ _ _ N).
Qed.
Lemma BI_destroy s p : BI s -> good s (LDestroy p).
Proof.
  intros B. unfold good. simpl. destruct (nth_error (k_nd s) p) as [n|] eqn:Hn; auto. pose proof (b_nd _ B _ _ Hn) as N. destruct (n_done n) eqn:Ed; simpl; auto. destruct (n_dead n) eqn:Ee; simpl; auto.
  apply (BI_nd _ _ _ _ B Hn). destruct N as [A P Z D]. rewrite Ed in *. constructor; simpl; auto.
Qed.
(** Steps that change a poll that is not in progress and its node *)
Lemma BI_ndpo s p n n' o r r' : BI s -> nth_error (k_nd s) p = Some n -> nth_error (k_po s) o = Some r -> busy r = false -> busy r' = false -> PI s r' ->
  (forall q, q <> p -> hs q r' = hs q r /\ er q r' = er q r /\ co q r' = co q r) ->
  NI n' (sm (ow p) (k_ag s)) (sm (hs p) (k_po s) + hs p r' - hs p r) (sm (er p) (k_po s) + er p r' - er p r) (sm (co p) (k_po s) + co p r' - co p r) (sm (dc p) (k_ag s)) ->
  BI (with_po (with_nd s p n') o r').
Proof.
  intros B Hn Ho Hb Hb' Hpi Hoth N'. constructor; simpl.
  - exact (b_act _ B).
  - intros a g Hg. rewrite set_nth_length. pose proof (sm_set (bz a) _ _ r' _ Ho) as K. rewrite !bz_busy, Hb, Hb' in K. simpl in K. replace (sm (bz a) (set_nth _ _ _)) with (sm (bz a) (k_po s)) by lia. exact (b_ag _ B _ _ Hg).
  - intros o' r0 Hr. apply (PI_ag s); simpl; auto; [|apply set_nth_length]. apply nth_set in Hr. destruct Hr as [(-> & -> & _)|[Hne Hr]]; [exact Hpi|exact (b_po _ B _ _ Hr)].
  - intros q n0 Hq. pose proof (sm_set (hs q) _ _ r' _ Ho) as K1. pose proof (sm_set (er q) _ _ r' _ Ho) as K2. pose proof (sm_set (co q) _ _ r' _ Ho) as K3.
    apply nth_set in Hq. destruct Hq as [(-> & -> & _)|[Hne Hq]].
    + replace (sm (hs p) (set_nth _ _ _)) with (sm (hs p) (k_po s) + hs p r' - hs p r) by lia. replace (sm (er p) (set_nth _ _ _)) with (sm (er p) (k_po s) + er p r' - er p r) by lia.
      replace (sm (co p) (set_nth _ _ _)) with (sm (co p) (k_po s) + co p r' - co p r) by lia. exact N'.
    + destruct (Hoth q) as (E1 & E2 & E3); [congruence|]. rewrite E1 in K1. rewrite E2 in K2. rewrite E3 in K3. replace (sm (hs q) (set_nth _ _ _)) with (sm (hs q) (k_po s)) by lia. replace (sm (er q) (set_nth _ _ _)) with (sm (er q) (k_po s)) by lia.
      replace (sm (co q) (set_nth _ _ _)) with (sm (co q) (k_po s)) by lia. exact (b_nd _ B _ _ Hq).
Qed.
Lemma BI_ack s o : BI s -> good s (LAck o).
Proof.
  intros B. unfold good. simpl. destruct (nth_error (k_po s) o) as [r|] eqn:Ho; auto. pose proof (b_po _ B _ _ Ho) as P. unfold PI in P. destruct (o_at r) as [|p| | |p|p|p|p] eqn:Er; auto.
  destruct (nd_some _ _ P) as [n Hn]. pose proof (b_nd _ B _ _ Hn) as N. pose proof (sm_in (hs p) _ _ _ Ho) as K. assert (E1 : hs p r = 1) by (unfold hs; rewrite Er, Nat.eqb_refl; reflexivity). rewrite E1 in K.
  assert (Hpos : 0 < n_acks n) by (rewrite (i_acks _ _ _ _ _ _ N); lia). destruct (i_pos _ _ _ _ _ _ N Hpos) as (NE & NC & ND & NF & NDn & NQ). rewrite (alive_node _ _ _ _ B Hn NDn).
  pose proof (i_acks _ _ _ _ _ _ N) as NA. destruct (n_acks n) as [|m] eqn:En; [lia|].
  assert (Z : er p r = 0 /\ co p r = 0) by (unfold er, co; rewrite Er; auto). destruct Z as [Z1 Z2].
  eapply BI_ndpo; eauto.
  - unfold busy; now rewrite Er.
  - unfold busy; simpl. destruct m; reflexivity.
  - unfold PI; simpl. destruct m; auto.
  - intros q Hq. unfold hs, er, co. rewrite Er. simpl. destruct (Nat.eqb_spec p q); [congruence|]. destruct m; auto. destruct (Nat.eqb_spec p q); [congruence|auto].
  - rewrite E1, Z1, Z2, NE, NC, ND. clear B. remember (sm (hs p) (k_po s)) as SH eqn:ESH; clear ESH. destruct m as [|m]; unfold hs, er, co; simpl; rewrite ?Nat.eqb_refl; simpl; constructor; simpl; rewrite ?NF, ?NDn, ?NQ; try lia; auto; try (intros Kd; rewrite <- NDn; exact (i_dead _ _ _ _ _ _ N Kd)).
Qed.
Lemma BI_ackstep s o : BI s -> good s (LAckStep o).
Proof.
  intros B. unfold good. simpl. destruct (nth_error (k_po s) o) as [r|] eqn:Ho; auto. pose proof (b_po _ B _ _ Ho) as P. unfold PI in P. destruct (o_at r) as [|p| | |p|p|p|p] eqn:Er; auto.
  - destruct (nd_some _ _ P) as [n Hn]. pose proof (b_nd _ B _ _ Hn) as N. pose proof (sm_in (er p) _ _ _ Ho) as K. assert (E1 : er p r = 1) by (unfold er; rewrite Er, Nat.eqb_refl; reflexivity). rewrite E1 in K.
    assert (N0 : n_acks n = 0) by (destruct (Nat.eq_dec (n_acks n) 0); [auto|]; destruct (i_pos _ _ _ _ _ _ N) as (? & _); lia). destruct (i_zero _ _ _ _ _ _ N N0) as [Z1 Z2].
    assert (ND : n_done n = false) by (destruct (n_done n); [simpl in Z1; lia|reflexivity]). assert (NF : n_fast n = false) by (destruct (n_fast n); [simpl in Z1; lia|reflexivity]). assert (NQ : n_q n = true) by (destruct (n_q n); [reflexivity|simpl in Z2; lia]).
    rewrite walk_ok by auto. rewrite (alive_node _ _ _ _ B Hn ND), NQ. rewrite ND, NF, NQ in *. simpl in Z1, Z2. assert (W : hs p r = 0 /\ co p r = 0) by (unfold hs, co; rewrite Er; auto). destruct W as [W1 W2].
    eapply BI_ndpo; eauto.
    + unfold busy; now rewrite Er.
    + intros q Hq. unfold hs, er, co. rewrite Er. simpl. destruct (Nat.eqb_spec p q); [congruence|]. auto.
    + rewrite E1, W1, W2. pose proof (i_acks _ _ _ _ _ _ N) as NA. unfold hs at 2, er at 2, co at 2; simpl; rewrite ?Nat.eqb_refl; simpl. constructor; simpl; try lia; auto. intros Kd; rewrite <- ND; exact (i_dead _ _ _ _ _ _ N Kd).
  - destruct (nd_some _ _ P) as [n Hn]. pose proof (b_nd _ B _ _ Hn) as N. pose proof (sm_in (co p) _ _ _ Ho) as K. assert (E1 : co p r = 1) by (unfold co; rewrite Er, Nat.eqb_refl; reflexivity). rewrite E1 in K.
    assert (N0 : n_acks n = 0) by (destruct (Nat.eq_dec (n_acks n) 0); [auto|]; destruct (i_pos _ _ _ _ _ _ N) as (_ & ? & _); lia). destruct (i_zero _ _ _ _ _ _ N N0) as [Z1 Z2].
    assert (ND : n_done n = false) by (destruct (n_done n); [simpl in Z1; lia|reflexivity]). rewrite (alive_complete _ _ _ _ B Hn ND). rewrite ND in *. assert (W : hs p r = 0 /\ er p r = 0) by (unfold hs, er; rewrite Er; auto). destruct W as [W1 W2].
    eapply BI_ndpo; eauto.
    + unfold busy; now rewrite Er.
    + unfold PI; simpl; auto.
    + intros q Hq. unfold hs, er, co. rewrite Er. simpl. destruct (Nat.eqb_spec p q); [congruence|]. auto.
    + rewrite E1, W1, W2. pose proof (i_acks _ _ _ _ _ _ N) as NA. unfold hs at 2, er at 2, co at 2; simpl. constructor; simpl; try lia; auto; discriminate.
Qed.
Lemma BI_read s o : BI s -> good s (LRead o).
Proof.
  intros B. unfold good. simpl. destruct (nth_error (k_po s) o) as [r|] eqn:Ho; auto. pose proof (b_po _ B _ _ Ho) as P. unfold PI in P. destruct (o_at r) as [|p| | |p|p|p|p] eqn:Er; auto.
  destruct (nd_some _ _ P) as [n Hn]. pose proof (b_nd _ B _ _ Hn) as N. pose proof (sm_in (hs p) _ _ _ Ho) as K. unfold hs at 1 in K. rewrite Er, Nat.eqb_refl in K. simpl in K.
  assert (Hpos : 0 < n_acks n) by (rewrite (i_acks _ _ _ _ _ _ N); lia). destruct (i_pos _ _ _ _ _ _ N Hpos) as (_ & _ & _ & _ & NDn & _). rewrite (alive_node _ _ _ _ B Hn NDn). exact B.
Qed.
Lemma BI_poll s a : BI s -> good s (LPoll a).
Proof.
  intros B. unfold good. simpl. destruct (nth_error (k_ag s) a) as [g|] eqn:Ha; auto. destruct (g_on g) eqn:Hon; simpl; auto. destruct (g_poll g) eqn:Hp; simpl; auto.
  pose proof (on_det _ _ _ (b_ag _ B _ _ Ha) Hon) as Hd. destruct (b_ag _ B _ _ Ha) as [AL AD AP AB]. rewrite Hp in AB. simpl in AB.
  assert (C : forall g' r', g_on g' = true -> o_ag r' = a -> AI (length (k_nd s)) (bz a r') g' -> (busy r' = true -> g_seq g' = length (k_nd s) /\ o_try r' = false /\ o_at r' = PQueued) -> (busy r' = false -> PI s r') ->
    (forall p n, nth_error (k_nd s) p = Some n -> ow p g' + hs p r' = ow p g /\ er p r' = 0 /\ co p r' = 0 /\ dc p g' = 0) -> BI (KS (k_act s) (k_nd s) (set_nth (k_ag s) a g') (k_po s ++ [r']))).
  { intros g' r' G1 G2 G3 G4 G5 G6. constructor; simpl.
    - pose proof (sm_set (fun g => b2n (g_on g)) _ _ g' _ Ha) as K. simpl in K. rewrite Hon, G1 in K. pose proof (b_act _ B). lia.
    - intros a' g0 Hg. rewrite sm_app. simpl. apply nth_set in Hg. destruct Hg as [(-> & -> & _)|[Hne Hg]].
      + rewrite AB. simpl. now rewrite Nat.add_0_r.
      + rewrite bz_busy, G2. destruct (Nat.eqb_spec a a'); [congruence|]. rewrite andb_false_r. simpl. rewrite Nat.add_0_r. exact (b_ag _ B _ _ Hg).
    - intros o r Hr. apply nth_app1 in Hr. destruct Hr as [[-> ->]|Hr].
      + destruct (busy r') eqn:E.
        * destruct (G4 eq_refl) as (Q1 & Q2 & Q3). unfold PI. rewrite Q3. split; auto. exists g'. simpl. rewrite G2. rewrite (nth_error_set_nth_same _ _ _ _ Ha). auto.
        * apply (PI_ag s); auto. congruence.
      + apply (PI_ag s); simpl; auto; [exact (b_po _ B _ _ Hr)|]. intros E. apply nth_error_set_nth_other. intros E2. exact (busy_other _ _ _ _ _ B Hr E Ha Hp (eq_sym E2)).
    - intros p n Hn. destruct (G6 _ _ Hn) as (W1 & W2 & W3 & W4). rewrite !sm_app. simpl. rewrite W2, W3. pose proof (sm_set (ow p) _ _ g' _ Ha) as K1. pose proof (sm_set (dc p) _ _ g' _ Ha) as K2.
      assert (D0 : dc p g = 0) by (unfold dc; now rewrite Hd). rewrite D0, W4 in K2. replace (sm (dc p) (set_nth _ _ _)) with (sm (dc p) (k_ag s)) by lia. rewrite !Nat.add_0_r. pose proof (b_nd _ B _ _ Hn) as [A P Z D]. constructor; auto. lia. }
  destruct (Nat.ltb_spec (g_seq g) (length (k_nd s))) as [Hlt|Hge].
  - rewrite walk_ok by auto. destruct (nd_some _ _ Hlt) as [n Hn]. rewrite Hn. pose proof (b_nd _ B _ _ Hn) as N. pose proof (sm_in (ow (g_seq g)) _ _ _ Ha) as K. assert (E1 : ow (g_seq g) g = 1) by (unfold ow; rewrite Hd, Hon, Nat.leb_refl; reflexivity). rewrite E1 in K.
    assert (Hpos : 0 < n_acks n) by (rewrite (i_acks _ _ _ _ _ _ N); lia). destruct (i_pos _ _ _ _ _ _ N Hpos) as (_ & _ & _ & _ & _ & NQ). rewrite NQ.
    apply C; auto; try discriminate.
    + constructor; simpl; auto; try lia; discriminate.
    + intros p n0 Hn0. unfold ow, hs, er, co, dc. rewrite Hd, Hon. simpl. repeat split; auto. destruct (Nat.leb_spec (g_seq g + 1) p), (Nat.leb_spec (g_seq g) p), (Nat.eqb_spec (g_seq g) p); simpl; lia.
  - apply C; auto.
    + constructor; simpl; auto. unfold bz; simpl. now rewrite Nat.eqb_refl.
    + intros _. repeat split; auto. simpl. lia.
    + discriminate.
    + intros p n0 Hn0. unfold ow, hs, er, co, dc. rewrite Hd, Hon. simpl. repeat split; auto.
Qed.
Lemma BI_try s o : BI s -> good s (LTry o).
Proof.
  intros B. unfold good. simpl. destruct (nth_error (k_po s) o) as [r|] eqn:Ho; auto. destruct (o_try r) eqn:Et; auto. pose proof (b_po _ B _ _ Ho) as P. unfold PI in P.
  assert (C : forall r', busy r = true -> busy r' = true -> o_ag r' = o_ag r -> PI s r' -> BI (with_po s o r')).
  { intros r' Hb Hb' Hg' Hpi. assert (Z : forall (x : po), busy x = true -> forall q, hs q x = 0 /\ er q x = 0 /\ co q x = 0) by (intros x Hx q; unfold busy, hs, er, co in *; destruct (o_at x); try discriminate; auto).
    constructor; simpl.
    - exact (b_act _ B).
    - intros a g Hg. pose proof (sm_set (bz a) _ _ r' _ Ho) as K. rewrite !bz_busy, Hb, Hb', Hg' in K. replace (sm (bz a) (set_nth _ _ _)) with (sm (bz a) (k_po s)) by lia. exact (b_ag _ B _ _ Hg).
    - intros o' r0 Hr. apply (PI_ag s); simpl; auto. apply nth_set in Hr. destruct Hr as [(-> & -> & _)|[Hne Hr]]; [exact Hpi|exact (b_po _ B _ _ Hr)].
    - intros q n Hn. pose proof (sm_set (hs q) _ _ r' _ Ho) as K1. pose proof (sm_set (er q) _ _ r' _ Ho) as K2. pose proof (sm_set (co q) _ _ r' _ Ho) as K3.
      destruct (Z _ Hb q) as (A1 & A2 & A3). destruct (Z _ Hb' q) as (C1 & C2 & C3). rewrite A1, C1 in K1. rewrite A2, C2 in K2. rewrite A3, C3 in K3.
      replace (sm (hs q) (set_nth _ _ _)) with (sm (hs q) (k_po s)) by lia. replace (sm (er q) (set_nth _ _ _)) with (sm (er q) (k_po s)) by lia. replace (sm (co q) (set_nth _ _ _)) with (sm (co q) (k_po s)) by lia. exact (b_nd _ B _ _ Hn). }
  destruct (o_at r) as [|p| | |p|p|p|p] eqn:Er; auto; (apply C; [unfold busy; now rewrite Er|reflexivity|reflexivity|]); unfold PI; simpl.
  - destruct P as (_ & g & H1 & H2 & _). split; eauto.
  - exact P.
Qed.
Lemma BI_notify s o : BI s -> good s (LNotify o).
Proof.
  intros B. unfold good. simpl. destruct (nth_error (k_po s) o) as [r|] eqn:Ho; auto. pose proof (b_po _ B _ _ Ho) as P. unfold PI in P.
  assert (C : forall g g' r', busy r = true -> nth_error (k_ag s) (o_ag r) = Some g -> g_on g' = true -> g_poll g' = false -> g_det g' = None -> g_seq g' <= length (k_nd s) -> busy r' = false -> PI s r' ->
    (forall p n, nth_error (k_nd s) p = Some n -> ow p g' + hs p r' = ow p g /\ er p r' = 0 /\ co p r' = 0) -> BI (KS (k_act s) (k_nd s) (set_nth (k_ag s) (o_ag r) g') (set_nth (k_po s) o r'))).
  { intros g g' r' Hb Ha G1 G2 G3 G4 Hb' Hpi Hw. destruct (busy_ag _ _ _ B Ho Hb) as (g0 & Hg0 & Hon & Hpl & Hdt). rewrite Ha in Hg0. injection Hg0 as <-.
    assert (Z : forall (x : po), busy x = true -> forall q, hs q x = 0 /\ er q x = 0 /\ co q x = 0) by (intros x Hx q; unfold busy, hs, er, co in *; destruct (o_at x); try discriminate; auto).
    constructor; simpl.
    - pose proof (sm_set (fun g => b2n (g_on g)) _ _ g' _ Ha) as K. simpl in K. rewrite Hon, G1 in K. pose proof (b_act _ B). lia.
    - intros a g0 Hg. pose proof (sm_set (bz a) _ _ r' _ Ho) as K. rewrite !bz_busy, Hb, Hb' in K. simpl in K. apply nth_set in Hg. destruct Hg as [(-> & -> & _)|[Hne Hg]].
      + rewrite Nat.eqb_refl in K. simpl in K. pose proof (a_busy _ _ _ (b_ag _ B _ _ Ha)) as K2. rewrite Hpl in K2. simpl in K2. constructor; simpl; rewrite ?G3; auto. rewrite G2. simpl. lia.
      + destruct (Nat.eqb_spec (o_ag r) a); [congruence|]. simpl in K. replace (sm (bz a) (set_nth _ _ _)) with (sm (bz a) (k_po s)) by lia. exact (b_ag _ B _ _ Hg).
    - intros o' r0 Hr. apply nth_set in Hr. destruct Hr as [(-> & -> & _)|[Hne Hr]].
      + apply (PI_ag s); simpl; auto; congruence.
      + apply (PI_ag s); simpl; auto; [exact (b_po _ B _ _ Hr)|]. intros E. apply nth_error_set_nth_other. intros E2. pose proof (busy_uniq _ _ _ _ _ B Ho Hr Hb E E2). congruence.
    - intros q n Hn. destruct (Hw _ _ Hn) as (W1 & W2 & W3). pose proof (sm_set (hs q) _ _ r' _ Ho) as K1. pose proof (sm_set (er q) _ _ r' _ Ho) as K2. pose proof (sm_set (co q) _ _ r' _ Ho) as K3.
      pose proof (sm_set (ow q) _ _ g' _ Ha) as K4. pose proof (sm_set (dc q) _ _ g' _ Ha) as K5.
      destruct (Z _ Hb q) as (A1 & A2 & A3). rewrite A1 in K1. rewrite A2, W2 in K2. rewrite A3, W3 in K3. assert (D0 : dc q g = 0 /\ dc q g' = 0) by (unfold dc; rewrite Hdt, G3; auto). destruct D0 as [D1 D2]. rewrite D1, D2 in K5.
      replace (sm (er q) (set_nth _ _ _)) with (sm (er q) (k_po s)) by lia. replace (sm (co q) (set_nth _ _ _)) with (sm (co q) (k_po s)) by lia. replace (sm (dc q) (set_nth _ _ _)) with (sm (dc q) (k_ag s)) by lia.
      pose proof (b_nd _ B _ _ Hn) as [A P0 Zz D]. constructor; auto. lia. }
  destruct (o_at r) as [|p| | |p|p|p|p] eqn:Er; auto; (destruct (nth_error (k_ag s) (o_ag r)) as [g|] eqn:Ha; auto).
  - destruct P as (Hp & g0 & [= <-] & Hon & Hs). eapply C; eauto.
    + unfold busy; now rewrite Er.
    + simpl. lia.
    + intros q n Hn. destruct (busy_ag _ _ _ B Ho) as (g1 & Hg1 & _ & _ & Hdt); [unfold busy; now rewrite Er|]. rewrite Ha in Hg1. injection Hg1 as <-. unfold ow, hs, er, co. rewrite Hdt, Hon. simpl. rewrite Hs. repeat split; auto.
      destruct (Nat.leb_spec (p + 1) q), (Nat.leb_spec p q), (Nat.eqb_spec p q); simpl; lia.
  - destruct P as (Ht & g0 & [= <-] & Hon). eapply C; eauto.
    + unfold busy; now rewrite Er.
    + exact (a_len _ _ _ (b_ag _ B _ _ Ha)).
    + unfold PI; simpl; auto.
    + intros q n Hn. destruct (busy_ag _ _ _ B Ho) as (g1 & Hg1 & _ & _ & Hdt); [unfold busy; now rewrite Er|]. rewrite Ha in Hg1. injection Hg1 as <-. unfold ow, hs, er, co. rewrite Hdt, Hon. simpl. auto.
Qed.
Theorem BI_good s l : BI s -> good s l.
Proof. destruct l; auto using BI_attach, BI_detach, BI_det, BI_post, BI_fast, BI_poll, BI_try, BI_notify, BI_ack, BI_ackstep, BI_read, BI_destroy. Qed.
