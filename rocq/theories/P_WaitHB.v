(** The happens-before model of waits (M_WaitHB): the simulation by P_WaitKnow. *)
From Coq Require Import List Arith Bool Lia.
From Verif Require Import Lts M_Wait S_Wait ListFacts P_WaitView P_Wait M_WaitHB S_WaitHB P_WaitKnow.
Import ListNotations.

Lemma fld_eqb_eq f g : fld_eqb f g = true <-> f = g.
Proof. destruct f, g; simpl; try (split; [discriminate|discriminate]); try tauto. destruct x, x0; simpl; split; congruence. Qed.
Lemma path_eqb_eq x y : path_eqb x y = true <-> x = y.
Proof. destruct x, y; simpl; split; congruence. Qed.
Lemma path_eqb_refl x : path_eqb x x = true.
Proof. destruct x; reflexivity. Qed.
Lemma conflict_sym f g : conflict f g = conflict g f.
Proof. unfold conflict. destruct f, g; simpl; auto. destruct x, x0; reflexivity. Qed.

Lemma nth_error_snoc {A} (l : list A) x i y : nth_error (l ++ [x]) i = Some y -> nth_error l i = Some y \/ (i = length l /\ y = x).
Proof.
  intros H. destruct (Nat.lt_ge_cases i (length l)) as [Hi|Hi].
  - rewrite nth_error_app1 in H by auto. auto.
  - rewrite nth_error_app2 in H by auto. destruct (i - length l) as [|n] eqn:Hn; simpl in H; [|destruct n; discriminate].
    right. split; [lia|congruence].
Qed.
Lemma nth_error_snoc_last {A} (l : list A) x : nth_error (l ++ [x]) (length l) = Some x.
Proof. rewrite nth_error_app2, Nat.sub_diag by auto. reflexivity. Qed.
Lemma nth_error_snoc_old {A} (l : list A) x i y : nth_error l i = Some y -> nth_error (l ++ [x]) i = Some y.
Proof. intros H. rewrite nth_error_app1; auto. apply nth_error_Some. congruence. Qed.

(** ** Knowledge *)
Definition know (g : log) (w : hb) (o : nat) (r : fld) : Prop := forall i p, nth_error g i = Some (AObj o r, p) -> In i w.

Lemma ordered_know g v o f : ordered g v o f = true <-> forall r, conflict r f = true -> know g v o r.
Proof.
  unfold ordered. rewrite forallb_forall. split.
  - intros H r Hc i p Hi. specialize (H i). rewrite Hi in H.
    assert (Hin : In i (seq 0 (length g))) by (apply in_seq; split; [lia|]; simpl; apply nth_error_Some; congruence).
    specialize (H Hin). rewrite Nat.eqb_refl, Hc in H. simpl in H. now apply memb_In.
  - intros H i _. destruct (nth_error g i) as [[[o' f'|] p]|] eqn:Hi; auto.
    destruct (Nat.eqb_spec o' o) as [->|]; auto. destruct (conflict f' f) eqn:Hc; auto. simpl. apply memb_In. eapply H; eauto.
Qed.

Inductive slot := SMu | SEv | SSt | SL | SP | SC | SFin | SX.
Definition kget (x : slot) (k : kn) : bool :=
  match x with SMu => k_mu k | SEv => k_ev k | SSt => k_st k | SL => k_l k | SP => k_p k | SC => k_c k | SFin => k_fin k | SX => k_x k end.
(** The views that stand behind a slot, for the operation o with the token t *)
Definition hold (m : mem) (F : slot -> hb -> Prop) (v : hb) (t : option nat) (o : nat) (x : slot) (w : hb) : Prop :=
  match x with
  | SMu => w = m_mu m
  | SEv => exists e, t = Some e /\ w = m_ev m e
  | SSt => w = m_st m o
  | SX => w = v
  | _ => F x w
  end.
Definition sat (g : log) (Hd : slot -> hb -> Prop) (k : kn) (o : nat) (r : fld) : Prop :=
  forall x w, kget x k = true -> Hd x w -> know g w o r.

(** The actions that matter for the operation o *)
Definition pact (t : option nat) (o : nat) (a : act) : list tact :=
  match a with
  | ALock => [TLock]
  | AUnlock => [TUnlock]
  | ALockEv e => match t with Some e' => if e' =? e then [TLockEv] else [] | None => [] end
  | AUnlockEv e => match t with Some e' => if e' =? e then [TUnlockEv] else [] | None => [] end
  | AFetchOr o' => if o' =? o then [TFetchOr] else []
  | ATouch o' f => if o' =? o then [TTouch f] else []
  | AClient _ _ => []
  end.
Definition proj (t : option nat) (o : nat) (A : list act) : list tact := flat_map (pact t o) A.

Lemma kexec_app r A B : forall k, kexec r k (A ++ B) = match kexec r k A with Some k' => kexec r k' B | None => None end.
Proof. induction A as [|a A IH]; intros k; simpl; auto. destruct (kexec1 r k a); auto. Qed.

Lemma know_snoc g a w o r : know g w o r -> (forall p, a <> (AObj o r, p)) -> know (g ++ [a]) w o r.
Proof. intros Hk Ha i p Hi. apply nth_error_snoc in Hi. destruct Hi as [Hi|[-> Hi]]; [eapply Hk; eauto|]. exfalso. eapply Ha; eauto. Qed.
Lemma know_snoc_last g a w o r : know g w o r -> know (g ++ [a]) (length g :: w) o r.
Proof. intros Hk i p Hi. apply nth_error_snoc in Hi. destruct Hi as [Hi|[-> Hi]]; [right; eapply Hk; eauto|now left]. Qed.
Lemma know_mono g w w' o r : know g w o r -> incl w w' -> know g w' o r.
Proof. intros Hk Hi i p H. apply Hi. eapply Hk; eauto. Qed.

Ltac slot_of Hs w Hg Hh :=
  first [exact (Hs SMu w Hg Hh) | exact (Hs SEv w Hg Hh) | exact (Hs SSt w Hg Hh) | exact (Hs SL w Hg Hh) | exact (Hs SP w Hg Hh)
        | exact (Hs SC w Hg Hh) | exact (Hs SFin w Hg Hh) | exact (Hs SX w Hg Hh)].

Lemma exec1_sat m v a m' v' F t o r k k' :
  sat (m_log m) (hold m F v t o) k o r -> kexec r k (pact t o a) = Some k' -> exec1 true true m v a = Some (m', v') ->
  sat (m_log m') (hold m' F v' t o) k' o r.
Proof.
  intros Hs Hk He.
  assert (Hx : k_x k = true -> know (m_log m) v o r) by (intros H; exact (Hs SX v H eq_refl)).
  destruct a as [| |e|e|o'|o' f|c os]; simpl in He, Hk.
  - injection He as <- <-. injection Hk as <-. intros x w Hg Hh.
    destruct x; simpl in Hg, Hh; try slot_of Hs w Hg Hh. subst w. apply orb_prop in Hg. destruct Hg as [Hg|Hg].
    + eapply know_mono; [exact (Hx Hg)|]. now apply incl_appl, incl_refl.
    + eapply know_mono; [exact (Hs SMu _ Hg eq_refl)|]. now apply incl_appr, incl_refl.
  - injection He as <- <-. injection Hk as <-. intros x w Hg Hh. simpl.
    destruct x; simpl in Hg, Hh; subst; auto.
    + eapply (Hs SEv); simpl; eauto.
    + eapply (Hs SSt); simpl; eauto.
    + eapply (Hs SL); simpl; eauto.
    + eapply (Hs SP); simpl; eauto.
    + eapply (Hs SC); simpl; eauto.
    + eapply (Hs SFin); simpl; eauto.
  - injection He as <- <-.
    assert (Hno : t <> Some e -> sat (m_log m) (hold m F (v ++ m_ev m e) t o) k o r).
    { intros _ x w Hg Hh. destruct x; simpl in Hg, Hh; try slot_of Hs w Hg Hh. subst w.
      eapply know_mono; [exact (Hx Hg)|]. now apply incl_appl, incl_refl. }
    destruct t as [e'|]; [destruct (Nat.eqb_spec e' e) as [->|Hne]|]; simpl in Hk; injection Hk as <-; try (apply Hno; congruence).
    intros x w Hg Hh. destruct x; simpl in Hg, Hh; try slot_of Hs w Hg Hh. subst w. apply orb_prop in Hg. destruct Hg as [Hg|Hg].
    + eapply know_mono; [exact (Hx Hg)|]. now apply incl_appl, incl_refl.
    + eapply know_mono; [exact (Hs SEv _ Hg (ex_intro _ e (conj eq_refl eq_refl)))|]. now apply incl_appr, incl_refl.
  - injection He as <- <-.
    destruct t as [e'|]; [destruct (Nat.eqb_spec e' e) as [->|Hne]|]; simpl in Hk; injection Hk as <-; intros x w Hg Hh; simpl.
    + destruct x; simpl in Hg, Hh; try slot_of Hs w Hg Hh.
      destruct Hh as (e1 & [= ->] & ->). rewrite upd_same. auto.
    + destruct x; simpl in Hg, Hh; try slot_of Hs w Hg Hh. destruct Hh as (e1 & [= ->] & ->). rewrite upd_other by auto.
      apply (Hs SEv); simpl; eauto.
    + destruct x; simpl in Hg, Hh; try slot_of Hs w Hg Hh. destruct Hh as (e1 & ? & _). discriminate.
  - injection He as <- <-. destruct (Nat.eqb_spec o' o) as [->|Hne]; simpl in Hk; injection Hk as <-; intros x w Hg Hh; simpl in *.
    + assert (Hj : k_x k || k_st k = true -> know (m_log m) (v ++ m_st m o) o r).
      { intros Hg'. apply orb_prop in Hg'. destruct Hg' as [Hg'|Hg'].
        - eapply know_mono; [exact (Hx Hg')|]. now apply incl_appl, incl_refl.
        - eapply know_mono; [exact (Hs SSt _ Hg' eq_refl)|]. now apply incl_appr, incl_refl. }
      destruct x; simpl in Hg, Hh; try slot_of Hs w Hg Hh.
      * subst w. rewrite upd_same. eapply know_mono; [exact (Hj Hg)|]. now apply incl_appr, incl_refl.
      * subst w. auto.
    + destruct x; simpl in Hg, Hh; try slot_of Hs w Hg Hh.
      * subst w. rewrite upd_other by auto. exact (Hs SSt _ Hg eq_refl).
      * subst w. eapply know_mono; [exact (Hx Hg)|]. now apply incl_appl, incl_refl.
  - destruct (ordered (m_log m) v o' f) eqn:Ho; [|discriminate]. injection He as <- <-. simpl.
    destruct (Nat.eqb_spec o' o) as [->|Hne].
    + simpl in Hk. destruct (conflict f r) eqn:Hc.
      * destruct (k_x k) eqn:Hkx; [|discriminate]. injection Hk as <-. destruct (fld_eqb f r) eqn:Hf.
        -- intros x w Hg Hh. destruct x; try discriminate. simpl in Hh. subst w. apply know_snoc_last. auto.
        -- assert (Hnf : forall (p p' : hb), (AObj o f, p) <> (AObj o r, p')).
           { intros p p' [= E _]. subst f. rewrite (proj2 (fld_eqb_eq r r) eq_refl) in Hf. discriminate. }
           intros x w Hg Hh. destruct x; simpl in Hg, Hh; try (apply know_snoc; [slot_of Hs w Hg Hh|auto]).
           subst w. apply know_snoc_last. auto.
      * injection Hk as <-. assert (Hnf : forall (p p' : hb), (AObj o f, p) <> (AObj o r, p')).
        { intros p p' [= E _]. subst f. unfold conflict in Hc. rewrite (proj2 (fld_eqb_eq r r) eq_refl) in Hc. discriminate. }
        intros x w Hg Hh. destruct x; simpl in Hg, Hh; try (apply know_snoc; [slot_of Hs w Hg Hh|auto]).
        subst w. apply know_snoc_last. auto.
    + injection Hk as <-. assert (Hnf : forall (p p' : hb), (AObj o' f, p) <> (AObj o r, p')) by (intros p p' [= E _ _]; congruence).
      intros x w Hg Hh. destruct x; simpl in Hg, Hh; try (apply know_snoc; [slot_of Hs w Hg Hh|auto]).
      subst w. apply know_snoc_last. auto.
  - injection He as <- <-. injection Hk as <-. simpl. intros x w Hg Hh.
    destruct x; simpl in Hg, Hh; try (apply know_snoc; [slot_of Hs w Hg Hh|congruence]).
    subst w. apply know_snoc_last. auto.
Qed.

Section Exec.
Variable F : nat -> slot -> hb -> Prop.
Variable t : nat -> option nat.

Lemma exec_sim A : forall m v,
  (forall o r, exists k k', sat (m_log m) (hold m (F o) v (t o) o) k o r /\ kexec r k (proj (t o) o A) = Some k') ->
  exists m' v', exec true true m v A = Some (m', v') /\
    forall o r k k', sat (m_log m) (hold m (F o) v (t o) o) k o r -> kexec r k (proj (t o) o A) = Some k' -> sat (m_log m') (hold m' (F o) v' (t o) o) k' o r.
Proof.
  induction A as [|a A IH]; intros m v Hs.
  - exists m, v. split; [reflexivity|]. intros o r k k' Hk [= <-]. exact Hk.
  - simpl in Hs.
    assert (He : exists m1 v1, exec1 true true m v a = Some (m1, v1)).
    { destruct a as [| |e|e|o|o f|c os]; simpl; eauto.
      assert (Ho : ordered (m_log m) v o f = true).
      { apply ordered_know. intros r Hc. destruct (Hs o r) as (k & k' & Hk & H1). simpl in H1. rewrite Nat.eqb_refl in H1. simpl in H1.
        rewrite conflict_sym, Hc in H1. destruct (k_x k) eqn:Hx; [|discriminate]. exact (Hk SX v Hx eq_refl). }
      rewrite Ho. eauto. }
    destruct He as (m1 & v1 & He). simpl. rewrite He.
    destruct (IH m1 v1) as (m' & v' & Hx & Hk').
    + intros o r. destruct (Hs o r) as (k & k' & Hk & H1). rewrite kexec_app in H1. destruct (kexec r k (pact (t o) o a)) as [k1|] eqn:E; [|discriminate].
      exists k1, k'. split; [eapply exec1_sat; eauto|exact H1].
    + exists m', v'. split; [exact Hx|]. intros o r k k' Hk H'. rewrite kexec_app in H'.
      destruct (kexec r k (pact (t o) o a)) as [k1|] eqn:E; [|discriminate]. eapply Hk'; [|exact H']. eapply exec1_sat; eauto.
Qed.
End Exec.

(** ** Finite facts about the views *)
Lemma R_facts eager v : In v (R eager) ->
  (v_cb v <= 1 /\ v_wk v <= 1 /\ v_pd v <= 1) /\ (v_p v <> PIdle -> v_wk v = 0) /\ (v_c v <> PIdle -> v_pd v = 0) /\
  (v_node v = NQueued -> v_wk v = 0 /\ v_p v = PIdle) /\ (v_cb v <> 0 -> v_c v = PIdle /\ v_pd v = 0) /\
  (forall x, v_pc x v = PListen -> v_cb v = 0) /\ (forall x, v_pc x v = PUnreg -> v_tok v = true /\ (v_req v = false -> v_cb v = 1)) /\
  (v_l v = PIdle -> v_cb v = 0).
Proof.
  intros Hv.
  pose (idle := fun p => match p with PIdle => true | _ => false end).
  pose (Q := fun v => (v_cb v <=? 1) && (v_wk v <=? 1) && (v_pd v <=? 1) && (idle (v_p v) || (v_wk v =? 0)) && (idle (v_c v) || (v_pd v =? 0)) &&
    (match v_node v with NQueued => (v_wk v =? 0) && idle (v_p v) | _ => true end) && ((v_cb v =? 0) || (idle (v_c v) && (v_pd v =? 0))) &&
    forallb (fun x => match v_pc x v with PListen => v_cb v =? 0 | PUnreg => v_tok v && (v_req v || (v_cb v =? 1)) | _ => true end) [PathL; PathP; PathC] &&
    (negb (idle (v_l v)) || (v_cb v =? 0))).
  assert (HQ : forallb Q (R eager) = true) by (destruct eager; vm_compute; reflexivity).
  pose proof (R_check Q eager HQ _ Hv) as H. unfold Q in H.
  rewrite !andb_true_iff in H. destruct H as ((((((((Ha1 & Ha2) & Ha3) & H4) & H3) & H2) & H1) & H0) & H5). rewrite forallb_forall in H0.
  assert (Hi : forall p, idle p = true <-> p = PIdle) by (intros []; simpl; split; congruence).
  split; [apply Nat.leb_le in Ha1, Ha2, Ha3; auto|].
  split; [intros Hp; destruct (orb_prop _ _ H4) as [Hx|Hx]; [now apply Hi in Hx|now apply Nat.eqb_eq]|].
  split; [intros Hp; destruct (orb_prop _ _ H3) as [Hx|Hx]; [now apply Hi in Hx|now apply Nat.eqb_eq]|].
  split; [intros Hn; rewrite Hn in H2; apply andb_prop in H2; destruct H2 as [Ha Hb]; split; [now apply Nat.eqb_eq|now apply Hi]|].
  split; [intros Hn; destruct (orb_prop _ _ H1) as [Hx|Hx]; [now apply Nat.eqb_eq in Hx|apply andb_prop in Hx; destruct Hx as [Ha Hb]; split; [now apply Hi|now apply Nat.eqb_eq]]|].
  split; [intros x Hx; specialize (H0 x); rewrite Hx in H0; apply Nat.eqb_eq, H0; destruct x; simpl; tauto|].
  split; [intros x Hx; specialize (H0 x); rewrite Hx in H0; assert (Hin : In x [PathL; PathP; PathC]) by (destruct x; simpl; tauto);
          specialize (H0 Hin); apply andb_prop in H0; destruct H0 as [Ha Hb]; split; [exact Ha|intros Hr; rewrite Hr in Hb; now apply Nat.eqb_eq]|].
  intros Hl. destruct (orb_prop _ _ H5) as [Hx|Hx]; [|now apply Nat.eqb_eq]. rewrite (proj2 (Hi _) Hl) in Hx. discriminate.
Qed.

Lemma rep_app {A} (x : A) n m : repeat x (n + m) = repeat x n ++ repeat x m.
Proof. induction n; simpl; congruence. Qed.
Lemma proj_app t o A B : proj t o (A ++ B) = proj t o A ++ proj t o B.
Proof. apply flat_map_app. Qed.
Lemma proj_cons t o a A : proj t o (a :: A) = pact t o a ++ proj t o A.
Proof. reflexivity. Qed.
Lemma proj_touch t o f l : proj t o (map (fun o' => ATouch o' f) l) = repeat (TTouch f) (cnt o l).
Proof.
  induction l as [|o' l IH]; simpl; auto. rewrite cnt_cons, IH. destruct (Nat.eqb_spec o' o) as [->|Hne].
  - destruct (Nat.eq_dec o o); [reflexivity|congruence].
  - destruct (Nat.eq_dec o' o); [congruence|reflexivity].
Qed.
Lemma proj_hook t o l : proj t o (map hook l) = repeat (TTouch FHook) (cnt o l).
Proof. exact (proj_touch t o FHook l). Qed.
Lemma proj_evh t o l : proj t o (map evh l) = repeat (TTouch FEvH) (cnt o l).
Proof. exact (proj_touch t o FEvH l). Qed.

(** ** Loops *)
Lemma rest_inrest lps k o : In o (rest_of lps k) -> 1 <= inrest o lps.
Proof.
  unfold rest_of. destruct (nth_error lps k) as [lp|] eqn:Hk; [|intros []]. intros Hin.
  apply cnt_pos in Hin. pose proof (sum_map_le (fun lp => cnt o (lp_rest lp)) lps lp (nth_error_In _ _ Hk)) as Hle. cbv beta in Hle. unfold inrest. lia.
Qed.
Lemma rest_two lps : forall j k o, j <> k -> In o (rest_of lps j) -> In o (rest_of lps k) -> 2 <= inrest o lps.
Proof.
  induction lps as [|lp lps IH]; intros j k o Hne Hj Hk.
  - unfold rest_of in Hj. destruct j; destruct Hj.
  - unfold inrest. simpl. fold (inrest o lps). destruct j as [|j], k as [|k]; try congruence.
    + pose proof (rest_inrest lps k o Hk). change (rest_of (lp :: lps) 0) with (lp_rest lp) in Hj. apply cnt_pos in Hj. lia.
    + pose proof (rest_inrest lps j o Hj). change (rest_of (lp :: lps) 0) with (lp_rest lp) in Hk. apply cnt_pos in Hk. lia.
    + assert (Hn : j <> k) by congruence. specialize (IH j k o Hn Hj Hk). lia.
Qed.
Lemma rest_set_same lps k lp lp' : nth_error lps k = Some lp -> rest_of (set_nth lps k lp') k = lp_rest lp'.
Proof. intros H. unfold rest_of. now rewrite (nth_error_set_nth_same _ _ _ _ H). Qed.
Lemma rest_set_other lps j k lp' : j <> k -> rest_of (set_nth lps k lp') j = rest_of lps j.
Proof. intros H. unfold rest_of. now rewrite nth_error_set_nth_other by auto. Qed.
Lemma rest_app_old lps l k : k < length lps -> rest_of (lps ++ l) k = rest_of lps k.
Proof. intros H. unfold rest_of. now rewrite nth_error_app1. Qed.
Lemma rest_app_new lps lp : rest_of (lps ++ [lp]) (length lps) = lp_rest lp.
Proof. unfold rest_of. now rewrite nth_error_snoc_last. Qed.

Lemma sat_end m' v' (F F' : slot -> hb -> Prop) t o r k' k2 :
  sat (m_log m') (hold m' F v' t o) k' o r -> k_x k2 = false -> k_mu k2 = k_mu k' -> k_ev k2 = k_ev k' -> k_st k2 = k_st k' ->
  (forall x w, F' x w -> kget x k2 = true -> (kget x k' = true /\ F x w) \/ (k_x k' = true /\ w = v')) ->
  sat (m_log m') (hold m' F' [] t o) k2 o r.
Proof.
  intros Hs Hx Hmu Hev Hst HF x w Hg Hh.
  assert (Hfr : F' x w -> (forall u, hold m' F v' t o x u <-> F x u) -> know (m_log m') w o r).
  { intros Hf He. destruct (HF x w Hf Hg) as [[H1 H2]|[H1 ->]]; [apply (Hs x w H1); now apply He|exact (Hs SX v' H1 eq_refl)]. }
  destruct x; simpl in Hg, Hh; try (apply Hfr; [exact Hh|intros u; simpl; tauto]).
  - apply (Hs SMu w); simpl; congruence.
  - apply (Hs SEv w); simpl; [congruence|exact Hh].
  - apply (Hs SSt w); simpl; congruence.
  - congruence.
Qed.

Section Sim.
Variable P : prim.
Variable W : laws P.
Variable eager : bool.
Variable lk : PS P -> PL P -> bool.
Hypothesis lk_taken : forall ps l ps' tk es, lk ps l = false -> p_step P ps l = POk ps' tk es -> tk = [].

Notation cst := (cst P).
Notation hst := (hst P).
Notation view_of := (view_of P).
Notation step := (step P eager).
Notation GInv := (GInv P W eager).

Definition loops (lps : list loop) (vs : list hb) (o : nat) (w : hb) : Prop := exists k, nth_error vs k = Some w /\ In o (rest_of lps k).
Definition frame (h : hst) (o : nat) (x : slot) (w : hb) : Prop :=
  match x with
  | SL => w = h_v h PathL o
  | SP => (o_p (c_op (h_s h) o) <> PIdle /\ w = h_v h PathP o) \/ loops (c_wk (h_s h)) (h_wk h) o w
  | SC => (o_c (c_op (h_s h) o) <> PIdle /\ w = h_v h PathC o) \/ loops (c_cn (h_s h)) (h_cn h) o w
  | SFin => (o_done (c_op (h_s h) o) = true /\ w = h_fin h o) \/ (o_l (c_op (h_s h) o) = PIdle /\ w = [])
  | _ => False
  end.
Definition tok (h : hst) (o : nat) : option nat := o_tok (c_op (h_s h) o).
Definition holds (h : hst) (v : hb) (o : nat) : slot -> hb -> Prop := hold (h_m h) (frame h o) v (tok h o) o.

Record HI (h : hst) : Prop := {
  hi_k : forall o r, exists k, In (view_of (h_s h) o, k) (RK r eager) /\ sat (m_log (h_m h)) (holds h [] o) (k_setx false k) o r;
  hi_q : forall o, cnt o (h_q h) = match o_node (c_op (h_s h) o) with NQueued => 1 | _ => 0 end;
  hi_wk : length (h_wk h) = length (c_wk (h_s h));
  hi_cn : length (h_cn h) = length (c_cn (h_s h)) }.

Definition kview (v : view) (L : klabel) (v' : view) (n : bool) : Prop :=
  match L with
  | KV vl => exists u, vstep eager v vl = Next v' u /\ n = match u with [] => false | _ => true end
  | KEnvMu => v' = v /\ v_node v = NQueued
  | KEnvEv => v' = v /\ v_cb v <> 0
  | KEnvWk => v' = v /\ v_wk v <> 0
  | KEnvCn => v' = v /\ v_pd v <> 0
  end.

Lemma kview_step r v k L v' n : kview v L v' n ->
  kstep r eager v k L = match kexec r (kbegin eager v k L) (kacts v L) with Some k' => KNext v' (kend v n k' L) | None => KRace end.
Proof.
  destruct L as [vl| | | |]; cbn [kview]; unfold kstep.
  - intros (u & -> & ->). reflexivity.
  - intros (-> & ->). reflexivity.
  - intros (-> & H). destruct (v_cb v); [congruence|reflexivity].
  - intros (-> & H). destruct (v_wk v); [congruence|reflexivity].
  - intros (-> & H). destruct (v_pd v); [congruence|reflexivity].
Qed.

(** What a step does to the knowledge about the operation o *)
Definition SI (h : hst) (l : hlabel P) (s' : cst) (b : bool) (o : nat) : Prop :=
  let v := view_of (h_s h) o in
  (exists L n, In L klabels /\ kview v L (view_of s' o) n /\ proj (tok h o) o (acts P lk h l) = kacts v L /\
    (forall r k, In (v, k) (RK r eager) -> sat (m_log (h_m h)) (holds h [] o) (k_setx false k) o r ->
       sat (m_log (h_m h)) (holds h (tview eager h l) o) (kbegin eager v k L) o r) /\
    (forall m' v' r k', sat (m_log m') (hold m' (frame h o) v' (tok h o) o) k' o r ->
       sat (m_log m') (holds (store h l s' b m' v') [] o) (kend v n k' L) o r)) \/
  (view_of s' o = v /\ In (proj (tok h o) o (acts P lk h l)) [[]; [TLock; TUnlock]; [TLockEv; TUnlockEv]] /\
    (forall m' v' r k', sat (m_log m') (hold m' (frame h o) v' (tok h o) o) k' o r ->
       sat (m_log m') (holds (store h l s' b m' v') [] o) (k_setx false k') o r)).

Lemma sat_x g Hd k o r v m F t : Hd = hold m F v t o -> k_x k = true -> sat g Hd k o r -> know g v o r.
Proof. intros -> Hx Hs. exact (Hs SX v Hx eq_refl). Qed.

(** the view of the thread in the beginning *)
Lemma sat_begin h o r k v b : sat (m_log (h_m h)) (holds h [] o) (k_setx false k) o r ->
  (b = true -> know (m_log (h_m h)) v o r) -> sat (m_log (h_m h)) (holds h v o) (k_setx b k) o r.
Proof.
  intros Hs Hb x w Hg Hh. destruct x; simpl in Hg, Hh; try slot_of Hs w Hg Hh. subst w. auto.
Qed.

(** the frame of an operation that is not affected *)
Definition sub (F F' : slot -> hb -> Prop) : Prop := forall x w, F' x w -> F x w.
Lemma end_same m' v' (F F' : slot -> hb -> Prop) t o r k' : sub F F' ->
  sat (m_log m') (hold m' F v' t o) k' o r -> sat (m_log m') (hold m' F' [] t o) (k_setx false k') o r.
Proof. intros Hsub Hs. eapply sat_end; eauto; try reflexivity. intros x w Hf Hg. left. destruct x; simpl in *; auto; discriminate. Qed.
Definition slot_path (x : path) : slot := match x with PathL => SL | PathP => SP | PathC => SC end.
Lemma end_put x m' v' (F F' : slot -> hb -> Prop) t o r k' : (forall y w, y <> slot_path x -> F' y w -> F y w) -> (forall w, F' (slot_path x) w -> w = v') ->
  sat (m_log m') (hold m' F v' t o) k' o r -> sat (m_log m') (hold m' F' [] t o) (k_setx false (k_put x k')) o r.
Proof.
  intros Hsub Hv Hs. eapply sat_end; eauto; try (destruct x; reflexivity). intros y w Hf Hg.
  destruct x, y; simpl in *; try discriminate;
  first [right; split; [exact Hg|exact (Hv w Hf)] | left; split; [exact Hg|apply Hsub; [discriminate|exact Hf]]].
Qed.

Lemma pc_slot x h o w : get_pc x (c_op (h_s h) o) <> PIdle -> w = h_v h x o -> frame h o (slot_path x) w.
Proof. destruct x; simpl; auto. Qed.
Lemma kget_path x k : kget (slot_path x) k = k_of x k.
Proof. destruct x; reflexivity. Qed.

Lemma frame_sub h h' o :
  (forall y, get_pc y (c_op (h_s h') o) = get_pc y (c_op (h_s h) o)) -> o_done (c_op (h_s h') o) = o_done (c_op (h_s h) o) ->
  (forall y, h_v h' y o = h_v h y o) -> h_fin h' o = h_fin h o ->
  (forall w, loops (c_wk (h_s h')) (h_wk h') o w -> loops (c_wk (h_s h)) (h_wk h) o w) ->
  (forall w, loops (c_cn (h_s h')) (h_cn h') o w -> loops (c_cn (h_s h)) (h_cn h) o w) -> sub (frame h o) (frame h' o).
Proof.
  intros Hpc Hd Hv Hf Hwk Hcn x w. pose proof (Hpc PathL) as HL. pose proof (Hpc PathP) as HP. pose proof (Hpc PathC) as HC. simpl in HL, HP, HC.
  destruct x; simpl; auto; rewrite ?Hv, ?Hd, ?Hf, ?HL, ?HP, ?HC; auto; intros [H|H]; auto.
Qed.

Lemma frame_put x h h' o :
  (forall y, y <> x -> get_pc y (c_op (h_s h') o) = get_pc y (c_op (h_s h) o)) -> (o_l (c_op (h_s h') o) = PIdle -> o_l (c_op (h_s h) o) = PIdle) ->
  (forall w, o_done (c_op (h_s h') o) = true -> w = h_fin h' o -> o_done (c_op (h_s h) o) = true /\ w = h_fin h o) ->
  (forall y, y <> x -> h_v h' y o = h_v h y o) ->
  (x <> PathP -> forall w, loops (c_wk (h_s h')) (h_wk h') o w -> loops (c_wk (h_s h)) (h_wk h) o w) ->
  (x <> PathC -> forall w, loops (c_cn (h_s h')) (h_cn h') o w -> loops (c_cn (h_s h)) (h_cn h) o w) ->
  forall y w, y <> slot_path x -> frame h' o y w -> frame h o y w.
Proof.
  intros Hpc Hl Hd Hv Hwk Hcn y w Hy. pose proof (Hpc PathL) as HL. pose proof (Hpc PathP) as HP. pose proof (Hpc PathC) as HC. simpl in HL, HP, HC.
  destruct y; simpl; auto.
  - intros ->. apply Hv. intros <-. now apply Hy.
  - assert (Hx : x <> PathP) by (intros ->; now apply Hy). rewrite HP, Hv by auto. intros [H|H]; auto.
  - assert (Hx : x <> PathC) by (intros ->; now apply Hy). rewrite HC, Hv by auto. intros [H|H]; auto.
  - intros [[H1 H2]|[H1 H2]]; auto.
Qed.

Lemma loops_app lps vs l v o w : length vs = length lps -> (In o l -> v = w -> False) -> loops (lps ++ [Loop None l]) (vs ++ [v]) o w -> loops lps vs o w.
Proof.
  intros Hlen Hno (k & Hk & Hin). destruct (nth_error_snoc _ _ _ _ Hk) as [H|[-> ->]].
  - exists k. split; [exact H|]. rewrite rest_app_old in Hin; [exact Hin|]. rewrite <- Hlen. apply nth_error_Some. congruence.
  - exfalso. rewrite Hlen, rest_app_new in Hin. eauto.
Qed.
Lemma loops_app_only lps vs l v o w : length vs = length lps -> inrest o lps = 0 -> loops (lps ++ [Loop None l]) (vs ++ [v]) o w -> w = v.
Proof.
  intros Hlen H0 (k & Hk & Hin). destruct (nth_error_snoc _ _ _ _ Hk) as [H|[-> ->]]; [|reflexivity].
  exfalso. rewrite rest_app_old in Hin; [|rewrite <- Hlen; apply nth_error_Some; congruence]. apply rest_inrest in Hin. lia.
Qed.
Lemma loops_none lps vs o w : inrest o lps = 0 -> ~ loops lps vs o w.
Proof. intros H0 (k & Hk & Hin). apply rest_inrest in Hin. lia. Qed.

Lemma know_empty g w o r : know g [] o r -> know g w o r.
Proof. intros H. eapply know_mono; [exact H|]. intros i []. Qed.

Lemma updp_same f x o v : updp f x o v x o = v.
Proof. unfold updp. rewrite path_eqb_refl. apply upd_same. Qed.
Lemma updp_op f x o v y o' : o' <> o -> updp f x o v y o' = f y o'.
Proof. intros H. unfold updp. destruct (path_eqb y x); auto. now rewrite upd_other. Qed.
Lemma updp_path f x o v y o' : y <> x -> updp f x o v y o' = f y o'.
Proof. intros H. unfold updp. destruct (path_eqb y x) eqn:E; auto. now apply path_eqb_eq in E. Qed.

Lemma SI_start h o' t a v s' es b o :
  GInv (h_s h) -> HI h -> step (h_s h) (LStart o' t a) = Next s' es -> SI h (HStart o' t a v) s' b o.
Proof.
  intros HG HH Hs. pose proof HG as (HV & HE & (HI' & HQ) & HL1 & HL2). simpl in Hs.
  destruct (o_l (c_op (h_s h) o')) eqn:Hl; try discriminate.
  destruct (fresh_facts P W eager (h_s h) o' HG Hl) as (Hn & Ht & Hp & Hc & Hd & Ha).
  assert (Hcb : forall e, cnt o' (e_cbs (c_ev (h_s h) e)) = 0).
  { intros e. apply cnt_zero. intros Hin. apply HE in Hin. congruence. }
  pose proof (hi_q h HH o') as Hq0. rewrite Hn in Hq0.
  destruct (Nat.eq_dec o o') as [->|Hne].
  - (* the operation itself *)
    left. exists (KV (if queued (h_s h) o' a then VStartQ (isSome t) (req_of P (h_s h) t) else VStartF (isSome t) (req_of P (h_s h) t))), false.
    split; [apply klabels_v; destruct (queued _ _ _); [apply vlabels_start_q|apply vlabels_start_f]; destruct t; simpl; congruence|].
    split; [|split; [|split]].
    + simpl. unfold queued. destruct (p_start P (c_prim (h_s h)) o' a) as [ps es'|ps v' es'|f] eqn:Hst; try discriminate;
        injection Hs as <- <-; exists []; (split; [|reflexivity]); simpl; rewrite Hl; unfold P_Wait.view_of; simpl; rewrite upd_same; simpl; rewrite Ht; simpl;
        (destruct t as [e|]; simpl; [rewrite Hcb|]; reflexivity).
    + unfold tok. rewrite Ht. simpl. rewrite Nat.eqb_refl. unfold queued.
      destruct (p_start P (c_prim (h_s h)) o' a) as [ps es'|ps v' es'|f] eqn:Hst; try discriminate; simpl; [|reflexivity].
      unfold proj in *. change (flat_map (pact None o')) with (proj None o'). rewrite proj_app, proj_hook, cnt_app, Hq0, cnt_cons, cnt_nil. destruct (Nat.eq_dec o' o'); [reflexivity|congruence].
    + intros r k Hin Hk.
      assert (Hkn : know (m_log (h_m h)) [] o' r).
      { apply (Hk SFin []); [simpl; now apply (RK_fresh r eager _ k Hin)|simpl; auto]. }
      intros x w _ _. now apply know_empty.
    + intros m' v' r k' Hk. intros x w Hg Hh.
      assert (Hq : kget x (k_setx false (k_setev false (k_put PathL k'))) = true) by (destruct (queued (h_s h) o' a); exact Hg).
      assert (Hpc : c_op s' o' = Op t no_bits (o_l (c_op s' o')) PIdle PIdle (o_fast (c_op s' o')) false true (o_node (c_op s' o')) /\ c_wk s' = c_wk (h_s h) /\ c_cn s' = c_cn (h_s h) /\ o_l (c_op s' o') <> PIdle).
      { destruct (p_start P (c_prim (h_s h)) o' a) as [ps es'|ps v0 es'|f] eqn:Hst; try discriminate; injection Hs as <- <-; simpl; rewrite upd_same; simpl;
          rewrite Hp, Hc, Hd, Ha; repeat split; discriminate. }
      destruct Hpc as (Hop & Hwk & Hcn & Hnl).
      destruct x; simpl in Hq; try discriminate; simpl in Hh.
      * exact (Hk SMu w Hq Hh).
      * exact (Hk SSt w Hq Hh).
      * rewrite updp_same in Hh. exact (Hk SX w Hq Hh).
      * apply (Hk SP w Hq). simpl. rewrite Hop in Hh. simpl in Hh. destruct Hh as [[Hh _]|Hh]; [congruence|]. right. now rewrite Hwk in Hh.
      * apply (Hk SC w Hq). simpl. rewrite Hop in Hh. simpl in Hh. destruct Hh as [[Hh _]|Hh]; [congruence|]. right. now rewrite Hcn in Hh.
      * destruct Hh as [[Hh _]|[Hh _]]; [rewrite Hop in Hh; discriminate|congruence].
  - (* another operation *)
    assert (Hs' : c_op s' o = c_op (h_s h) o /\ c_wk s' = c_wk (h_s h) /\ c_cn s' = c_cn (h_s h) /\ c_ev s' = c_ev (h_s h)).
    { destruct (p_start P (c_prim (h_s h)) o' a) as [ps es'|ps v0 es'|f] eqn:Hst; try discriminate; injection Hs as <- <-; simpl; rewrite upd_other by auto; auto. }
    destruct Hs' as (Hop & Hwk & Hcn & Hev).
    assert (Hvw : view_of s' o = view_of (h_s h) o) by (apply view_same; rewrite ?Hwk, ?Hcn, ?Hev; auto).
    assert (Hend : forall m' v' r k', sat (m_log m') (hold m' (frame h o) v' (tok h o) o) k' o r ->
       sat (m_log m') (holds (store h (HStart o' t a v) s' b m' v') [] o) (k_setx false k') o r).
    { intros m' v' r k' Hk. unfold holds. simpl h_m. replace (tok (store h (HStart o' t a v) s' b m' v') o) with (tok h o) by (unfold tok; simpl; now rewrite Hop).
      eapply end_same; [|exact Hk]. apply frame_sub; simpl; rewrite ?Hop, ?Hwk, ?Hcn; auto. intros y. now rewrite updp_op. }
    assert (Hpj : proj (tok h o) o (acts P lk h (HStart o' t a v)) = TLock :: repeat (TTouch FHook) (if queued (h_s h) o' a then cnt o (h_q h) else 0) ++ [TUnlock]).
    { simpl. destruct (Nat.eqb_spec o' o); [congruence|]. simpl. f_equal. fold (proj (tok h o) o).
      destruct (queued (h_s h) o' a); simpl; [|reflexivity]. change (flat_map (pact (tok h o) o)) with (proj (tok h o) o). rewrite proj_app, proj_hook, cnt_app, cnt_cons, cnt_nil.
      destruct (Nat.eq_dec o' o); [congruence|]. now rewrite !Nat.add_0_r. }
    pose proof (hi_q h HH o) as Hq. destruct (queued (h_s h) o' a) eqn:Hqd; [destruct (o_node (c_op (h_s h) o)) eqn:Hnd|];
      try (right; split; [exact Hvw|]; split; [rewrite Hpj, ?Hq; solve [simpl; auto]|exact Hend]).
    left. exists KEnvMu, false. split; [apply klabels_env; simpl; auto|]. split; [simpl; rewrite Hnd; auto|].
    split; [rewrite Hpj, Hq; reflexivity|]. split; [|exact Hend].
    intros r k _ Hk. simpl. apply sat_begin; [exact Hk|discriminate].
Qed.

Lemma SI_same h l s' b o :
  view_of s' o = view_of (h_s h) o -> In (proj (tok h o) o (acts P lk h l)) [[]; [TLock; TUnlock]; [TLockEv; TUnlockEv]] -> o_tok (c_op s' o) = tok h o ->
  (forall m' v', h_m (store h l s' b m' v') = m' /\ h_s (store h l s' b m' v') = s' /\ sub (frame h o) (frame (store h l s' b m' v') o)) -> SI h l s' b o.
Proof.
  intros Hv Hp Ht Hst. right. split; [exact Hv|]. split; [exact Hp|]. intros m' v' r k' Hk.
  destruct (Hst m' v') as (Hm & Hs & Hsub). unfold holds. rewrite Hm. replace (tok (store h l s' b m' v') o) with (tok h o) by (unfold tok; now rewrite Hs).
  eapply end_same; eauto.
Qed.

Lemma SI_destroy h o' s' es b o :
  GInv (h_s h) -> HI h -> step (h_s h) (LDestroy o') = Next s' es ->
  (eager = true -> v_req (view_of (h_s h) o') = true -> ordered (m_log (h_m h)) (tview eager h (HDestroy o')) o' FDel = true) ->
  SI h (HDestroy o') s' b o.
Proof.
  intros HG HH Hs Hok. simpl in Hs.
  destruct (o_done (c_op (h_s h) o') && o_alive (c_op (h_s h) o') && (eager || all_ended (c_op (h_s h) o'))) eqn:Hb; try discriminate.
  injection Hs as <- <-.
  assert (Hfr : forall m' v', sub (frame h o) (frame (store h (HDestroy o') (with_op (h_s h) o' (set_dead (c_op (h_s h) o'))) b m' v') o)).
  { intros m' v'. apply frame_sub; simpl; auto; unfold upd; destruct (Nat.eqb_spec o o') as [->|]; auto; intros []; reflexivity. }
  destruct (Nat.eq_dec o o') as [->|Hne].
  - left. exists (KV VDestroy), false. split; [apply klabels_v; simpl; tauto|]. split; [|split; [|split]].
    + exists []. split; [|reflexivity]. simpl. unfold all_ended in Hb. rewrite Hb. unfold P_Wait.view_of, with_op; simpl. rewrite upd_same. reflexivity.
    + simpl. rewrite Nat.eqb_refl. reflexivity.
    + intros r k Hin Hk. simpl kbegin. apply sat_begin; [exact Hk|]. intros Hx. destruct (bool_dec eager true) as [He|He].
      * specialize (Hok He). rewrite He in Hx. apply orb_prop in Hx. destruct Hx as [Hx|Hx].
        -- specialize (Hok Hx). rewrite ordered_know in Hok. apply Hok. destruct r; reflexivity.
        -- apply (Hk SFin); [exact Hx|]. simpl. left. rewrite He. split; [|reflexivity].
           destruct (o_done (c_op (h_s h) o')); [reflexivity|discriminate].
      * assert (He' : eager = false) by (destruct eager; congruence). simpl. rewrite He' in Hx |- *.
        rewrite !orb_true_iff in Hx. destruct Hx as [[[Hx|Hx]|Hx]|Hx].
        -- apply know_mono with (h_fin h o'); [|intros i Hi; apply in_or_app; auto]. apply (Hk SFin); [exact Hx|]. simpl. left. split; [|reflexivity].
           destruct (o_done (c_op (h_s h) o')); [reflexivity|discriminate].
        -- apply know_mono with (h_v h PathL o'); [|intros i Hi; rewrite !in_app_iff; auto]. apply (Hk SL); [exact Hx|reflexivity].
        -- destruct (o_p (c_op (h_s h) o')) eqn:Hp; try discriminate; (apply know_mono with (h_v h PathP o'); [|intros i Hi; rewrite !in_app_iff; auto]);
             (apply (Hk SP); [exact Hx|simpl; left; rewrite Hp; split; [discriminate|reflexivity]]).
        -- destruct (o_c (c_op (h_s h) o')) eqn:Hp; try discriminate; (apply know_mono with (h_v h PathC o'); [|intros i Hi; rewrite !in_app_iff; auto]);
             (apply (Hk SC); [exact Hx|simpl; left; rewrite Hp; split; [discriminate|reflexivity]]).
    + intros m' v' r k' Hk. unfold holds.
      replace (tok (store h (HDestroy o') (with_op (h_s h) o' (set_dead (c_op (h_s h) o'))) b m' v') o') with (tok h o') by (unfold tok; simpl; now rewrite upd_same).
      eapply end_same; [apply Hfr|exact Hk].
  - apply SI_same.
    + apply view_same; simpl; auto. now rewrite upd_other.
    + simpl. destruct (Nat.eqb_spec o' o); [congruence|]. simpl. auto.
    + simpl. unfold tok. now rewrite upd_other.
    + intros m' v'. auto.
Qed.

Lemma SI_prim h pl v s' es b o :
  GInv (h_s h) -> HI h -> step (h_s h) (LPrim pl) = Next s' es -> SI h (HPrim pl v) s' b o.
Proof.
  intros HG HH Hs. pose proof HG as (HV & HE & (HI' & HQ) & HL1 & HL2). simpl in Hs.
  destruct (p_step P (c_prim (h_s h)) pl) as [ps tk es'| |f es'] eqn:Hp; try discriminate.
  injection Hs as <- <-. destruct (l_step W _ _ _ _ _ HI' Hp) as (_ & Hnd & Htk & _).
  assert (Htk' : taken (h_s h) pl = tk) by (unfold taken; now rewrite Hp).
  set (s' := St ps _ _ _ _).
  assert (Hin : inrest o (c_wk (h_s h) ++ [Loop None tk]) = inrest o (c_wk (h_s h)) + cnt o tk).
  { rewrite inrest_app. unfold inrest at 2. simpl. lia. }
  destruct (R_facts eager _ (HV o)) as (_ & _ & _ & Hfq & _). simpl in Hfq.
  assert (Hcnt : cnt o tk = if memb o tk then 1 else 0).
  { destruct (memb o tk) eqn:Hm.
    - apply memb_In in Hm. pose proof (NoDup_cnt _ Hnd o). pose proof (proj2 (cnt_pos o tk) Hm). lia.
    - apply cnt_zero. now apply memb_not_In. }
  assert (Hpj : proj (tok h o) o (acts P lk h (HPrim pl v)) =
    if lk (c_prim (h_s h)) pl then TLock :: repeat (TTouch FHook) (cnt o (h_q h)) ++ repeat (TTouch FSt) (cnt o tk) ++ [TUnlock] else []).
  { simpl. rewrite Htk'. destruct (lk (c_prim (h_s h)) pl); [|reflexivity]. rewrite proj_cons, !proj_app, proj_hook, proj_touch. reflexivity. }
  pose proof (hi_q h HH o) as Hq.
  assert (Hop : forall y, get_pc y (c_op s' o) = get_pc y (c_op (h_s h) o)).
  { intros y. subst s'. simpl. destruct (memb o tk), y; reflexivity. }
  assert (Hdn : o_done (c_op s' o) = o_done (c_op (h_s h) o)) by (subst s'; simpl; destruct (memb o tk); reflexivity).
  assert (Htok : o_tok (c_op s' o) = tok h o) by (subst s'; simpl; destruct (memb o tk); reflexivity).
  destruct (memb o tk) eqn:Hm.
  - pose proof Hm as Hm'. apply memb_In in Hm'. pose proof (proj1 (HQ o) (Htk o Hm')) as Hno. rewrite Hno in Hq.
    assert (Hlk : lk (c_prim (h_s h)) pl = true).
    { destruct (lk (c_prim (h_s h)) pl) eqn:E; [reflexivity|]. rewrite (lk_taken _ _ _ _ _ E Hp) in Hm'. destruct Hm'. }
    destruct (Hfq Hno) as [Hw0 Hpi].
    left. exists (KV VTake), false. split; [apply klabels_v; simpl; tauto|]. split; [|split; [|split]].
    + exists []. split; [|reflexivity]. simpl. rewrite Hno. subst s'. unfold P_Wait.view_of; simpl. rewrite Hm. simpl. rewrite Hin, Hcnt, Nat.add_1_r. reflexivity.
    + rewrite Hpj, Hlk, Hq, Hcnt. reflexivity.
    + intros r k _ Hk. apply sat_begin; [exact Hk|discriminate].
    + intros m' v' r k' Hk. unfold holds. replace (tok (store h (HPrim pl v) s' b m' v') o) with (tok h o) by (unfold tok; simpl; now rewrite Htok).
      apply (end_put PathP m' v' (frame h o)); [| |exact Hk].
      * apply frame_put; auto; try congruence; cbn [store h_s h_fin].
        -- pose proof (Hop PathL) as HL. cbn [get_pc] in HL. now rewrite HL.
        -- intros w. now rewrite Hdn.
      * intros w Hf. pose proof (Hop PathP) as HP. cbn [get_pc] in HP. cbn [frame slot_path store h_s h_v h_wk] in Hf. rewrite HP in Hf. destruct Hf as [[Hf _]|Hf]; [congruence|].
        eapply loops_app_only; [exact (hi_wk h HH)|exact Hw0|exact Hf].
  - assert (Hvw : view_of s' o = view_of (h_s h) o).
    { subst s'. apply view_same; simpl; auto. - now rewrite Hm. - rewrite Hin, Hcnt. lia. }
    assert (Hfr : forall m' v', sub (frame h o) (frame (store h (HPrim pl v) s' b m' v') o)).
    { intros m' v'. apply frame_sub; auto. intros w Hw. simpl in Hw. eapply loops_app; [exact (hi_wk h HH)| |exact Hw]. intros Hi _. apply memb_not_In in Hm. auto. }
    rewrite Hcnt in Hpj. destruct (lk (c_prim (h_s h)) pl) eqn:Hlk.
    + destruct (o_node (c_op (h_s h) o)) eqn:Hno; rewrite Hq in Hpj;
        try (apply SI_same; [exact Hvw|rewrite Hpj; solve [simpl; auto]|exact Htok|intros m' v'; split; [reflexivity|split; [reflexivity|apply Hfr]]]).
      left. exists KEnvMu, false. split; [apply klabels_env; simpl; auto|]. split; [simpl; rewrite Hno; auto|]. split; [rewrite Hpj; reflexivity|].
      split; [intros r k _ Hk; apply sat_begin; [exact Hk|discriminate]|]. intros m' v' r k' Hk. unfold holds.
      replace (tok (store h (HPrim pl v) s' b m' v') o) with (tok h o) by (unfold tok; simpl; now rewrite Htok). eapply end_same; [apply Hfr|exact Hk].
    + apply SI_same; [exact Hvw|rewrite Hpj; solve [simpl; auto]|exact Htok|intros m' v'; split; [reflexivity|split; [reflexivity|apply Hfr]]].
Qed.

Lemma SI_cancel h e v s' es b o :
  GInv (h_s h) -> HI h -> step (h_s h) (LCancel e) = Next s' es -> SI h (HCancel e v) s' b o.
Proof.
  intros HG HH Hs. pose proof HG as (HV & HE & (HI' & HQ) & HL1 & HL2). cbn [M_Wait.step] in Hs. injection Hs as <- <-.
  set (s' := St _ _ _ _ _).
  assert (Hpd : inrest o (c_cn (h_s h) ++ [Loop None (e_cbs (c_ev (h_s h) e))]) = inrest o (c_cn (h_s h)) + cnt o (e_cbs (c_ev (h_s h) e))).
  { rewrite inrest_app. unfold inrest at 2. simpl. lia. }
  destruct (R_facts eager _ (HV o)) as ((Hc1 & _ & _) & _ & _ & _ & Hcb & _).
  assert (Hpj : proj (tok h o) o (acts P lk h (HCancel e v)) =
     pact (tok h o) o (ALockEv e) ++ repeat (TTouch FEvH) (cnt o (e_cbs (c_ev (h_s h) e))) ++ pact (tok h o) o (AUnlockEv e)).
  { cbn [acts]. rewrite !proj_cons, proj_app, proj_evh. cbn [pact app]. f_equal. f_equal. rewrite proj_cons. apply app_nil_r. }
  assert (Hfr : cnt o (e_cbs (c_ev (h_s h) e)) = 0 -> forall m' v', sub (frame h o) (frame (store h (HCancel e v) s' b m' v') o)).
  { intros H0 m' v'. apply frame_sub; auto. intros w Hw. eapply loops_app; [exact (hi_cn h HH)| |exact Hw]. intros Hi _. apply cnt_zero in H0. auto. }
  destruct (o_tok (c_op (h_s h) o)) as [e'|] eqn:Ht; [destruct (Nat.eq_dec e' e) as [->|Hne]|].
  - (* registered with that event *)
    left. exists (KV VCancel), false. split; [apply klabels_v; simpl; tauto|]. split; [|split; [|split]].
    + exists []. split; [|reflexivity]. simpl. unfold P_Wait.view_of at 1; simpl. rewrite Ht. simpl.
      subst s'. unfold P_Wait.view_of; simpl. rewrite Ht. simpl. rewrite upd_same. simpl. rewrite Hpd. rewrite (Nat.add_comm (inrest o (c_cn (h_s h)))). reflexivity.
    + rewrite Hpj. unfold tok. rewrite Ht. cbn [pact kacts]. rewrite Nat.eqb_refl. unfold P_Wait.view_of in Hc1 |- *. cbn [v_cb] in Hc1 |- *. rewrite Ht in Hc1 |- *. cbn [cb_of] in Hc1 |- *.
      destruct (cnt o (e_cbs (c_ev (h_s h) e))) as [|[|n]]; [reflexivity|reflexivity|lia].
    + intros r k _ Hk. apply sat_begin; [exact Hk|discriminate].
    + intros m' v' r k' Hk. unfold holds. replace (tok (store h (HCancel e v) s' b m' v') o) with (tok h o) by reflexivity.
      assert (Hv : v_cb (view_of (h_s h) o) = cnt o (e_cbs (c_ev (h_s h) e))) by (unfold P_Wait.view_of; cbn [v_cb]; rewrite Ht; reflexivity).
      assert (Hke : kend (view_of (h_s h) o) false k' (KV VCancel) = k_setx false (match v_cb (view_of (h_s h) o) with 0 => k' | _ => k_put PathC k' end)) by reflexivity.
      cbv zeta. rewrite Hke. clear Hke. destruct (v_cb (view_of (h_s h) o)) as [|n] eqn:Hvc.
      * eapply end_same; [apply Hfr; auto|exact Hk].
      * destruct (Hcb ltac:(lia)) as [Hci Hp0]. cbn [v_c v_pd P_Wait.view_of] in Hci, Hp0.
        apply (end_put PathC m' v' (frame h o)); [| |exact Hk].
        -- apply frame_put; auto; congruence.
        -- intros w Hf. cbn [frame slot_path store h_s h_v h_cn] in Hf. destruct Hf as [[Hf _]|Hf]; [exfalso; apply Hf; exact Hci|].
           eapply loops_app_only; [exact (hi_cn h HH)|exact Hp0|exact Hf].
  - assert (H0 : cnt o (e_cbs (c_ev (h_s h) e)) = 0) by (apply cnt_zero; intros Hin; apply HE in Hin; congruence).
    apply SI_same; [| |reflexivity|intros m' v'; split; [reflexivity|split; [reflexivity|now apply Hfr]]].
    + subst s'. unfold P_Wait.view_of; simpl. rewrite Ht. simpl. rewrite upd_other by auto. now rewrite Hpd, H0, Nat.add_0_r.
    + rewrite Hpj, H0. unfold tok. rewrite Ht. cbn [pact]. destruct (Nat.eqb_spec e' e); [congruence|]. simpl. auto.
  - assert (H0 : cnt o (e_cbs (c_ev (h_s h) e)) = 0) by (apply cnt_zero; intros Hin; apply HE in Hin; congruence).
    apply SI_same; [| |reflexivity|intros m' v'; split; [reflexivity|split; [reflexivity|now apply Hfr]]].
    + subst s'. unfold P_Wait.view_of; simpl. rewrite Ht. simpl. now rewrite Hpd, H0, Nat.add_0_r.
    + rewrite Hpj, H0. unfold tok. rewrite Ht. simpl. auto.
Qed.

(** Loops: what remains of loop k after its first node was popped *)
Lemma loops_pop lps vs k lp o' rest cur v' o w :
  nth_error lps k = Some lp -> lp_rest lp = o' :: rest -> ~ In o rest -> loops (set_nth lps k (Loop cur rest)) (set_nth vs k v') o w -> loops lps vs o w.
Proof.
  intros Hk Hr Hno (j & Hj & Hin). destruct (Nat.eq_dec j k) as [->|Hne].
  - rewrite (rest_set_same _ _ _ _ Hk) in Hin. contradiction.
  - rewrite rest_set_other in Hin by auto. rewrite nth_error_set_nth_other in Hj by auto. exists j. auto.
Qed.
Lemma loops_pop_only lps vs k lp o' rest cur v' o w :
  nth_error lps k = Some lp -> lp_rest lp = o' :: rest -> inrest o lps <= 1 -> In o (o' :: rest) -> k < length vs ->
  loops (set_nth lps k (Loop cur rest)) (set_nth vs k v') o w -> w = v' /\ In o rest.
Proof.
  intros Hk Hr Hle Hoin Hlen (j & Hj & Hin). destruct (Nat.eq_dec j k) as [->|Hne].
  - rewrite (rest_set_same _ _ _ _ Hk) in Hin. destruct (nth_error vs k) as [y|] eqn:Hy; [|apply nth_error_None in Hy; lia].
    rewrite (nth_error_set_nth_same _ _ _ _ Hy) in Hj. split; [congruence|exact Hin].
  - exfalso. rewrite rest_set_other in Hin by auto.
    assert (Hkin : In o (rest_of lps k)) by (unfold rest_of; rewrite Hk, Hr; exact Hoin).
    pose proof (rest_two lps j k o Hne Hin Hkin). lia.
Qed.

Lemma SI_cannext h k s' es b o :
  GInv (h_s h) -> HI h -> step (h_s h) (LCanNext k) = Next s' es -> SI h (HCanNext k) s' b o.
Proof.
  intros HG HH Hs. pose proof HG as (HV & HE & (HI' & HQ) & HL1 & HL2). cbn [M_Wait.step] in Hs.
  destruct (nth_error (c_cn (h_s h)) k) as [lp|] eqn:Hk; try discriminate.
  destruct (loop_ready o_c (h_s h) lp); try discriminate.
  destruct (lp_rest lp) as [|o' rest] eqn:Hrest; try discriminate.
  destruct (o_alive (c_op (h_s h) o')) eqn:Hal; try discriminate. cbn [negb] in Hs.
  destruct (o_c (c_op (h_s h) o')) eqn:Hc; try discriminate. injection Hs as <- <-.
  set (s' := St _ _ _ _ _).
  pose proof (inrest_set o _ k lp (Loop (Some o') rest) Hk) as Hin. cbn [lp_rest] in Hin. rewrite Hrest, cnt_cons in Hin.
  assert (Hro : rest_of (c_cn (h_s h)) k = o' :: rest) by (unfold rest_of; now rewrite Hk).
  destruct (R_facts eager _ (HV o)) as ((_ & Hw1 & Hd1) & Hfp & Hfc & _). cbn [v_wk v_pd v_p v_c P_Wait.view_of] in Hw1, Hd1, Hfp, Hfc.
  assert (Hlen : k < length (h_cn h)) by (rewrite (hi_cn h HH); apply nth_error_Some; congruence).
  assert (Hnth : nth_error (h_cn h) k = Some (nth k (h_cn h) [])) by (now apply nth_error_nth').
  assert (Hlp : In o (o' :: rest) -> loops (c_cn (h_s h)) (h_cn h) o (nth k (h_cn h) [])) by (intros Hi; exists k; rewrite Hro; auto).
  assert (Hpj : proj (tok h o) o (acts P lk h (HCanNext k)) = repeat (TTouch FEvH) (cnt o (o' :: rest)) ++ (if o' =? o then [TTouch (FUse PathC)] else [])).
  { cbn [acts]. rewrite Hro, proj_app. rewrite proj_evh. f_equal. unfold proj. cbn [flat_map pact]. apply app_nil_r. }
  assert (Hle : cnt o (o' :: rest) <= inrest o (c_cn (h_s h))).
  { pose proof (sum_map_le (fun lp => cnt o (lp_rest lp)) _ lp (nth_error_In _ _ Hk)) as Hle. cbv beta in Hle. rewrite Hrest in Hle. exact Hle. }
  rewrite cnt_cons in Hle.
  destruct (Nat.eq_dec o o') as [->|Hne].
  - destruct (Nat.eq_dec o' o'); [|congruence].
    assert (Hc0 : cnt o' rest = 0) by lia.
    left. exists (KV VCanNext), false. split; [apply klabels_v; simpl; tauto|]. split; [|split; [|split]].
    + exists []. split; [|reflexivity]. simpl.
      replace (inrest o' (c_cn (h_s h))) with (S (inrest o' (set_nth (c_cn (h_s h)) k (Loop (Some o') rest)))) by lia.
      rewrite Hal. simpl. rewrite Hc. subst s'. unfold P_Wait.view_of; simpl. rewrite upd_same. simpl. rewrite ?Hal. reflexivity.
    + rewrite Hpj, cnt_cons, Hc0, Nat.eqb_refl. destruct (Nat.eq_dec o' o'); [reflexivity|congruence].
    + intros r kk _ Hk'. apply sat_begin; [exact Hk'|]. intros Hx. apply (Hk' SC); [exact Hx|]. right. apply Hlp. now left.
    + intros m' v' r k' Hk'. unfold holds. cbn [store]. rewrite Hro. replace (tok _ o') with (tok h o') by (unfold tok, s'; cbn [h_s c_op]; rewrite upd_same; reflexivity).
      apply (end_put PathC m' v' (frame h o')); [| |exact Hk'].
      * apply frame_put; cbn [h_s h_v h_wk h_cn h_fin]; subst s'; cbn [c_op c_wk c_cn]; rewrite ?upd_same; auto; try congruence.
        -- intros y Hy. destruct y; try reflexivity; congruence.
        -- intros y Hy. now rewrite updp_path.
      * intros w Hf. cbn [frame slot_path h_s h_v h_cn] in Hf. rewrite updp_same in Hf. destruct Hf as [[_ Hf]|Hf]; [exact Hf|].
        exfalso. eapply (loops_none _ _ o' w); [|exact Hf]. subst s'. cbn [c_cn]. lia.
  - destruct (Nat.eq_dec o' o); [congruence|].
    assert (Hop : c_op s' o = c_op (h_s h) o) by (subst s'; cbn [c_op]; now rewrite upd_other).
    assert (Hvw : view_of s' o = view_of (h_s h) o) by (apply view_same; [exact Hop|subst s'; cbn [c_wk]; lia|subst s'; cbn [c_cn]; lia|auto]).
    assert (Hpj' : proj (tok h o) o (acts P lk h (HCanNext k)) = repeat (TTouch FEvH) (cnt o rest)).
    { rewrite Hpj, cnt_cons. destruct (Nat.eq_dec o' o); [congruence|]. destruct (Nat.eqb_spec o' o); [congruence|]. now rewrite app_nil_r. }
    destruct (in_dec Nat.eq_dec o rest) as [Hi|Hi].
    + assert (Hc1 : cnt o rest = 1).
      { pose proof (proj2 (cnt_pos o rest) Hi). lia. }
      assert (Hpos : 1 <= inrest o (c_cn (h_s h))) by (apply (rest_inrest _ k); rewrite Hro; now right).
      left. exists KEnvCn, false. split; [apply klabels_env; simpl; tauto|]. split; [|split; [|split]].
      * split; [exact Hvw|]. cbn [v_wk v_pd P_Wait.view_of]. lia.
      * rewrite Hpj', Hc1. reflexivity.
      * intros r kk _ Hk'. apply sat_begin; [exact Hk'|]. intros Hx. apply (Hk' SC); [exact Hx|]. right. apply Hlp. now right.
      * intros m' v' r k' Hk'. unfold holds. cbn [store]. rewrite Hro. replace (tok _ o) with (tok h o) by (unfold tok; cbn [h_s]; now rewrite Hop).
        apply (end_put PathC m' v' (frame h o)); [| |exact Hk'].
        -- apply frame_put; cbn [h_s h_v h_wk h_cn h_fin]; rewrite ?Hop; auto; try congruence. intros y Hy. now rewrite updp_path.
        -- intros w Hf. cbn [frame slot_path h_s h_v h_cn] in Hf. rewrite Hop in Hf. destruct Hf as [[Hf _]|Hf].
           ++ exfalso. specialize (Hfc Hf). lia.
           ++ eapply loops_pop_only in Hf; [exact (proj1 Hf)|exact Hk|exact Hrest|lia|right; exact Hi|exact Hlen].
    + apply SI_same; [exact Hvw|rewrite Hpj', (proj2 (cnt_zero o rest) Hi); simpl; auto|now rewrite Hop|].
      intros m' v'. split; [reflexivity|split; [reflexivity|]]. cbn [store]. rewrite Hro.
      apply frame_sub; cbn [h_s h_v h_wk h_cn h_fin]; rewrite ?Hop; auto.
      * intros y. now rewrite updp_op.
      * intros w Hw. eapply loops_pop; [exact Hk|exact Hrest|exact Hi|exact Hw].
Qed.

Lemma SI_wakenext h k s' es b o :
  GInv (h_s h) -> HI h -> step (h_s h) (LWakeNext k) = Next s' es -> SI h (HWakeNext k) s' b o.
Proof.
  intros HG HH Hs. pose proof HG as (HV & HE & (HI' & HQ) & HL1 & HL2). cbn [M_Wait.step] in Hs.
  destruct (nth_error (c_wk (h_s h)) k) as [lp|] eqn:Hk; try discriminate.
  destruct (loop_ready o_p (h_s h) lp); try discriminate.
  destruct (lp_rest lp) as [|o' rest] eqn:Hrest; try discriminate.
  destruct (o_alive (c_op (h_s h) o')) eqn:Hal; try discriminate. cbn [negb] in Hs.
  destruct (o_p (c_op (h_s h) o')) eqn:Hc; try discriminate. injection Hs as <- <-.
  set (s' := St _ _ _ _ _).
  pose proof (inrest_set o _ k lp (Loop (Some o') rest) Hk) as Hin. cbn [lp_rest] in Hin. rewrite Hrest, cnt_cons in Hin.
  assert (Hro : rest_of (c_wk (h_s h)) k = o' :: rest) by (unfold rest_of; now rewrite Hk).
  destruct (R_facts eager _ (HV o)) as ((_ & Hw1 & Hd1) & Hfp & Hfc & _). cbn [v_wk v_pd v_p v_c P_Wait.view_of] in Hw1, Hd1, Hfp, Hfc.
  assert (Hlen : k < length (h_wk h)) by (rewrite (hi_wk h HH); apply nth_error_Some; congruence).
  assert (Hnth : nth_error (h_wk h) k = Some (nth k (h_wk h) [])) by (now apply nth_error_nth').
  assert (Hlp : In o (o' :: rest) -> loops (c_wk (h_s h)) (h_wk h) o (nth k (h_wk h) [])) by (intros Hi; exists k; rewrite Hro; auto).
  assert (Hpj : proj (tok h o) o (acts P lk h (HWakeNext k)) = repeat (TTouch FHook) (cnt o (o' :: rest)) ++ (if o' =? o then [TTouch (FUse PathP)] else [])).
  { cbn [acts]. rewrite Hro, proj_app. rewrite proj_hook. f_equal. unfold proj. cbn [flat_map pact]. apply app_nil_r. }
  assert (Hle : cnt o (o' :: rest) <= inrest o (c_wk (h_s h))).
  { pose proof (sum_map_le (fun lp => cnt o (lp_rest lp)) _ lp (nth_error_In _ _ Hk)) as Hle. cbv beta in Hle. rewrite Hrest in Hle. exact Hle. }
  rewrite cnt_cons in Hle.
  destruct (Nat.eq_dec o o') as [->|Hne].
  - destruct (Nat.eq_dec o' o'); [|congruence].
    assert (Hc0 : cnt o' rest = 0) by lia.
    left. exists (KV VWakeNext), false. split; [apply klabels_v; simpl; tauto|]. split; [|split; [|split]].
    + exists []. split; [|reflexivity]. simpl.
      replace (inrest o' (c_wk (h_s h))) with (S (inrest o' (set_nth (c_wk (h_s h)) k (Loop (Some o') rest)))) by lia.
      rewrite Hal. simpl. rewrite Hc. subst s'. unfold P_Wait.view_of; simpl. rewrite upd_same. simpl. rewrite ?Hal. reflexivity.
    + rewrite Hpj, cnt_cons, Hc0, Nat.eqb_refl. destruct (Nat.eq_dec o' o'); [reflexivity|congruence].
    + intros r kk _ Hk'. apply sat_begin; [exact Hk'|]. intros Hx. apply (Hk' SP); [exact Hx|]. right. apply Hlp. now left.
    + intros m' v' r k' Hk'. unfold holds. cbn [store]. rewrite Hro. replace (tok _ o') with (tok h o') by (unfold tok, s'; cbn [h_s c_op]; rewrite upd_same; reflexivity).
      apply (end_put PathP m' v' (frame h o')); [| |exact Hk'].
      * apply frame_put; cbn [h_s h_v h_wk h_cn h_fin]; subst s'; cbn [c_op c_wk c_cn]; rewrite ?upd_same; auto; try congruence.
        -- intros y Hy. destruct y; try reflexivity; congruence.
        -- intros y Hy. now rewrite updp_path.
      * intros w Hf. cbn [frame slot_path h_s h_v h_wk] in Hf. rewrite updp_same in Hf. destruct Hf as [[_ Hf]|Hf]; [exact Hf|].
        exfalso. eapply (loops_none _ _ o' w); [|exact Hf]. subst s'. cbn [c_wk]. lia.
  - destruct (Nat.eq_dec o' o); [congruence|].
    assert (Hop : c_op s' o = c_op (h_s h) o) by (subst s'; cbn [c_op]; now rewrite upd_other).
    assert (Hvw : view_of s' o = view_of (h_s h) o) by (apply view_same; [exact Hop|subst s'; cbn [c_wk]; lia|subst s'; cbn [c_cn]; lia|auto]).
    assert (Hpj' : proj (tok h o) o (acts P lk h (HWakeNext k)) = repeat (TTouch FHook) (cnt o rest)).
    { rewrite Hpj, cnt_cons. destruct (Nat.eq_dec o' o); [congruence|]. destruct (Nat.eqb_spec o' o); [congruence|]. now rewrite app_nil_r. }
    destruct (in_dec Nat.eq_dec o rest) as [Hi|Hi].
    + assert (Hc1 : cnt o rest = 1).
      { pose proof (proj2 (cnt_pos o rest) Hi). lia. }
      assert (Hpos : 1 <= inrest o (c_wk (h_s h))) by (apply (rest_inrest _ k); rewrite Hro; now right).
      left. exists KEnvWk, false. split; [apply klabels_env; simpl; tauto|]. split; [|split; [|split]].
      * split; [exact Hvw|]. cbn [v_wk v_pd P_Wait.view_of]. lia.
      * rewrite Hpj', Hc1. reflexivity.
      * intros r kk _ Hk'. apply sat_begin; [exact Hk'|]. intros Hx. apply (Hk' SP); [exact Hx|]. right. apply Hlp. now right.
      * intros m' v' r k' Hk'. unfold holds. cbn [store]. rewrite Hro. replace (tok _ o) with (tok h o) by (unfold tok; cbn [h_s]; now rewrite Hop).
        apply (end_put PathP m' v' (frame h o)); [| |exact Hk'].
        -- apply frame_put; cbn [h_s h_v h_wk h_cn h_fin]; rewrite ?Hop; auto; try congruence. intros y Hy. now rewrite updp_path.
        -- intros w Hf. cbn [frame slot_path h_s h_v h_wk] in Hf. rewrite Hop in Hf. destruct Hf as [[Hf _]|Hf].
           ++ exfalso. specialize (Hfp Hf). lia.
           ++ eapply loops_pop_only in Hf; [exact (proj1 Hf)|exact Hk|exact Hrest|lia|right; exact Hi|exact Hlen].
    + apply SI_same; [exact Hvw|rewrite Hpj', (proj2 (cnt_zero o rest) Hi); simpl; auto|now rewrite Hop|].
      intros m' v'. split; [reflexivity|split; [reflexivity|]]. cbn [store]. rewrite Hro.
      apply frame_sub; cbn [h_s h_v h_wk h_cn h_fin]; rewrite ?Hop; auto.
      * intros y. now rewrite updp_op.
      * intros w Hw. eapply loops_pop; [exact Hk|exact Hrest|exact Hi|exact Hw].
Qed.

Lemma path_frame s o x s' es : path_step P s o x = Next s' es ->
  (forall y, y <> x -> get_pc y (c_op s' o) = get_pc y (c_op s o)) /\ get_pc x (c_op s' o) <> PIdle /\ get_pc x (c_op s o) <> PIdle /\
  ((es = [] /\ o_done (c_op s' o) = o_done (c_op s o)) \/ (exists v, es = [EDone o v]) /\ o_done (c_op s' o) = true).
Proof.
  intros Hs. assert (Hpc : get_pc x (c_op s o) <> PIdle) by (intros E; unfold path_step in Hs; rewrite E in Hs; discriminate).
  split; [|split; [exact (path_pc P s o x s' es Hs x o Hpc)|split; [exact Hpc|]]]; unfold path_step in Hs;
  repeat match type of Hs with
  | context [match ?x with _ => _ end] => destruct x eqn:?; try discriminate
  end; injection Hs as <- <-;
  try match goal with H : do_trans _ _ _ _ = Some _ |- _ => destruct (do_trans_spec _ _ _ _ _ H) as (?p & ? & ->) end;
  simpl; rewrite upd_same; try (intros y Hy; destruct x, y; try congruence; try reflexivity; destruct b; reflexivity);
  try (left; split; [reflexivity|]; destruct x; try reflexivity; destruct b; reflexivity);
  right; (split; [eexists; reflexivity|]); destruct x; reflexivity.
Qed.

(** what the step of one operation means for another one *)
Lemma path_proj_other h o' x o s' es : GInv (h_s h) -> reliable P (h_s h) -> HI h -> path_step P (h_s h) o' x = Next s' es -> o <> o' ->
  let A := proj (tok h o) o (path_acts h o' x) in
  In A [[]; [TLock; TUnlock]; [TLockEv; TUnlockEv]] \/
  (A = [TLock; TTouch FHook; TUnlock] /\ o_node (c_op (h_s h) o) = NQueued) \/
  (A = [TLockEv; TTouch FEvH; TUnlockEv] /\ v_cb (view_of (h_s h) o) <> 0).
Proof.
  intros HG HR HH Hs Hne A. subst A. pose proof HG as (HV & HE & (HI' & HQ) & HL1 & HL2).
  destruct (R_facts eager _ (HV o)) as ((Hc1 & _ & _) & _).
  assert (Hno : forall f A, proj (tok h o) o (ATouch o' f :: A) = proj (tok h o) o A).
  { intros f A. rewrite proj_cons. cbn [pact]. destruct (Nat.eqb_spec o' o); [congruence|reflexivity]. }
  assert (Hev : forall e l, In o l -> In o (e_cbs (c_ev (h_s h) e)) -> cnt o l = cnt o (e_cbs (c_ev (h_s h) e)) ->
     proj (tok h o) o (ALockEv e :: map evh l ++ [AUnlockEv e]) = [TLockEv; TTouch FEvH; TUnlockEv] /\ v_cb (view_of (h_s h) o) <> 0).
  { intros e l Hl Hin Hcn. pose proof (HE e o Hin) as Ht. rewrite proj_cons, proj_app, proj_evh, Hcn. unfold tok. rewrite Ht. unfold proj. cbn [flat_map pact app].
    rewrite Nat.eqb_refl. apply cnt_pos in Hin. unfold P_Wait.view_of in Hc1 |- *. cbn [v_cb] in Hc1 |- *. rewrite Ht in Hc1 |- *. cbn [cb_of] in Hc1 |- *.
    replace (cnt o (e_cbs (c_ev (h_s h) e))) with 1 by lia. split; [reflexivity|lia]. }
  assert (Hev0 : forall e l, cnt o l = 0 -> In (proj (tok h o) o (ALockEv e :: map evh l ++ [AUnlockEv e])) [[]; [TLock; TUnlock]; [TLockEv; TUnlockEv]]).
  { intros e l Hl. rewrite proj_cons, proj_app, proj_evh, Hl. unfold proj. cbn [flat_map pact repeat app]. destruct (tok h o) as [e'|]; [|simpl; auto]. destruct (e' =? e); simpl; auto. }
  unfold path_acts. rewrite Hno. destruct (get_pc x (c_op (h_s h) o')) as [| | | |m| | |] eqn:Hpc; try (left; simpl; auto; fail).
  - (* PListen *)
    rewrite Hno. destruct (o_tok (c_op (h_s h) o')) as [e|]; [|left; simpl; auto]. destruct (e_req (c_ev (h_s h) e)).
    + left. exact (Hev0 e [] eq_refl).
    + assert (Hcn : cnt o (e_cbs (c_ev (h_s h) e) ++ [o']) = cnt o (e_cbs (c_ev (h_s h) e))).
      { rewrite cnt_app, cnt_cons, cnt_nil. destruct (Nat.eq_dec o' o); [congruence|]. lia. }
      destruct (in_dec Nat.eq_dec o (e_cbs (c_ev (h_s h) e))) as [Hi|Hi].
      * right. right. apply Hev; auto. apply in_or_app. now left.
      * left. apply Hev0. rewrite Hcn. now apply cnt_zero.
  - (* PTry *)
    rewrite proj_cons. cbn [pact]. rewrite Hno. destruct (p_try P (c_prim (h_s h)) o') as [ps [|]|f]; [|left; simpl; auto|left; simpl; auto].
    rewrite proj_app, proj_hook, (hi_q h HH o). destruct (o_node (c_op (h_s h) o)) eqn:Hn; try (left; simpl; auto; fail). right. left. simpl. auto.
  - (* PTrans *)
    left. unfold proj. cbn [flat_map pact]. destruct (Nat.eqb_spec o' o); [congruence|simpl; auto].
  - (* PUnreg *)
    rewrite Hno. destruct (o_tok (c_op (h_s h) o')) as [e|]; [|left; simpl; auto]. destruct (e_req (c_ev (h_s h) e)).
    + left. exact (Hev0 e [] eq_refl).
    + destruct (in_dec Nat.eq_dec o (e_cbs (c_ev (h_s h) e))) as [Hi|Hi].
      * right. right. apply Hev; auto.
      * left. apply Hev0. now apply cnt_zero.
  - (* PResume *)
    left. unfold proj. cbn [flat_map pact]. destruct (Nat.eqb_spec o' o); [congruence|simpl; auto].
Qed.

Lemma path_proj_self h o x s' es : GInv (h_s h) -> reliable P (h_s h) -> HI h -> path_step P (h_s h) o x = Next s' es ->
  proj (tok h o) o (path_acts h o x) = kpath_acts (view_of (h_s h) o) x.
Proof.
  intros HG HR HH Hs. pose proof HG as (HV & HE & (HI' & HQ) & HL1 & HL2).
  destruct (R_facts eager _ (HV o)) as ((Hc1 & _ & _) & _ & _ & _ & _ & HfL & HfU & _). specialize (HfL x). specialize (HfU x).
  assert (Hyes : forall f A, proj (tok h o) o (ATouch o f :: A) = TTouch f :: proj (tok h o) o A).
  { intros f A. rewrite proj_cons. cbn [pact]. now rewrite Nat.eqb_refl. }
  unfold path_acts, kpath_acts. rewrite v_pc_view in HfL, HfU |- *. rewrite Hyes. f_equal.
  destruct (get_pc x (c_op (h_s h) o)) as [| | | |m| | |] eqn:Hpc; try reflexivity.
  - rewrite Hyes. f_equal. specialize (HfL eq_refl). unfold P_Wait.view_of in HfL |- *. cbn [v_tok v_req v_cb] in HfL |- *. unfold tok.
    destruct (o_tok (c_op (h_s h) o)) as [e|] eqn:Ht; [|reflexivity]. cbn [isSome req_of cb_of] in HfL |- *.
    rewrite proj_cons, proj_app. cbn [pact]. rewrite Nat.eqb_refl. cbn [app]. f_equal. unfold proj at 2. cbn [flat_map pact]. rewrite Nat.eqb_refl. cbn [app]. f_equal.
    destruct (e_req (c_ev (h_s h) e)); [reflexivity|]. rewrite proj_evh, cnt_app, HfL, cnt_cons, cnt_nil. destruct (Nat.eq_dec o o); [reflexivity|congruence].
  - rewrite proj_cons. cbn [pact app]. f_equal. rewrite Hyes. f_equal. rewrite proj_app. f_equal.
    unfold P_Wait.view_of. cbn [v_node]. destruct (try_facts P W eager (h_s h) o x HG Hpc) as [Hn|Hn].
    + destruct (l_try W _ _ HI' (proj2 (HQ o) Hn)) as (ps & Ht & _). rewrite Ht, Hn, proj_hook, (hi_q h HH o), Hn. reflexivity.
    + rewrite Hn. destruct (p_try P (c_prim (h_s h)) o) as [ps b|f] eqn:Ht; [|reflexivity]. destruct (HR o x ps b Hpc Hn Ht) as [_ ->]. reflexivity.
  - unfold proj. cbn [flat_map pact]. now rewrite Nat.eqb_refl.
  - rewrite Hyes. f_equal. destruct (HfU eq_refl) as [HfT HfC]. unfold P_Wait.view_of in HfT, HfC |- *. cbn [v_tok v_req v_cb] in HfT, HfC |- *. unfold tok.
    destruct (o_tok (c_op (h_s h) o)) as [e|] eqn:Ht; [|reflexivity]. cbn [isSome req_of cb_of] in HfC |- *.
    rewrite proj_cons, proj_app. cbn [pact]. rewrite Nat.eqb_refl. cbn [app]. f_equal. unfold proj at 2. cbn [flat_map pact]. rewrite Nat.eqb_refl. cbn [app]. f_equal.
    destruct (e_req (c_ev (h_s h) e)); [reflexivity|]. rewrite proj_evh, (HfC eq_refl). reflexivity.
  - rewrite Hyes. reflexivity.
Qed.

Lemma SI_path h o' x s' es o :
  GInv (h_s h) -> reliable P (h_s h) -> HI h -> step (h_s h) (LPath o' x) = Next s' es -> SI h (HPath o' x) s' (notifies es) o.
Proof.
  intros HG HR HH Hs. pose proof HG as (HV & HE & (HI' & HQ) & HL1 & HL2). cbn [M_Wait.step] in Hs.
  destruct (path_view P W eager (h_s h) o' x s' es HG HR Hs) as [H1 H2]. destruct (path_tok P _ _ _ _ _ Hs) as (Htk & _ & Hwk & Hcn & Hop).
  destruct (path_frame _ _ _ _ _ Hs) as (Hpc & Hx' & Hx & Hes).
  destruct (Nat.eq_dec o o') as [->|Hne].
  - left. exists (KV (VPath x)), (notifies es). split; [apply klabels_v, vlabels_path|]. split; [|split; [|split]].
    + exists (repeat tt (notified o' es)). split; [exact H1|]. destruct Hes as [[-> _]|[[v ->] _]]; simpl; [reflexivity|]. rewrite Nat.eqb_refl. reflexivity.
    + exact (path_proj_self h o' x s' es HG HR HH Hs).
    + intros r k _ Hk. apply sat_begin; [exact Hk|]. intros Hb. rewrite <- kget_path in Hb. cbn [tview].
      apply (Hk (slot_path x)); [destruct x; exact Hb|]. replace (holds h [] o' (slot_path x) (h_v h x o')) with (frame h o' (slot_path x) (h_v h x o')) by (destruct x; reflexivity).
      now apply pc_slot.
    + intros m' v' r k' Hk. unfold holds. replace (tok _ o') with (tok h o') by (unfold tok; cbn [store h_s]; now rewrite Htk).
      destruct (R_facts eager _ (HV o')) as (_ & Hfp & Hfc & _). cbn [v_p v_c v_wk v_pd P_Wait.view_of] in Hfp, Hfc.
      set (h' := store h (HPath o' x) s' (notifies es) m' v').
      assert (Hsl : forall w, frame h' o' (slot_path x) w -> w = v').
      { intros w Hf. subst h'. destruct x; cbn [frame slot_path store h_s h_v h_wk h_cn] in Hf; rewrite updp_same in Hf; try exact Hf; cbn [get_pc] in Hx.
        - destruct Hf as [[_ Hf]|Hf]; [exact Hf|]. rewrite Hwk in Hf. exfalso. exact (loops_none _ _ _ _ (Hfp Hx) Hf).
        - destruct Hf as [[_ Hf]|Hf]; [exact Hf|]. rewrite Hcn in Hf. exfalso. exact (loops_none _ _ _ _ (Hfc Hx) Hf). }
      assert (Hoth : forall y w, y <> slot_path x -> y <> SFin -> frame h' o' y w -> frame h o' y w).
      { intros y w Hy Hyf Hf. subst h'. destruct y; cbn [frame store h_s h_v h_wk h_cn h_fin] in Hf |- *; auto; try congruence.
        - rewrite updp_path in Hf; [exact Hf|]. intros <-. now apply Hy.
        - assert (Hxp : PathP <> x) by (intros <-; now apply Hy). rewrite updp_path, Hwk in Hf by auto. pose proof (Hpc PathP Hxp) as E. cbn [get_pc] in E. now rewrite E in Hf.
        - assert (Hxp : PathC <> x) by (intros <-; now apply Hy). rewrite updp_path, Hcn in Hf by auto. pose proof (Hpc PathC Hxp) as E. cbn [get_pc] in E. now rewrite E in Hf. }
      assert (Hnl : o_l (c_op s' o') = PIdle -> o_l (c_op (h_s h) o') = PIdle).
      { intros El. destruct (path_eqb x PathL) eqn:Ex; [apply path_eqb_eq in Ex; subst x; cbn [get_pc] in Hx'; congruence|].
        pose proof (Hpc PathL) as E. cbn [get_pc] in E. rewrite <- E; [exact El|]. intros <-. discriminate. }
      cbn [kend]. destruct (notifies es) eqn:Hn.
      * eapply sat_end; [exact Hk|reflexivity|destruct x; reflexivity|destruct x; reflexivity|destruct x; reflexivity|].
        intros y w Hf Hg. destruct (match y, x with SL, PathL | SP, PathP | SC, PathC | SFin, _ => true | _, _ => false end) eqn:Ey.
        -- right. split; [destruct y, x; try discriminate; exact Hg|]. destruct y; try (apply Hsl; destruct x; try discriminate; exact Hf).
           subst h'. cbn [frame store h_s h_fin] in Hf. rewrite upd_same in Hf. destruct Hf as [[_ Hf]|[Hf _]]; [exact Hf|].
           exfalso. specialize (Hnl Hf). clear - Hx Hx' Hf Hpc Hnl HG. destruct (fresh_facts P W eager _ _ HG Hnl) as (_ & _ & Ep & Ec & _). destruct x; cbn [get_pc] in Hx; congruence.
        -- left. split; [destruct y, x; try discriminate; exact Hg|]. apply Hoth; [intros ->; destruct x; discriminate|intros ->; destruct x; discriminate|exact Hf].
      * apply (end_put x m' v' (frame h o')); [|exact Hsl|exact Hk].
        intros y w Hy Hf. destruct y; try (apply Hoth; [exact Hy|discriminate|exact Hf]). subst h'. cbn [frame store h_s h_fin] in Hf |- *.
        destruct Hes as [[-> Hd]|[[v ->] _]]; [|discriminate Hn]. rewrite Hd in Hf. destruct Hf as [Hf|[Hf1 Hf2]]; [left; exact Hf|right; auto].
  - destruct (H2 o Hne) as [Hvw _]. pose proof (Hop o Hne) as Hopo.
    assert (Hfr : forall m' v', sub (frame h o) (frame (store h (HPath o' x) s' (notifies es) m' v') o)).
    { intros m' v'. apply frame_sub; cbn [store h_s h_v h_wk h_cn h_fin]; rewrite ?Hopo, ?Hwk, ?Hcn; auto.
      - intros y. now rewrite updp_op.
      - destruct (notifies es); [now rewrite upd_other|reflexivity]. }
    assert (Hend : forall m' v' r k', sat (m_log m') (hold m' (frame h o) v' (tok h o) o) k' o r ->
       sat (m_log m') (holds (store h (HPath o' x) s' (notifies es) m' v') [] o) (k_setx false k') o r).
    { intros m' v' r k' Hk. unfold holds. replace (tok _ o) with (tok h o) by (unfold tok; cbn [store h_s]; now rewrite Hopo). eapply end_same; [apply Hfr|exact Hk]. }
    destruct (path_proj_other h o' x o s' es HG HR HH Hs Hne) as [Hp|[[Hp Hn]|[Hp Hn]]].
    + right. split; [exact Hvw|]. split; [exact Hp|exact Hend].
    + left. exists KEnvMu, false. split; [apply klabels_env; simpl; auto|]. split; [split; [exact Hvw|exact Hn]|]. split; [exact Hp|]. split; [|exact Hend].
      intros r k _ Hk. apply sat_begin; [exact Hk|discriminate].
    + left. exists KEnvEv, false. split; [apply klabels_env; simpl; auto|]. split; [split; [exact Hvw|exact Hn]|]. split; [exact Hp|]. split; [|exact Hend].
      intros r k _ Hk. apply sat_begin; [exact Hk|discriminate].
Qed.

Lemma kend_x v n k L : k_setx false (kend v n k L) = kend v n k L.
Proof. unfold kend. destruct L as [[]| | | |]; try reflexivity; destruct n; try reflexivity; destruct x; reflexivity. Qed.

Lemma triv_exec r k A : In A [[]; [TLock; TUnlock]; [TLockEv; TUnlockEv]] -> exists k', kexec r (k_setx false k) A = Some k' /\ k_setx false k' = k_setx false k.
Proof. intros [<-|[<-|[<-|[]]]]; simpl; eexists; (split; [reflexivity|]); destruct k; reflexivity. Qed.

Lemma hi_nodes h l s' es m' v' : GInv (h_s h) -> reliable P (h_s h) -> HI h -> step (h_s h) (base l) = Next s' es ->
  forall o, cnt o (h_q (store h l s' (notifies es) m' v')) = match o_node (c_op s' o) with NQueued => 1 | _ => 0 end.
Proof.
  intros HG HR HH Hs o. pose proof HG as (HV & HE & (HI' & HQ) & HL1 & HL2). pose proof (hi_q h HH o) as Hq.
  destruct l as [o' t a v|o' x|e v|k|k|pl v|o']; cbn [base M_Wait.step] in Hs; cbn [store h_q].
  - destruct (o_l (c_op (h_s h) o')) eqn:Hl; try discriminate. destruct (fresh_facts P W eager (h_s h) o' HG Hl) as (Hn & _).
    unfold queued. destruct (p_start P (c_prim (h_s h)) o' a) as [ps es'|ps v0 es'|f] eqn:Hst; try discriminate; injection Hs as <- <-; cbn [c_op]; unfold upd;
      destruct (Nat.eqb_spec o o') as [->|Hne]; cbn [o_node]; try exact Hq.
    + rewrite cnt_app, Hq, Hn, cnt_cons, cnt_nil. destruct (Nat.eq_dec o' o'); [reflexivity|congruence].
    + rewrite cnt_app, Hq, cnt_cons, cnt_nil. destruct (Nat.eq_dec o' o); [congruence|]. lia.
  - destruct (path_tok P _ _ _ _ _ Hs) as (_ & _ & _ & _ & Hop).
    destruct (get_pc x (c_op (h_s h) o')) as [| | | |m| | |] eqn:Hpc;
      try (assert (Hnode : o_node (c_op s' o) = o_node (c_op (h_s h) o));
           [destruct (Nat.eq_dec o o') as [->|Hne]; [|now rewrite Hop]; unfold path_step in Hs; rewrite Hpc in Hs; try discriminate Hs;
            repeat match type of Hs with context [match ?x with _ => _ end] => destruct x eqn:?; try discriminate end; injection Hs as <- <-;
            try match goal with H : do_trans _ _ _ _ = Some _ |- _ => destruct (do_trans_spec _ _ _ _ _ H) as (?p & ? & ->) end;
            cbn [c_op with_op]; rewrite upd_same; destruct x; reflexivity
           |rewrite Hnode; exact Hq]).
    unfold path_step in Hs. rewrite Hpc in Hs. destruct (negb (o_alive (c_op (h_s h) o'))); try discriminate.
    destruct (p_try P (c_prim (h_s h)) o') as [ps b|f] eqn:Ht; try discriminate. injection Hs as <- <-. cbn [c_op].
    assert (Hb : b = true -> o_node (c_op (h_s h) o') = NQueued).
    { intros ->. destruct (try_facts P W eager (h_s h) o' x HG Hpc) as [Hn|Hn]; [exact Hn|]. destruct (HR o' x ps true Hpc Hn Ht). discriminate. }
    destruct b.
    + specialize (Hb eq_refl). unfold upd. destruct (Nat.eqb_spec o o') as [->|Hne].
      * rewrite Hb in Hq. assert (Hin : In o' (h_q h)) by (apply cnt_pos; lia). pose proof (cnt_remove1_same _ _ Hin). rewrite set_pc_node. cbn [set_node o_node]. lia.
      * rewrite cnt_remove1_other by auto. exact Hq.
    + unfold upd. destruct (Nat.eqb_spec o o') as [->|Hne]; [rewrite set_pc_node|]; exact Hq.
  - injection Hs as <- <-. exact Hq.
  - destruct (nth_error (c_cn (h_s h)) k) as [lp|]; try discriminate. destruct (loop_ready o_c (h_s h) lp); try discriminate.
    destruct (lp_rest lp) as [|o' rest]; try discriminate. destruct (negb (o_alive (c_op (h_s h) o'))); try discriminate.
    destruct (o_c (c_op (h_s h) o')); try discriminate. injection Hs as <- <-. cbn [c_op]. unfold upd. destruct (Nat.eqb_spec o o') as [->|]; exact Hq.
  - destruct (nth_error (c_wk (h_s h)) k) as [lp|]; try discriminate. destruct (loop_ready o_p (h_s h) lp); try discriminate.
    destruct (lp_rest lp) as [|o' rest]; try discriminate. destruct (negb (o_alive (c_op (h_s h) o'))); try discriminate.
    destruct (o_p (c_op (h_s h) o')); try discriminate. injection Hs as <- <-. cbn [c_op]. unfold upd. destruct (Nat.eqb_spec o o') as [->|]; exact Hq.
  - unfold taken. destruct (p_step P (c_prim (h_s h)) pl) as [ps tk es'| |f es'] eqn:Hp; try discriminate. injection Hs as <- <-. cbn [c_op].
    assert (Hf : forall l, cnt o (filter (fun o => negb (memb o tk)) l) = if memb o tk then 0 else cnt o l).
    { induction l as [|y l IH]; [destruct (memb o tk); reflexivity|]. cbn [filter]. rewrite (cnt_cons o y l). destruct (memb y tk) eqn:Ey; cbn [negb]; rewrite ?cnt_cons, IH.
      - destruct (Nat.eq_dec y o) as [->|]; [rewrite Ey|]; reflexivity.
      - destruct (Nat.eq_dec y o) as [->|]; [rewrite Ey; reflexivity|]. destruct (memb o tk); reflexivity. }
    rewrite Hf. destruct (memb o tk); [reflexivity|exact Hq].
  - destruct (o_done (c_op (h_s h) o') && o_alive (c_op (h_s h) o') && (eager || all_ended (c_op (h_s h) o'))); try discriminate. injection Hs as <- <-.
    cbn [c_op with_op]. unfold upd. destruct (Nat.eqb_spec o o') as [->|]; exact Hq.
Qed.

Lemma hi_loops h l s' es m' v' : HI h -> step (h_s h) (base l) = Next s' es ->
  let h' := store h l s' (notifies es) m' v' in length (h_wk h') = length (c_wk s') /\ length (h_cn h') = length (c_cn s').
Proof.
  intros HH Hs. pose proof (hi_wk h HH) as Hw. pose proof (hi_cn h HH) as Hc.
  destruct l as [o' t a v|o' x|e v|k|k|pl v|o']; cbn [base M_Wait.step] in Hs; cbn [store h_wk h_cn].
  - destruct (o_l (c_op (h_s h) o')); try discriminate. destruct (p_start P (c_prim (h_s h)) o' a); try discriminate; injection Hs as <- <-; auto.
  - destruct (path_tok P _ _ _ _ _ Hs) as (_ & _ & -> & -> & _). auto.
  - injection Hs as <- <-. cbn [c_wk c_cn]. rewrite !app_length, Hc. auto.
  - destruct (nth_error (c_cn (h_s h)) k) as [lp|]; try discriminate. destruct (loop_ready o_c (h_s h) lp); try discriminate.
    destruct (lp_rest lp) as [|o' rest]; try discriminate. destruct (negb (o_alive (c_op (h_s h) o'))); try discriminate.
    destruct (o_c (c_op (h_s h) o')); try discriminate. injection Hs as <- <-. cbn [c_wk c_cn]. rewrite !set_nth_length. auto.
  - destruct (nth_error (c_wk (h_s h)) k) as [lp|]; try discriminate. destruct (loop_ready o_p (h_s h) lp); try discriminate.
    destruct (lp_rest lp) as [|o' rest]; try discriminate. destruct (negb (o_alive (c_op (h_s h) o'))); try discriminate.
    destruct (o_p (c_op (h_s h) o')); try discriminate. injection Hs as <- <-. cbn [c_wk c_cn]. rewrite !set_nth_length. auto.
  - destruct (p_step P (c_prim (h_s h)) pl) as [ps tk es'| |f es'] eqn:Hp; try discriminate. injection Hs as <- <-. cbn [c_wk c_cn]. rewrite !app_length, Hw. auto.
  - destruct (o_done (c_op (h_s h) o') && o_alive (c_op (h_s h) o') && (eager || all_ended (c_op (h_s h) o'))); try discriminate. injection Hs as <- <-. auto.
Qed.

Definition late_destroy (h : hst) (l : hlabel P) : Prop := exists o, l = HDestroy o /\ eager = true /\ v_req (view_of (h_s h) o) = true.

Lemma hi_step h l s' es : GInv (h_s h) -> reliable P (h_s h) -> HI h -> step (h_s h) (base l) = Next s' es ->
  match exec true true (h_m h) (tview eager h l) (acts P lk h l) with
  | Some (m', v') => HI (store h l s' (notifies es) m' v')
  | None => late_destroy h l
  end.
Proof.
  intros HG HR HH Hs.
  assert (Hdec : late_destroy h l /\ exec true true (h_m h) (tview eager h l) (acts P lk h l) = None \/ forall o, SI h l s' (notifies es) o).
  { destruct l as [o' t a v|o' x|e v|k|k|pl v|o']; cbn [base] in Hs.
    - right. intros o. now apply SI_start with es.
    - right. intros o. now apply SI_path.
    - right. intros o. now apply SI_cancel with es.
    - right. intros o. now apply SI_cannext with es.
    - right. intros o. now apply SI_wakenext with es.
    - right. intros o. now apply SI_prim with es.
    - destruct (ordered (m_log (h_m h)) (tview eager h (HDestroy o')) o' FDel) eqn:Ho.
      + right. intros o. now apply SI_destroy with es.
      + destruct (eager && v_req (view_of (h_s h) o')) eqn:Hb.
        * left. apply andb_prop in Hb. destruct Hb as [Hb1 Hb2]. split; [exists o'; auto|]. cbn [acts exec exec1]. now rewrite Ho.
        * right. intros o. apply SI_destroy with es; auto. intros He Hr. rewrite He, Hr in Hb. discriminate. }
  destruct Hdec as [[Hd Hx]|HS]; [rewrite Hx; exact Hd|].
  destruct (exec_sim (frame h) (tok h) (acts P lk h l) (h_m h) (tview eager h l)) as (m' & v' & Hx & Hk').
  - intros o r. destruct (hi_k h HH o r) as (k & Hin & Hk). destruct (HS o) as [(L & n & HL & Hv & Hp & Hb & He)|(Hv & Hp & He)].
    + pose proof (RK_step r eager _ k L Hin HL) as Hr. rewrite (kview_step r _ k _ _ _ Hv), <- Hp in Hr.
      exists (kbegin eager (view_of (h_s h) o) k L). destruct (kexec r (kbegin eager (view_of (h_s h) o) k L) (proj (tok h o) o (acts P lk h l))) as [k'|]; [|destruct Hr].
      exists k'. split; [now apply Hb|reflexivity].
    + destruct (triv_exec r k _ Hp) as (k' & E & _). exists (k_setx false k), k'. split; [|exact E]. apply sat_begin; [exact Hk|discriminate].
  - rewrite Hx. split.
    + intros o r. destruct (hi_k h HH o r) as (k & Hin & Hk). replace (h_s (store h l s' (notifies es) m' v')) with s' by (destruct l; reflexivity).
      replace (m_log (h_m (store h l s' (notifies es) m' v'))) with (m_log m') by (destruct l; reflexivity).
      destruct (HS o) as [(L & n & HL & Hv & Hp & Hb & He)|(Hv & Hp & He)].
      * pose proof (RK_step r eager _ k L Hin HL) as Hr. rewrite (kview_step r _ k _ _ _ Hv), <- Hp in Hr.
        destruct (kexec r (kbegin eager (view_of (h_s h) o) k L) (proj (tok h o) o (acts P lk h l))) as [k'|] eqn:E; [|destruct Hr].
        exists (kend (view_of (h_s h) o) n k' L). split; [exact Hr|]. rewrite kend_x. apply He. eapply Hk'; [|exact E]. now apply Hb.
      * destruct (triv_exec r k _ Hp) as (k' & E & E'). exists k. rewrite Hv. split; [exact Hin|]. rewrite <- E'. apply He. eapply Hk'; [|exact E].
        apply sat_begin; [exact Hk|discriminate].
    + intros o. replace (h_s (store h l s' (notifies es) m' v')) with s' by (destruct l; reflexivity). apply hi_nodes; auto.
    + replace (h_s (store h l s' (notifies es) m' v')) with s' by (destruct l; reflexivity). now apply hi_loops.
    + replace (h_s (store h l s' (notifies es) m' v')) with s' by (destruct l; reflexivity). now apply hi_loops.
Qed.

Lemma hi_init : HI (h_init P).
Proof.
  split; try reflexivity. intros o r. exists k_all. split; [exact (RK_init r eager)|]. intros x w _ _ i p Hi. destruct i; discriminate.
Qed.
End Sim.

(** ** Runs *)
Section Runs.
Variable P : prim.
Variable W : laws P.
Variable eager : bool.
Variable T : tlaws P W.
Variable lk : PS P -> PL P -> bool.
Hypothesis lk_taken : forall ps l ps' tk es, lk ps l = false -> p_step P ps l = POk ps' tk es -> tk = [].

Notation hrun ls := (run (hstep P eager lk true true) (h_init P) ls).
Notation step := (step P eager).

Lemma api_app (t1 t2 : list (hevent P)) : api (t1 ++ t2) = api t1 ++ api t2.
Proof. induction t1 as [|[e v|c d os] t1 IH]; simpl; auto. now rewrite IH. Qed.
Lemma api_map v (es : list (event P)) : api (map (fun e => HE e v) es) = es.
Proof. induction es as [|e es IH]; simpl; auto. now rewrite IH. Qed.
Lemma api_call h (l : hlabel P) : api (call_event P lk h l) = [].
Proof. destruct l; reflexivity. Qed.

Lemma hstep_next acq rel h l h' es : hstep P eager lk acq rel h l = Next h' es -> exists s' bes m' v,
  step (h_s h) (base l) = Next s' bes /\ exec acq rel (h_m h) (tview eager h l) (acts P lk h l) = Some (m', v) /\
  h' = store h l s' (notifies bes) m' v /\ es = call_event P lk h l ++ map (fun e => HE e v) bes.
Proof.
  unfold hstep. destruct (step (h_s h) (base l)) as [s' bes| |f bes]; try discriminate.
  destruct (exec acq rel (h_m h) (tview eager h l) (acts P lk h l)) as [[m' v]|]; try discriminate. intros [= <- <-].
  exists s', bes, m', v. auto.
Qed.

Lemma store_s h (l : hlabel P) s' b m' v : h_s (store h l s' b m' v) = s'.
Proof. destruct l; reflexivity. Qed.
Lemma store_m h (l : hlabel P) s' b m' v : h_m (store h l s' b m' v) = m'.
Proof. destruct l; reflexivity. Qed.

Lemma hrun_base acq rel ls : forall h0 tr0 h tr, run_from (hstep P eager lk acq rel) h0 tr0 ls = Running h tr ->
  run_from step (h_s h0) (api tr0) (map base ls) = Running (h_s h) (api tr).
Proof.
  induction ls as [|l ls IH]; intros h0 tr0 h tr Hr; simpl in *.
  - now injection Hr as <- <-.
  - destruct (hstep P eager lk acq rel h0 l) as [h' es| |f es] eqn:Hs; try discriminate.
    destruct (hstep_next _ _ _ _ _ _ Hs) as (s' & bes & m' & v & -> & _ & -> & ->). specialize (IH _ _ _ _ Hr).
    rewrite store_s, !api_app, api_call, api_map in IH. exact IH.
Qed.

Definition HJ (h : hst P) (tr : list (hevent P)) : Prop := JT P W eager T (h_s h) (api tr) /\ HI P eager h.

Lemma hj_step h tr l h' es : HJ h tr -> hstep P eager lk true true h l = Next h' es -> HJ h' (tr ++ es).
Proof.
  intros [HT HH] Hs. destruct (hstep_next _ _ _ _ _ _ Hs) as (s' & bes & m' & v & Hb & Hx & -> & ->). split.
  - rewrite store_s, !api_app, api_call, api_map. eapply JT_step; eauto.
  - pose proof (hi_step P W eager lk lk_taken h l s' bes (proj1 (proj1 HT)) (JT_reliable _ _ _ _ _ _ HT) HH Hb) as H. now rewrite Hx in H.
Qed.
Lemma hj_init : HJ (h_init P) [].
Proof. split; [exact (JT_init P W eager T)|apply hi_init]. Qed.
Lemma hj_run ls h tr : hrun ls = Running h tr -> HJ h tr.
Proof. apply run_inv; [exact hj_init|exact hj_step]. Qed.

(** A data race needs the destruction of an operation whose cancellation was requested, by a client that does not wait for the calls
    on that operation to return. *)
Lemma h_race ls tr : hrun ls = Failed DataRace tr -> (forall ls tr, run step (c_init P) ls <> Failed DataRace tr) ->
  eager = true /\ exists ls1 o ls2 h, ls = ls1 ++ HDestroy o :: ls2 /\ hrun ls1 = Running h tr /\ notified o (api tr) = 1 /\ cancel_requested o (api tr).
Proof.
  intros Hr Hb.
  assert (Hsplit : exists ls1 l ls2 h tr1 es, ls = ls1 ++ l :: ls2 /\ hrun ls1 = Running h tr1 /\ hstep P eager lk true true h l = Fail DataRace es /\ tr = tr1 ++ es).
  { clear Hb. unfold run in *. revert Hr. generalize (h_init P). generalize (@nil (hevent P)). induction ls as [|l ls IH]; intros tr0 h0 Hr; simpl in Hr; try discriminate.
    destruct (hstep P eager lk true true h0 l) as [h' es| |f es] eqn:Hs; try discriminate.
    - destruct (IH _ _ Hr) as (ls1 & l1 & ls2 & h & tr1 & es1 & -> & H1 & H2). exists (l :: ls1), l1, ls2, h, tr1, es1. simpl. rewrite Hs. auto.
    - injection Hr as -> <-. exists [], l, ls, h0, tr0, es. auto. }
  destruct Hsplit as (ls1 & l & ls2 & h & tr1 & es & -> & H1 & H2 & ->). destruct (hj_run _ _ _ H1) as [HT HH]. unfold hstep in H2.
  destruct (step (h_s h) (base l)) as [s' bes| |f bes] eqn:Hs; try discriminate.
  - pose proof (hi_step P W eager lk lk_taken h l s' bes (proj1 (proj1 HT)) (JT_reliable _ _ _ _ _ _ HT) HH Hs) as H.
    destruct (exec true true (h_m h) (tview eager h l) (acts P lk h l)) as [[m' v]|]; try discriminate. injection H2 as <-.
    destruct H as (o & -> & He & Hq). split; [exact He|]. exists ls1, o, ls2, h. rewrite app_nil_r. split; [reflexivity|]. split; [exact H1|].
    cbn [base M_Wait.step] in Hs. destruct HT as [HJ' HP]. pose proof HJ' as [HG (HD & HS & _)].
    destruct (o_done (c_op (h_s h) o)) eqn:Hd; try discriminate. split; [now rewrite HD, Hd|].
    unfold view_of in Hq. cbn [v_req] in Hq. unfold req_of in Hq. destruct (o_tok (c_op (h_s h) o)) as [e|] eqn:Ht; try discriminate.
    eapply requested_of; eauto. apply HS. intros Hl. destruct (fresh_facts _ _ _ _ _ HG Hl) as (_ & _ & _ & _ & Hd' & _). congruence.
  - exfalso. injection H2 as -> _. apply (Hb (map base (ls1 ++ [l])) (api tr1 ++ bes)). rewrite map_app. unfold run. rewrite run_from_app.
    pose proof (hrun_base _ _ _ _ _ _ _ H1) as H3. change (run_from step (c_init P) [] (map base ls1) = Running (h_s h) (api tr1)) in H3. rewrite H3. simpl. now rewrite Hs.
Qed.
End Runs.
