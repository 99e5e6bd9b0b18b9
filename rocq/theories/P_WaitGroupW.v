(** wait_group under the C++ memory model. *)
From Coq Require Import List Arith Bool Lia Permutation.
From Verif Require Import Lts ListFacts M_Weak M_WaitGroupW S_WaitGroupW.
Import ListNotations.

(** ** Counting units *)
Lemma filter_le {A} (f g : A -> bool) l : (forall x, In x l -> f x = true -> g x = true) -> length (filter f l) <= length (filter g l).
Proof.
  induction l as [|a l IH]; intros H; simpl; [lia|]. assert (length (filter f l) <= length (filter g l)) by (apply IH; intros x Hx; apply H; right; exact Hx).
  destruct (f a) eqn:Ef; simpl; [rewrite (H a (or_introl eq_refl) Ef); simpl; lia|]. destruct (g a); simpl; lia.
Qed.
Lemma filter_lt {A} (f g : A -> bool) l y : (forall x, In x l -> f x = true -> g x = true) -> In y l -> g y = true -> f y = false -> length (filter f l) < length (filter g l).
Proof.
  induction l as [|a l IH]; intros H Hy Hg Hf; [destruct Hy|]. simpl.
  assert (Hl : length (filter f l) <= length (filter g l)) by (apply filter_le; intros x Hx; apply H; right; exact Hx).
  destruct Hy as [->|Hy].
  - rewrite Hf, Hg. simpl. lia.
  - assert (length (filter f l) < length (filter g l)) by (apply IH; auto; intros x Hx; apply H; right; exact Hx).
    destruct (f a) eqn:Ef; simpl; [rewrite (H a (or_introl eq_refl) Ef); simpl; lia|]. destruct (g a); simpl; lia.
Qed.
Lemma filter_eq {A} (f g : A -> bool) l y : (forall x, In x l -> f x = true -> g x = true) -> length (filter f l) = length (filter g l) -> In y l -> g y = true -> f y = true.
Proof. intros H He Hy Hg. destruct (f y) eqn:E; [reflexivity|]. pose proof (filter_lt f g l y H Hy Hg E). lia. Qed.

Definition fadd (i : nat) (w : wunit) : bool := u_pos w <=? i.
Definition ffin (i : nat) (w : wunit) : bool := match u_fin w with Some f => f <=? i | None => false end.
Definition nadd (l : list wunit) (i : nat) : nat := length (filter (fadd i) l).
Definition nfin (l : list wunit) (i : nat) : nat := length (filter (ffin i) l).

Lemma filter_set_nth {A} (f : A -> bool) l k x y : nth_error l k = Some y ->
  length (filter f (set_nth l k x)) + (if f y then 1 else 0) = length (filter f l) + (if f x then 1 else 0).
Proof.
  revert k. induction l as [|a l IH]; intros [|k] H; simpl in H; try discriminate.
  - injection H as ->. simpl. destruct (f x), (f y); simpl; lia.
  - apply IH in H. simpl. destruct (f a); simpl; lia.
Qed.
Lemma nth_app_cases {A} (l : list A) r i y : nth_error (l ++ r) i = Some y -> nth_error l i = Some y \/ (length l <= i /\ In y r).
Proof.
  intros H. destruct (Nat.lt_ge_cases i (length l)) as [Hl|Hl]; [rewrite nth_error_app1 in H by exact Hl; auto|].
  right. rewrite nth_error_app2 in H by exact Hl. split; [exact Hl|]. eapply nth_error_In, H.
Qed.

Definition gval (h : hist nat) : nat := match nth_error h (newest h) with Some (x, _) => x | None => 0 end.
Lemma newest_snoc {A} (h : hist A) m : newest (h ++ [m]) = length h.
Proof. unfold newest. rewrite app_length. simpl. lia. Qed.
Lemma rel_snoc {A} (h : hist A) (x : A) w : rel_of (h ++ [(x, w)]) = w.
Proof. unfold rel_of. rewrite newest_snoc, nth_error_app2 by lia. rewrite Nat.sub_diag. reflexivity. Qed.
Lemma gval_snoc h x w : gval (h ++ [(x, w)]) = x.
Proof. unfold gval. rewrite newest_snoc, nth_error_app2 by lia. rewrite Nat.sub_diag. reflexivity. Qed.
Lemma nth_snoc {A} (g : list A) x i y : nth_error (g ++ [x]) i = Some y -> (i < length g /\ nth_error g i = Some y) \/ (i = length g /\ y = x).
Proof.
  intros H. destruct (Nat.lt_ge_cases i (length g)) as [Hl|Hl].
  - rewrite nth_error_app1 in H by exact Hl. auto.
  - rewrite nth_error_app2 in H by exact Hl. right. destruct (i - length g) as [|[]] eqn:Hi; simpl in H; try discriminate.
    injection H as <-. split; [lia|reflexivity].
Qed.
Lemma rd_some {A} (h : hist A) v i m : rd h v i = Some m -> v_ts v <= i /\ nth_error h i = Some m /\ i < length h.
Proof.
  unfold rd. destruct (v_ts v <=? i) eqn:E; [|discriminate]. intros H. apply Nat.leb_le in E. split; [exact E|]. split; [exact H|].
  apply nth_error_Some. rewrite H. discriminate.
Qed.
Lemma accs_join a b n : In n (accs (vjoin a b)) <-> In n (accs a) \/ In n (accs b).
Proof. unfold accs, vjoin. simpl. rewrite flat_map_app. apply in_app_iff. Qed.
Lemma rmw_accs {A} acq (h : hist A) v n : In n (accs (rmw_view acq h v)) <-> In n (accs v) \/ (acq = true /\ In n (accs (rel_of h))).
Proof.
  unfold rmw_view. change (accs (vsee (if acq then vjoin v (rel_of h) else v) (length h))) with (accs (if acq then vjoin v (rel_of h) else v)).
  destruct acq; [rewrite accs_join|]; intuition discriminate.
Qed.

Lemma NoDup_swap {A} (a b : list A) : NoDup (a ++ b) -> NoDup (b ++ a).
Proof. intros H. apply (Permutation_NoDup (Permutation_app_comm a b) H). Qed.

(** ** The history of ctr_ and the units *)

(** every unit that was decremented up to message i has its access in v *)
Definition sees (un : list wunit) (i : nat) (v : view) : Prop :=
  forall u w f, nth_error un u = Some w -> u_fin w = Some f -> f <= i -> exists n, u_acc w = Some n /\ In n (accs v).

Record HI (h : hist nat) (un : list wunit) : Prop := HInv {
  hi_h : h <> [];
  hi_un : forall u w, nth_error un u = Some w -> u_pos w < length h /\ (forall f, u_fin w = Some f -> u_pos w < f /\ f < length h);
  hi_val : forall i x w, nth_error h i = Some (x, w) -> x + nfin un i = nadd un i;
  hi_rel : forall i x w, nth_error h i = Some (x, w) -> sees un i w;
  hi_ts : forall i x w, nth_error h i = Some (x, w) -> v_ts w < length h }.

Lemma sees_mono un i j v v' : sees un i v -> j <= i -> (forall n, In n (accs v) -> In n (accs v')) -> sees un j v'.
Proof. intros H Hj Hv u w f Hu Hf Hle. destruct (H u w f Hu Hf ltac:(lia)) as (n & Hn & Hi). eauto. Qed.

Lemma newest_lt {A} (h : hist A) : h <> [] -> newest h < length h.
Proof. unfold newest. destruct h; [congruence|simpl; lia]. Qed.
Lemma newest_nth h : h <> [] -> nth_error h (newest h) = Some (gval h, rel_of h).
Proof.
  intros H. unfold gval, rel_of. destruct (nth_error h (newest h)) as [[x w]|] eqn:E; [reflexivity|].
  apply nth_error_None in E. pose proof (newest_lt h H). lia.
Qed.
Lemma hi_top h un : HI h un -> gval h + nfin un (length h) = nadd un (length h) /\ sees un (length h) (rel_of h) /\ v_ts (rel_of h) < length h.
Proof.
  intros H. pose proof (newest_nth h (hi_h _ _ H)) as Hn. pose proof (newest_lt h (hi_h _ _ H)) as Hl.
  assert (Hb : length h = S (newest h)) by (unfold newest in *; lia).
  split; [|split].
  - pose proof (hi_val _ _ H _ _ _ Hn) as Hv. unfold nfin, nadd in *.
    rewrite (filter_ext_in (ffin (length h)) (ffin (newest h)) un), (filter_ext_in (fadd (length h)) (fadd (newest h)) un); [exact Hv| |].
    + intros w Hw. apply In_nth_error in Hw as [u Hu]. destruct (hi_un _ _ H _ _ Hu) as [Hp _]. unfold fadd.
      rewrite (proj2 (Nat.leb_le _ _)) by lia. symmetry. apply Nat.leb_le. lia.
    + intros w Hw. apply In_nth_error in Hw as [u Hu]. destruct (hi_un _ _ H _ _ Hu) as [_ Hp]. unfold ffin.
      destruct (u_fin w) as [f|]; [|reflexivity]. specialize (Hp f eq_refl). rewrite (proj2 (Nat.leb_le _ _)) by lia. symmetry. apply Nat.leb_le. lia.
  - intros u w f Hu Hf Hle. destruct (hi_un _ _ H _ _ Hu) as [_ Hp]. specialize (Hp f Hf).
    exact (hi_rel _ _ H _ _ _ Hn u w f Hu Hf ltac:(lia)).
  - exact (hi_ts _ _ H _ _ _ Hn).
Qed.
Lemma fin_add h un u w i : HI h un -> nth_error un u = Some w -> ffin i w = true -> fadd i w = true.
Proof.
  intros H Hu Hf. unfold ffin in Hf. unfold fadd. destruct (u_fin w) as [f|] eqn:E; [|discriminate]. apply Nat.leb_le in Hf. apply Nat.leb_le.
  pose proof (proj2 (hi_un _ _ H _ _ Hu) f E). lia.
Qed.
(** a message with value 0: every unit added up to there was decremented *)
Lemma hi_zero h un i wv u w : HI h un -> nth_error h i = Some (0, wv) -> nth_error un u = Some w -> u_pos w <= i -> exists f, u_fin w = Some f /\ f <= i.
Proof.
  intros H Hi Hu Hp. pose proof (hi_val _ _ H _ _ _ Hi) as Hv. simpl in Hv.
  assert (He : ffin i w = true).
  { apply (filter_eq (ffin i) (fadd i) un w).
    - intros x Hx. apply In_nth_error in Hx as [u' Hu']. apply (fin_add h un u' x i H Hu').
    - exact Hv.
    - eapply nth_error_In, Hu.
    - apply Nat.leb_le. exact Hp. }
  unfold ffin in He. destruct (u_fin w) as [f|]; [|discriminate]. apply Nat.leb_le in He. eauto.
Qed.
(** a unit that was added but not decremented up to a message: its value is positive *)
Lemma hi_pos h un i x wv u w : HI h un -> nth_error h i = Some (x, wv) -> nth_error un u = Some w -> u_pos w <= i -> u_fin w = None -> x > 0.
Proof.
  intros H Hi Hu Hp Hf. destruct x as [|x]; [|lia]. destruct (hi_zero h un i wv u w H Hi Hu Hp) as (f & Hf' & _). congruence.
Qed.

Lemma filter_repeat {A} (f : A -> bool) a n : filter f (repeat a n) = if f a then repeat a n else [].
Proof. induction n as [|n IH]; simpl; [destruct (f a); reflexivity|]. rewrite IH. destruct (f a); reflexivity. Qed.

Lemma hi_add acq rel h un n v : HI h un -> v_ts v < length h -> HI (rmw acq rel h v (gval h + n)) (un ++ repeat (WU (length h) None None) n).
Proof.
  intros H Hv. destruct (hi_top h un H) as (Ht & Hs & Hw). unfold rmw.
  assert (Hnew : forall u w, nth_error (un ++ repeat (WU (length h) None None) n) u = Some w -> nth_error un u = Some w \/ w = WU (length h) None None).
  { intros u w Hu. apply nth_app_cases in Hu as [Hu|[_ Hu]]; [auto|]. right. exact (repeat_spec _ _ _ Hu). }
  assert (Hsn : forall i w, sees un i w -> sees (un ++ repeat (WU (length h) None None) n) i w).
  { intros i w Hse u w' f Hu Hf Hle. destruct (Hnew u w' Hu) as [Hu' | ->]; [eauto|discriminate]. }
  split.
  - destruct h; discriminate.
  - intros u w Hu. rewrite app_length. simpl. destruct (Hnew u w Hu) as [Hu' | ->].
    + destruct (hi_un _ _ H u w Hu') as [Ha Hb]. split; [lia|]. intros f Hf. specialize (Hb f Hf). lia.
    + simpl. split; [lia|discriminate].
  - intros i x w Hi. unfold nfin, nadd. rewrite !filter_app, !app_length, !filter_repeat. unfold ffin at 2, fadd at 2. simpl.
    apply nth_snoc in Hi as [[Hl Hi]|[-> Hi]].
    + rewrite (proj2 (Nat.leb_gt _ _)) by lia. simpl. pose proof (hi_val _ _ H _ _ _ Hi) as Hx. unfold nfin, nadd in Hx. lia.
    + injection Hi as -> _. rewrite Nat.leb_refl, repeat_length. simpl. unfold nfin, nadd in Ht. lia.
  - intros i x w Hi. apply Hsn. apply nth_snoc in Hi as [[Hl Hi]|[-> Hi]]; [exact (hi_rel _ _ H _ _ _ Hi)|].
    injection Hi as _ ->. destruct rel; [|exact Hs]. apply (sees_mono _ _ _ _ _ Hs (le_n _)). intros m Hm. apply accs_join. auto.
  - intros i x w Hi. rewrite app_length. simpl. apply nth_snoc in Hi as [[Hl Hi]|[-> Hi]]; [pose proof (hi_ts _ _ H _ _ _ Hi); lia|].
    injection Hi as _ ->. destruct rel; [|lia]. unfold rmw_view. destruct acq; simpl; lia.
Qed.

Lemma fin_unit_nth un u w p u' w' : nth_error un u = Some w -> nth_error (fin_unit un u p) u' = Some w' ->
  (u' = u /\ w' = WU (u_pos w) (u_acc w) (Some p)) \/ (u' <> u /\ nth_error un u' = Some w').
Proof.
  intros Hu. unfold fin_unit. rewrite Hu. intros H. destruct (Nat.eq_dec u' u) as [->|Hn].
  - rewrite (nth_error_set_nth_same _ _ _ _ Hu) in H. injection H as <-. auto.
  - rewrite nth_error_set_nth_other in H by auto. auto.
Qed.
Lemma fin_unit_acc un u p u' : option_map u_acc (nth_error (fin_unit un u p) u') = option_map u_acc (nth_error un u').
Proof.
  unfold fin_unit. destruct (nth_error un u) as [w|] eqn:Hu; [|reflexivity]. destruct (Nat.eq_dec u' u) as [->|Hn].
  - rewrite (nth_error_set_nth_same _ _ _ _ Hu), Hu. reflexivity.
  - rewrite nth_error_set_nth_other by auto. reflexivity.
Qed.

Lemma hi_fin h un u w v n c : HI h un -> nth_error un u = Some w -> u_fin w = None -> u_acc w = Some n -> In n (accs v) -> v_ts v < length h -> S c = gval h ->
  HI (rmw true true h v c) (fin_unit un u (length h)) /\ sees (fin_unit un u (length h)) (length h) (rmw_view true h v).
Proof.
  intros H Hu Hf Hn Hin Hv Hc. destruct (hi_top h un H) as (Ht & Hs & Hw). pose proof (hi_un _ _ H u w Hu) as [Hpos _]. unfold rmw.
  assert (Hrv : sees (fin_unit un u (length h)) (length h) (rmw_view true h v)).
  { intros u' w' f Hu' Hf' Hle. destruct (fin_unit_nth _ _ _ _ _ _ Hu Hu') as [[-> ->]|[Hne Ho]].
    - exists n. split; [exact Hn|]. apply rmw_accs. auto.
    - destruct (Hs u' w' f Ho Hf' Hle) as (m & Hm & Hi). exists m. split; [exact Hm|]. apply rmw_accs. auto. }
  assert (Hold : forall i w0, i < length h -> sees un i w0 -> sees (fin_unit un u (length h)) i w0).
  { intros i w0 Hi Hse u' w' f Hu' Hf' Hle. destruct (fin_unit_nth _ _ _ _ _ _ Hu Hu') as [[-> ->]|[Hne Ho]]; [|eauto].
    simpl in Hf'. injection Hf' as <-. lia. }
  assert (Hadd : forall i, nadd (fin_unit un u (length h)) i = nadd un i).
  { intros i. unfold nadd, fin_unit. rewrite Hu. pose proof (filter_set_nth (fadd i) un u (WU (u_pos w) (u_acc w) (Some (length h))) w Hu) as Hc'.
    unfold fadd at 2 4 in Hc'. simpl in Hc'. destruct (u_pos w <=? i); lia. }
  assert (Hfin : forall i, nfin (fin_unit un u (length h)) i = nfin un i + if length h <=? i then 1 else 0).
  { intros i. unfold nfin, fin_unit. rewrite Hu. pose proof (filter_set_nth (ffin i) un u (WU (u_pos w) (u_acc w) (Some (length h))) w Hu) as Hc'.
    unfold ffin at 2 4 in Hc'. rewrite Hf in Hc'. simpl u_fin in Hc'. cbv iota in Hc'. lia. }
  split; [|exact Hrv]. split.
  - destruct h; discriminate.
  - intros u' w' Hu'. rewrite app_length. simpl. destruct (fin_unit_nth _ _ _ _ _ _ Hu Hu') as [[-> ->]|[Hne Ho]].
    + simpl. split; [lia|]. intros f Hf'. injection Hf' as <-. lia.
    + destruct (hi_un _ _ H u' w' Ho) as [Ha Hb]. split; [lia|]. intros f Hf'. specialize (Hb f Hf'). lia.
  - intros i x w0 Hi. rewrite Hadd, Hfin. apply nth_snoc in Hi as [[Hl Hi]|[-> Hi]].
    + rewrite (proj2 (Nat.leb_gt _ _)) by lia. pose proof (hi_val _ _ H _ _ _ Hi). lia.
    + injection Hi as -> _. rewrite Nat.leb_refl. lia.
  - intros i x w0 Hi. apply nth_snoc in Hi as [[Hl Hi]|[-> Hi]]; [exact (Hold _ _ Hl (hi_rel _ _ H _ _ _ Hi))|].
    injection Hi as _ ->. apply (sees_mono _ _ _ _ _ Hrv (le_n _)). intros m Hm. apply accs_join. auto.
  - intros i x w0 Hi. rewrite app_length. simpl. apply nth_snoc in Hi as [[Hl Hi]|[-> Hi]]; [pose proof (hi_ts _ _ H _ _ _ Hi); lia|].
    injection Hi as _ ->. simpl. lia.
Qed.
Section Orders.
Variable n0 : nat.
Variables a_acq a_rel : bool.
Notation step := (g_step true true a_acq a_rel).

(** the access that was made before done() of unit u *)
Definition acc_of (s : gst) (u n : nat) : Prop := exists w, nth_error (g_un s) u = Some w /\ u_acc w = Some n.
Record GI (s : gst) (tr : list gevent) : Prop := GInv {
  gi_hi : HI (g_h s) (g_un s);
  gi_lts : v_ts (g_lv s) < length (g_h s);
  gi_zero : forall i w, nth_error (g_h s) i = Some (0, w) -> sees (g_un s) i (g_lv s);
  gi_new : gval (g_h s) = 0 -> forall i x w, nth_error (g_h s) i = Some (x, w) -> v_ts (g_lv s) <= i -> x = 0;
  gi_dn : forall k u pc v, nth_error (g_dn s) k = Some (u, pc, v) -> pc <> GEnd ->
          exists w, nth_error (g_un s) u = Some w /\ u_fin w = None /\ u_pos w <= v_ts v /\ v_ts v < length (g_h s) /\ (exists n, u_acc w = Some n /\ In n (accs v)) /\ pc <> GLoop 0;
  gi_one : forall k k' u pc pc' v v', nth_error (g_dn s) k = Some (u, pc, v) -> nth_error (g_dn s) k' = Some (u, pc', v') -> k = k';
  gi_acc : forall u w, nth_error (g_un s) u = Some w -> (exists k pc v, nth_error (g_dn s) k = Some (u, pc, v)) -> u_acc w <> None;
  gi_dnu : forall k u pc v, nth_error (g_dn s) k = Some (u, pc, v) -> exists w, nth_error (g_un s) u = Some w;
  gi_q : forall o, In o (g_q s) -> exists kn, g_op s o = GWait kn;
  gi_qnd : NoDup (g_q s ++ flat_map fst (g_wk s));
  gi_kn : forall o kn u, g_op s o = GWait kn -> In u kn -> exists w, nth_error (g_un s) u = Some w;
  gi_qv : g_q s <> [] -> gval (g_h s) > 0;
  gi_wk : forall os v o, In (os, v) (g_wk s) -> In o os -> exists kn, g_op s o = GWait kn /\ forall u, In u kn -> exists n, acc_of s u n /\ In n (accs v);
  gi_tacc : forall u n, acc_of s u n -> In (GEDone u n) tr;
  gi_twait : forall o kn, In (GEWait o kn) tr -> g_op s o = GWait kn \/ g_op s o = GDone;
  gi_vis : sees_units tr }.

Lemma vis_snoc tr e : sees_units tr ->
  (forall o a, e = GENotify o a -> forall known u, In (GEWait o known) tr -> In u known -> exists n, In (GEDone u n) tr /\ In n a) -> sees_units (tr ++ [e]).
Proof.
  intros H He t1 o a t2 Heq known u Hw Hu. destruct t2 as [|e2 t2'] using rev_ind.
  - apply app_inj_tail in Heq as [-> ->]. exact (He o a eq_refl known u Hw Hu).
  - clear IHt2'. rewrite app_comm_cons, app_assoc in Heq. apply app_inj_tail in Heq as [-> _]. exact (H t1 o a t2' eq_refl known u Hw Hu).
Qed.
Lemma vis_other tr e : sees_units tr -> (forall o a, e <> GENotify o a) -> sees_units (tr ++ [e]).
Proof. intros H He. apply vis_snoc; [exact H|]. intros o a E. destruct (He o a E). Qed.

Lemma acc_fin s s' u p : g_un s' = fin_unit (g_un s) u p -> forall u' n, acc_of s' u' n <-> acc_of s u' n.
Proof.
  intros He u' n. unfold acc_of. rewrite He. pose proof (fin_unit_acc (g_un s) u p u') as H.
  split; intros (w & Hw & Hn); rewrite Hw in H; simpl in H.
  - destruct (nth_error (g_un s) u') as [w'|]; [|discriminate]. simpl in H. exists w'. split; [reflexivity|]. congruence.
  - destruct (nth_error (fin_unit (g_un s) u p) u') as [w'|]; [|discriminate]. simpl in H. exists w'. split; [reflexivity|]. congruence.
Qed.

Lemma GI_init : GI (g_init n0) [].
Proof.
  assert (Hu : forall u w, nth_error (repeat (WU 0 None None) n0) u = Some w -> w = WU 0 None None) by (intros u w H; exact (repeat_spec _ _ _ (nth_error_In _ _ H))).
  assert (Hi : forall i x w, nth_error [(n0, vbot)] i = Some (x, w) -> i = 0 /\ x = n0 /\ w = vbot).
  { intros [|[]] x w H; simpl in H; try discriminate. injection H as <- <-. auto. }
  assert (Hs : forall i v, sees (repeat (WU 0 None None) n0) i v) by (intros i v u w f H Hf; rewrite (Hu u w H) in Hf; discriminate).
  split; simpl; try solve [intros; try destruct k; try destruct os; simpl in *; contradiction || discriminate].
  - split; simpl.
    + discriminate.
    + intros u w H. rewrite (Hu u w H). simpl. split; [lia|discriminate].
    + intros i x w H. destruct (Hi _ _ _ H) as (-> & -> & ->). unfold nfin, nadd. rewrite !filter_repeat. simpl. rewrite repeat_length. lia.
    + intros; apply Hs.
    + intros i x w H. destruct (Hi _ _ _ H) as (-> & -> & ->). simpl. lia.
  - lia.
  - intros; apply Hs.
  - intros Hg i x w H _. destruct (Hi _ _ _ H) as (_ & -> & _). unfold gval in Hg. simpl in Hg. exact Hg.
  - intros u w _ (k & pc & v & H). destruct k; discriminate.
  - constructor.
  - intros u n (w & Hw & Hn). rewrite (Hu u w Hw) in Hn. discriminate.
  - intros t1 o a t2 H. destruct t1; discriminate.
Qed.

Lemma GI_add s tr n v : GI s tr -> v_ts v < length (g_h s) ->
  GI (GS (rmw a_acq a_rel (g_h s) v (g_newest s + n)) (g_lv s) (g_q s) (g_op s) (g_un s ++ repeat (WU (length (g_h s)) None None) n) (g_dn s) (g_wk s) (g_acc s))
     (tr ++ [GEAdd (seq (length (g_un s)) n)]).
Proof.
  intros G Hv. change (g_newest s) with (gval (g_h s)). pose proof (gi_hi _ _ G) as H. pose proof (hi_h _ _ H) as Hne.
  assert (Hnew : forall u w, nth_error (g_un s ++ repeat (WU (length (g_h s)) None None) n) u = Some w -> nth_error (g_un s) u = Some w \/ w = WU (length (g_h s)) None None).
  { intros u w Hu. apply nth_app_cases in Hu as [Hu|[_ Hu]]; [auto|]. right. exact (repeat_spec _ _ _ Hu). }
  assert (Hold : forall u w, nth_error (g_un s) u = Some w -> nth_error (g_un s ++ repeat (WU (length (g_h s)) None None) n) u = Some w).
  { intros u w Hu. rewrite nth_error_app1; [exact Hu|]. apply nth_error_Some. congruence. }
  assert (Hsn : forall i w, sees (g_un s) i w -> sees (g_un s ++ repeat (WU (length (g_h s)) None None) n) i w).
  { intros i w Hse u w' f Hu Hf Hle. destruct (Hnew u w' Hu) as [Hu' | ->]; [eauto|discriminate]. }
  assert (Hacc : forall u m, acc_of (GS (rmw a_acq a_rel (g_h s) v (gval (g_h s) + n)) (g_lv s) (g_q s) (g_op s) (g_un s ++ repeat (WU (length (g_h s)) None None) n) (g_dn s) (g_wk s) (g_acc s)) u m <-> acc_of s u m).
  { intros u m. unfold acc_of. simpl. split; intros (w & Hw & Hm); [|eauto]. destruct (Hnew _ _ Hw) as [Hw' | ->]; [eauto|discriminate]. }
  split; simpl.
  - apply hi_add; assumption.
  - unfold rmw. rewrite app_length. simpl. pose proof (gi_lts _ _ G). lia.
  - intros i w Hi. apply Hsn. unfold rmw in Hi. apply nth_snoc in Hi as [[Hl Hi]|[-> Hi]]; [exact (gi_zero _ _ G _ _ Hi)|].
    assert (Hz : gval (g_h s) = 0) by (injection Hi as Hi _; lia). pose proof (newest_nth _ Hne) as Hn. rewrite Hz in Hn.
    pose proof (gi_zero _ _ G _ _ Hn) as Hs. intros u w' f Hu Hf Hle. apply (Hs u w' f Hu Hf). pose proof (proj2 (hi_un _ _ H u w' Hu) f Hf). unfold newest. lia.
  - intros Hg i x w Hi Hle. unfold rmw in Hg, Hi. rewrite gval_snoc in Hg. apply nth_snoc in Hi as [[Hl Hi]|[-> Hi]].
    + apply (gi_new _ _ G ltac:(lia) i x w Hi Hle).
    + injection Hi as -> _. exact Hg.
  - intros k u pc v0 Hk Hpc. destruct (gi_dn _ _ G k u pc v0 Hk Hpc) as (w & Hw & Hf & Hp & Hl & Hn & H0).
    exists w. unfold rmw. rewrite app_length. simpl. repeat split; auto. lia.
  - exact (gi_one _ _ G).
  - intros u w Hu Hk. destruct (Hnew u w Hu) as [Hu' | ->]; [exact (gi_acc _ _ G u w Hu' Hk)|].
    destruct Hk as (k & pc & v0 & Hk). destruct pc as [|x|].
    + destruct (gi_dn _ _ G k u GLoad v0 Hk ltac:(discriminate)) as (w & Hw & _ & _ & _ & (m & Hm & _) & _). rewrite (Hold u w Hw) in Hu. injection Hu as ->. discriminate.
    + destruct (gi_dn _ _ G k u (GLoop x) v0 Hk ltac:(discriminate)) as (w & Hw & _ & _ & _ & (m & Hm & _) & _). rewrite (Hold u w Hw) in Hu. injection Hu as ->. discriminate.
    + destruct (gi_dnu _ _ G k u GEnd v0 Hk) as (w & Hw). rewrite (Hold u w Hw) in Hu. injection Hu as ->.
      exfalso. apply (gi_acc _ _ G u _ Hw); [eauto|reflexivity].
  - intros k u pc v0 Hk. destruct (gi_dnu _ _ G k u pc v0 Hk) as (w & Hw). eauto.
  - exact (gi_q _ _ G).
  - exact (gi_qnd _ _ G).
  - intros o kn u Ho Hu. destruct (gi_kn _ _ G o kn u Ho Hu) as (w & Hw). eauto.
  - intros Hq. unfold rmw. rewrite gval_snoc. pose proof (gi_qv _ _ G Hq). lia.
  - intros os v0 o Hw Ho. destruct (gi_wk _ _ G os v0 o Hw Ho) as (kn & Hk & Hu). exists kn. split; [exact Hk|].
    intros u Hin. destruct (Hu u Hin) as (m & Hm & Hi). exists m. split; [apply Hacc; exact Hm|exact Hi].
  - intros u m Hm. apply in_or_app. left. apply (gi_tacc _ _ G). apply Hacc. exact Hm.
  - intros o kn Hin. apply in_app_or in Hin as [Hin|[E|[]]]; [exact (gi_twait _ _ G o kn Hin)|discriminate].
  - apply vis_other; [exact (gi_vis _ _ G)|discriminate].
Qed.

Lemma GI_done s tr u v p f : GI s tr -> nth_error (g_un s) u = Some (WU p None f) -> p <= v_ts v -> v_ts v < length (g_h s) ->
  GI (GS (g_h s) (g_lv s) (g_q s) (g_op s) (set_nth (g_un s) u (WU p (Some (g_acc s)) f)) (g_dn s ++ [(u, GLoad, vadd v (TData (g_acc s)))]) (g_wk s) (S (g_acc s)))
     (tr ++ [GEDone u (g_acc s)]).
Proof.
  intros G Hu Hp Hl. pose proof (gi_hi _ _ G) as H. pose proof (hi_h _ _ H) as Hne.
  set (w1 := WU p (Some (g_acc s)) f).
  assert (Hf0 : f = None).
  { destruct f as [f|]; [|reflexivity]. destruct (hi_top _ _ H) as (_ & Hs & _). pose proof (proj2 (hi_un _ _ H _ _ Hu) f eq_refl) as Hff.
    destruct (Hs u _ f Hu eq_refl ltac:(lia)) as (m & Hm & _). discriminate. }
  assert (Hc : forall u' w', nth_error (set_nth (g_un s) u w1) u' = Some w' -> (u' = u /\ w' = w1) \/ (u' <> u /\ nth_error (g_un s) u' = Some w')).
  { intros u' w' Hu'. destruct (Nat.eq_dec u' u) as [->|Hn].
    - rewrite (nth_error_set_nth_same _ _ _ _ Hu) in Hu'. injection Hu' as <-. auto.
    - rewrite nth_error_set_nth_other in Hu' by auto. auto. }
  assert (Hex : forall u' w', nth_error (g_un s) u' = Some w' -> exists w'', nth_error (set_nth (g_un s) u w1) u' = Some w'').
  { intros u' w' Hu'. destruct (nth_error (set_nth (g_un s) u w1) u') as [w''|] eqn:E; [eauto|]. apply nth_error_None in E. rewrite set_nth_length in E.
    apply nth_error_None in E. congruence. }
  assert (Hsn : forall i w, sees (g_un s) i w -> sees (set_nth (g_un s) u w1) i w).
  { intros i w Hse u' w' f' Hu' Hf Hle. destruct (Hc u' w' Hu') as [[-> ->]|[_ Hu'']]; [|eauto]. simpl in Hf. congruence. }
  assert (Hcnt : forall i, nadd (set_nth (g_un s) u w1) i = nadd (g_un s) i /\ nfin (set_nth (g_un s) u w1) i = nfin (g_un s) i).
  { intros i. unfold nadd, nfin. pose proof (filter_set_nth (fadd i) (g_un s) u w1 _ Hu) as H1. pose proof (filter_set_nth (ffin i) (g_un s) u w1 _ Hu) as H2.
    unfold fadd at 2 4 in H1. unfold ffin at 2 4 in H2. simpl in H1, H2. destruct (p <=? i), (match f with Some f0 => f0 <=? i | None => false end); lia. }
  assert (Hno : forall k pc v0, nth_error (g_dn s) k = Some (u, pc, v0) -> False).
  { intros k pc v0 Hk. apply (gi_acc _ _ G u _ Hu); [eauto|reflexivity]. }
  assert (Hacc : forall s' u' m, g_un s' = set_nth (g_un s) u w1 -> acc_of s' u' m <-> acc_of s u' m \/ (u' = u /\ m = g_acc s)).
  { intros s' u' m He. unfold acc_of. rewrite He. split.
    - intros (w & Hw & Hm). destruct (Hc u' w Hw) as [[-> ->]|[_ Hw']]; [|eauto]. right. simpl in Hm. split; congruence.
    - intros [(w & Hw & Hm)|[-> ->]].
      + exists w. destruct (Nat.eq_dec u' u) as [->|Hn]; [rewrite Hu in Hw; injection Hw as <-; discriminate|].
        rewrite nth_error_set_nth_other by auto. auto.
      + exists w1. rewrite (nth_error_set_nth_same _ _ _ _ Hu). auto. }
  split; simpl.
  - split.
    + exact Hne.
    + intros u' w' Hu'. destruct (Hc u' w' Hu') as [[-> ->]|[_ Hu'']]; [|exact (hi_un _ _ H u' w' Hu'')]. exact (hi_un _ _ H u _ Hu).
    + intros i x w Hi. destruct (Hcnt i) as [-> ->]. exact (hi_val _ _ H i x w Hi).
    + intros i x w Hi. apply Hsn. exact (hi_rel _ _ H i x w Hi).
    + exact (hi_ts _ _ H).
  - exact (gi_lts _ _ G).
  - intros i w Hi. apply Hsn. exact (gi_zero _ _ G i w Hi).
  - exact (gi_new _ _ G).
  - intros k u' pc v0 Hk Hpc. apply nth_snoc in Hk as [[_ Hk]|[_ Hk]].
    + destruct (gi_dn _ _ G k u' pc v0 Hk Hpc) as (w & Hw & Hf & Hpp & Hll & Hn & H0).
      exists w. rewrite nth_error_set_nth_other by (intros ->; exact (Hno _ _ _ Hk)). repeat split; auto.
    + injection Hk as -> -> ->. exists w1. rewrite (nth_error_set_nth_same _ _ _ _ Hu). simpl. repeat split; auto; [|discriminate].
      exists (g_acc s). split; [reflexivity|]. left. reflexivity.
  - intros k k' u' pc pc' v0 v1 Hk Hk'. apply nth_snoc in Hk as [[Hlt Hk]|[-> Hk]]; apply nth_snoc in Hk' as [[Hlt' Hk']|[-> Hk']].
    + exact (gi_one _ _ G _ _ _ _ _ _ _ Hk Hk').
    + injection Hk' as -> -> ->. destruct (Hno _ _ _ Hk).
    + injection Hk as -> -> ->. destruct (Hno _ _ _ Hk').
    + reflexivity.
  - intros u' w' Hu' (k & pc & v0 & Hk). destruct (Hc u' w' Hu') as [[-> ->]|[Hn Hu'']]; [discriminate|].
    apply nth_snoc in Hk as [[_ Hk]|[_ Hk]]; [|congruence]. apply (gi_acc _ _ G u' w' Hu''). eauto.
  - intros k u' pc v0 Hk. apply nth_snoc in Hk as [[_ Hk]|[_ Hk]].
    + destruct (gi_dnu _ _ G k u' pc v0 Hk) as (w & Hw). exact (Hex _ _ Hw).
    + injection Hk as -> -> ->. exact (Hex _ _ Hu).
  - exact (gi_q _ _ G).
  - exact (gi_qnd _ _ G).
  - intros o kn u' Ho Hin. destruct (gi_kn _ _ G o kn u' Ho Hin) as (w & Hw). exact (Hex _ _ Hw).
  - exact (gi_qv _ _ G).
  - intros os v0 o Hw Ho. destruct (gi_wk _ _ G os v0 o Hw Ho) as (kn & Hk & Hin). exists kn. split; [exact Hk|].
    intros u' Hu'. destruct (Hin u' Hu') as (m & Hm & Hi). exists m. split; [|exact Hi]. apply Hacc; [reflexivity|auto].
  - intros u' m Hm. apply in_or_app. apply Hacc in Hm; [|reflexivity]. destruct Hm as [Hm|[-> ->]]; [left; exact (gi_tacc _ _ G u' m Hm)|right; left; reflexivity].
  - intros o kn Hin. apply in_app_or in Hin as [Hin|[E|[]]]; [exact (gi_twait _ _ G o kn Hin)|discriminate].
  - apply vis_other; [exact (gi_vis _ _ G)|discriminate].
Qed.

(** a load or a failing compare-exchange of done() *)
Lemma GI_read s tr k u pc v i x w : GI s tr -> nth_error (g_dn s) k = Some (u, pc, v) -> pc <> GEnd -> rd (g_h s) v i = Some (x, w) ->
  GI (GS (g_h s) (g_lv s) (g_q s) (g_op s) (g_un s) (set_nth (g_dn s) k (u, GLoop x, vsee v i)) (g_wk s) (g_acc s)) (tr ++ []).
Proof.
  intros G Hk Hpc Hr. rewrite app_nil_r. apply rd_some in Hr as (Hle & Hi & Hl). pose proof (gi_hi _ _ G) as H.
  assert (Hc : forall k' u' pc' v', nth_error (set_nth (g_dn s) k (u, GLoop x, vsee v i)) k' = Some (u', pc', v') ->
    (k' = k /\ u' = u /\ pc' = GLoop x /\ v' = vsee v i) \/ (k' <> k /\ nth_error (g_dn s) k' = Some (u', pc', v'))).
  { intros k' u' pc' v' Hk'. destruct (Nat.eq_dec k' k) as [->|Hn].
    - rewrite (nth_error_set_nth_same _ _ _ _ Hk) in Hk'. injection Hk' as <- <- <-. auto.
    - rewrite nth_error_set_nth_other in Hk' by auto. auto. }
  destruct (gi_dn _ _ G k u pc v Hk Hpc) as (w0 & Hw & Hf & Hp & Hll & Hn & H0).
  split; simpl; try solve [apply G].
  - intros k' u' pc' v' Hk' Hpc'. destruct (Hc _ _ _ _ Hk') as [(-> & -> & -> & ->)|[Hne Hk'']]; [|exact (gi_dn _ _ G _ _ _ _ Hk'' Hpc')].
    exists w0. simpl. repeat split; auto; try lia. intros E. injection E as ->.
    pose proof (hi_pos _ _ _ _ _ _ _ H Hi Hw ltac:(lia) Hf). lia.
  - intros k1 k2 u' pc1 pc2 v1 v2 H1 H2. destruct (Hc _ _ _ _ H1) as [(-> & -> & _ & _)|[Hn1 H1']]; destruct (Hc _ _ _ _ H2) as [(-> & E & _ & _)|[Hn2 H2']].
    + reflexivity.
    + exact (gi_one _ _ G _ _ _ _ _ _ _ Hk H2').
    + subst u'. exact (gi_one _ _ G _ _ _ _ _ _ _ H1' Hk).
    + exact (gi_one _ _ G _ _ _ _ _ _ _ H1' H2').
  - intros u' w' Hu' (k' & pc' & v' & Hk'). apply (gi_acc _ _ G u' w' Hu'). destruct (Hc _ _ _ _ Hk') as [(-> & -> & _ & _)|[Hn1 H1']]; eauto.
  - intros k' u' pc' v' Hk'. destruct (Hc _ _ _ _ Hk') as [(-> & -> & _ & _)|[Hn1 H1']]; [eauto|exact (gi_dnu _ _ G _ _ _ _ H1')].
Qed.

(** the decrement of done(); z: it reaches zero, which happens only inside of a critical section *)
Lemma GI_fin s tr k u pc v va c lv' : GI s tr -> nth_error (g_dn s) k = Some (u, pc, v) -> pc <> GEnd -> S c = gval (g_h s) ->
  (forall n, In n (accs v) -> In n (accs va)) -> v_ts va < length (g_h s) ->
  (lv' = g_lv s /\ c <> 0) \/ (lv' = rmw_view true (g_h s) va /\ forall n, In n (accs (g_lv s)) -> In n (accs va)) ->
  GI (GS (rmw true true (g_h s) va c) lv' (if c =? 0 then [] else g_q s) (g_op s) (fin_unit (g_un s) u (length (g_h s)))
         (set_nth (g_dn s) k (u, GEnd, rmw_view true (g_h s) va)) (if c =? 0 then g_wk s ++ [(g_q s, rmw_view true (g_h s) va)] else g_wk s) (g_acc s)) (tr ++ []).
Proof.
  intros G Hk Hpc Hcv Hva Hts Hlv. rewrite app_nil_r. pose proof (gi_hi _ _ G) as H.
  destruct (gi_dn _ _ G k u pc v Hk Hpc) as (w0 & Hw & Hf & Hp & Hll & (n & Hn & Hin) & H0).
  destruct (hi_fin (g_h s) (g_un s) u w0 va n c H Hw Hf Hn (Hva n Hin) Hts Hcv) as [HI' Hsee].
  set (v2 := rmw_view true (g_h s) va) in *. set (un' := fin_unit (g_un s) u (length (g_h s))) in *. set (h' := rmw true true (g_h s) va c) in *.
  set (s' := GS h' lv' (if c =? 0 then [] else g_q s) (g_op s) un' (set_nth (g_dn s) k (u, GEnd, v2)) (if c =? 0 then g_wk s ++ [(g_q s, v2)] else g_wk s) (g_acc s)).
  assert (Hacc : forall u' m, acc_of s' u' m <-> acc_of s u' m) by (apply (acc_fin s s' u (length (g_h s))); reflexivity).
  assert (Hlen : length h' = S (length (g_h s))) by (unfold h', rmw; rewrite app_length; simpl; lia).
  assert (Hex : forall u' w', nth_error (g_un s) u' = Some w' -> exists w'', nth_error un' u' = Some w'').
  { intros u' w' Hu'. pose proof (fin_unit_acc (g_un s) u (length (g_h s)) u') as E. rewrite Hu' in E. unfold un'. destruct (nth_error (fin_unit _ _ _) u'); [eauto|discriminate]. }
  assert (Hc : forall k' u' pc' v', nth_error (set_nth (g_dn s) k (u, GEnd, v2)) k' = Some (u', pc', v') ->
    (k' = k /\ u' = u /\ pc' = GEnd /\ v' = v2) \/ (k' <> k /\ nth_error (g_dn s) k' = Some (u', pc', v'))).
  { intros k' u' pc' v' Hk'. destruct (Nat.eq_dec k' k) as [->|Hne].
    - rewrite (nth_error_set_nth_same _ _ _ _ Hk) in Hk'. injection Hk' as <- <- <-. auto.
    - rewrite nth_error_set_nth_other in Hk' by auto. auto. }
  assert (Hv2 : forall m, In m (accs va) -> In m (accs v2)) by (intros m Hm; apply rmw_accs; auto).
  assert (Hold : forall i w, nth_error (g_h s) i = Some (0, w) -> i < length (g_h s) -> sees un' i lv').
  { intros i w Hi Hl u' w' f Hu' Hf' Hle. destruct (fin_unit_nth _ _ _ _ _ _ Hw Hu') as [[-> ->]|[_ Ho]]; [simpl in Hf'; injection Hf' as <-; lia|].
    destruct (gi_zero _ _ G i w Hi u' w' f Ho Hf' Hle) as (m & Hm & Hmi). exists m. split; [exact Hm|].
    destruct Hlv as [[-> _]|[-> Hs]]; auto. }
  unfold s'. split; simpl.
  - exact HI'.
  - rewrite Hlen. destruct Hlv as [[-> _]|[-> _]]; [pose proof (gi_lts _ _ G); lia|]. destruct (hi_top _ _ H) as (_ & _ & Hr). unfold v2, rmw_view. simpl. lia.
  - intros i w Hi. unfold h', rmw in Hi. apply nth_snoc in Hi as [[Hl Hi]|[-> Hi]]; [exact (Hold i w Hi Hl)|].
    injection Hi as Hi _. destruct Hlv as [[_ Hlv]|[-> _]]; [congruence|]. exact Hsee.
  - intros Hg i x w Hi Hle. unfold h', rmw in Hg, Hi. rewrite gval_snoc in Hg. destruct Hlv as [[_ Hlv]|[-> _]]; [congruence|].
    apply nth_snoc in Hi as [[Hl Hi]|[-> Hi]]; [|injection Hi as -> _; exact Hg]. unfold v2, rmw_view in Hle. simpl in Hle. lia.
  - intros k' u' pc' v' Hk' Hpc'. destruct (Hc _ _ _ _ Hk') as [(-> & -> & -> & ->)|[Hne Hk'']]; [congruence|].
    destruct (gi_dn _ _ G _ _ _ _ Hk'' Hpc') as (w & Hw' & Hr). exists w.
    assert (Hu : u' <> u) by (intros ->; exact (Hne (gi_one _ _ G _ _ _ _ _ _ _ Hk'' Hk))).
    unfold un', fin_unit. rewrite Hw. rewrite nth_error_set_nth_other by auto. rewrite Hlen. split; [exact Hw'|]. destruct Hr as (R1 & R2 & R3 & R4). repeat split; auto; try lia; apply R4.
  - intros k1 k2 u' pc1 pc2 v1 v3 H1 H2. destruct (Hc _ _ _ _ H1) as [(-> & -> & _ & _)|[Hn1 H1']]; destruct (Hc _ _ _ _ H2) as [(-> & E & _ & _)|[Hn2 H2']].
    + reflexivity.
    + exact (gi_one _ _ G _ _ _ _ _ _ _ Hk H2').
    + subst u'. exact (gi_one _ _ G _ _ _ _ _ _ _ H1' Hk).
    + exact (gi_one _ _ G _ _ _ _ _ _ _ H1' H2').
  - intros u' w' Hu' (k' & pc' & v' & Hk'). destruct (fin_unit_nth _ _ _ _ _ _ Hw Hu') as [[-> ->]|[Hne Ho]]; [simpl; congruence|].
    apply (gi_acc _ _ G u' w' Ho). destruct (Hc _ _ _ _ Hk') as [(-> & -> & _ & _)|[Hn1 H1']]; eauto.
  - intros k' u' pc' v' Hk'. destruct (Hc _ _ _ _ Hk') as [(-> & -> & _ & _)|[Hn1 H1']]; [exact (Hex _ _ Hw)|].
    destruct (gi_dnu _ _ G _ _ _ _ H1') as (w & Hw'). exact (Hex _ _ Hw').
  - intros o Ho. apply (gi_q _ _ G). destruct (c =? 0); [destruct Ho|exact Ho].
  - destruct (c =? 0); [|exact (gi_qnd _ _ G)]. rewrite flat_map_app. simpl. rewrite app_nil_r.
    exact (NoDup_swap _ _ (gi_qnd _ _ G)).
  - intros o kn u' Ho Hu'. destruct (gi_kn _ _ G o kn u' Ho Hu') as (w & Hw'). exact (Hex _ _ Hw').
  - intros Hq. unfold h', rmw. rewrite gval_snoc. destruct (Nat.eqb_spec c 0); [congruence|lia].
  - intros os v' o Hos Ho. assert (Hcase : In (os, v') (g_wk s) \/ (c = 0 /\ os = g_q s /\ v' = v2)).
    { destruct (Nat.eqb_spec c 0); [|auto]. apply in_app_or in Hos as [Hos|[E|[]]]; [auto|]. injection E as <- <-. auto. }
    destruct Hcase as [Hos'|(-> & -> & ->)].
    + destruct (gi_wk _ _ G os v' o Hos' Ho) as (kn & Hkn & Hu). exists kn. split; [exact Hkn|]. intros u' Hu'. destruct (Hu u' Hu') as (m & Hm & Hmi).
      exists m. split; [apply Hacc; exact Hm|exact Hmi].
    + destruct (gi_q _ _ G o Ho) as (kn & Hkn). exists kn. split; [exact Hkn|]. intros u' Hu'.
      destruct (gi_kn _ _ G o kn u' Hkn Hu') as (w & Hw'). destruct (Hex _ _ Hw') as (w'' & Hw'').
      assert (Hz : nth_error h' (length (g_h s)) = Some (0, vjoin (rel_of (g_h s)) v2)) by (unfold h', rmw; rewrite nth_error_app2 by lia; rewrite Nat.sub_diag; reflexivity).
      pose proof (hi_un _ _ HI' _ _ Hw'') as [Hpos _]. destruct (hi_zero _ _ _ _ _ _ HI' Hz Hw'' ltac:(lia)) as (f & Hf' & Hle).
      destruct (Hsee u' w'' f Hw'' Hf' Hle) as (m & Hm & Hmi). exists m. split; [|exact Hmi]. exists w''. auto.
  - intros u' m Hm. apply (gi_tacc _ _ G). apply Hacc. exact Hm.
  - exact (gi_twait _ _ G).
  - exact (gi_vis _ _ G).
Qed.

Lemma known_spec s v u : In u (known_units s v) -> exists w, nth_error (g_un s) u = Some w /\ u_pos w <= v_ts v.
Proof.
  unfold known_units. intros H. apply filter_In in H as [_ H]. destruct (nth_error (g_un s) u) as [w|]; [|discriminate]. apply Nat.leb_le in H. eauto.
Qed.
Lemma queued_waits s tr o : GI s tr -> In o (g_q s ++ flat_map fst (g_wk s)) -> exists kn, g_op s o = GWait kn.
Proof.
  intros G H. apply in_app_or in H as [H|H]; [exact (gi_q _ _ G o H)|]. apply in_flat_map in H as ([os v] & Hw & Ho).
  destruct (gi_wk _ _ G os v o Hw Ho) as (kn & Hk & _). eauto.
Qed.

Lemma GI_wait_fast s tr o v i w : GI s tr -> g_op s o = GIdle -> rd (g_h s) (vjoin v (g_lv s)) i = Some (0, w) ->
  GI (GS (g_h s) (vsee (vjoin v (g_lv s)) i) (g_q s) (upd (g_op s) o GDone) (g_un s) (g_dn s) (g_wk s) (g_acc s))
     (tr ++ [GEWait o (known_units s v); GENotify o (accs (vsee (vjoin v (g_lv s)) i))]).
Proof.
  intros G Ho Hr. apply rd_some in Hr as (Hle & Hi & Hl). simpl in Hle. pose proof (gi_hi _ _ G) as H. pose proof (gi_lts _ _ G) as Hlts.
  assert (Hacc : forall m, In m (accs (g_lv s)) -> In m (accs (vsee (vjoin v (g_lv s)) i))) by (intros m Hm; apply accs_join; auto).
  assert (Hnq : forall o', In o' (g_q s ++ flat_map fst (g_wk s)) -> o' <> o) by (intros o' Hq ->; destruct (queued_waits s tr o G Hq); congruence).
  split; simpl; try solve [apply G].
  - lia.
  - intros j w' Hj. exact (sees_mono _ _ _ _ _ (gi_zero _ _ G j w' Hj) (le_n _) Hacc).
  - intros Hg j x w' Hj Hle'. apply (gi_new _ _ G Hg j x w' Hj). lia.
  - intros o' Hq. rewrite upd_other by (apply Hnq; apply in_or_app; auto). exact (gi_q _ _ G o' Hq).
  - intros o' kn u Ho' Hu. destruct (Nat.eq_dec o' o) as [->|Hn]; [rewrite upd_same in Ho'; discriminate|]. rewrite upd_other in Ho' by exact Hn.
    exact (gi_kn _ _ G o' kn u Ho' Hu).
  - intros os v' o' Hw Hin. rewrite upd_other; [exact (gi_wk _ _ G os v' o' Hw Hin)|]. apply Hnq. apply in_or_app. right. apply in_flat_map. exists (os, v'). auto.
  - intros u n Hn. apply in_or_app. left. exact (gi_tacc _ _ G u n Hn).
  - intros o' kn Hin. apply in_app_or in Hin as [Hin|[E|[E|[]]]]; [|injection E as <- <-; right; apply upd_same|discriminate].
    destruct (Nat.eq_dec o' o) as [->|Hn]; [right; apply upd_same|]. rewrite upd_other by exact Hn. exact (gi_twait _ _ G o' kn Hin).
  - change [GEWait o (known_units s v); GENotify o (accs (vsee (vjoin v (g_lv s)) i))] with ([GEWait o (known_units s v)] ++ [GENotify o (accs (vsee (vjoin v (g_lv s)) i))]).
    rewrite app_assoc. apply vis_snoc; [apply vis_other; [exact (gi_vis _ _ G)|discriminate]|].
    intros o' a E known u Hin Hu. injection E as <- <-. apply in_app_or in Hin as [Hin|[E|[]]].
    + destruct (gi_twait _ _ G o known Hin); congruence.
    + injection E as <-. apply known_spec in Hu as (wu & Hwu & Hp).
      destruct (hi_zero _ _ _ _ _ _ H Hi Hwu ltac:(lia)) as (f & Hf & Hfl). destruct (gi_zero _ _ G i w Hi u wu f Hwu Hf Hfl) as (n & Hn & Hin).
      exists n. split; [|exact (Hacc n Hin)]. apply in_or_app. left. apply (gi_tacc _ _ G). exists wu. auto.
Qed.

Lemma GI_wait_slow s tr o v i x w : GI s tr -> g_op s o = GIdle -> rd (g_h s) (vjoin v (g_lv s)) i = Some (S x, w) ->
  GI (GS (g_h s) (vsee (vjoin v (g_lv s)) i) (g_q s ++ [o]) (upd (g_op s) o (GWait (known_units s v))) (g_un s) (g_dn s) (g_wk s) (g_acc s))
     (tr ++ [GEWait o (known_units s v)]).
Proof.
  intros G Ho Hr. apply rd_some in Hr as (Hle & Hi & Hl). simpl in Hle. pose proof (gi_hi _ _ G) as H. pose proof (gi_lts _ _ G) as Hlts.
  assert (Hacc : forall m, In m (accs (g_lv s)) -> In m (accs (vsee (vjoin v (g_lv s)) i))) by (intros m Hm; apply accs_join; auto).
  assert (Hnq : forall o', In o' (g_q s ++ flat_map fst (g_wk s)) -> o' <> o) by (intros o' Hq ->; destruct (queued_waits s tr o G Hq); congruence).
  split; simpl; try solve [apply G].
  - lia.
  - intros j w' Hj. exact (sees_mono _ _ _ _ _ (gi_zero _ _ G j w' Hj) (le_n _) Hacc).
  - intros Hg j y w' Hj Hle'. apply (gi_new _ _ G Hg j y w' Hj). lia.
  - intros o' Hq. apply in_app_or in Hq as [Hq|[<-|[]]]; [|rewrite upd_same; eauto].
    rewrite upd_other by (apply Hnq; apply in_or_app; auto). exact (gi_q _ _ G o' Hq).
  - rewrite <- app_assoc. simpl. apply NoDup_Add with (a := o) (l := g_q s ++ flat_map fst (g_wk s)).
    + apply Add_app.
    + split; [exact (gi_qnd _ _ G)|]. intros Hin. exact (Hnq o Hin eq_refl).
  - intros o' kn u Ho' Hu. destruct (Nat.eq_dec o' o) as [->|Hn].
    + rewrite upd_same in Ho'. injection Ho' as <-. apply known_spec in Hu as (wu & Hwu & _). eauto.
    + rewrite upd_other in Ho' by exact Hn. exact (gi_kn _ _ G o' kn u Ho' Hu).
  - intros _. destruct (gval (g_h s)) eqn:E; [|lia]. pose proof (gi_new _ _ G E i _ w Hi ltac:(lia)). discriminate.
  - intros os v' o' Hw Hin. rewrite upd_other; [exact (gi_wk _ _ G os v' o' Hw Hin)|]. apply Hnq. apply in_or_app. right. apply in_flat_map. exists (os, v'). auto.
  - intros u n Hn. apply in_or_app. left. exact (gi_tacc _ _ G u n Hn).
  - intros o' kn Hin. apply in_app_or in Hin as [Hin|[E|[]]]; [|injection E as <- <-; left; apply upd_same].
    destruct (Nat.eq_dec o' o) as [->|Hn]; [|rewrite upd_other by exact Hn; exact (gi_twait _ _ G o' kn Hin)].
    destruct (gi_twait _ _ G o kn Hin); congruence.
  - apply vis_other; [exact (gi_vis _ _ G)|discriminate].
Qed.

Lemma flat_set_nth {A B} (l : list (list A * B)) k o os v : nth_error l k = Some (o :: os, v) ->
  exists l1 l2, flat_map fst l = l1 ++ o :: l2 /\ flat_map fst (set_nth l k (os, v)) = l1 ++ l2.
Proof.
  revert k. induction l as [|[a b] l IH]; intros [|k] H; simpl in H; try discriminate.
  - injection H as -> ->. exists [], (os ++ flat_map fst l). split; reflexivity.
  - destruct (IH k H) as (l1 & l2 & E1 & E2). exists (a ++ l1), l2. simpl. rewrite E1, E2, <- !app_assoc. split; reflexivity.
Qed.

Lemma GI_wake s tr k o os v kn : GI s tr -> nth_error (g_wk s) k = Some (o :: os, v) -> g_op s o = GWait kn ->
  GI (GS (g_h s) (g_lv s) (g_q s) (upd (g_op s) o GDone) (g_un s) (g_dn s) (set_nth (g_wk s) k (os, v)) (g_acc s)) (tr ++ [GENotify o (accs v)]).
Proof.
  intros G Hk Ho. pose proof (gi_hi _ _ G) as H. destruct (flat_set_nth _ _ _ _ _ Hk) as (l1 & l2 & E1 & E2).
  pose proof (gi_qnd _ _ G) as Hnd. rewrite E1, app_assoc in Hnd.
  assert (Hnin : ~ In o (g_q s ++ l1 ++ l2)) by (rewrite app_assoc; exact (NoDup_remove_2 _ _ _ Hnd)).
  assert (Hwk : forall os' v', In (os', v') (set_nth (g_wk s) k (os, v)) -> exists os'', In (os'', v') (g_wk s) /\ forall o', In o' os' -> In o' os'' /\ o' <> o).
  { intros os' v' Hin. assert (Hno : forall o', In o' os' -> o' <> o).
    { intros o' Ho' ->. apply Hnin. apply in_or_app. right. rewrite <- E2. apply in_flat_map. exists (os', v'). auto. }
    apply In_set_nth in Hin as [E|Hin].
    - injection E as -> ->. exists (o :: os). split; [exact (nth_error_In _ _ Hk)|]. intros o' Ho'. split; [right; exact Ho'|auto].
    - exists os'. split; [exact Hin|]. auto. }
  split; simpl; try solve [apply G].
  - intros o' Hq. rewrite upd_other; [exact (gi_q _ _ G o' Hq)|]. intros ->. apply Hnin. apply in_or_app. auto.
  - rewrite E2. rewrite app_assoc. exact (NoDup_remove_1 _ _ _ Hnd).
  - intros o' kn' u Ho' Hu. destruct (Nat.eq_dec o' o) as [->|Hn]; [rewrite upd_same in Ho'; discriminate|]. rewrite upd_other in Ho' by exact Hn.
    exact (gi_kn _ _ G o' kn' u Ho' Hu).
  - intros os' v' o' Hw Hin. destruct (Hwk os' v' Hw) as (os'' & Hw' & Hos). destruct (Hos o' Hin) as [Hin' Hn]. rewrite upd_other by exact Hn.
    exact (gi_wk _ _ G os'' v' o' Hw' Hin').
  - intros u n Hn. apply in_or_app. left. exact (gi_tacc _ _ G u n Hn).
  - intros o' kn' Hin. apply in_app_or in Hin as [Hin|[E|[]]]; [|discriminate].
    destruct (Nat.eq_dec o' o) as [->|Hn]; [right; apply upd_same|]. rewrite upd_other by exact Hn. exact (gi_twait _ _ G o' kn' Hin).
  - apply vis_snoc; [exact (gi_vis _ _ G)|]. intros o' a E known u Hin Hu. injection E as <- <-.
    destruct (gi_wk _ _ G _ _ o (nth_error_In _ _ Hk) (or_introl eq_refl)) as (kn' & Hkn' & Hv).
    destruct (gi_twait _ _ G o known Hin) as [E|E]; [|congruence]. rewrite E in Hkn'. injection Hkn' as <-.
    destruct (Hv u Hu) as (n & Hn & Hni). exists n. split; [exact (gi_tacc _ _ G u n Hn)|exact Hni].
Qed.

Lemma GI_step s tr l : GI s tr -> (forall s' es, step s l = Next s' es -> GI s' (tr ++ es)) /\ forall f es, step s l <> Fail f es.
Proof.
  intros G. pose proof (gi_hi _ _ G) as H. destruct l as [n v|u v|k i|o v i|k]; simpl.
  - destruct (Nat.ltb_spec (v_ts v) (length (g_h s))) as [Hl|Hl]; [|split; discriminate]. split; [|discriminate].
    intros s' es E. injection E as <- <-. apply GI_add; assumption.
  - destruct (nth_error (g_un s) u) as [[p [a|] f]|] eqn:Hu; try (split; discriminate).
    destruct (Nat.leb_spec p (v_ts v)) as [Hp|Hp]; [|split; discriminate]. destruct (Nat.ltb_spec (v_ts v) (length (g_h s))) as [Hl|Hl]; [|split; discriminate].
    split; [|discriminate]. intros s' es E. injection E as <- <-. apply GI_done; assumption.
  - destruct (nth_error (g_dn s) k) as [[[u pc] v]|] eqn:Hk; [|split; discriminate]. unfold g_done_step.
    destruct pc as [|x|]; [| |split; discriminate].
    + destruct (rd (g_h s) v i) as [[x w]|] eqn:Hr; [|split; discriminate]. split; [|discriminate].
      intros s' es E. injection E as <- <-. exact (GI_read s tr k u GLoad v i x w G Hk ltac:(discriminate) Hr).
    + destruct (gi_dn _ _ G k u (GLoop x) v Hk ltac:(discriminate)) as (w0 & Hw & Hf & Hp & Hll & Hn & H0).
      pose proof (newest_lt _ (hi_h _ _ H)) as Hnl. pose proof (hi_un _ _ H u w0 Hw) as [Hpl _].
      pose proof (hi_pos _ _ _ _ _ _ _ H (newest_nth _ (hi_h _ _ H)) Hw ltac:(unfold newest; lia) Hf) as Hpos.
      destruct x as [|[|x]]; [congruence| |].
      * change (g_newest s) with (gval (g_h s)). destruct (gval (g_h s)) as [|c] eqn:Hg; [lia|]. split; [|discriminate].
        intros s' es E. injection E as <- <-.
        apply (GI_fin s tr k u (GLoop 1) v (vjoin v (g_lv s)) c (rmw_view true (g_h s) (vjoin v (g_lv s))) G Hk ltac:(discriminate) (eq_sym Hg)).
        -- intros m Hm. apply accs_join. auto.
        -- simpl. pose proof (gi_lts _ _ G). lia.
        -- right. split; [reflexivity|]. intros m Hm. apply accs_join. auto.
      * destruct (rd (g_h s) v i) as [[y w]|] eqn:Hr; [|split; discriminate].
        destruct (Nat.eqb_spec y (S (S x))) as [E1|E1].
        -- destruct (Nat.eqb_spec i (newest (g_h s))) as [->|E2]; [|split; discriminate]. split; [|discriminate].
           intros s' es E. injection E as <- <-. apply rd_some in Hr as (_ & Hr & _). rewrite (newest_nth _ (hi_h _ _ H)) in Hr. injection Hr as Hg _.
           assert (Hc : S (S x) = gval (g_h s)) by congruence.
           exact (GI_fin s tr k u (GLoop (S (S x))) v v (S x) (g_lv s) G Hk ltac:(discriminate) Hc (fun n h => h) Hll (or_introl (conj eq_refl (Nat.neq_succ_0 x)))).
        -- split; [|discriminate]. intros s' es E. injection E as <- <-. exact (GI_read s tr k u (GLoop (S (S x))) v i y w G Hk ltac:(discriminate) Hr).
  - destruct (g_op s o) eqn:Ho; try (split; discriminate). destruct (rd (g_h s) (vjoin v (g_lv s)) i) as [[[|x] w]|] eqn:Hr; [| |split; discriminate].
    + destruct (v_ts v <? length (g_h s)); [|split; discriminate]. split; [|discriminate]. intros s' es E. injection E as <- <-. exact (GI_wait_fast s tr o v i w G Ho Hr).
    + destruct (v_ts v <? length (g_h s)); [|split; discriminate]. split; [|discriminate]. intros s' es E. injection E as <- <-. exact (GI_wait_slow s tr o v i x w G Ho Hr).
  - destruct (nth_error (g_wk s) k) as [[[|o os] v]|] eqn:Hk; try (split; discriminate).
    destruct (gi_wk _ _ G _ _ o (nth_error_In _ _ Hk) (or_introl eq_refl)) as (kn & Ho & _). rewrite Ho. split; [|discriminate].
    intros s' es E. injection E as <- <-. exact (GI_wake s tr k o os v kn G Hk Ho).
Qed.

Theorem g_inv ls s tr : run step (g_init n0) ls = Running s tr -> GI s tr.
Proof. apply (run_inv step GI (g_init n0) GI_init). intros s1 tr1 l s2 es G Hs. exact (proj1 (GI_step s1 tr1 l G) s2 es Hs). Qed.
Theorem g_safe ls f tr : run step (g_init n0) ls <> Failed f tr.
Proof. revert ls f tr. apply (run_safe step GI (g_init n0) GI_init); intros s1 tr1 l; [intros s2 es G Hs; exact (proj1 (GI_step s1 tr1 l G) s2 es Hs)|intros f es G; exact (proj2 (GI_step s1 tr1 l G) f es)]. Qed.

(** ** Progress *)
Record GL (s : gst) (tr : list gevent) : Prop := GLiv {
  gl_un : forall u, u < length (g_un s) -> is_unit n0 tr u;
  gl_acc : forall u n, In (GEDone u n) tr -> acc_of s u n;
  gl_dn : forall u n, acc_of s u n -> exists k pc v, nth_error (g_dn s) k = Some (u, pc, v);
  gl_fin : forall k u v, nth_error (g_dn s) k = Some (u, GEnd, v) -> exists w f, nth_error (g_un s) u = Some w /\ u_fin w = Some f;
  gl_q : forall o kn, g_op s o = GWait kn -> In o (g_q s ++ flat_map fst (g_wk s));
  gl_n : forall o, notified o tr = match g_op s o with GDone => 1 | _ => 0 end }.

Lemma notified_app o a b : notified o (a ++ b) = notified o a + notified o b.
Proof. unfold notified. rewrite filter_app, app_length. reflexivity. Qed.
Lemma unit_app tr es u : is_unit n0 tr u -> is_unit n0 (tr ++ es) u.
Proof. intros [H|(us & H & Hu)]; [left; exact H|]. right. exists us. split; [apply in_or_app; auto|exact Hu]. Qed.

Lemma GL_init : GL (g_init n0) [].
Proof.
  split; simpl; try solve [intros; contradiction || discriminate || reflexivity].
  - intros u H. left. rewrite repeat_length in H. exact H.
  - intros u n (w & Hw & Hn). simpl in Hw. rewrite (repeat_spec _ _ _ (nth_error_In _ _ Hw)) in Hn. discriminate.
  - intros [|k]; discriminate.
Qed.

(** steps of done() that leave the units, the operations and the trace alone, or end the unit *)
Lemma GL_dn s tr k u pc v p' v' un' h' lv' q' wk' :
  GI s tr -> GL s tr -> nth_error (g_dn s) k = Some (u, pc, v) ->
  (forall u' n, acc_of s u' n <-> exists w, nth_error un' u' = Some w /\ u_acc w = Some n) -> length un' = length (g_un s) ->
  (forall u' w f, nth_error (g_un s) u' = Some w -> u_fin w = Some f -> exists w' f', nth_error un' u' = Some w' /\ u_fin w' = Some f') ->
  (p' = GEnd -> exists w' f', nth_error un' u = Some w' /\ u_fin w' = Some f') ->
  (forall o, In o (g_q s ++ flat_map fst (g_wk s)) -> In o (q' ++ flat_map fst wk')) ->
  GL (GS h' lv' q' (g_op s) un' (set_nth (g_dn s) k (u, p', v')) wk' (g_acc s)) (tr ++ []).
Proof.
  intros G L Hk Hacc Hlen Hfin Hp Hq. rewrite app_nil_r. split; simpl.
  - rewrite Hlen. exact (gl_un _ _ L).
  - intros u' n Hin. apply Hacc. exact (gl_acc _ _ L u' n Hin).
  - intros u' n Hn. apply Hacc in Hn. destruct (gl_dn _ _ L u' n Hn) as (k' & pc' & v0 & Hk'). destruct (Nat.eq_dec k' k) as [->|Hne].
    + rewrite Hk in Hk'. injection Hk' as -> -> ->. exists k, p', v'. apply (nth_error_set_nth_same _ _ _ _ Hk).
    + exists k', pc', v0. rewrite nth_error_set_nth_other by auto. exact Hk'.
  - intros k' u' v0 Hk'. destruct (Nat.eq_dec k' k) as [->|Hne].
    + rewrite (nth_error_set_nth_same _ _ _ _ Hk) in Hk'. injection Hk' as <- E <-. exact (Hp E).
    + rewrite nth_error_set_nth_other in Hk' by auto. destruct (gl_fin _ _ L k' u' v0 Hk') as (w & f & Hw & Hf). exact (Hfin _ _ _ Hw Hf).
  - intros o kn Ho. exact (Hq o (gl_q _ _ L o kn Ho)).
  - exact (gl_n _ _ L).
Qed.

Lemma fin_unit_len un u p : length (fin_unit un u p) = length un.
Proof. unfold fin_unit. destruct (nth_error un u); [apply set_nth_length|reflexivity]. Qed.
Lemma fin_unit_keep un u p u' w f : nth_error un u' = Some w -> u_fin w = Some f -> exists w' f', nth_error (fin_unit un u p) u' = Some w' /\ u_fin w' = Some f'.
Proof.
  intros Hu' Hf. unfold fin_unit. destruct (nth_error un u) as [w0|] eqn:Hu; [|eauto]. destruct (Nat.eq_dec u' u) as [->|Hn].
  - rewrite (nth_error_set_nth_same _ _ _ _ Hu). eexists. exists p. split; reflexivity.
  - rewrite nth_error_set_nth_other by auto. eauto.
Qed.
Lemma fin_unit_self un u p w : nth_error un u = Some w -> exists w' f', nth_error (fin_unit un u p) u = Some w' /\ u_fin w' = Some f'.
Proof. intros Hu. unfold fin_unit. rewrite Hu. rewrite (nth_error_set_nth_same _ _ _ _ Hu). eexists. exists p. split; reflexivity. Qed.

Lemma GL_step s tr l s' es : GI s tr -> GL s tr -> step s l = Next s' es -> GL s' (tr ++ es).
Proof.
  intros G L. destruct l as [n v|u v|k i|o v i|k]; simpl.
  - destruct (v_ts v <? length (g_h s)); [|discriminate]. intros E. injection E as <- <-. split; simpl.
    + intros u Hu. rewrite app_length, repeat_length in Hu. destruct (Nat.lt_ge_cases u (length (g_un s))) as [Hl|Hl]; [apply unit_app; exact (gl_un _ _ L u Hl)|].
      right. eexists. split; [apply in_or_app; right; left; reflexivity|]. apply in_seq. lia.
    + intros u m Hin. apply in_app_or in Hin as [Hin|[E|[]]]; [|discriminate]. destruct (gl_acc _ _ L u m Hin) as (w & Hw & Hm).
      exists w. simpl. rewrite nth_error_app1; [auto|]. apply nth_error_Some. congruence.
    + intros u m (w & Hw & Hm). simpl in Hw. apply nth_app_cases in Hw as [Hw|[_ Hw]]; [|rewrite (repeat_spec _ _ _ Hw) in Hm; discriminate].
      apply (gl_dn _ _ L u m). exists w. auto.
    + intros k u v0 Hk. destruct (gl_fin _ _ L k u v0 Hk) as (w & f & Hw & Hf). exists w, f. rewrite nth_error_app1; [auto|]. apply nth_error_Some. congruence.
    + exact (gl_q _ _ L).
    + intros o. rewrite notified_app. rewrite (gl_n _ _ L o). unfold notified. simpl. lia.
  - destruct (nth_error (g_un s) u) as [[p [a|] f]|] eqn:Hu; try discriminate.
    destruct ((p <=? v_ts v) && (v_ts v <? length (g_h s))); [|discriminate]. intros E. injection E as <- <-.
    split; simpl.
    + intros u' Hu'. rewrite set_nth_length in Hu'. apply unit_app. exact (gl_un _ _ L u' Hu').
    + intros u' m Hin. unfold acc_of. simpl. apply in_app_or in Hin as [Hin|[E|[]]].
      * destruct (gl_acc _ _ L u' m Hin) as (w & Hw & Hm). exists w. destruct (Nat.eq_dec u' u) as [->|Hn]; [rewrite Hu in Hw; injection Hw as <-; discriminate|].
        rewrite nth_error_set_nth_other by auto. auto.
      * injection E as <- <-. eexists. split; [exact (nth_error_set_nth_same _ _ _ _ Hu)|reflexivity].
    + intros u' m (w & Hw & Hm). simpl in Hw. destruct (Nat.eq_dec u' u) as [->|Hn].
      * exists (length (g_dn s)), GLoad. eexists. rewrite nth_error_app2 by lia. rewrite Nat.sub_diag. reflexivity.
      * rewrite nth_error_set_nth_other in Hw by auto. destruct (gl_dn _ _ L u' m) as (k & pc & v0 & Hk); [exists w; auto|].
        exists k, pc, v0. rewrite nth_error_app1; [exact Hk|]. apply nth_error_Some. congruence.
    + intros k u' v0 Hk. apply nth_snoc in Hk as [[_ Hk]|[_ Hk]]; [|discriminate]. destruct (gl_fin _ _ L k u' v0 Hk) as (w & f' & Hw & Hf).
      destruct (Nat.eq_dec u' u) as [->|Hn].
      * rewrite (nth_error_set_nth_same _ _ _ _ Hu). rewrite Hu in Hw. injection Hw as <-. simpl in Hf. eexists. exists f'. split; [reflexivity|exact Hf].
      * rewrite nth_error_set_nth_other by auto. eauto.
    + exact (gl_q _ _ L).
    + intros o. rewrite notified_app. rewrite (gl_n _ _ L o). unfold notified. simpl. lia.
  - destruct (nth_error (g_dn s) k) as [[[u pc] v]|] eqn:Hk; [|discriminate]. unfold g_done_step.
    destruct (gi_dnu _ _ G k u pc v Hk) as (w0 & Hw0).
    assert (Hsame : forall p' v', p' <> GEnd -> GL (GS (g_h s) (g_lv s) (g_q s) (g_op s) (g_un s) (set_nth (g_dn s) k (u, p', v')) (g_wk s) (g_acc s)) (tr ++ [])).
    { intros p' v' Hp. apply (GL_dn s tr k u pc v); auto; [intros; reflexivity|eauto|congruence]. }
    assert (Hfin : forall h' lv' q' wk' v', (forall o, In o (g_q s ++ flat_map fst (g_wk s)) -> In o (q' ++ flat_map fst wk')) ->
      GL (GS h' lv' q' (g_op s) (fin_unit (g_un s) u (length (g_h s))) (set_nth (g_dn s) k (u, GEnd, v')) wk' (g_acc s)) (tr ++ [])).
    { intros h' lv' q' wk' v' Hq. apply (GL_dn s tr k u pc v); auto.
      - intros u' n. symmetry. exact (acc_fin s (GS h' lv' q' (g_op s) (fin_unit (g_un s) u (length (g_h s))) [] wk' 0) u (length (g_h s)) eq_refl u' n).
      - apply fin_unit_len.
      - intros u' w f. apply fin_unit_keep.
      - intros _. exact (fin_unit_self _ _ _ _ Hw0). }
    destruct pc as [|[|[|x]]|]; try discriminate.
    + destruct (rd (g_h s) v i) as [[x w]|]; [|discriminate]. intros E. injection E as <- <-. apply Hsame. discriminate.
    + destruct (g_newest s) as [|c]; [discriminate|]. intros E. injection E as <- <-. apply Hfin. intros o Ho. destruct (c =? 0); [|exact Ho].
      simpl. rewrite flat_map_app. simpl. rewrite app_nil_r. apply in_or_app. apply in_app_or in Ho as [Ho|Ho]; auto.
    + destruct (rd (g_h s) v i) as [[y w]|]; [|discriminate]. destruct (y =? S (S x)).
      * destruct (i =? newest (g_h s)); [|discriminate]. intros E. injection E as <- <-. apply Hfin. auto.
      * intros E. injection E as <- <-. apply Hsame. discriminate.
  - destruct (g_op s o) eqn:Ho; try discriminate. destruct (rd (g_h s) (vjoin v (g_lv s)) i) as [[[|x] w]|]; [| |discriminate];
      (destruct (v_ts v <? length (g_h s)); [|discriminate]); intros E; injection E as <- <-; split; simpl.
    + intros u Hu. apply unit_app. exact (gl_un _ _ L u Hu).
    + intros u n Hin. apply in_app_or in Hin as [Hin|[E|[E|[]]]]; [exact (gl_acc _ _ L u n Hin)|discriminate|discriminate].
    + exact (gl_dn _ _ L).
    + exact (gl_fin _ _ L).
    + intros o' kn Ho'. destruct (Nat.eq_dec o' o) as [->|Hn]; [rewrite upd_same in Ho'; discriminate|]. rewrite upd_other in Ho' by exact Hn. exact (gl_q _ _ L o' kn Ho').
    + intros o'. rewrite notified_app, (gl_n _ _ L o'). unfold notified. simpl. destruct (Nat.eqb_spec o o') as [->|Hn]; simpl.
      * rewrite upd_same, Ho. reflexivity.
      * rewrite upd_other by auto. lia.
    + intros u Hu. apply unit_app. exact (gl_un _ _ L u Hu).
    + intros u n Hin. apply in_app_or in Hin as [Hin|[E|[]]]; [exact (gl_acc _ _ L u n Hin)|discriminate].
    + exact (gl_dn _ _ L).
    + exact (gl_fin _ _ L).
    + intros o' kn Ho'. rewrite <- app_assoc. apply in_or_app. destruct (Nat.eq_dec o' o) as [->|Hn]; [right; left; reflexivity|].
      rewrite upd_other in Ho' by exact Hn. apply (gl_q _ _ L) in Ho'. apply in_app_or in Ho' as [Ho'|Ho']; [auto|]. right. right. exact Ho'.
    + intros o'. rewrite notified_app, (gl_n _ _ L o'). unfold notified. simpl. destruct (Nat.eq_dec o' o) as [->|Hn].
      * rewrite upd_same, Ho. reflexivity.
      * rewrite upd_other by auto. lia.
  - destruct (nth_error (g_wk s) k) as [[[|o os] v]|] eqn:Hk; try discriminate. destruct (g_op s o) eqn:Ho; try discriminate.
    intros E. injection E as <- <-. destruct (flat_set_nth _ _ _ _ _ Hk) as (l1 & l2 & E1 & E2). split; simpl.
    + intros u Hu. apply unit_app. exact (gl_un _ _ L u Hu).
    + intros u n Hin. apply in_app_or in Hin as [Hin|[E|[]]]; [exact (gl_acc _ _ L u n Hin)|discriminate].
    + exact (gl_dn _ _ L).
    + exact (gl_fin _ _ L).
    + intros o' kn Ho'. destruct (Nat.eq_dec o' o) as [->|Hn]; [rewrite upd_same in Ho'; discriminate|]. rewrite upd_other in Ho' by exact Hn.
      apply (gl_q _ _ L) in Ho'. rewrite E1 in Ho'. rewrite E2. rewrite !in_app_iff in *. simpl in Ho'. intuition congruence.
    + intros o'. rewrite notified_app, (gl_n _ _ L o'). unfold notified. simpl. destruct (Nat.eqb_spec o o') as [->|Hn]; simpl.
      * rewrite upd_same, Ho. reflexivity.
      * rewrite upd_other by auto. lia.
Qed.

Theorem g_linv ls s tr : run step (g_init n0) ls = Running s tr -> GI s tr /\ GL s tr.
Proof.
  apply (run_inv step (fun s tr => GI s tr /\ GL s tr) (g_init n0) (conj GI_init GL_init)).
  intros s1 tr1 l s2 es [G L] Hs. split; [exact (proj1 (GI_step s1 tr1 l G) s2 es Hs)|exact (GL_step _ _ _ _ _ G L Hs)].
Qed.

Lemma g_live_at s tr o kn : GI s tr -> GL s tr -> g_quiet s -> all_done n0 tr -> In (GEWait o kn) tr -> notified o tr = 1.
Proof.
  intros G L [Hqd Hqw] Hall Hin. rewrite (gl_n _ _ L o). destruct (gi_twait _ _ G o kn Hin) as [E|E]; [|rewrite E; reflexivity].
  exfalso. pose proof (gl_q _ _ L o kn E) as Hq. pose proof (gi_hi _ _ G) as H.
  assert (Hnq : In o (g_q s)).
  { apply in_app_or in Hq as [Hq|Hq]; [exact Hq|]. apply in_flat_map in Hq as ([os v] & Hw & Ho). rewrite (Hqw os v Hw) in Ho. destruct Ho. }
  assert (Hpos : gval (g_h s) > 0) by (apply (gi_qv _ _ G); intros E0; rewrite E0 in Hnq; exact Hnq).
  destruct (hi_top _ _ H) as (Ht & _ & _). assert (Hlt : nfin (g_un s) (length (g_h s)) < nadd (g_un s) (length (g_h s))) by lia.
  assert (Hle : nadd (g_un s) (length (g_h s)) <= nfin (g_un s) (length (g_h s))); [|lia].
  apply filter_le. intros w Hw _. apply In_nth_error in Hw as [u Hu].
  destruct (Hall u) as (n & Hn); [apply (gl_un _ _ L); apply nth_error_Some; congruence|].
  destruct (gl_dn _ _ L u n (gl_acc _ _ L u n Hn)) as (k & pc & v & Hk). pose proof (Hqd u pc v (nth_error_In _ _ Hk)) as Hpc. subst pc.
  destruct (gl_fin _ _ L k u v Hk) as (w' & f & Hw' & Hf). rewrite Hu in Hw'. injection Hw' as <-. unfold ffin. rewrite Hf.
  apply Nat.leb_le. pose proof (proj2 (hi_un _ _ H u w Hu) f Hf). lia.
Qed.
Theorem g_live ls s tr o kn : run step (g_init n0) ls = Running s tr -> g_quiet s -> all_done n0 tr -> In (GEWait o kn) tr -> notified o tr = 1.
Proof. intros Hr. destruct (g_linv ls s tr Hr) as [G L]. exact (g_live_at s tr o kn G L). Qed.
Theorem g_once ls s tr o : run step (g_init n0) ls = Running s tr -> notified o tr <= 1.
Proof. intros Hr. destruct (g_linv ls s tr Hr) as [_ L]. rewrite (gl_n _ _ L o). destruct (g_op s o); lia. Qed.
End Orders.
