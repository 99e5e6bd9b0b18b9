(** When a mutex may be destroyed under the C++ memory model: C87. *)
From Coq Require Import List Arith Bool Lia.
From Verif Require Import Lts ListFacts M_Mutex S_Mutex P_Mutex M_Weak M_MutexW S_MutexW P_MutexW M_MutexWD.
Import ListNotations.

(** ** Where the accesses are known *)
Definition pre (a : mact) : bool := match a with ATry _ | AWait _ | ALoop _ _ => true | _ => false end.
Definition tin (t : memtok) (v : view) : Prop := In t (v_tok v).
Definition home (s : xst) (t : memtok) : Prop :=
  (exists a v, In (a, v) (x_act s) /\ (pre a = true \/ tok a = 1) /\ tin t v) \/ (x_w s <> [] /\ tin t (x_lv s)) \/
  (exists v, In v (x_own s) /\ tin t v) \/ (lastv (x_h s) = MNone /\ tin t (rel_of (x_h s))).
Definition lvin (s : xst) : Prop := forall o x v, In (ALoop o x, v) (x_act s) -> forall t, tin t (x_lv s) -> tin t v.

Lemma tin_join t a b : tin t (vjoin a b) <-> tin t a \/ tin t b.
Proof. unfold tin, vjoin. cbn. apply in_app_iff. Qed.
Lemma tin_rmw t acq (h : hist mval) v : tin t v \/ (acq = true /\ tin t (rel_of h)) -> tin t (rmw_view acq h v).
Proof. unfold rmw_view, tin. cbn. destruct acq; cbn; rewrite ?in_app_iff; intuition congruence. Qed.
Lemma set_nth_keep {A} (l : list A) k x y z : nth_error l k = Some z -> In y l -> y = z \/ In y (set_nth l k x).
Proof.
  intros Hk Hy. apply In_nth_error in Hy. destruct Hy as [j Hj]. destruct (Nat.eq_dec j k) as [->|Hne]; [left; congruence|].
  right. apply nth_error_In with (n := j). rewrite nth_error_set_nth_other by auto. exact Hj.
Qed.
Lemma set_nth_new {A} (l : list A) k x z : nth_error l k = Some z -> In x (set_nth l k x).
Proof. intros Hk. apply nth_error_In with (n := k). eapply nth_error_set_nth_same. exact Hk. Qed.

(** a call moves on and keeps its knowledge *)
Lemma home_move s k a v a' v' b t : nth_error (x_act s) k = Some (a, v) -> (pre a' = true \/ tok a' = 1) -> (forall u, tin u v -> tin u v') ->
  home s t -> home (XS b (x_lv s) (x_h s) (x_w s) (x_op s) (set_nth (x_act s) k (a', v')) (x_own s) (x_acc s)) t.
Proof.
  intros Hk Ha Hv [(c & w & Hin & Hc & Ht)|H]; [left|right; exact H]. cbn [x_act].
  destruct (set_nth_keep _ k (a', v') _ _ Hk Hin) as [[= -> ->]|Hi]; [exists a', v'; eauto using set_nth_new|exists c, w; auto].
Qed.

Lemma w_none s tr : XI s tr -> lastv (x_h s) <> MCont -> x_w s = [].
Proof. intros HI H. destruct (x_w s) eqn:E; auto. elim H. apply (x_waits _ _ HI). rewrite E. discriminate. Qed.

Lemma home_act s tr k i spur a v s' es t : XI s tr -> lvin s -> nth_error (x_act s) k = Some (a, v) -> x_act_step s k i spur a v = Next s' es -> home s t -> home s' t.
Proof.
  intros HI HL Hk H Hh. pose proof (nth_error_In _ _ Hk) as Hin.
  assert (Hmv : forall a' v' b, (pre a' = true \/ tok a' = 1) -> (forall u, tin u v -> tin u v') ->
            home (XS b (x_lv s) (x_h s) (x_w s) (x_op s) (set_nth (x_act s) k (a', v')) (x_own s) (x_acc s)) t) by (intros; eapply home_move; eauto).
  assert (Hsusp : forall o v1 h1, pre a = true -> lk a = 1 -> (forall u, tin u v -> tin u v1) -> lastv (x_h s) <> MNone ->
            home (XS false v1 h1 (x_w s ++ [o]) (x_op s) (set_nth (x_act s) k (AEnd, v1)) (x_own s) (x_acc s)) t).
  { intros o v1 h1 Hp Hlk Hv Hst. assert (Hne : x_w s ++ [o] <> []) by (intros E; apply app_eq_nil in E; destruct E; discriminate).
    destruct Hh as [(c & w & Hi & Hc & Ht)|[(Hw & Ht)|[(w & Hw & Ht)|(E & _)]]]; [| | |congruence].
    - destruct (set_nth_keep _ k (AEnd, v1) _ _ Hk Hi) as [[= -> ->]|Hi2]; [right; left; auto|left; exists c, w; auto].
    - right; left. split; [exact Hne|]. apply Hv. destruct a as [o'|o'|o' x|o'| | | |o'|]; try discriminate. exact (HL _ _ _ Hin _ Ht).
    - right; right; left. exists w. auto. }
  assert (Hacq : forall o b lv', lastv (x_h s) = MNone ->
            home (XS b lv' (rmw true false (x_h s) v MLocked) (x_w s) (x_op s) (set_nth (x_act s) k (ASet o, rmw_view true (x_h s) v)) (x_own s) (x_acc s)) t).
  { intros o b lv' Hst. assert (Hnew : tin t v \/ tin t (rel_of (x_h s)) -> home (XS b lv' (rmw true false (x_h s) v MLocked) (x_w s) (x_op s)
        (set_nth (x_act s) k (ASet o, rmw_view true (x_h s) v)) (x_own s) (x_acc s)) t).
    { intros Ht. left. exists (ASet o), (rmw_view true (x_h s) v). cbn [x_act]. split; [eapply set_nth_new; eauto|]. split; [now right|]. apply tin_rmw. tauto. }
    destruct Hh as [(c & w & Hi & Hc & Ht)|[(Hw & Ht)|[(w & Hw & Ht)|(_ & Ht)]]].
    - destruct (set_nth_keep _ k (ASet o, rmw_view true (x_h s) v) _ _ Hk Hi) as [[= -> ->]|Hi2]; [auto|left; exists c, w; auto].
    - elim Hw. apply (w_none _ _ HI). congruence.
    - right; right; left. exists w. auto.
    - auto. }
  assert (Hnot : forall o, a = ASet o \/ a = AUnlNext o -> home (XS (x_lock s) (x_lv s) (x_h s) (x_w s) (upd (x_op s) o ODone) (set_nth (x_act s) k (AEnd, v)) (x_own s ++ [v]) (x_acc s)) t).
  { intros o _. destruct Hh as [(c & w & Hi & Hc & Ht)|[Hw|[(w & Hw & Ht)|Hf]]].
    - destruct (set_nth_keep _ k (AEnd, v) _ _ Hk Hi) as [[= -> ->]|Hi2]; [|left; exists c, w; auto].
      right; right; left. exists v. cbn [x_own]. split; [apply in_or_app; right; now left|auto].
    - right; left; exact Hw.
    - right; right; left. exists w. cbn [x_own]. split; [apply in_or_app; now left|auto].
    - right; right; right; exact Hf. }
  unfold x_act_step in H. destruct a as [o|o|o x|o| | | |o|]; try discriminate.
  - destruct (cas_read false false (x_h s) v i MNone) as [|x|] eqn:Ec; try discriminate; injection H as <- <-.
    + apply cas_ok in Ec. destruct Ec as [Hst _]. apply Hacq; auto.
    + apply (Hmv (AWait o)); auto.
  - destruct (x_lock s); [discriminate|]. destruct (rd (x_h s) (vjoin v (x_lv s)) i) as [[x w]|]; [|discriminate]. injection H as <- <-.
    apply (Hmv (ALoop o x)); auto. intros u Hu. apply (tin_join u v (x_lv s)). auto.
  - destruct (x_loop _ _ HI _ _ _ Hin) as (_ & _ & L3). destruct x.
    + destruct (cas_read true spur (x_h s) v i MNone) as [|x|] eqn:Ec; try discriminate; injection H as <- <-.
      * apply cas_ok in Ec. destruct Ec as [Hst _]. apply Hacq; auto.
      * apply (Hmv (ALoop o x)); auto.
    + destruct (cas_read true spur (x_h s) v i MLocked) as [|x|] eqn:Ec; try discriminate.
      * apply cas_ok in Ec. destruct Ec as [Hst _]. unfold x_suspend in H. apply x_guard_next in H. injection H as <- <-.
        apply Hsusp; auto; congruence.
      * injection H as <- <-. apply (Hmv (ALoop o x)); auto.
    + unfold x_suspend in H. apply x_guard_next in H. injection H as <- <-. apply Hsusp; auto. rewrite (L3 eq_refl). discriminate.
  - unfold x_notify in H. apply x_guard_next in H. injection H as <- <-. apply Hnot; auto.
  - destruct (rd (x_h s) v i) as [[x w]|]; [|discriminate]. destruct x; try discriminate; injection H as <- <-; [apply (Hmv AUnlCas)|apply (Hmv AUnlLock)]; auto.
  - destruct (cas_read false false (x_h s) v i MLocked) as [|x|] eqn:Ec; try discriminate.
    + injection H as <- <-. apply cas_ok in Ec. destruct Ec as [Hst _].
      destruct Hh as [(c & w & Hi & Hc & Ht)|[(Hw & Ht)|[(w & Hw & Ht)|(E & _)]]].
      * destruct (set_nth_keep _ k (AEnd, rmw_view false (x_h s) v) _ _ Hk Hi) as [[= -> ->]|Hi2]; [|left; exists c, w; auto].
        right; right; right. cbn [x_h x_set x_hist]. unfold rmw. rewrite lastv_snoc, rel_snoc. split; auto. apply tin_join. right. apply tin_rmw. auto.
      * elim Hw. apply (w_none _ _ HI). congruence.
      * right; right; left. exists w. auto.
      * congruence.
    + destruct x; try discriminate. injection H as <- <-. apply (Hmv AUnlLock); auto.
  - destruct (x_lock s); [discriminate|]. destruct (x_w s) as [|o w] eqn:Ew; [discriminate|]. apply x_guard_next in H.
    assert (Hhand : forall v2 h1, (forall u, tin u v \/ tin u (x_lv s) -> tin u v2) -> lastv (x_h s) <> MNone ->
      home (XS false v2 h1 w (x_op s) (set_nth (x_act s) k (AUnlNext o, v2)) (x_own s) (x_acc s)) t).
    { intros v2 h1 Hv Hst. assert (Hnew : tin t v2 -> home (XS false v2 h1 w (x_op s) (set_nth (x_act s) k (AUnlNext o, v2)) (x_own s) (x_acc s)) t).
      { intros Ht. left. exists (AUnlNext o), v2. cbn [x_act]. split; [eapply set_nth_new; eauto|]. auto. }
      destruct Hh as [(c & u & Hi & Hc & Ht)|[(_ & Ht)|[(u & Hu & Ht)|(E & _)]]]; [|auto| |congruence].
      - destruct (set_nth_keep _ k (AUnlNext o, v2) _ _ Hk Hi) as [[= -> ->]|Hi2]; [auto|left; exists c, u; auto].
      - right; right; left. exists u. auto. }
    pose proof (x_unlk _ _ HI _ Hin) as Hcont. destruct w as [|o2 w].
    + destruct (v_ts (vjoin v (x_lv s)) =? newest (x_h s)); [|discriminate]. injection H as <- <-.
      apply Hhand; [|congruence]. intros u Hu. apply (tin_join u v (x_lv s)). exact Hu.
    + injection H as <- <-. apply Hhand; [|congruence]. intros u Hu. apply (tin_join u v (x_lv s)). exact Hu.
  - unfold x_notify in H. apply x_guard_next in H. injection H as <- <-. apply Hnot; auto.
Qed.

Lemma home_step s tr l s' es t : XI s tr -> lvin s -> x_step s l = Next s' es -> home s t -> home s' t.
Proof.
  intros HI HL H Hh. destruct l as [o v|v i|j|j|k i spur]; cbn [x_step] in H.
  - destruct (x_op s o); try discriminate. destruct (v_ts v <? length (x_h s)); [|discriminate]. injection H as <- <-.
    destruct Hh as [(c & w & Hi & Hc)|Hh]; [left|right; exact Hh]. exists c, w. split; auto. apply in_or_app. auto.
  - destruct (cas_read false false (x_h s) v i MNone) eqn:Ec; try discriminate; injection H as <- <-; auto. apply cas_ok in Ec. destruct Ec as [Hst _].
    destruct Hh as [Hh|[Hh|[(w & Hw & Ht)|(_ & Ht)]]]; [now left|right; left; exact Hh| |].
    + right; right; left. exists w. split; auto. apply in_or_app. auto.
    + right; right; left. exists (rmw_view true (x_h s) v). split; [apply in_or_app; right; now left|]. apply tin_rmw. auto.
  - destruct (nth_error (x_own s) j) as [v|] eqn:Ej; [|discriminate]. injection H as <- <-.
    destruct Hh as [Hh|[Hh|[(w & Hw & Ht)|Hh]]]; [now left|right; left; exact Hh| |right; right; right; exact Hh].
    right; right; left. cbn [x_own]. destruct (set_nth_keep _ j (vadd v (TData (x_acc s))) _ _ Ej Hw) as [->|Hi]; [|exists w; auto].
    exists (vadd v (TData (x_acc s))). split; [eapply set_nth_new; eauto|now right].
  - destruct (nth_error (x_own s) j) as [v|] eqn:Ej; [|discriminate]. injection H as <- <-. destruct (one_owner _ _ _ _ HI Ej) as (Hown & -> & _).
    destruct Hh as [(c & w & Hi & Hc)|[Hh|[(w & Hw & Ht)|Hh]]]; [|right; left; exact Hh| |right; right; right; exact Hh].
    + left. exists c, w. split; auto. apply in_or_app. auto.
    + left. rewrite Hown in Hw. destruct Hw as [<-|[]]. exists AUnl, v. split; [apply in_or_app; right; now left|]. auto.
  - destruct (nth_error (x_act s) k) as [[a v]|] eqn:Ek; [|discriminate]. eapply home_act; eauto.
Qed.

Lemma lvin_act s tr tr' k i spur a v s' es : XI s tr -> XI s' tr' -> lvin s -> nth_error (x_act s) k = Some (a, v) -> x_act_step s k i spur a v = Next s' es -> lvin s'.
Proof.
  intros HI HI' HL Hk H. pose proof (nth_error_In _ _ Hk) as Hin. destruct (x_lock s') eqn:El'.
  2:{ intros o x w Hw. pose proof (x_lk _ _ HI') as E. rewrite El' in E. elim (no_lk _ E _ _ _ Hw). }
  assert (Hset : forall a' v', (lk a' = 1 -> forall t, tin t (x_lv s) -> tin t v') -> forall o x w, In (ALoop o x, w) (set_nth (x_act s) k (a', v')) -> forall t, tin t (x_lv s) -> tin t w).
  { intros a' v' Hn o x w Hw. apply In_set_nth in Hw. destruct Hw as [[= <- <-]|Hw]; [auto|exact (HL _ _ _ Hw)]. }
  unfold x_act_step in H. destruct a as [o|o|o x|o| | | |o|]; try discriminate.
  - destruct (cas_read false false (x_h s) v i MNone); try discriminate; injection H as <- <-; (intros ? ? ? Hw; eapply Hset; [|exact Hw]; discriminate).
  - destruct (x_lock s); [discriminate|]. destruct (rd (x_h s) (vjoin v (x_lv s)) i) as [[x w]|]; [|discriminate]. injection H as <- <-.
    intros ? ? ? Hw. eapply Hset; [|exact Hw]. intros _ t Ht. apply (tin_join t v (x_lv s)). auto.
  - assert (Hv : forall t, tin t (x_lv s) -> tin t v) by exact (HL _ _ _ Hin). destruct x.
    + destruct (cas_read true spur (x_h s) v i MNone); try discriminate; injection H as <- <-; [discriminate|]. intros ? ? ? Hw. eapply Hset; [|exact Hw]. auto.
    + destruct (cas_read true spur (x_h s) v i MLocked); try discriminate.
      * unfold x_suspend in H. apply x_guard_next in H. injection H as <- <-. discriminate.
      * injection H as <- <-. intros ? ? ? Hw. eapply Hset; [|exact Hw]. auto.
    + unfold x_suspend in H. apply x_guard_next in H. injection H as <- <-. discriminate.
  - unfold x_notify in H. apply x_guard_next in H. injection H as <- <-. intros ? ? ? Hw. eapply Hset; [|exact Hw]. discriminate.
  - destruct (rd (x_h s) v i) as [[x w]|]; [|discriminate]. destruct x; try discriminate; injection H as <- <-; (intros ? ? ? Hw; eapply Hset; [|exact Hw]; discriminate).
  - destruct (cas_read false false (x_h s) v i MLocked) as [|x|]; try discriminate; [|destruct x; try discriminate]; injection H as <- <-; (intros ? ? ? Hw; eapply Hset; [|exact Hw]; discriminate).
  - destruct (x_lock s); [discriminate|]. destruct (x_w s) as [|o w]; [discriminate|]. apply x_guard_next in H.
    destruct w; [destruct (v_ts (vjoin v (x_lv s)) =? newest (x_h s)); [|discriminate]|]; injection H as <- <-; discriminate.
  - unfold x_notify in H. apply x_guard_next in H. injection H as <- <-. intros ? ? ? Hw. eapply Hset; [|exact Hw]. discriminate.
Qed.
Lemma lvin_step s tr tr' l s' es : XI s tr -> XI s' tr' -> lvin s -> x_step s l = Next s' es -> lvin s'.
Proof.
  intros HI HI' HL H. destruct l as [o v|v i|j|j|k i spur]; cbn [x_step] in H.
  - destruct (x_op s o); try discriminate. destruct (v_ts v <? length (x_h s)); [|discriminate]. injection H as <- <-.
    intros o' x w Hw. apply In_snoc in Hw. destruct Hw as [Hw|Hw]; [exact (HL _ _ _ Hw)|discriminate].
  - destruct (cas_read false false (x_h s) v i MNone); try discriminate; injection H as <- <-; exact HL.
  - destruct (nth_error (x_own s) j); [|discriminate]. injection H as <- <-. exact HL.
  - destruct (nth_error (x_own s) j); [|discriminate]. injection H as <- <-.
    intros o' x w Hw. apply In_snoc in Hw. destruct Hw as [Hw|Hw]; [exact (HL _ _ _ Hw)|discriminate].
  - destruct (nth_error (x_act s) k) as [[a v]|] eqn:Ek; [|discriminate]. exact (lvin_act _ _ _ _ _ _ _ _ _ _ HI HI' HL Ek H).
Qed.

(** ** The record of the accesses *)
Lemma mark_xi s tr k n : XI s tr -> XI (x_mark s k n) tr.
Proof.
  intros HI. unfold x_mark. destruct (nth_error (x_act s) k) as [[a v]|] eqn:Hk; auto. pose proof (nth_error_In _ _ Hk) as Hin.
  unfold x_set. eapply xi_move; eauto; cbn; auto.
  - exact (x_ats _ _ HI _ _ Hin).
  - intros o x ->. exact (x_loop _ _ HI _ _ _ Hin).
  - intros ->. exact (x_unlk _ _ HI _ Hin).
Qed.
Lemma mark_lvin s k n : lvin s -> lvin (x_mark s k n).
Proof.
  intros HL. unfold x_mark. destruct (nth_error (x_act s) k) as [[a v]|] eqn:Hk; auto. intros o x w Hw t Ht. cbn [x_act x_set] in Hw.
  apply In_set_nth in Hw. destruct Hw as [[= <- ->]|Hw]; [right; exact (HL _ _ _ (nth_error_In _ _ Hk) _ Ht)|exact (HL _ _ _ Hw _ Ht)].
Qed.
Lemma mark_home s k n t : home s t -> home (x_mark s k n) t.
Proof.
  intros Hh. unfold x_mark. destruct (nth_error (x_act s) k) as [[a v]|] eqn:Hk; auto.
  destruct Hh as [(c & w & Hi & Hc & Ht)|Hh]; [left|right; exact Hh]. cbn [x_act x_set].
  destruct (set_nth_keep _ k (a, vadd v (TCall n)) _ _ Hk Hi) as [[= -> ->]|Hi2]; [|exists c, w; auto].
  exists a, (vadd v (TCall n)). split; [eapply set_nth_new; eauto|]. split; auto. now right.
Qed.
Lemma mark_act s k n : x_mark s k n = s \/ exists a v, nth_error (x_act s) k = Some (a, v) /\ x_mark s k n = x_set s k a (vadd v (TCall n)).
Proof. unfold x_mark. destruct (nth_error (x_act s) k) as [[a v]|]; eauto. Qed.

Record WI (z : xst * nat) (tr : list wevent) : Prop := {
  w_xi : XI (fst z) tr;
  w_lv : lvin (fst z);
  w_home : forall m, m < snd z -> home (fst z) (TCall m)
}.
Lemma wi_init : WI z_init [].
Proof. constructor; cbn; [apply xi_init|intros o x v []|lia]. Qed.

(** one step of the recorded machine is one step of the mutex from a state in which the access is recorded *)
Lemma z_base s n l s' n' es : z_step (s, n) l = Next (s', n') es ->
  (exists k i spur, l = XStep k i spur /\ n' = S n /\ x_step (x_mark s k n) l = Next s' es) \/
  (exists v i, l = XTry v i /\ n' = S n /\ cas_read false false (x_h s) v i MNone = CasOk /\ x_step s (XTry (vadd v (TCall n)) i) = Next s' es) \/
  (n' = n /\ x_step s l = Next s' es /\ forall k i spur, l <> XStep k i spur).
Proof.
  intros H. cbn [z_step] in H. destruct l as [o v|v i|j|j|k i spur].
  - right; right. destruct (x_step s (XStart o v)) as [u e| |] eqn:E; cbn [x_lift] in H; try discriminate. injection H as -> -> ->. repeat split; auto. discriminate.
  - destruct (cas_read false false (x_h s) v i MNone) eqn:Ec.
    + right; left. destruct (x_step s (XTry (vadd v (TCall n)) i)) as [u e| |] eqn:E; cbn [x_lift] in H; try discriminate. injection H as -> <- ->. exists v, i. auto.
    + right; right. destruct (x_step s (XTry v i)) as [u e| |] eqn:E; cbn [x_lift] in H; try discriminate. injection H as -> -> ->. repeat split; auto. discriminate.
    + right; right. destruct (x_step s (XTry v i)) as [u e| |] eqn:E; cbn [x_lift] in H; try discriminate. injection H as -> -> ->. repeat split; auto. discriminate.
  - right; right. destruct (x_step s (XAccess j)) as [u e| |] eqn:E; cbn [x_lift] in H; try discriminate. injection H as -> -> ->. repeat split; auto. discriminate.
  - right; right. destruct (x_step s (XUnlock j)) as [u e| |] eqn:E; cbn [x_lift] in H; try discriminate. injection H as -> -> ->. repeat split; auto. discriminate.
  - left. destruct (x_step (x_mark s k n) (XStep k i spur)) as [u e| |] eqn:E; cbn [x_lift] in H; try discriminate. injection H as -> <- ->. exists k, i, spur. auto.
Qed.

Lemma wi_step z tr l z' es : WI z tr -> z_step z l = Next z' es -> WI z' (tr ++ es).
Proof.
  intros HW H. destruct z as [s n], z' as [s' n']. pose proof (w_xi _ _ HW) as HI. pose proof (w_lv _ _ HW) as HL. pose proof (w_home _ _ HW) as Hh. cbn [fst snd] in HI, HL, Hh.
  destruct (z_base _ _ _ _ _ _ H) as [(k & i & spur & -> & -> & Hs)|[(v & i & -> & -> & Ec & Hs)|(-> & Hs & _)]].
  - pose proof (mark_xi _ _ k n HI) as HM. pose proof (xi_step _ _ _ _ _ HM Hs) as HI'. constructor; cbn [fst snd]; auto.
    + eapply lvin_step; [exact HM|exact HI'|apply mark_lvin; exact HL|exact Hs].
    + intros m Hm. eapply home_step; [exact HM|apply mark_lvin; exact HL|exact Hs|].
      destruct (Nat.eq_dec m n) as [->|Hne]; [|apply mark_home, Hh; lia].
      cbn [x_step] in Hs. unfold x_mark in *. destruct (nth_error (x_act s) k) as [[a v]|] eqn:Hk; [|rewrite Hk in Hs; discriminate].
      cbn [x_act x_set] in Hs. rewrite (nth_error_set_nth_same _ _ _ _ Hk) in Hs. left. exists a, (vadd v (TCall n)). cbn [x_act x_set].
      split; [eapply set_nth_new; eauto|]. split; [|now left]. destruct a; cbn; auto. discriminate.
  - pose proof (xi_step _ _ _ _ _ HI Hs) as HI'. constructor; cbn [fst snd]; auto.
    + exact (lvin_step _ _ _ _ _ _ HI HI' HL Hs).
    + intros m Hm. destruct (Nat.eq_dec m n) as [->|Hne]; [|apply (home_step _ _ _ _ _ _ HI HL Hs), Hh; lia].
      cbn [x_step] in Hs. change (cas_read false false (x_h s) (vadd v (TCall n)) i MNone) with (cas_read false false (x_h s) v i MNone) in Hs. rewrite Ec in Hs.
      injection Hs as <- <-. right; right; left. eexists. split; [apply in_or_app; right; left; reflexivity|]. apply tin_rmw. left. now left.
  - pose proof (xi_step _ _ _ _ _ HI Hs) as HI'. constructor; cbn [fst snd]; auto.
    + exact (lvin_step _ _ _ _ _ _ HI HI' HL Hs).
    + intros m Hm. exact (home_step _ _ _ _ _ _ HI HL Hs (Hh m Hm)).
Qed.
Lemma z_inv ls z tr : run z_step z_init ls = Running z tr -> WI z tr.
Proof. apply (run_inv z_step WI); [apply wi_init|intros; eapply wi_step; eauto]. Qed.
Lemma z_safe ls f tr : run z_step z_init ls <> Failed f tr.
Proof.
  intros H. eapply (run_safe z_step WI); eauto; [apply wi_init|intros; eapply wi_step; eauto|].
  intros [s n] t l f' es HW Hs. pose proof (w_xi _ _ HW) as HI. cbn [fst] in HI. destruct l as [o v|v i|j|j|k i spur]; cbn [z_step] in Hs.
  - destruct (x_step s (XStart o v)) eqn:E; cbn in Hs; try discriminate. exact (x_nofail _ _ _ _ _ HI E).
  - destruct (cas_read false false (x_h s) v i MNone).
    + destruct (x_step s (XTry (vadd v (TCall n)) i)) eqn:E; cbn in Hs; try discriminate. exact (x_nofail _ _ _ _ _ HI E).
    + destruct (x_step s (XTry v i)) eqn:E; cbn in Hs; try discriminate. exact (x_nofail _ _ _ _ _ HI E).
    + destruct (x_step s (XTry v i)) eqn:E; cbn in Hs; try discriminate. exact (x_nofail _ _ _ _ _ HI E).
  - destruct (x_step s (XAccess j)) eqn:E; cbn in Hs; try discriminate. exact (x_nofail _ _ _ _ _ HI E).
  - destruct (x_step s (XUnlock j)) eqn:E; cbn in Hs; try discriminate. exact (x_nofail _ _ _ _ _ HI E).
  - destruct (x_step (x_mark s k n) (XStep k i spur)) eqn:E; cbn in Hs; try discriminate. exact (x_nofail _ _ _ _ _ (mark_xi _ _ k n HI) E).
Qed.

(** ** The last call of unlock() *)
Definition giving (a : mact) : bool := match a with AUnl | AUnlCas | AUnlLock => true | _ => false end.
Definition ngive (s : xst) : Prop := forall a v, In (a, v) (x_act s) -> giving a = false.
(** an access is known to the k-th call, or made by a lock operation that does not have the mutex yet *)
Definition known (s : xst) (v : view) (m : nat) : Prop := tin (TCall m) v \/ exists a w, In (a, w) (x_act s) /\ pre a = true /\ tin (TCall m) w.
(** the k-th call still has the mutex; it has returned and the mutex is free; another thread has the mutex *)
Definition phase (k : nat) (z : xst * nat) : Prop :=
  (exists a v, nth_error (x_act (fst z)) k = Some (a, v) /\ giving a = true /\ forall j b w, nth_error (x_act (fst z)) j = Some (b, w) -> giving b = true -> j = k) \/
  (exists v, nth_error (x_act (fst z)) k = Some (AEnd, v) /\ ngive (fst z) /\ lastv (x_h (fst z)) = MNone /\ forall m, m < snd z -> known (fst z) v m) \/
  (ngive (fst z) /\ lastv (x_h (fst z)) <> MNone).

Lemma ngive_set (l : list (mact * view)) k a v : (forall b w, In (b, w) l -> giving b = false) -> giving a = false -> forall b w, In (b, w) (set_nth l k (a, v)) -> giving b = false.
Proof. intros H Ha b w Hb. apply In_set_nth in Hb. destruct Hb as [[= -> ->]|Hb]; eauto. Qed.

(** steps of a state in which nobody is giving up the mutex *)
Lemma ngive_act s tr k i spur a v s' es : XI s tr -> ngive s -> nth_error (x_act s) k = Some (a, v) -> x_act_step s k i spur a v = Next s' es ->
  ngive s' /\ (lastv (x_h s) <> MNone -> lastv (x_h s') <> MNone) /\
  (lastv (x_h s) = MNone -> lastv (x_h s') <> MNone \/ x_h s' = x_h s /\ pre a = true /\
     exists a' v', x_act s' = set_nth (x_act s) k (a', v') /\ pre a' = true /\ forall t, tin t v -> tin t v').
Proof.
  intros HI Hn Hk H. pose proof (nth_error_In _ _ Hk) as Hin. pose proof (Hn _ _ Hin) as Hg.
  assert (Htk : lastv (x_h s) = MNone -> tok a = 0).
  { intros E. apply (no_tok (x_act s)) with (v := v); auto. pose proof (x_token _ _ HI) as Et. rewrite E in Et. lia. }
  assert (Hs : forall a' v', giving a' = false -> forall b w, In (b, w) (set_nth (x_act s) k (a', v')) -> giving b = false) by (intros a' v' Ha; apply ngive_set; auto).
  unfold x_act_step in H. destruct a as [o|o|o x|o| | | |o|]; try discriminate.
  - destruct (cas_read false false (x_h s) v i MNone) as [|x|] eqn:Ec; try discriminate; injection H as <- <-; cbn [x_set x_hist x_h x_act].
    + split; [refine (Hs _ _ _); reflexivity|]. unfold rmw. rewrite lastv_snoc. split; intros; [discriminate|left; discriminate].
    + split; [refine (Hs _ _ _); reflexivity|]. split; [auto|]. intros E. right. repeat split; auto. exists (AWait o), (vsee v i). auto.
  - destruct (x_lock s); [discriminate|]. destruct (rd (x_h s) (vjoin v (x_lv s)) i) as [[x w]|]; [|discriminate]. injection H as <- <-. cbn [x_set x_locked x_h x_act].
    split; [refine (Hs _ _ _); reflexivity|]. split; [auto|]. intros E. right. repeat split; auto. eexists (ALoop o x), _. split; [reflexivity|]. split; [reflexivity|].
    intros t Ht. apply (tin_join t v (x_lv s)). auto.
  - destruct (x_loop _ _ HI _ _ _ Hin) as (_ & _ & L3). destruct x.
    + destruct (cas_read true spur (x_h s) v i MNone) as [|x|] eqn:Ec; try discriminate; injection H as <- <-; cbn [x_set x_hist x_locked x_h x_act].
      * split; [refine (Hs _ _ _); reflexivity|]. unfold rmw. rewrite lastv_snoc. split; intros; [discriminate|left; discriminate].
      * split; [refine (Hs _ _ _); reflexivity|]. split; [auto|]. intros E. right. repeat split; auto. exists (ALoop o x), (vsee v i). auto.
    + destruct (cas_read true spur (x_h s) v i MLocked) as [|x|] eqn:Ec; try discriminate.
      * unfold x_suspend in H. apply x_guard_next in H. injection H as <- <-. cbn [x_set x_hist x_locked x_wait x_h x_act].
        split; [refine (Hs _ _ _); reflexivity|]. unfold rmw. rewrite lastv_snoc. split; intros; [discriminate|left; discriminate].
      * injection H as <- <-. cbn [x_set x_h x_act]. split; [refine (Hs _ _ _); reflexivity|]. split; [auto|]. intros E. right. repeat split; auto. exists (ALoop o x), (vsee v i). auto.
    + unfold x_suspend in H. apply x_guard_next in H. injection H as <- <-. cbn [x_set x_hist x_locked x_wait x_h x_act].
      split; [refine (Hs _ _ _); reflexivity|]. split; [auto|]. intros E. rewrite (L3 eq_refl) in E. discriminate.
  - unfold x_notify in H. apply x_guard_next in H. injection H as <- <-. cbn [x_h x_act]. split; [refine (Hs _ _ _); reflexivity|]. split; [auto|]. intros E. specialize (Htk E). discriminate.
  - unfold x_notify in H. apply x_guard_next in H. injection H as <- <-. cbn [x_h x_act]. split; [refine (Hs _ _ _); reflexivity|]. split; [auto|]. intros E. specialize (Htk E). discriminate.
Qed.

(** steps of the call that gives up the mutex *)
Lemma give_act s tr k i spur a v s' es : XI s tr -> giving a = true -> nth_error (x_act s) k = Some (a, v) -> x_act_step s k i spur a v = Next s' es ->
  exists a' v', x_act s' = set_nth (x_act s) k (a', v') /\
  (giving a' = true \/ (giving a' = false /\ lastv (x_h s') <> MNone) \/ (a' = AEnd /\ lastv (x_h s') = MNone /\ x_w s = [] /\ forall t, tin t v -> tin t v')).
Proof.
  intros HI Hg Hk H. pose proof (nth_error_In _ _ Hk) as Hin. unfold x_act_step in H. destruct a as [o|o|o x|o| | | |o|]; try discriminate.
  - destruct (rd (x_h s) v i) as [[x w]|]; [|discriminate]. destruct x; try discriminate; injection H as <- <-; eexists _, _; cbn [x_set x_act]; (split; [reflexivity|auto]).
  - destruct (cas_read false false (x_h s) v i MLocked) as [|x|] eqn:Ec; try discriminate.
    + injection H as <- <-. apply cas_ok in Ec. destruct Ec as [Hst _]. eexists _, _. cbn [x_set x_hist x_act x_h]. split; [reflexivity|]. right; right.
      unfold rmw. rewrite lastv_snoc. repeat split; auto. apply (w_none _ _ HI); congruence.
    + destruct x; try discriminate. injection H as <- <-. eexists _, _. cbn [x_set x_act]. split; [reflexivity|auto].
  - destruct (x_lock s); [discriminate|]. destruct (x_w s) as [|o w]; [discriminate|]. apply x_guard_next in H. pose proof (x_unlk _ _ HI _ Hin) as Hc. destruct w.
    + destruct (v_ts (vjoin v (x_lv s)) =? newest (x_h s)); [|discriminate]. injection H as <- <-. eexists _, _. cbn [x_set x_hist x_locked x_wait x_act x_h]. split; [reflexivity|].
      right; left. split; [reflexivity|]. unfold store_rlx. rewrite lastv_snoc. discriminate.
    + injection H as <- <-. eexists _, _. cbn [x_set x_hist x_locked x_wait x_act x_h]. split; [reflexivity|]. right; left. split; [reflexivity|congruence].
Qed.

(** the other steps do not change calls in flight *)
Lemma act_other s l s' es : x_step s l = Next s' es -> (forall k i spur, l <> XStep k i spur) -> (forall j, l <> XUnlock j) ->
  (x_act s' = x_act s \/ exists o v, x_act s' = x_act s ++ [(ATry o, v)]) /\ (x_h s' = x_h s \/ lastv (x_h s') <> MNone /\ exists v i, l = XTry v i).
Proof.
  intros H H1 H2. destruct l as [o v|v i|j|j|k i spur]; cbn [x_step] in H; [| | |destruct (H2 j eq_refl)|destruct (H1 k i spur eq_refl)].
  - destruct (x_op s o); try discriminate. destruct (v_ts v <? length (x_h s)); [|discriminate]. injection H as <- <-. cbn. split; [right; eexists _, _; reflexivity|now left].
  - destruct (cas_read false false (x_h s) v i MNone); try discriminate; injection H as <- <-; cbn [x_act x_h]; split; auto.
    right. unfold rmw. rewrite lastv_snoc. split; [discriminate|eauto].
  - destruct (nth_error (x_own s) j); [|discriminate]. injection H as <- <-. cbn. auto.
Qed.

Lemma nth_snoc_old {A} (l : list A) x k y : nth_error l k = Some y -> nth_error (l ++ [x]) k = Some y.
Proof. intros H. rewrite nth_error_app1; auto. apply nth_error_Some. congruence. Qed.


Lemma act_set s k i spur a v s' es : x_act_step s k i spur a v = Next s' es -> exists a' v', x_act s' = set_nth (x_act s) k (a', v') /\ (giving a' = true -> giving a = true).
Proof.
  intros H. unfold x_act_step in H. destruct a as [o|o|o x|o| | | |o|]; try discriminate; unfold x_suspend, x_notify in H;
    repeat (match type of H with
            | x_guard _ _ _ _ = _ => apply x_guard_next in H
            | context [match ?b with _ => _ end] => lazymatch b with context [match _ with _ => _ end] => fail | _ => destruct b eqn:? end
            end; try discriminate);
    injection H as <- <-; eexists _, _; (split; [reflexivity|]); auto; discriminate.
Qed.

(** the access is recorded *)
Lemma phase_mark k s n tr j i spur s' es : XI s tr -> phase k (s, n) -> x_step (x_mark s j n) (XStep j i spur) = Next s' es -> phase k (x_mark s j n, S n).
Proof.
  intros HI HP H. unfold x_mark in *. destruct (nth_error (x_act s) j) as [[a v]|] eqn:Hj; [|cbn [x_step] in H; rewrite Hj in H; discriminate].
  cbn [x_step x_set x_act] in H. rewrite (nth_error_set_nth_same _ _ _ _ Hj) in H. set (v1 := vadd v (TCall n)) in *.
  destruct HP as [(b & w & Hk & Hg & Ho)|[(w & Hk & Hn & Hst & Hm)|(Hn & Hst)]]; cbn [fst snd] in *; unfold phase; cbn [fst snd x_set x_act x_h].
  - left. destruct (Nat.eq_dec j k) as [->|Hne].
    + assert (E : (b, w) = (a, v)) by congruence. injection E as -> ->. exists a, v1. split; [eapply nth_error_set_nth_same; eauto|]. split; auto.
      intros i' c u Hi. destruct (Nat.eq_dec i' k); auto. rewrite nth_error_set_nth_other in Hi by auto. eauto.
    + exists b, w. rewrite nth_error_set_nth_other by auto. split; auto. split; auto. intros i' c u Hi Hc. destruct (Nat.eq_dec j i') as [<-|Hne'].
      * rewrite (nth_error_set_nth_same _ _ _ _ Hj) in Hi. injection Hi as <- <-. eauto.
      * rewrite nth_error_set_nth_other in Hi by auto. eauto.
  - assert (Ht : tok a = 0). { apply (no_tok (x_act s)) with (v := v); [|eapply nth_error_In; eauto]. pose proof (x_token _ _ HI) as Et. rewrite Hst in Et. lia. }
    destruct (Nat.eq_dec j k) as [->|Hne]; [assert (a = AEnd) by congruence; subst a; discriminate|].
    right; left. exists w. rewrite nth_error_set_nth_other by auto. split; auto. split; [intros c u Hc; apply In_set_nth in Hc; destruct Hc as [[= -> ->]|Hc]; eauto using nth_error_In|].
    split; auto. intros m Hlt. destruct (Nat.eq_dec m n) as [->|Hmn].
    + right. exists a, v1. cbn [x_act]. split; [eapply set_nth_new; eauto|]. split; [|now left]. destruct a; try discriminate; reflexivity.
    + destruct (Hm m ltac:(lia)) as [Hm1|(c & u & Hi & Hc & Hu)]; [now left|right]. cbn [x_act].
      destruct (set_nth_keep _ j (a, v1) _ _ Hj Hi) as [[= -> ->]|Hi2]; [exists a, v1|exists c, u; auto]. split; [eapply set_nth_new; eauto|]. split; auto. now right.
  - right; right. split; auto. intros c u Hc. apply In_set_nth in Hc. destruct Hc as [[= -> ->]|Hc]; eauto using nth_error_In.
Qed.

(** a step of a call *)
Lemma phase_act k s n tr j i spur s' es : XI s tr -> (forall m, m < n -> home s (TCall m)) -> phase k (s, n) -> x_step s (XStep j i spur) = Next s' es -> phase k (s', n).
Proof.
  intros HI Hh HP H. cbn [x_step] in H. destruct (nth_error (x_act s) j) as [[a v]|] eqn:Hj; [|discriminate].
  destruct HP as [(b & w & Hk & Hg & Ho)|[(w & Hk & Hn & Hst & Hm)|(Hn & Hst)]]; cbn [fst snd] in *; unfold phase; cbn [fst snd].
  - destruct (Nat.eq_dec j k) as [->|Hne].
    + assert (E : (b, w) = (a, v)) by congruence. injection E as -> ->. destruct (only_k _ _ _ _ _ HI Hj ltac:(destruct a; try discriminate; reflexivity)) as (Hown & _ & Hst & Hoth).
      assert (Hother : forall i' c u, i' <> k -> nth_error (x_act s) i' = Some (c, u) -> giving c = false).
      { intros i' c u Hi Hc. destruct (giving c) eqn:E; auto. elim Hi. eapply Ho; eauto. }
      destruct (give_act _ _ _ _ _ _ _ _ _ HI Hg Hj H) as (a' & v' & Ea & [Hg'|[(Hg' & Hl)|(-> & Hl & Hw & Hv)]]).
      * left. exists a', v'. rewrite Ea. split; [eapply nth_error_set_nth_same; eauto|]. split; auto.
        intros i' c u Hi Hc. destruct (Nat.eq_dec i' k); auto. rewrite nth_error_set_nth_other in Hi by auto. eauto.
      * right; right. split; auto. intros c u Hc. rewrite Ea in Hc. apply (set_nth_cases _ _ _ _ _ Hj) in Hc. destruct Hc as [[= -> ->]|(i' & Hi' & Hc)]; eauto.
      * right; left. exists v'. rewrite Ea. split; [eapply nth_error_set_nth_same; eauto|].
        split; [intros c u Hc; rewrite Ea in Hc; apply (set_nth_cases _ _ _ _ _ Hj) in Hc; destruct Hc as [[= -> ->]|(i' & Hi' & Hc)]; eauto|]. split; auto.
        intros m Hlt. destruct (Hh m Hlt) as [(c & u & Hi & Hc & Hu)|[(Hw' & _)|[(u & Hu & _)|(E & _)]]]; [|congruence|rewrite Hown in Hu; destruct Hu|congruence].
        destruct (set_nth_keep _ k (AEnd, v') _ _ Hj Hi) as [[= -> ->]|Hi2]; [left; auto|right]. exists c, u. rewrite Ea. split; auto. split; auto.
        destruct Hc as [Hc|Hc]; auto. apply In_nth_error in Hi. destruct Hi as [i' Hi]. destruct (Nat.eq_dec i' k) as [->|Hik].
        -- assert (E : (c, u) = (a, v)) by congruence. injection E as -> ->. exfalso. apply (set_nth_cases _ _ _ _ _ Hj) in Hi2. destruct Hi2 as [[= E1 E2]|(i2 & Hi2 & E2)]; [subst a; discriminate|].
           rewrite (Hoth _ _ _ Hi2 E2) in Hc. discriminate.
        -- rewrite (Hoth _ _ _ Hik Hi) in Hc. discriminate.
    + destruct (act_set _ _ _ _ _ _ _ _ H) as (a' & v' & Ea & Ha'). left. exists b, w. rewrite Ea, nth_error_set_nth_other by auto. split; auto. split; auto.
      intros i' c u Hi Hc. destruct (Nat.eq_dec j i') as [<-|Hne'].
      * rewrite (nth_error_set_nth_same _ _ _ _ Hj) in Hi. injection Hi as <- <-. eauto.
      * rewrite nth_error_set_nth_other in Hi by auto. eauto.
  - destruct (Nat.eq_dec j k) as [->|Hne]; [assert (a = AEnd) by congruence; subst a; discriminate|].
    destruct (ngive_act _ _ _ _ _ _ _ _ _ HI Hn Hj H) as (Hn' & _ & Hc). destruct (Hc Hst) as [Hl|(Eh & Hp & a' & v' & Ea & Hp' & Hv)]; [right; right; auto|].
    right; left. exists w. rewrite Ea, nth_error_set_nth_other by auto. split; auto. split; auto. split; [congruence|].
    intros m Hlt. destruct (Hm m Hlt) as [Hm1|(c & u & Hi & Hcc & Hu)]; [now left|right]. rewrite Ea.
    destruct (set_nth_keep _ j (a', v') _ _ Hj Hi) as [[= -> ->]|Hi2]; [exists a', v'|exists c, u; auto]. split; [eapply set_nth_new; eauto|]. auto.
  - destruct (ngive_act _ _ _ _ _ _ _ _ _ HI Hn Hj H) as (Hn' & Hl & _). right; right. auto.
Qed.

(** the other steps *)
Lemma phase_other k s n n' l s' es : phase k (s, n) -> x_step s l = Next s' es -> (forall j i spur, l <> XStep j i spur) -> (forall j, l <> XUnlock j) ->
  (n' = n \/ lastv (x_h s') <> MNone) -> phase k (s', n').
Proof.
  intros HP H H1 H2 Hn'. destruct (act_other _ _ _ _ H H1 H2) as [Ha Hh].
  assert (Hng : ngive s -> ngive s').
  { intros Hn a v Hi. destruct Ha as [Ha|(o & u & Ha)]; rewrite Ha in Hi; [eauto|]. apply In_snoc in Hi. destruct Hi as [Hi|[= -> ->]]; eauto. }
  assert (Hnth : forall j b w, nth_error (x_act s) j = Some (b, w) -> nth_error (x_act s') j = Some (b, w)).
  { intros j b w Hj. destruct Ha as [->|(o & u & ->)]; auto. now apply nth_snoc_old. }
  destruct HP as [(b & w & Hk & Hg & Ho)|[(w & Hk & Hn & Hst & Hm)|(Hn & Hst)]]; cbn [fst snd] in *; unfold phase; cbn [fst snd].
  - left. exists b, w. split; auto. split; auto. intros j c u Hj Hc. destruct Ha as [Ha|(o & u' & Ha)]; rewrite Ha in Hj; [eauto|].
    apply nth_snoc_cases in Hj. destruct Hj as [[_ Hj]|[_ [= -> ->]]]; [eauto|discriminate].
  - destruct Hh as [Hh|[Hl _]]; [|right; right; auto]. destruct Hn' as [->|Hl]; [|congruence]. right; left. exists w. split; auto. split; auto. split; [congruence|].
    intros m Hlt. destruct (Hm m Hlt) as [Hm1|(c & u & Hi & Hc & Hu)]; [now left|right]. exists c, u. split; auto.
    destruct Ha as [->|(o & u' & ->)]; auto. apply in_or_app. auto.
  - right; right. split; auto. destruct Hh as [->|[Hl _]]; auto.
Qed.

Lemma phase_z k z tr l z' es : WI z tr -> phase k z -> z_step z l = Next z' es -> (forall j, l <> XUnlock j) -> phase k z'.
Proof.
  intros HW HP H Hl. destruct z as [s n], z' as [s' n']. pose proof (w_xi _ _ HW) as HI. cbn [fst] in HI.
  destruct (z_base _ _ _ _ _ _ H) as [(j & i & spur & -> & -> & Hs)|[(v & i & -> & -> & Ec & Hs)|(-> & Hs & Hx)]].
  - pose proof (phase_mark _ _ _ _ _ _ _ _ _ HI HP Hs) as HP1. eapply phase_act; [apply mark_xi; exact HI| |exact HP1|exact Hs].
    intros m Hm. destruct (Nat.eq_dec m n) as [->|Hne]; [|apply mark_home, (w_home _ _ HW); cbn; lia].
    cbn [x_step] in Hs. unfold x_mark in *. destruct (nth_error (x_act s) j) as [[a v]|] eqn:Hj; [|rewrite Hj in Hs; discriminate].
    cbn [x_act x_set] in Hs. rewrite (nth_error_set_nth_same _ _ _ _ Hj) in Hs. left. exists a, (vadd v (TCall n)). cbn [x_act x_set].
    split; [eapply set_nth_new; eauto|]. split; [|now left]. destruct a; cbn; auto. discriminate.
  - eapply phase_other; [exact HP|exact Hs|discriminate|discriminate|]. right.
    cbn [x_step] in Hs. change (cas_read false false (x_h s) (vadd v (TCall n)) i MNone) with (cas_read false false (x_h s) v i MNone) in Hs. rewrite Ec in Hs.
    injection Hs as <- <-. cbn [x_h]. unfold rmw. rewrite lastv_snoc. discriminate.
  - eapply phase_other; eauto.
Qed.
Lemma phase_run k ls : forall z tr z' tr', WI z tr -> phase k z -> (forall j, ~ In (XUnlock j) ls) -> run_from z_step z tr ls = Running z' tr' -> phase k z'.
Proof.
  induction ls as [|l ls IH]; intros z tr z' tr' HW HP Hn Hr; cbn [run_from] in Hr; [injection Hr as <- <-; exact HP|].
  destruct (z_step z l) as [z1 es| |] eqn:Hs; try discriminate. apply (IH z1 (tr ++ es) z' tr'); auto.
  - eapply wi_step; eauto.
  - eapply phase_z; eauto. intros j ->. apply (Hn j). now left.
  - intros j Hj. apply (Hn j). now right.
Qed.


(** operations and the trace *)
Record OI (s : xst) (tr : list wevent) : Prop := {
  oi_st : forall o, x_op s o <> OIdle -> In o (started_ops (api tr));
  oi_acq : forall o, In o (acquired (api tr)) -> x_op s o = ODone
}.
Lemma api_app a b : api (a ++ b) = api a ++ api b.
Proof. apply flat_map_app. Qed.
Lemma started_app a b : started_ops (a ++ b) = started_ops a ++ started_ops b.
Proof. apply flat_map_app. Qed.
Lemma acquired_app a b : acquired (a ++ b) = acquired a ++ acquired b.
Proof. apply flat_map_app. Qed.
Lemma oi_same s s' tr es : OI s tr -> x_op s' = x_op s -> acquired (api es) = [] -> OI s' (tr ++ es).
Proof.
  intros [H1 H2] E Ea. constructor; rewrite E, api_app.
  - intros o Ho. rewrite started_app. apply in_or_app. auto.
  - intros o. rewrite acquired_app, Ea, app_nil_r. auto.
Qed.
Lemma oi_note s s' tr o : OI s tr -> x_op s o = OStarted -> x_op s' = upd (x_op s) o ODone -> OI s' (tr ++ [EL (EAcq o true)]).
Proof.
  intros [H1 H2] Ho E. constructor; rewrite E, api_app; cbn [api flat_map app]; intros o'.
  - rewrite started_app. cbn [started_ops flat_map app]. rewrite app_nil_r. unfold upd. destruct (Nat.eqb_spec o' o) as [->|]; [intros _; apply H1; congruence|auto].
  - rewrite acquired_app, in_app_iff. cbn [acquired flat_map app]. unfold upd. destruct (Nat.eqb_spec o' o) as [->|Hne]; auto. intros [H|[H|[]]]; auto. congruence.
Qed.
Lemma oi_step s tr l s' es : XI s tr -> OI s tr -> x_step s l = Next s' es -> OI s' (tr ++ es).
Proof.
  intros HI HO H. destruct l as [o v|v i|j|j|k i spur]; cbn [x_step] in H.
  - destruct (x_op s o) eqn:Eo; try discriminate. destruct (v_ts v <? length (x_h s)); [|discriminate]. injection H as <- <-. destruct HO as [H1 H2].
    constructor; cbn [x_op]; rewrite api_app; cbn [api flat_map app]; intros o'; unfold upd.
    + rewrite started_app, in_app_iff. cbn [started_ops flat_map app]. destruct (Nat.eqb_spec o' o) as [->|]; [intros _; right; now left|auto].
    + rewrite acquired_app. cbn [acquired flat_map app]. rewrite app_nil_r. intros Ha. apply H2 in Ha. destruct (Nat.eqb_spec o' o) as [->|]; congruence.
  - destruct (cas_read false false (x_h s) v i MNone); try discriminate; injection H as <- <-; eapply oi_same; eauto.
  - destruct (nth_error (x_own s) j); [|discriminate]. injection H as <- <-; eapply oi_same; eauto.
  - destruct (nth_error (x_own s) j); [|discriminate]. injection H as <- <-; eapply oi_same; eauto.
  - destruct (nth_error (x_act s) k) as [[a v]|] eqn:Ek; [|discriminate].
    assert (Hnote : forall o, In o (aop a) -> x_op s o = OStarted) by (intros o Ho; eapply place_started; eauto).
    unfold x_act_step in H. destruct a as [o|o|o x|o| | | |o|]; try discriminate; unfold x_suspend, x_notify in H;
    repeat (match type of H with
            | x_guard _ _ _ _ = _ => apply x_guard_next in H
            | context [match ?b with _ => _ end] => lazymatch b with context [match _ with _ => _ end] => fail | _ => destruct b eqn:? end
            end; try discriminate);
    injection H as <- <-; try (eapply oi_same; eauto; fail); eapply oi_note; eauto; apply Hnote; now left.
Qed.

Lemma z_ops ls z tr : run z_step z_init ls = Running z tr -> WI z tr /\ OI (fst z) tr.
Proof.
  apply (run_inv z_step (fun z tr => WI z tr /\ OI (fst z) tr)).
  - split; [apply wi_init|]. constructor; cbn; [congruence|tauto].
  - intros [s n] t l [s' n'] es [HW HO] Hs. split; [eapply wi_step; eauto|]. pose proof (w_xi _ _ HW) as HI. cbn [fst] in *.
    destruct (z_base _ _ _ _ _ _ Hs) as [(j & i & spur & -> & -> & Hx)|[(v & i & -> & -> & Ec & Hx)|(-> & Hx & _)]].
    + eapply oi_step; [apply mark_xi; exact HI| |exact Hx]. unfold x_mark. destruct (nth_error (x_act s) j) as [[a v]|]; [constructor; apply HO|exact HO].
    + eapply oi_step; eauto.
    + eapply oi_step; eauto.
Qed.

Theorem z_destroy ls1 s1 n1 tr1 j ls2 s n tr v : run z_step z_init ls1 = Running (s1, n1) tr1 -> run z_step z_init (ls1 ++ XUnlock j :: ls2) = Running (s, n) tr ->
  (forall i, ~ In (XUnlock i) ls2) -> nth_error (x_act s) (length (x_act s1)) = Some (AEnd, v) ->
  incl (started_ops (api tr)) (acquired (api tr)) -> acqs true (api tr) = unls true (api tr) -> forall m, m < n -> In (TCall m) (v_tok v).
Proof.
  intros H1 H2 Hn Hk Hall Heq m Hm. destruct (z_ops _ _ _ H2) as [HW HO]. cbn [fst] in HO. destruct (z_ops _ _ _ H1) as [HW1 _].
  pose proof (w_xi _ _ HW) as HI. pose proof (w_xi _ _ HW1) as HI1. cbn [fst] in HI, HI1. unfold run in H1, H2. rewrite run_from_app, H1 in H2. cbn [run_from z_step x_step] in H2.
  destruct (nth_error (x_own s1) j) as [w|] eqn:Hj; [|discriminate]. cbn [x_lift] in H2. destruct (one_owner _ _ _ _ HI1 Hj) as (Hown & -> & Hno).
  assert (HP : phase (length (x_act s1)) (s, n)).
  { eapply phase_run; [|  |exact Hn|exact H2].
    - apply (wi_step _ _ (XUnlock 0) _ _ HW1). cbn [z_step x_step]. rewrite Hj. reflexivity.
    - left. cbn [fst x_act]. exists AUnl, w. rewrite nth_error_app2, Nat.sub_diag by auto. split; [reflexivity|]. split; [reflexivity|].
      intros i b u Hi Hb. apply nth_snoc_cases in Hi. destruct Hi as [[_ Hi]|[-> _]]; auto. apply nth_error_In, Hno in Hi. destruct b; discriminate. }
  assert (Hnone : forall a u o, In (a, u) (x_act s) -> ~ In o (aop a)).
  { intros a u o Hi Ho. apply In_nth_error in Hi. destruct Hi as [i Hi]. pose proof (place_started _ _ _ _ _ _ HI Hi Ho) as E.
    assert (Ha : In o (acquired (api tr))) by (apply Hall, (oi_st _ _ HO); congruence). apply (oi_acq _ _ HO) in Ha. congruence. }
  destruct HP as [(a & u & Ha & Hg & _)|[(u & Ha & _ & _ & Hu)|(Hng & Hst)]]; cbn [fst snd] in *.
  - rewrite Hk in Ha. injection Ha as <- <-. discriminate.
  - rewrite Hk in Ha. injection Ha as <-. destruct (Hu m Hm) as [Ht|(a & x & Hi & Hp & _)]; [exact Ht|]. exfalso.
    destruct a as [o|o|o y|o| | | |o|]; try discriminate; apply (Hnone _ _ o Hi); now left.
  - exfalso. pose proof (x_tr _ _ HI) as E. rewrite Heq in E. assert (El : length (x_own s) = 0) by lia. pose proof (x_token _ _ HI) as Et. rewrite El in Et.
    assert (Es : sum (map (fun p : mact * view => tok (fst p)) (x_act s)) = 1) by (destruct (lastv (x_h s)); try congruence; lia).
    assert (Hz : sum (map (fun p : mact * view => tok (fst p)) (x_act s)) = 0); [|lia]. apply sum_map_0. intros [a u] Hi. cbn [fst].
    pose proof (Hng _ _ Hi) as Hg. destruct a as [o|o|o y|o| | | |o|]; try reflexivity; try discriminate; elim (Hnone _ _ o Hi); now left.
Qed.
