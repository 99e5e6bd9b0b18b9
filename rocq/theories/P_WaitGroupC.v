(** Proofs about wait_group with cancellation under the C++ memory model. *)
From Coq Require Import List Arith Bool Lia.
From Verif Require Import Lts ListFacts M_Wait S_Wait P_Wait M_WaitGroupC S_WaitGroupC.
Import ListNotations.

(** ** Units *)
Definition open_at (i : nat) (w : yunit) : nat := if negb (u_fin w) && (u_pos w <=? i) then 1 else 0.
(** the units of the value at position i that were not ended yet *)
Definition left_at (i : nat) (l : list yunit) : nat := sum (map (open_at i) l).

Lemma left_app i l1 l2 : left_at i (l1 ++ l2) = left_at i l1 + left_at i l2.
Proof. unfold left_at. rewrite map_app. apply sum_app. Qed.
Lemma left_repeat i p n : left_at i (repeat (YU p false false) n) = if p <=? i then n else 0.
Proof. induction n as [|n IH]; cbn; [destruct (p <=? i); reflexivity|]. unfold left_at in IH. rewrite IH. unfold open_at; cbn. destruct (p <=? i); reflexivity. Qed.
Lemma left_call i l u : left_at i (y_call l u) = left_at i l.
Proof.
  unfold y_call. destruct (nth_error l u) as [w|] eqn:E; [|reflexivity]. unfold left_at.
  pose proof (sum_map_set_nth (open_at i) l u (YU (u_pos w) true (u_fin w)) w E) as H.
  assert (E2 : open_at i (YU (u_pos w) true (u_fin w)) = open_at i w) by reflexivity. lia.
Qed.
Lemma left_end i l u w : nth_error l u = Some w -> left_at i (y_end l u) + open_at i w = left_at i l.
Proof.
  intros E. unfold y_end. rewrite E. unfold left_at.
  pose proof (sum_map_set_nth (open_at i) l u (YU (u_pos w) (u_called w) true) w E) as H.
  assert (E2 : open_at i (YU (u_pos w) (u_called w) true) = 0) by reflexivity. lia.
Qed.
Lemma left_In i l w : In w l -> u_fin w = false -> u_pos w <= i -> left_at i l > 0.
Proof.
  intros Hi Hf Hp. pose proof (sum_map_le (open_at i) l w Hi) as H. unfold left_at.
  unfold open_at in H at 1. rewrite Hf in H. cbn in H. apply Nat.leb_le in Hp. rewrite Hp in H. lia.
Qed.
Lemma left_mono i j l : i <= j -> left_at i l <= left_at j l.
Proof.
  intros H. unfold left_at. apply sum_map_mono. intros w _. unfold open_at. destruct (u_fin w); cbn; auto.
  destruct (Nat.leb_spec (u_pos w) i), (Nat.leb_spec (u_pos w) j); lia.
Qed.

Lemma nth_call l u v : nth_error (y_call l u) v = if v =? u then match nth_error l u with Some w => Some (YU (u_pos w) true (u_fin w)) | None => None end else nth_error l v.
Proof.
  unfold y_call. destruct (nth_error l u) as [w|] eqn:E.
  - destruct (Nat.eqb_spec v u) as [->|H]; [now apply (nth_error_set_nth_same _ _ _ w)|apply nth_error_set_nth_other; auto].
  - destruct (Nat.eqb_spec v u) as [->|H]; auto.
Qed.
Lemma nth_end l u v : nth_error (y_end l u) v = if v =? u then match nth_error l u with Some w => Some (YU (u_pos w) (u_called w) true) | None => None end else nth_error l v.
Proof.
  unfold y_end. destruct (nth_error l u) as [w|] eqn:E.
  - destruct (Nat.eqb_spec v u) as [->|H]; [now apply (nth_error_set_nth_same _ _ _ w)|apply nth_error_set_nth_other; auto].
  - destruct (Nat.eqb_spec v u) as [->|H]; auto.
Qed.
Lemma call_length l u : length (y_call l u) = length l.
Proof. unfold y_call. destruct (nth_error l u); [apply set_nth_length|reflexivity]. Qed.
Lemma end_length l u : length (y_end l u) = length l.
Proof. unfold y_end. destruct (nth_error l u); [apply set_nth_length|reflexivity]. Qed.

(** ** The invariant of the primitive *)
Record yinv (s : yst) : Prop := YI {
  yi_nodup : NoDup (y_q s);
  yi_lo : y_lo s < length (y_h s);
  yi_mono : forall i j, y_lo s <= i -> i <= j -> j < length (y_h s) -> y_val s i > 0 -> y_val s j > 0;
  yi_q : y_q s <> [] -> y_val s (y_lo s) > 0;
  yi_pos : forall u w, nth_error (y_un s) u = Some w -> u_pos w < length (y_h s);
  yi_left : forall i, i < length (y_h s) -> left_at i (y_un s) <= y_val s i;
  yi_new : left_at (y_newest s) (y_un s) = y_val s (y_newest s);
  yi_dn : forall k u pc p, nth_error (y_dn s) k = Some (u, pc, p) -> p < length (y_h s) /\
            (exists w, nth_error (y_un s) u = Some w /\ u_pos w <= p /\ u_called w = true /\ (u_fin w = true <-> pc = YEnd)) /\ (forall x, pc = YLoop x -> x > 0);
  yi_uniq : NoDup (map (fun d => fst (fst d)) (y_dn s));
  yi_called : forall u w, nth_error (y_un s) u = Some w -> u_called w = true -> exists pc p, In (u, pc, p) (y_dn s);
  yi_fin : forall u w, nth_error (y_un s) u = Some w -> u_fin w = true -> u_called w = true
}.

Lemma read_range s p i : yinv s -> y_lo s <= y_read s p i < length (y_h s).
Proof.
  intros H. pose proof (yi_lo _ H) as Hl. unfold y_read, y_newest.
  destruct ((p <=? i) && (y_lo s <=? i) && (i <? length (y_h s))) eqn:E; [|lia].
  apply andb_true_iff in E as [E E1]. apply andb_true_iff in E as [_ E2]. apply Nat.leb_le in E2. apply Nat.ltb_lt in E1. lia.
Qed.
Lemma read_known s p i : yinv s -> p < length (y_h s) -> p <= y_read s p i.
Proof.
  intros H Hp. unfold y_read, y_newest.
  destruct ((p <=? i) && (y_lo s <=? i) && (i <? length (y_h s))) eqn:E; [|lia].
  apply andb_true_iff in E as [E E1]. apply andb_true_iff in E as [E2 _]. now apply Nat.leb_le in E2.
Qed.

Lemma val_app s (v i : nat) : nth i (y_h s ++ [v]) 0 = if i =? length (y_h s) then v else y_val s i.
Proof.
  unfold y_val. destruct (Nat.eqb_spec i (length (y_h s))) as [->|E]; [apply nth_middle|].
  destruct (Nat.lt_ge_cases i (length (y_h s))) as [Hl|Hl]; [now apply app_nth1|].
  rewrite !nth_overflow; auto; rewrite ?app_length; cbn; lia.
Qed.
Lemma val_last s v lo q can un dn : let s' := YS (y_h s ++ [v]) lo q can un dn in y_val s' (y_newest s') = v.
Proof. unfold y_newest. unfold y_val; cbn [y_h]. rewrite app_length. cbn [length]. rewrite Nat.add_sub, val_app, Nat.eqb_refl. reflexivity. Qed.
Lemma newest_lt s : yinv s -> y_newest s < length (y_h s) /\ length (y_h s) = S (y_newest s).
Proof. intros H. pose proof (yi_lo _ H). unfold y_newest. lia. Qed.

Lemma left_all s i : yinv s -> y_newest s <= i -> left_at i (y_un s) = y_val s (y_newest s).
Proof.
  intros H Hi. rewrite <- (yi_new _ H). unfold left_at. apply sum_map_ext. intros w Hw. apply In_nth_error in Hw as (u & Hu).
  pose proof (yi_pos _ H _ _ Hu) as Hp. unfold open_at. destruct (newest_lt s H) as [_ Hl].
  destruct (Nat.leb_spec (u_pos w) i), (Nat.leb_spec (u_pos w) (y_newest s)); auto; lia.
Qed.

(** the state in which only fields change that the invariant does not mention or that only shrink the queue *)
Lemma yinv_queue s lo q can : yinv s -> NoDup q -> y_lo s <= lo -> lo < length (y_h s) -> (q <> [] -> y_val s lo > 0) ->
  yinv (YS (y_h s) lo q can (y_un s) (y_dn s)).
Proof.
  intros H Hq Hl Hl2 Hv. destruct H. constructor; cbn; auto.
  intros i j Hi Hj Hj2. apply yi_mono0; auto. lia.
Qed.

(** a message is appended *)
Lemma yinv_append s v lo q un dn :
  yinv s -> NoDup q ->
  (lo = length (y_h s) \/ lo = y_lo s /\ (y_val s (y_newest s) > 0 -> v > 0) /\ (q <> [] -> y_val s lo > 0)) ->
  (lo = length (y_h s) -> q <> [] -> v > 0) ->
  (forall u w, nth_error un u = Some w -> u_pos w < S (length (y_h s))) ->
  (forall i, i < length (y_h s) -> left_at i un <= left_at i (y_un s)) ->
  left_at (length (y_h s)) un = v ->
  (forall k u pc p, nth_error dn k = Some (u, pc, p) -> p < S (length (y_h s)) /\
     (exists w, nth_error un u = Some w /\ u_pos w <= p /\ u_called w = true /\ (u_fin w = true <-> pc = YEnd)) /\ (forall x, pc = YLoop x -> x > 0)) ->
  NoDup (map (fun d => fst (fst d)) dn) ->
  (forall u w, nth_error un u = Some w -> u_called w = true -> exists pc p, In (u, pc, p) dn) ->
  (forall u w, nth_error un u = Some w -> u_fin w = true -> u_called w = true) ->
  yinv (YS (y_h s ++ [v]) lo q (y_can s) un dn).
Proof.
  intros H Hnd Hlo Hqv Hpos Hleft Hnew Hdn Hun Hcal Hfin. destruct (newest_lt s H) as [Hn1 Hn2]. pose proof (yi_lo _ H) as Hl.
  assert (Hlen : length (y_h s ++ [v]) = S (length (y_h s))) by (rewrite app_length; cbn; lia).
  constructor; cbn [y_h y_lo y_q y_un y_dn]; rewrite ?Hlen; auto.
  - destruct Hlo as [->|[-> _]]; lia.
  - intros i j Hi Hj Hj2. unfold y_val at 1 2; cbn [y_h]. rewrite !val_app.
    destruct (Nat.eqb_spec i (length (y_h s))) as [Ei|Ei], (Nat.eqb_spec j (length (y_h s))) as [Ej|Ej]; auto; try lia.
    + destruct Hlo as [->|(-> & Hv & _)]; [lia|]. intros Hp. apply Hv. apply (yi_mono _ H i); auto; lia.
    + destruct Hlo as [->|(-> & Hv & _)]; [lia|]. intros Hp. apply (yi_mono _ H i); auto; lia.
  - intros Hq. unfold y_val; cbn [y_h]. rewrite val_app. destruct (Nat.eqb_spec lo (length (y_h s))) as [El|El]; auto.
    destruct Hlo as [->|(_ & _ & Hv)]; auto. congruence.
  - intros i Hi. unfold y_val; cbn [y_h]. rewrite val_app. destruct (Nat.eqb_spec i (length (y_h s))) as [->|Ei]; [lia|].
    assert (i < length (y_h s)) by lia. pose proof (yi_left _ H i). specialize (Hleft i). lia.
  - unfold y_newest, y_val; cbn [y_h]. rewrite Hlen. cbn. rewrite Nat.sub_0_r, val_app, Nat.eqb_refl. exact Hnew.
Qed.

(** what a step of done() does *)
Lemma dn_step s k u pc p pc' p' un' (len : nat) :
  yinv s -> nth_error (y_dn s) k = Some (u, pc, p) -> length (y_h s) <= len -> p' < len ->
  (forall v, v <> u -> nth_error un' v = nth_error (y_un s) v) ->
  (forall w, nth_error (y_un s) u = Some w -> u_pos w <= p' /\ exists w', nth_error un' u = Some w' /\ u_pos w' = u_pos w /\ u_called w' = u_called w /\ (u_fin w' = true <-> pc' = YEnd)) ->
  (forall x, pc' = YLoop x -> x > 0) ->
  (forall k' u' pc'' p'', nth_error (set_nth (y_dn s) k (u, pc', p')) k' = Some (u', pc'', p'') -> p'' < len /\
     (exists w, nth_error un' u' = Some w /\ u_pos w <= p'' /\ u_called w = true /\ (u_fin w = true <-> pc'' = YEnd)) /\ (forall x, pc'' = YLoop x -> x > 0)) /\
  NoDup (map (fun d => fst (fst d)) (set_nth (y_dn s) k (u, pc', p'))) /\
  (forall v w, nth_error un' v = Some w -> u_called w = true -> exists pc p, In (v, pc, p) (set_nth (y_dn s) k (u, pc', p'))).
Proof.
  intros H Hk Hlen Hp' Hoth Hu Hx.
  assert (Hmap : map (fun d => fst (fst d)) (set_nth (y_dn s) k (u, pc', p')) = map (fun d => fst (fst d)) (y_dn s)).
  { rewrite map_set_nth. cbn. pose proof (map_nth_error (fun d => fst (fst d)) k (y_dn s) Hk) as Hm. cbn in Hm.
    revert Hm. generalize (map (fun d : nat * ypc * nat => fst (fst d)) (y_dn s)). clear. intros l. revert k. induction l as [|h t IH]; intros [|k]; cbn; intros E; try discriminate.
    - congruence.
    - now rewrite IH. }
  destruct (yi_dn _ H _ _ _ _ Hk) as (Hp & (w & Hw & Hwp & Hwc & Hwf) & _). destruct (Hu w Hw) as (Hwp' & w' & Hw' & Ep & Ec & Ef).
  split; [|split; [rewrite Hmap; apply (yi_uniq _ H)|]].
  - intros k' u' pc'' p'' Hk'. destruct (Nat.eq_dec k' k) as [->|E].
    + rewrite (nth_error_set_nth_same _ _ _ _ Hk) in Hk'. injection Hk' as <- <- <-. split; [exact Hp'|]. split; [|exact Hx].
      exists w'. rewrite Ep, Ec. auto.
    + rewrite nth_error_set_nth_other in Hk' by auto. destruct (yi_dn _ H _ _ _ _ Hk') as (Hq & (w2 & Hw2 & Hr) & Hx2).
      split; [lia|]. split; [|exact Hx2]. exists w2. split; [|exact Hr]. rewrite Hoth; auto. intros ->.
      pose proof (map_nth_error (fun d => fst (fst d)) _ _ Hk) as H1. pose proof (map_nth_error (fun d => fst (fst d)) _ _ Hk') as H2. cbn in H1, H2.
      apply E. apply (proj1 (NoDup_nth_error _) (yi_uniq _ H)); [|congruence]. rewrite map_length. apply nth_error_Some. congruence.
  - intros v w2 Hv Hc. destruct (Nat.eq_dec v u) as [->|E].
    + exists pc', p'. apply (set_nth_In _ _ _ _ Hk).
    + rewrite Hoth in Hv by auto. destruct (yi_called _ H _ _ Hv Hc) as (pc2 & p2 & Hi).
      exists pc2, p2. destruct (In_set_nth_intro _ _ (u, pc', p') _ _ Hk Hi) as [E2|Hi']; auto. congruence.
Qed.

Lemma yinv_dn s dn : yinv s ->
  (forall k u pc p, nth_error dn k = Some (u, pc, p) -> p < length (y_h s) /\
     (exists w, nth_error (y_un s) u = Some w /\ u_pos w <= p /\ u_called w = true /\ (u_fin w = true <-> pc = YEnd)) /\ (forall x, pc = YLoop x -> x > 0)) ->
  NoDup (map (fun d => fst (fst d)) dn) ->
  (forall u w, nth_error (y_un s) u = Some w -> u_called w = true -> exists pc p, In (u, pc, p) dn) ->
  yinv (YS (y_h s) (y_lo s) (y_q s) (y_can s) (y_un s) dn).
Proof. intros H H1 H2 H3. destruct H. now constructor. Qed.

(** a call that has not decremented yet still has its unit *)
Lemma dn_left s k u pc p i : yinv s -> nth_error (y_dn s) k = Some (u, pc, p) -> pc <> YEnd -> p <= i -> i < length (y_h s) -> y_val s i > 0.
Proof.
  intros H Hk Hpc Hi Hl. destruct (yi_dn _ H _ _ _ _ Hk) as (_ & (w & Hw & Hp & _ & Hf) & _).
  pose proof (yi_left _ H i Hl) as Hle. enough (left_at i (y_un s) > 0) by lia.
  apply left_In with w; [now apply nth_error_In in Hw| |lia]. destruct (u_fin w); auto. exfalso. tauto.
Qed.

(** the end of a call of done(): the new value *)
Lemma end_append s k u pc p lo q : yinv s -> nth_error (y_dn s) k = Some (u, pc, p) -> pc <> YEnd ->
  NoDup q ->
  (lo = length (y_h s) \/ lo = y_lo s /\ (y_val s (y_newest s) > 0 -> y_val s (y_newest s) - 1 > 0) /\ (q <> [] -> y_val s lo > 0)) ->
  (lo = length (y_h s) -> q <> [] -> y_val s (y_newest s) - 1 > 0) ->
  yinv (YS (y_h s ++ [y_val s (y_newest s) - 1]) lo q (y_can s) (y_end (y_un s) u) (set_nth (y_dn s) k (u, YEnd, length (y_h s)))).
Proof.
  intros H Hk Hpc Hnd Hlo Hqv. destruct (yi_dn _ H _ _ _ _ Hk) as (Hp & (w & Hw & Hwp & Hwc & Hwf) & _).
  assert (Hf : u_fin w = false) by (destruct (u_fin w); auto; exfalso; tauto).
  destruct (newest_lt s H) as [Hn1 Hn2].
  destruct (dn_step s k u pc p YEnd (length (y_h s)) (y_end (y_un s) u) (S (length (y_h s)))) as (D1 & D2 & D3); auto.
  { intros v Hv. rewrite nth_end. destruct (Nat.eqb_spec v u); congruence. }
  { intros w0 Hw0. rewrite Hw in Hw0. injection Hw0 as <-. split; [lia|]. rewrite nth_end, Nat.eqb_refl, Hw. eexists. split; [reflexivity|]. cbn. tauto. }
  { discriminate. }
  apply yinv_append; auto.
  - intros v w0. rewrite nth_end. destruct (Nat.eqb_spec v u) as [->|E].
    + rewrite Hw. intros [= <-]. cbn. pose proof (yi_pos _ H _ _ Hw). lia.
    + intros Hv. pose proof (yi_pos _ H _ _ Hv). lia.
  - intros i Hi. pose proof (left_end i _ _ _ Hw). lia.
  - pose proof (left_end (length (y_h s)) _ _ _ Hw) as He. rewrite (left_all s (length (y_h s)) H) in He by lia.
    unfold open_at in He. rewrite Hf in He. cbn in He. pose proof (yi_pos _ H _ _ Hw). destruct (Nat.leb_spec (u_pos w) (length (y_h s))); lia.
  - intros v w0. rewrite nth_end. destruct (Nat.eqb_spec v u) as [->|E].
    + rewrite Hw. intros [= <-] _. exact Hwc.
    + apply (yi_fin _ H).
Qed.

(** what the steps of done() do *)
Inductive dn_case (s : yst) (k i : nat) : yst -> list nat -> list yevent -> Prop :=
| dc_read u pc p : nth_error (y_dn s) k = Some (u, pc, p) -> pc <> YEnd -> p <= i -> i < length (y_h s) ->
    dn_case s k i (YS (y_h s) (y_lo s) (y_q s) (y_can s) (y_un s) (set_nth (y_dn s) k (u, YLoop (y_val s i), i))) [] []
| dc_cas u pc p : nth_error (y_dn s) k = Some (u, pc, p) -> pc <> YEnd -> y_val s (y_newest s) > 1 ->
    dn_case s k i (YS (y_h s ++ [y_val s (y_newest s) - 1]) (y_lo s) (y_q s) (y_can s) (y_end (y_un s) u) (set_nth (y_dn s) k (u, YEnd, length (y_h s)))) [] []
| dc_crit u pc p : nth_error (y_dn s) k = Some (u, pc, p) -> pc = YLoop 1 -> y_val s (y_newest s) > 0 ->
    dn_case s k i (YS (y_h s ++ [y_val s (y_newest s) - 1]) (length (y_h s)) (if y_val s (y_newest s) =? 1 then [] else y_q s) (y_can s) (y_end (y_un s) u)
                      (set_nth (y_dn s) k (u, YEnd, length (y_h s)))) (if y_val s (y_newest s) =? 1 then y_q s else []) [].

Lemma done_cases s k i s' taken es : y_done s k i = POk s' taken es -> dn_case s k i s' taken es.
Proof.
  unfold y_done. destruct (nth_error (y_dn s) k) as [[[u pc] p]|] eqn:Hk; [|discriminate].
  destruct pc as [|[|[|x]]|]; try discriminate.
  - destruct ((p <=? i) && (i <? length (y_h s))) eqn:E; [|discriminate]. apply andb_true_iff in E as [E1 E2]. apply Nat.leb_le in E1. apply Nat.ltb_lt in E2.
    intros [= <- <- <-]. apply (dc_read s k i u YLoad p); auto. discriminate.
  - destruct (y_val s (y_newest s)) as [|c] eqn:Hv; [discriminate|]. intros [= <- <- <-].
    pose proof (dc_crit s k i u (YLoop 1) p Hk eq_refl) as H. rewrite Hv in H. cbn in H. rewrite Nat.sub_0_r in H. apply H. lia.
  - destruct ((p <=? i) && (i <? length (y_h s))) eqn:E; [|discriminate]. apply andb_true_iff in E as [E1 E2]. apply Nat.leb_le in E1. apply Nat.ltb_lt in E2.
    destruct (Nat.eqb_spec (y_val s i) (S (S x))) as [Ev|Ev].
    + destruct (Nat.eqb_spec i (y_newest s)) as [->|Ei]; [|discriminate]. intros [= <- <- <-].
      pose proof (dc_cas s k (y_newest s) u (YLoop (S (S x))) p Hk) as H. rewrite Ev in H. cbn in H. apply H; [discriminate|lia].
    + intros [= <- <- <-]. apply (dc_read s k i u (YLoop (S (S x))) p); auto. discriminate.
Qed.

Lemma step_law s l s' taken es : yinv s -> y_step s l = POk s' taken es ->
  yinv s' /\ NoDup taken /\ (forall o, In o taken -> In o (y_q s)) /\ (forall o, In o (y_q s') <-> In o (y_q s) /\ ~ In o taken).
Proof.
  intros H Hs. destruct (newest_lt s H) as [Hn1 Hn2].
  assert (Hkeep : taken = [] -> y_q s' = y_q s -> yinv s' -> yinv s' /\ NoDup taken /\ (forall o, In o taken -> In o (y_q s)) /\ (forall o, In o (y_q s') <-> In o (y_q s) /\ ~ In o taken)).
  { intros -> -> Hi. split; [exact Hi|]. split; [constructor|]. split; [intros o []|]. cbn. tauto. }
  destruct l as [n|u p|k i]; cbn [y_step] in Hs.
  - injection Hs as <- <- <-. apply Hkeep; auto.
    apply yinv_append; auto; try apply H.
    + right. split; auto. split; [lia|apply (yi_q _ H)].
    + pose proof (yi_lo _ H). lia.
    + intros u w Hu. destruct (Nat.lt_ge_cases u (length (y_un s))) as [Hl|Hl].
      * rewrite nth_error_app1 in Hu by auto. pose proof (yi_pos _ H _ _ Hu). lia.
      * rewrite nth_error_app2 in Hu by auto. apply nth_error_In, repeat_spec in Hu. subst w. cbn. lia.
    + intros i Hi. rewrite left_app, left_repeat. destruct (Nat.leb_spec (length (y_h s)) i); lia.
    + rewrite left_app, left_repeat, Nat.leb_refl, (left_all s _ H) by lia. reflexivity.
    + intros k u pc p Hk. destruct (yi_dn _ H _ _ _ _ Hk) as (Hp & (w & Hw & Hr) & Hx). split; [lia|]. split; [|exact Hx].
      exists w. split; [|exact Hr]. rewrite nth_error_app1; auto. apply nth_error_Some. congruence.
    + intros u w Hu Hc. destruct (Nat.lt_ge_cases u (length (y_un s))) as [Hl|Hl].
      * rewrite nth_error_app1 in Hu by auto. eapply (yi_called _ H); eauto.
      * rewrite nth_error_app2 in Hu by auto. apply nth_error_In, repeat_spec in Hu. subst w. discriminate.
    + intros u w Hu Hc. destruct (Nat.lt_ge_cases u (length (y_un s))) as [Hl|Hl].
      * rewrite nth_error_app1 in Hu by auto. eapply (yi_fin _ H); eauto.
      * rewrite nth_error_app2 in Hu by auto. apply nth_error_In, repeat_spec in Hu. subst w. discriminate.
  - destruct (nth_error (y_un s) u) as [w|] eqn:Hu; [|discriminate].
    destruct (negb (u_called w) && (u_pos w <=? p) && (p <? length (y_h s))) eqn:E; [|discriminate].
    apply andb_true_iff in E as [E E3]. apply andb_true_iff in E as [E1 E2]. apply negb_true_iff in E1. apply Nat.leb_le in E2. apply Nat.ltb_lt in E3.
    injection Hs as <- <- <-. apply Hkeep; auto.
    assert (Hnew : forall pc q, ~ In (u, pc, q) (y_dn s)).
    { intros pc q Hi. apply In_nth_error in Hi as (k & Hk). destruct (yi_dn _ H _ _ _ _ Hk) as (_ & (w2 & Hw2 & _ & Hc & _) & _). congruence. }
    constructor; cbn [y_h y_lo y_q y_un y_dn]; try apply H.
    + intros v w2. rewrite nth_call. destruct (Nat.eqb_spec v u) as [->|Ev]; [|apply (yi_pos _ H)].
      rewrite Hu. intros [= <-]. cbn. apply (yi_pos _ H _ _ Hu).
    + intros i Hi. rewrite left_call. apply (yi_left _ H); auto.
    + unfold y_newest; cbn [y_h]. rewrite left_call. apply (yi_new _ H).
    + intros k v pc q Hk. destruct (Nat.lt_ge_cases k (length (y_dn s))) as [Hl|Hl].
      * rewrite nth_error_app1 in Hk by auto. destruct (yi_dn _ H _ _ _ _ Hk) as (Hp & (w2 & Hw2 & Hr) & Hx). split; [exact Hp|]. split; [|exact Hx].
        exists w2. split; [|exact Hr]. rewrite nth_call. destruct (Nat.eqb_spec v u) as [->|Ev]; [|exact Hw2].
        exfalso. apply (Hnew pc q). now apply nth_error_In in Hk.
      * rewrite nth_error_app2 in Hk by auto. destruct (k - length (y_dn s)) as [|[|]]; try discriminate. injection Hk as <- <- <-.
        split; [exact E3|]. split; [|discriminate]. exists (YU (u_pos w) true (u_fin w)). rewrite nth_call, Nat.eqb_refl, Hu. split; [reflexivity|]. cbn.
        split; [exact E2|]. split; [reflexivity|]. split; [|discriminate]. intros Hf. rewrite (yi_fin _ H _ _ Hu Hf) in E1. discriminate.
    + rewrite map_app. cbn. apply NoDup_snoc; [apply H|]. intros Hi. apply in_map_iff in Hi as ([[v pc] q] & Ev & Hi). cbn in Ev. subst v. exact (Hnew _ _ Hi).
    + intros v w2. rewrite nth_call. destruct (Nat.eqb_spec v u) as [->|Ev].
      * intros _ _. exists YLoad, p. apply in_app_iff. right. now left.
      * intros Hv Hc. destruct (yi_called _ H _ _ Hv Hc) as (pc & q & Hi). exists pc, q. apply in_app_iff. now left.
    + intros v w2. rewrite nth_call. destruct (Nat.eqb_spec v u) as [->|Ev]; [|apply (yi_fin _ H)]. rewrite Hu. intros [= <-]. reflexivity.
  - destruct (done_cases _ _ _ _ _ _ Hs) as [u pc p Hk Hpc Hp Hi|u pc p Hk Hpc Hv|u pc p Hk -> Hv].
    + apply Hkeep; auto.
      destruct (dn_step s k u pc p (YLoop (y_val s i)) i (y_un s) (length (y_h s))) as (D1 & D2 & D3); auto.
      * intros w Hw. destruct (yi_dn _ H _ _ _ _ Hk) as (_ & (w2 & Hw2 & Hp2 & Hc2 & Hf2) & _). rewrite Hw in Hw2. injection Hw2 as <-.
        split; [lia|]. exists w. split; [exact Hw|]. split; [reflexivity|]. split; [reflexivity|]. split; [|discriminate]. intros Hf. apply Hf2 in Hf. contradiction.
      * intros x [= <-]. eapply dn_left; eauto.
      * apply yinv_dn; auto.
    + apply Hkeep; auto. apply end_append with pc p; auto; [apply H| |].
      * right. split; auto. split; [lia|apply (yi_q _ H)].
      * intros _ _. lia.
    + assert (Hq : NoDup (if y_val s (y_newest s) =? 1 then [] else y_q s)) by (destruct (y_val s (y_newest s) =? 1); [constructor|apply H]).
      split; [|].
      * apply end_append with (YLoop 1) p; auto; [discriminate|]. intros _ Hne. destruct (Nat.eqb_spec (y_val s (y_newest s)) 1); [contradiction|lia].
      * cbn. destruct (y_val s (y_newest s) =? 1); cbn; (split; [try apply H; constructor|]); (split; [tauto|]); cbn; tauto.
Qed.

Lemma step_nofail s l f es : yinv s -> y_step s l <> PFail f es.
Proof.
  intros H Hs. destruct l as [n|u p|k i]; cbn [y_step] in Hs; try discriminate.
  - destruct (nth_error (y_un s) u) as [w|]; [|discriminate]. destruct (negb (u_called w) && (u_pos w <=? p) && (p <? length (y_h s))); discriminate.
  - unfold y_done in Hs. destruct (nth_error (y_dn s) k) as [[[u pc] p]|] eqn:Hk; [|discriminate].
    destruct pc as [|[|[|x]]|]; try discriminate.
    + destruct ((p <=? i) && (i <? length (y_h s))); discriminate.
    + destruct (yi_dn _ H _ _ _ _ Hk) as (_ & _ & Hx). specialize (Hx 0 eq_refl). lia.
    + destruct (newest_lt s H) as [Hn1 Hn2]. destruct (yi_dn _ H _ _ _ _ Hk) as (Hp & _).
      pose proof (dn_left s k u (YLoop 1) p (y_newest s) H Hk ltac:(discriminate) ltac:(lia) Hn1) as Hv.
      destruct (y_val s (y_newest s)); [lia|discriminate].
    + destruct ((p <=? i) && (i <? length (y_h s))); [|discriminate]. destruct (y_val s i =? S (S x)); [|discriminate]. destruct (i =? y_newest s); discriminate.
Qed.

Section Proofs.
Variable n0 : nat. Variable pick : nat -> nat.
Notation P := (wait_group_c n0 pick).

Lemma yinv_init : yinv (y_init n0).
Proof.
  assert (Hu : forall u w, nth_error (repeat (YU 0 false false) n0) u = Some w -> w = YU 0 false false) by (intros u w Hu; now apply nth_error_In, repeat_spec in Hu).
  constructor.
  - constructor.
  - cbn. lia.
  - intros i j _ Hi Hj. cbn in Hj. replace j with 0 by lia. replace i with 0 by lia. auto.
  - intros []. reflexivity.
  - intros u w Hw. apply Hu in Hw. subst w. cbn. lia.
  - intros i Hi. cbn in Hi. replace i with 0 by lia. unfold y_init; cbn [y_un]. rewrite left_repeat. cbn. lia.
  - unfold y_init; cbn [y_un]. rewrite left_repeat. reflexivity.
  - intros [|k]; discriminate.
  - constructor.
  - intros u w Hw. apply Hu in Hw. subst w. discriminate.
  - intros u w Hw. apply Hu in Hw. subst w. discriminate.
Qed.

Lemma start_cases (s : yst) o a :
  let j := y_read s (fst a) (snd a) in
  (y_val s j = 0 /\ y_start s o a = SFast (YS (y_h s) j (y_q s) (y_can s) (y_un s) (y_dn s)) true [EYWait o (y_known s (fst a))]) \/
  (y_val s j > 0 /\ y_start s o a = SQueued (YS (y_h s) j (y_q s ++ [o]) (y_can s) (y_un s) (y_dn s)) [EYWait o (y_known s (fst a))]).
Proof. destruct a as [p i]. cbn. destruct (y_val s (y_read s p i)) as [|c] eqn:E; [left|right]; split; auto. lia. Qed.

Lemma try_cases (s : yst) o :
  (y_val s (y_read s 0 (pick o)) = 0 /\ y_try pick s o = TOk s false) \/
  (y_val s (y_read s 0 (pick o)) > 0 /\ In o (y_q s) /\
   y_try pick s o = TOk (YS (y_h s) (y_lo s) (remove1 o (y_q s)) (upd (y_can s) o true) (y_un s) (y_dn s)) true) \/
  (y_val s (y_read s 0 (pick o)) > 0 /\ ~ In o (y_q s) /\ y_try pick s o = TFail BadUnlink).
Proof.
  unfold y_try. destruct (y_val s (y_read s 0 (pick o))) as [|c] eqn:E; [auto|right]. destruct (memb o (y_q s)) eqn:Hm.
  - left. apply memb_In in Hm. split; [lia|auto].
  - right. apply memb_not_In in Hm. split; [lia|auto].
Qed.

Definition wait_group_c_laws : laws P.
Proof.
  refine (Laws P (fun (s : PS P) o => In o (y_q s)) yinv _ _ _ _ _ _).
  - split; [apply yinv_init|auto].
  - intros s o a s' es H Hn. cbn [p_start P wait_group_c]. pose proof (read_range s (fst a) (snd a) H) as Hr.
    destruct (start_cases s o a) as [[Hv ->]|[Hv ->]]; [discriminate|]. intros [= <- <-]. cbn [y_q]. split; [|intros o'; apply In_snoc].
    apply yinv_queue; auto; try lia. apply NoDup_snoc; auto. apply H.
  - intros s o a s' v es H Hn. cbn [p_start P wait_group_c]. pose proof (read_range s (fst a) (snd a) H) as Hr.
    destruct (start_cases s o a) as [[Hv ->]|[Hv ->]]; [|discriminate]. intros [= <- <- <-]. cbn [y_q]. split; [|tauto].
    apply yinv_queue; auto; try lia; [apply H|]. intros Hq. exfalso. pose proof (yi_q _ H Hq) as Hl.
    pose proof (yi_mono _ H (y_lo s) (y_read s (fst a) (snd a)) (le_n _) ltac:(lia) ltac:(lia) Hl). lia.
  - intros s l s' taken es H Hs. exact (step_law s l s' taken es H Hs).
  - intros s o H Hin. cbn [p_try P wait_group_c]. pose proof (read_range s 0 (pick o) H) as Hr.
    assert (Hl : y_val s (y_lo s) > 0) by (apply (yi_q _ H); intros E; rewrite E in Hin; destruct Hin).
    pose proof (yi_mono _ H (y_lo s) _ (le_n _) (proj1 Hr) (proj2 Hr) Hl) as Hv.
    destruct (try_cases s o) as [[E _]|[(_ & _ & ->)|(_ & E & _)]]; [lia| |contradiction].
    eexists. split; [reflexivity|]. cbn [y_q]. split.
    + apply yinv_queue; auto; try lia. apply NoDup_remove1, H.
    + intros o'. apply In_remove1_NoDup, H.
  - intros s o s' v H Hn. cbn. unfold y_resume. intros [= <- <-]. split; [exact H|tauto].
Defined.

Definition wait_group_c_tlaws : tlaws P wait_group_c_laws.
Proof.
  refine (TLaws P wait_group_c_laws (fun (s : PS P) o => ~ In o (y_q s)) _ _ _ _ _ _ _).
  - intros s l s' taken es o HI Hs Hin. destruct (l_step wait_group_c_laws _ _ _ _ _ HI Hs) as (_ & _ & _ & H).
    specialize (H o). cbn in H. tauto.
  - intros s l s' taken es o HI Hv Hs. destruct (l_step wait_group_c_laws _ _ _ _ _ HI Hs) as (_ & _ & _ & H).
    specialize (H o). cbn in H. tauto.
  - intros s o a s' es o' HI Hv Hne Hs. destruct (start_cases s o a) as [[_ E]|[_ E]]; cbn [p_start P wait_group_c] in Hs; rewrite E in Hs; [discriminate|].
    injection Hs as <- <-. cbn [y_q]. rewrite In_snoc. tauto.
  - intros s o a s' v es o' HI Hv Hne Hs. destruct (start_cases s o a) as [[_ E]|[_ E]]; cbn [p_start P wait_group_c] in Hs; rewrite E in Hs; [|discriminate].
    injection Hs as <- <- <-. exact Hv.
  - intros s o s' b o' HI Hv Hne Hs. cbn [p_try P wait_group_c] in Hs. destruct (try_cases s o) as [[_ E]|[(_ & _ & E)|(_ & _ & E)]]; rewrite E in Hs; [| |discriminate].
    + injection Hs as <- <-. exact Hv.
    + injection Hs as <- <-. cbn [y_q]. intros H. apply Hv. now apply In_remove1 in H.
  - intros s o s' v o' HI Hv. cbn. unfold y_resume. intros [= <- <-]. exact Hv.
  - intros s o s' b HI Hv Hs. cbn [p_try P wait_group_c] in Hs. destruct (try_cases s o) as [[_ E]|[(_ & Hi & E)|(_ & _ & E)]]; rewrite E in Hs; [| |discriminate].
    + injection Hs as <- <-. auto.
    + contradiction.
Defined.

Section Runs.
Variable eager : bool.
Notation cst := (cst P).
Notation step := (step P eager).
Notation trace := (list (event P)).
Notation JT := (JT P wait_group_c_laws eager wait_group_c_tlaws).

Definition finu (s : yst) (u : nat) : Prop := exists w, nth_error (y_un s) u = Some w /\ u_fin w = true.
Definition calledu (s : yst) (u : nat) : Prop := exists w, nth_error (y_un s) u = Some w /\ u_called w = true.

Lemma zero_fin s u w : yinv s -> y_val s (y_newest s) = 0 -> nth_error (y_un s) u = Some w -> u_fin w = true.
Proof.
  intros H Hz Hu. destruct (u_fin w) eqn:Hf; auto. exfalso. pose proof (yi_pos _ H _ _ Hu) as Hp. destruct (newest_lt s H) as [_ Hn].
  pose proof (left_In (y_newest s) _ _ (nth_error_In _ _ Hu) Hf ltac:(lia)). pose proof (yi_new _ H). lia.
Qed.

Lemma read_fin s p i u w : yinv s -> y_val s (y_read s p i) = 0 -> nth_error (y_un s) u = Some w -> u_pos w <= p -> u_fin w = true.
Proof.
  intros H Hz Hu Hup. destruct (u_fin w) eqn:Hf; auto. exfalso. pose proof (read_range s p i H) as Hr. pose proof (yi_pos _ H _ _ Hu) as Hp.
  assert (Hj : u_pos w <= y_read s p i).
  { destruct (Nat.lt_ge_cases p (length (y_h s))) as [Hl|Hl]; [pose proof (read_known s p i H Hl); lia|].
    unfold y_read. destruct (Nat.leb_spec p i), (Nat.ltb_spec i (length (y_h s))); try lia; rewrite ?andb_false_r; cbn; destruct (newest_lt s H); lia. }
  pose proof (left_In _ _ _ (nth_error_In _ _ Hu) Hf Hj). pose proof (yi_left _ H _ (proj2 Hr)). lia.
Qed.

Lemma known_lt s p u : In u (y_known s p) -> exists w, nth_error (y_un s) u = Some w /\ u_pos w <= p.
Proof.
  unfold y_known. intros H. apply filter_In in H as [_ H]. destruct (nth_error (y_un s) u) as [w|]; [|discriminate].
  apply Nat.leb_le in H. eauto.
Qed.

(** what a step of the primitive does to the units *)
Lemma un_step s l s' taken es : y_step s l = POk s' taken es ->
  y_can s' = y_can s /\ (forall u, finu s u -> finu s' u) /\
  (forall u, u < length (y_un s') <-> u < length (y_un s) \/ exists us, In (EYAdd us) es /\ In u us) /\
  (forall u, calledu s' u <-> calledu s u \/ In (EYDone u) es) /\
  (forall o kn, ~ In (EYWait o kn) es).
Proof.
  intros Hs.
  assert (Hend : forall u, (forall v, finu s v -> exists w, nth_error (y_end (y_un s) u) v = Some w /\ u_fin w = true) /\
    (forall v, v < length (y_end (y_un s) u) <-> v < length (y_un s) \/ exists us, In (EYAdd us) [] /\ In v us) /\
    (forall v, (exists w, nth_error (y_end (y_un s) u) v = Some w /\ u_called w = true) <-> calledu s v \/ In (EYDone v) [])).
  { intros u. split; [|split].
    - intros v (w & Hv & Hf). rewrite nth_end. destruct (Nat.eqb_spec v u) as [->|E]; [rewrite Hv; eauto|eauto].
    - intros v. rewrite end_length. split; [auto|intros [Hl|(us & [] & _)]; exact Hl].
    - intros v. rewrite nth_end. unfold calledu. destruct (Nat.eqb_spec v u) as [->|E].
      + destruct (nth_error (y_un s) u) as [w|]; split.
        * intros (w' & [= <-] & Hc). cbn in Hc. eauto.
        * intros [(w' & [= <-] & Hc)|[]]. eauto.
        * intros (w' & [=] & _).
        * intros [(w' & [=] & _)|[]].
      + split; [auto|intros [Hx|[]]; exact Hx]. }
  destruct l as [n|u p|k i]; cbn [y_step] in Hs.
  - injection Hs as <- <- <-. split; [reflexivity|]. unfold finu, calledu; cbn [y_un]. split; [|split; [|split]].
    + intros u (w & Hu & Hf). exists w. split; auto. rewrite nth_error_app1; auto. apply nth_error_Some. congruence.
    + intros u. rewrite app_length, repeat_length. split.
      * intros Hu. destruct (Nat.lt_ge_cases u (length (y_un s))); auto. right. eexists. split; [now left|]. apply in_seq. lia.
      * intros [Hu|(us & [[= <-]|[]] & Hu)]; [lia|]. apply in_seq in Hu. lia.
    + intros u. split.
      * intros (w & Hu & Hc). left. destruct (Nat.lt_ge_cases u (length (y_un s))) as [Hl|Hl].
        -- rewrite nth_error_app1 in Hu by auto. eauto.
        -- rewrite nth_error_app2 in Hu by auto. apply nth_error_In, repeat_spec in Hu. subst w. discriminate.
      * intros [(w & Hu & Hc)|[[=]|[]]]. exists w. split; auto. rewrite nth_error_app1; auto. apply nth_error_Some. congruence.
    + intros o kn [[=]|[]].
  - destruct (nth_error (y_un s) u) as [w|] eqn:Hu; [|discriminate].
    destruct (negb (u_called w) && (u_pos w <=? p) && (p <? length (y_h s))); [|discriminate]. injection Hs as <- <- <-.
    split; [reflexivity|]. unfold finu, calledu; cbn [y_un]. split; [|split; [|split]].
    + intros v (w' & Hv & Hf). rewrite nth_call. destruct (Nat.eqb_spec v u) as [->|E]; [rewrite Hv; eauto|eauto].
    + intros v. rewrite call_length. split; [auto|]. intros [Hl|(us & [[=]|[]] & _)]. exact Hl.
    + intros v. rewrite nth_call. destruct (Nat.eqb_spec v u) as [->|E].
      * rewrite Hu. split; [intros _; right; now left|]. intros _. eexists. split; reflexivity.
      * split; [auto|]. intros [Hx|[[= <-]|[]]]; [exact Hx|congruence].
    + intros o kn [[=]|[]].
  - destruct (done_cases _ _ _ _ _ _ Hs) as [u pc p Hk Hpc Hp Hi|u pc p Hk Hpc Hv|u pc p Hk -> Hv];
      (split; [reflexivity|]); unfold finu at 2, calledu at 1; cbn [y_un].
    + split; [auto|]. split; [intros u0; split; [auto|intros [Hl|(us & [] & _)]; exact Hl]|]. split; [intros u0; split; [auto|intros [Hx|[]]; exact Hx]|auto].
    + destruct (Hend u) as (H1 & H2 & H3). auto.
    + destruct (Hend u) as (H1 & H2 & H3). auto.
Qed.

Record TI (s : cst) (tr : trace) : Prop := mkTI {
  ti_jt : JT s tr;
  ti_can : forall o, y_can (c_prim s) o = true <-> o_node (c_op s o) = NCancelled;
  ti_unit : forall u, u < length (y_un (c_prim s)) <-> is_unit tr u;
  ti_done : forall u, calledu (c_prim s) u <-> unit_done tr u;
  ti_wait : forall o kn, In (py (n0 := n0) (pick := pick) (EYWait o kn)) tr -> In o (starts tr) /\ forall u, In u kn -> u < length (y_un (c_prim s));
  ti_waited : forall o, In o (starts tr) -> exists kn, In (py (n0 := n0) (pick := pick) (EYWait o kn)) tr;
  ti_taken : forall o kn u, o_node (c_op s o) = NTaken -> In (py (n0 := n0) (pick := pick) (EYWait o kn)) tr -> In u kn -> finu (c_prim s) u;
  ti_fast : forall o v, o_fast (c_op s o) = Some v -> v = true /\ forall kn u, In (py (n0 := n0) (pick := pick) (EYWait o kn)) tr -> In u kn -> finu (c_prim s) u
}.

Lemma yinv_of s tr : JT s tr -> yinv (c_prim s).
Proof. intros [[(_ & _ & (H & _) & _) _] _]. exact H. Qed.

Lemma TI_init : TI (c_init P) [].
Proof.
  constructor; cbn.
  - apply JT_init.
  - intuition discriminate.
  - intros u. rewrite repeat_length. unfold is_unit. split; [auto|intros [H|(us & [] & _)]; exact H].
  - intros u. unfold calledu, unit_done; cbn. split; [|intros []]. intros (w & Hw & Hc). apply nth_error_In, repeat_spec in Hw. subst w. discriminate.
  - intros o kn [].
  - intros o [].
  - discriminate.
  - discriminate.
Qed.

(** what a step does to the units and the trace *)
Record eff (s s' : cst) (es : trace) : Prop := mkE {
  e_fin : forall u, finu (c_prim s) u -> finu (c_prim s') u;
  e_len : forall u, u < length (y_un (c_prim s')) <-> u < length (y_un (c_prim s)) \/ exists us, In (py (n0 := n0) (pick := pick) (EYAdd us)) es /\ In u us;
  e_call : forall u, calledu (c_prim s') u <-> calledu (c_prim s) u \/ In (py (n0 := n0) (pick := pick) (EYDone u)) es;
  e_starts : forall o, In o (starts es) -> o_l (c_op s o) = PIdle /\ exists kn, In (py (n0 := n0) (pick := pick) (EYWait o kn)) es;
  e_waits : forall o kn, In (py (n0 := n0) (pick := pick) (EYWait o kn)) es -> In o (starts es) /\ exists a, kn = y_known (c_prim s) (fst a) /\
              (forall ps v es0, p_start P (c_prim s) o a = SFast ps v es0 -> y_val (c_prim s) (y_read (c_prim s) (fst a) (snd a)) = 0) /\
              exists ps es0, p_start P (c_prim s) o a = SQueued ps es0 \/ exists v, p_start P (c_prim s) o a = SFast ps v es0
}.

Lemma eff_same (s s' : cst) es : y_un (c_prim s') = y_un (c_prim s) -> existsb is_prim_event es = false -> starts es = [] -> eff s s' es.
Proof.
  intros Hu He Hst.
  assert (Hno : forall e, ~ In (py (n0 := n0) (pick := pick) e) es).
  { intros e Hi. assert (existsb is_prim_event es = true) by (apply existsb_exists; exists (py e); split; auto). congruence. }
  constructor; unfold finu, calledu; rewrite ?Hu; auto.
  - intros u. split; [auto|]. intros [H|(us & H & _)]; [exact H|]. now apply Hno in H.
  - intros u. split; [auto|]. intros [H|H]; [exact H|]. now apply Hno in H.
  - rewrite Hst. intros o [].
  - intros o kn H. now apply Hno in H.
Qed.

Lemma starts_pes (pes : list (PE P)) : starts (map (@EPrim P) pes) = [].
Proof. apply starts_prim. Qed.

Lemma start_eff (s s' : cst) o tok a (es : list yevent) : y_un (c_prim s') = y_un (c_prim s) -> o_l (c_op s o) = PIdle -> es = [EYWait o (y_known (c_prim s) (fst a))] ->
  (p_start P (c_prim s) o a = SQueued (c_prim s') es \/ exists v, p_start P (c_prim s) o a = SFast (c_prim s') v es) ->
  eff s s' (EStart (P := P) o tok a :: map (@EPrim P) es).
Proof.
  intros Hu Hl -> Hst.
  constructor; unfold finu, calledu; rewrite ?Hu; auto; cbn.
  - intros u. split; [auto|]. intros [H|(us & [[=]|[[=]|[]]] & _)]. exact H.
  - intros u. split; [auto|]. intros [H|[[=]|[[=]|[]]]]. exact H.
  - intros o' [<-|[]]. split; [exact Hl|]. eexists. right. left. reflexivity.
  - intros o' kn [[=]|[[= <- <-]|[]]]. split; [auto|]. exists a. split; [reflexivity|]. split.
    + intros ps v es0 H. destruct (start_cases (c_prim s) o a) as [[E _]|[_ E]]; [exact E|]. cbn [p_start P wait_group_c] in H. rewrite E in H. discriminate.
    + destruct Hst as [Hst|[v Hst]]; eauto.
Qed.

Lemma step_eff' s tr l s' es : JT s tr -> step s l = Next s' es -> eff s s' es.
Proof.
  intros HJT Hs. pose proof (JT_reliable _ _ _ _ _ _ HJT) as HR. pose proof HJT as [[HG HTI] HTK].
  pose proof (step_effect _ _ _ _ _ _ _ HG HR Hs) as He.
  destruct (step_prim_eff _ _ _ He) as [Hp Hes Hst|o tok a pes Hp Hl ->|o tok a v pes Hp Hl ->|o _ Hp _ ->|o v Hp ->|pl taken pes Hp -> _].
  - apply eff_same; auto. now rewrite Hp.
  - destruct (start_cases (c_prim s) o a) as [[_ E]|[_ E]]; pose proof Hp as Hp2; cbn [p_start P wait_group_c] in Hp2; rewrite E in Hp2; [discriminate|].
    injection Hp2 as Hp2 <-. apply start_eff; auto. rewrite <- Hp2. reflexivity.
  - destruct (start_cases (c_prim s) o a) as [[_ E]|[_ E]]; pose proof Hp as Hp2; cbn [p_start P wait_group_c] in Hp2; rewrite E in Hp2; [|discriminate].
    injection Hp2 as Hp2 _ <-. apply start_eff; eauto. rewrite <- Hp2. reflexivity.
  - cbn [p_try P wait_group_c] in Hp. destruct (try_cases (c_prim s) o) as [[_ E]|[(_ & _ & E)|(_ & _ & E)]]; rewrite E in Hp; try discriminate.
    injection Hp as Hp. apply eff_same; auto. rewrite <- Hp. reflexivity.
  - cbn in Hp. unfold y_resume in Hp. injection Hp as Hp _. apply eff_same; auto. now rewrite <- Hp.
  - destruct (un_step _ _ _ _ _ Hp) as (_ & H1 & H2 & H3 & H4). constructor; auto.
    + intros u. rewrite H2. split; (intros [H|(us & H & Hi)]; [auto|right; exists us; split; auto]).
      * unfold py. now apply in_map.
      * apply in_map_iff in H as (e & [= <-] & H). exact H.
    + intros u. rewrite H3. split; (intros [H|H]; [auto|right]).
      * unfold py. now apply in_map.
      * apply in_map_iff in H as (e & [= <-] & H). exact H.
    + rewrite starts_pes. intros o [].
    + intros o kn H. exfalso. apply in_map_iff in H as (e & [= ->] & H). exact (H4 _ _ H).
Qed.

Lemma TI_step s tr l s' es : TI s tr -> step s l = Next s' es -> TI s' (tr ++ es).
Proof.
  intros HI Hs. destruct HI as [HJT Hcan Hunit Hdone Hwait Hwaited Htaken Hfast].
  pose proof (JT_step _ _ _ _ _ _ _ _ _ HJT Hs) as HJT'.
  pose proof (step_eff' _ _ _ _ _ HJT Hs) as [Ef El Ec Es Ew].
  pose proof (JT_reliable _ _ _ _ _ _ HJT) as HR. pose proof HJT as [[HG HTI] HTK]. pose proof HTI as (HD & HS & _).
  pose proof (step_effect _ _ _ _ _ _ _ HG HR Hs) as He.
  pose proof (yinv_of _ _ HJT) as HY. pose proof (yinv_of _ _ HJT') as HY'.
  assert (Hfresh : forall o, In o (starts es) -> ~ In o (starts tr)).
  { intros o Ho Hi. apply Es in Ho as [Hl _]. apply HS in Hi. contradiction. }
  constructor; auto.
  - intros o. destruct (step_prim_eff _ _ _ He) as [Hp Hes Hst|o1 tok a pes Hp Hl Hes|o1 tok a v pes Hp Hl Hes|o1 Hn1 Hp Hn1' Hes|o1 v Hp Hes|pl taken pes Hp Hes _].
    all: assert (Hsame : (forall o, y_can (c_prim s') o = y_can (c_prim s) o) -> (forall o, p_try P (c_prim s) o = TOk (c_prim s') true -> y_can (c_prim s') o = true) -> y_can (c_prim s') o = true <-> o_node (c_op s' o) = NCancelled)
      by (intros E E2; rewrite E, Hcan; split; [intros Hn; apply (node_stays s s' es o NCancelled He); auto|];
          intros Hn; destruct (cancelled_new _ _ _ _ He Hn) as [Hn0|[Hn0 Hp0]]; [exact Hn0|apply Hcan; rewrite <- E; auto]).
    + apply Hsame; [now rewrite Hp|]. intros o' Ht. rewrite Hp in Ht |- *. cbn [p_try P wait_group_c] in Ht. exfalso.
      destruct (try_cases (c_prim s) o') as [[_ E]|[(_ & Hi & E)|(_ & _ & E)]]; rewrite E in Ht; try discriminate. injection Ht as Ht.
      assert (Hq : y_q (c_prim s) = remove1 o' (y_q (c_prim s))) by (rewrite <- Ht at 1; reflexivity).
      rewrite Hq in Hi. apply In_remove1_NoDup in Hi; [|apply HY]. now destruct Hi.
    + cbn [p_start P wait_group_c] in Hp. destruct (start_cases (c_prim s) o1 a) as [[_ E]|[_ E]]; rewrite E in Hp; [discriminate|]. injection Hp as Hp _.
      apply Hsame; [rewrite <- Hp; reflexivity|]. intros o' Ht. cbn [p_try P wait_group_c] in Ht. exfalso.
      destruct (try_cases (c_prim s) o') as [[_ E2]|[(_ & Hi & E2)|(_ & _ & E2)]]; rewrite E2 in Ht; try discriminate. injection Ht as Ht.
      rewrite <- Ht in Hp. injection Hp as _ Hq _. pose proof (f_equal (@length nat) Hq) as Hlen. rewrite app_length in Hlen. cbn in Hlen.
      assert (length (remove1 o' (y_q (c_prim s))) <= length (y_q (c_prim s))).
      { clear. induction (y_q (c_prim s)) as [|h t IH]; cbn; auto. destruct (h =? o'); cbn; lia. }
      lia.
    + cbn [p_start P wait_group_c] in Hp. destruct (start_cases (c_prim s) o1 a) as [[_ E]|[_ E]]; rewrite E in Hp; [|discriminate]. injection Hp as Hp _ _.
      apply Hsame; [rewrite <- Hp; reflexivity|]. intros o' Ht. cbn [p_try P wait_group_c] in Ht. exfalso.
      destruct (try_cases (c_prim s) o') as [[_ E2]|[(_ & Hi & E2)|(_ & _ & E2)]]; rewrite E2 in Ht; try discriminate. injection Ht as Ht.
      rewrite <- Ht in Hp. injection Hp as _ Hq _. rewrite Hq in Hi. apply In_remove1_NoDup in Hi; [|apply HY]. now destruct Hi.
    + cbn [p_try P wait_group_c] in Hp. destruct (try_cases (c_prim s) o1) as [[_ E]|[(_ & Hi & E)|(_ & _ & E)]]; rewrite E in Hp; try discriminate. injection Hp as Hp.
      split.
      * intros Hc. rewrite <- Hp in Hc. cbn in Hc. unfold upd in Hc. destruct (Nat.eqb_spec o o1) as [->|Eo]; auto.
        apply (node_stays s s' es o NCancelled He); auto. now apply Hcan.
      * intros Hn. rewrite <- Hp. cbn. unfold upd. destruct (Nat.eqb_spec o o1) as [->|Eo]; auto.
        destruct (cancelled_new _ _ _ _ He Hn) as [Hn0|[Hn0 Hp0]]; [now apply Hcan|]. exfalso.
        cbn [p_try P wait_group_c] in Hp0. destruct (try_cases (c_prim s) o) as [[_ E2]|[(_ & Hi2 & E2)|(_ & _ & E2)]]; rewrite E2 in Hp0; try discriminate. injection Hp0 as Hp0.
        rewrite <- Hp0 in Hp. injection Hp as Hq _. assert (Hx : In o (remove1 o1 (y_q (c_prim s)))) by (apply In_remove1_NoDup; [apply HY|auto]).
        rewrite Hq in Hx. apply In_remove1_NoDup in Hx; [|apply HY]. now destruct Hx.
    + cbn in Hp. unfold y_resume in Hp. injection Hp as Hp _. apply Hsame; [now rewrite Hp|]. intros o' Ht. rewrite <- Hp in Ht |- *. cbn [p_try P wait_group_c] in Ht. exfalso.
      destruct (try_cases (c_prim s) o') as [[_ E]|[(_ & Hi & E)|(_ & _ & E)]]; rewrite E in Ht; try discriminate. injection Ht as Ht.
      assert (Hq : y_q (c_prim s) = remove1 o' (y_q (c_prim s))) by (rewrite <- Ht at 1; reflexivity).
      rewrite Hq in Hi. apply In_remove1_NoDup in Hi; [|apply HY]. now destruct Hi.
    + destruct (un_step _ _ _ _ _ Hp) as (E & _). rewrite E, Hcan. split; [intros Hn; apply (node_stays s s' es o NCancelled He); auto|].
      intros Hn. destruct (cancelled_new _ _ _ _ He Hn) as [Hn0|[Hn0 Hp0]]; [exact Hn0|]. exfalso.
      cbn [p_try P wait_group_c] in Hp0. destruct (try_cases (c_prim s) o) as [[_ E2]|[(_ & Hi2 & E2)|(_ & _ & E2)]]; rewrite E2 in Hp0; try discriminate. injection Hp0 as Hp0.
      assert (Ec2 : y_can (c_prim s') o = true) by (rewrite <- Hp0; apply upd_same). rewrite E in Ec2. apply Hcan in Ec2. congruence.
  - intros u. rewrite El, Hunit. unfold is_unit. split.
    + intros [[H|(us & H & Hi)]|(us & H & Hi)]; [auto|right..]; exists us; rewrite in_app_iff; auto.
    + intros [H|(us & H & Hi)]; [auto|]. rewrite in_app_iff in H. destruct H as [H|H]; eauto.
  - intros u. rewrite Ec, Hdone. unfold unit_done. rewrite in_app_iff. tauto.
  - intros o kn H. rewrite starts_app. rewrite in_app_iff in *. destruct H as [H|H].
    + destruct (Hwait _ _ H) as [H1 H2]. split; [auto|]. intros u Hu. apply El. auto.
    + destruct (Ew _ _ H) as (H1 & a & -> & _). split; [auto|]. intros u Hu. apply known_lt in Hu as (w & Hw & _). apply El. left. apply nth_error_Some. congruence.
  - intros o H. rewrite starts_app, in_app_iff in H. destruct H as [H|H].
    + destruct (Hwaited _ H) as (kn & Hk). exists kn. apply in_app_iff. auto.
    + destruct (Es _ H) as (_ & kn & Hk). exists kn. apply in_app_iff. auto.
  - intros o kn u Hn Hk Hu.
    assert (Hlt : u < length (y_un (c_prim s')) -> (exists pl taken pes, p_step P (c_prim s) pl = POk (c_prim s') taken pes /\ In o taken) -> finu (c_prim s') u).
    { intros Hl (pl & taken & pes & Hp & Hin). destruct (nth_error (y_un (c_prim s')) u) as [w|] eqn:Ew'; [|apply nth_error_None in Ew'; lia].
      exists w. split; [exact Ew'|]. apply (zero_fin _ u w HY'); auto. cbn [p_step P wait_group_c] in Hp.
      destruct pl as [n|v p|k i]; cbn [y_step] in Hp.
      - injection Hp as _ <- _. destruct Hin.
      - destruct (nth_error (y_un (c_prim s)) v) as [w0|]; [|discriminate]. destruct (negb (u_called w0) && (u_pos w0 <=? p) && (p <? length (y_h (c_prim s)))); [|discriminate].
        injection Hp as _ <- _. destruct Hin.
      - remember (c_prim s') as ps. destruct (done_cases _ _ _ _ _ _ Hp) as [v pc p Hk' Hpc Hp' Hi|v pc p Hk' Hpc Hv|v pc p Hk' -> Hv]; try destruct Hin.
        destruct (Nat.eqb_spec (y_val (c_prim s) (y_newest (c_prim s))) 1) as [E|E]; [|destruct Hin].
        rewrite val_last, E. reflexivity. }
    destruct (taken_new _ _ _ _ He Hn) as [Hn0|(pl & taken & pes & Hp & Hes & Hin & Hq)].
    + rewrite in_app_iff in Hk. destruct Hk as [Hk|Hk]; [apply Ef; eapply Htaken; eauto|]. exfalso.
      apply Ew in Hk as [Hst _]. apply (Hfresh _ Hst). apply (t_node_started _ _ _ s tr o HJT). congruence.
    + apply Hlt; [|eauto 10]. rewrite in_app_iff in Hk. destruct Hk as [Hk|Hk].
      * apply El. left. destruct (Hwait _ _ Hk) as [_ H]. auto.
      * exfalso. apply Ew in Hk as [Hst _]. apply (Hfresh _ Hst). apply (t_node_started _ _ _ s tr o HJT). congruence.
  - intros o v Hf.
    assert (Hold : o_fast (c_op s o) = Some v -> ~ In o (starts es) -> v = true /\ forall kn u, In (py (n0 := n0) (pick := pick) (EYWait o kn)) (tr ++ es) -> In u kn -> finu (c_prim s') u).
    { intros Hf0 Hni. destruct (Hfast _ _ Hf0) as [Hv Hk]. split; [exact Hv|]. intros kn u Hi Hu. rewrite in_app_iff in Hi. destruct Hi as [Hi|Hi]; [apply Ef; eauto|].
      exfalso. apply Hni. eapply Ew; eauto. }
    destruct He as [s' o1 tok a pes Hl Hn Hd Hst Hss|s' o1 tok a w pes Hl Hn Hd Hst Hss|s' o1 es Hp|s' es Hcp Hss Hes|s' pl taken pes Hp Htk Hss].
    + specialize (Hss o). destruct (Nat.eqb_spec o o1) as [E|E]; [apply stat_inv in Hss; destruct Hss as (_ & H & _); congruence|].
      apply stat_eq in Hss. destruct Hss as (_ & H & _). apply Hold; [congruence|]. cbn. rewrite starts_pes. intros [H1|[]]. congruence.
    + specialize (Hss o). destruct (Nat.eqb_spec o o1) as [E|E]; [subst o1|].
      * apply stat_inv in Hss. destruct Hss as (_ & H & _). cbn [p_start P wait_group_c] in Hst.
        destruct (start_cases (c_prim s) o a) as [[Hz E]|[_ E]]; rewrite E in Hst; [|discriminate]. injection Hst as Hps <- <-.
        split; [congruence|]. intros kn u Hi Hu. rewrite in_app_iff in Hi. destruct Hi as [Hi|Hi].
        -- exfalso. apply Hwait in Hi as [Hi _]. apply HS in Hi. contradiction.
        -- cbn in Hi. destruct Hi as [[=]|[[= <-]|[]]]. apply known_lt in Hu as (w & Hw & Hwp). apply Ef. exists w. split; [exact Hw|].
           exact (read_fin _ _ _ _ _ HY Hz Hw Hwp).
      * apply stat_eq in Hss. destruct Hss as (_ & H & _). apply Hold; [congruence|]. cbn. rewrite starts_pes. intros [H1|[]]. congruence.
    + assert (Hfe : o_fast (c_op s' o) = o_fast (c_op s o) /\ starts es = []).
      { destruct Hp as [s' Hcp Hss|s' e Hn Ht Hr Htry Hss|s' w Hf0 Hn Hd Hcp Hss|s' w Hn Hd Hr Hss]; (split; [|reflexivity]); specialize (Hss o);
          try (destruct (Nat.eqb_spec o o1) as [E|E]; [subst o1|]); apply stat_eq in Hss; destruct Hss as (_ & H & _); cbn in H; congruence. }
      destruct Hfe as [E1 E2]. apply Hold; [congruence|]. rewrite E2. auto.
    + specialize (Hss o). apply stat_eq in Hss. destruct Hss as (_ & H & _). apply Hold; [congruence|].
      destruct Hes as [->|[[o' ->]|[e ->]]]; cbn; auto.
    + specialize (Hss o). apply Hold; [|rewrite starts_pes; auto]. destruct (memb o taken); apply stat_eq in Hss; destruct Hss as (_ & H & _); cbn in H; congruence.
Qed.

Lemma ti_run ls s tr : run step (c_init P) ls = Running s tr -> TI s tr.
Proof. exact (run_inv step TI (c_init P) TI_init TI_step ls s tr). Qed.

(** ** Reports *)
Lemma yc_true ls s t1 o t2 kn u : run step (c_init P) ls = Running s (t1 ++ EDone (P := P) o true :: t2) ->
  In (py (EYWait o kn)) t1 -> In u kn -> unit_done t1 u.
Proof.
  intros Hr Hk Hu. destruct (t_report _ _ wait_group_c_tlaws _ _ _ _ _ _ Hr) as (ls1 & s1 & Hr1 & HJT & Hcase).
  pose proof (ti_run ls1 s1 _ Hr1) as HI. apply (ti_done _ _ HI).
  assert (Hf : finu (c_prim s1) u).
  { destruct Hcase as [(w & Hf & Hv & Hn)|(ps & Hres & [Hn|[Hn _]])].
    - destruct (ti_fast _ _ HI _ _ Hf) as [_ H]. eauto.
    - eapply (ti_taken _ _ HI); eauto.
    - cbn in Hres. unfold y_resume in Hres. injection Hres as _ Hv. apply (ti_can _ _ HI) in Hn. rewrite Hn in Hv. discriminate. }
  destruct Hf as (w & Hw & Hf). exists w. split; [exact Hw|]. eapply (yi_fin _ (yinv_of _ _ HJT)); eauto.
Qed.

Lemma yc_false ls s t1 o t2 : run step (c_init P) ls = Running s (t1 ++ EDone (P := P) o false :: t2) -> cancel_requested o t1.
Proof.
  intros Hr. destruct (t_report _ _ wait_group_c_tlaws _ _ _ _ _ _ Hr) as (ls1 & s1 & Hr1 & HJT & Hcase).
  pose proof (ti_run ls1 s1 _ Hr1) as HI.
  destruct Hcase as [(w & Hf & Hv & Hn)|(ps & Hres & [Hn|[_ H]])]; auto; exfalso.
  - cbn in Hv. destruct (ti_fast _ _ HI _ _ Hf) as [E _]. congruence.
  - cbn in Hres. unfold y_resume in Hres. injection Hres as _ Hv. destruct (y_can (c_prim s1) o) eqn:Hc; [|discriminate]. apply (ti_can _ _ HI) in Hc. congruence.
Qed.

Lemma cancel_requested_mono o (t1 t2 : trace) : cancel_requested o t1 -> cancel_requested o (t1 ++ t2).
Proof. intros (e & (a & H1) & H2). exists e. split; [exists a|]; apply in_app_iff; auto. Qed.

Lemma yc_default_token ls s tr o a v : run step (c_init P) ls = Running s tr ->
  In (EStart (P := P) o None a) tr -> In (EDone (P := P) o v) tr -> v = true.
Proof.
  intros Hr Hs Hd. destruct v; auto. exfalso. apply in_split in Hd. destruct Hd as (t1 & t2 & ->).
  apply (t_default_token _ _ _ wait_group_c_tlaws _ _ _ _ _ Hr Hs). apply cancel_requested_mono. eapply yc_false; eauto.
Qed.

(** every wait has its event *)
Lemma yc_waited ls s tr o : run step (c_init P) ls = Running s tr -> started o tr -> exists kn, In (py (n0 := n0) (pick := pick) (EYWait o kn)) tr.
Proof. intros Hr. exact (ti_waited _ _ (ti_run ls s tr Hr) o). Qed.

(** ** Quiescence *)
Lemma open_unit s tr : TI s tr -> done_returned s -> y_q (c_prim s) <> [] -> exists u, is_unit tr u /\ ~ unit_done tr u.
Proof.
  intros HI Hd Hq. pose proof (yinv_of _ _ (ti_jt _ _ HI)) as H. destruct (newest_lt _ H) as [Hn1 Hn2].
  pose proof (yi_q _ H Hq) as Hl. pose proof (yi_lo _ H) as Hlo.
  pose proof (yi_mono _ H (y_lo (c_prim s)) (y_newest (c_prim s)) (le_n _) ltac:(lia) Hn1 Hl) as Hv.
  rewrite <- (yi_new _ H) in Hv. unfold left_at in Hv.
  assert (Hx : exists w, In w (y_un (c_prim s)) /\ u_fin w = false).
  { revert Hv. induction (y_un (c_prim s)) as [|w l IH]; cbn; [lia|]. intros Hv. destruct (u_fin w) eqn:Hf; [|eauto].
    unfold open_at in Hv at 1. rewrite Hf in Hv. cbn in Hv. destruct (IH Hv) as (w' & H1 & H2). eauto. }
  destruct Hx as (w & Hw & Hf). apply In_nth_error in Hw as (u & Hu). exists u. split.
  - apply (ti_unit _ _ HI). apply nth_error_Some. congruence.
  - intros Hud. apply (ti_done _ _ HI) in Hud as (w' & Hw' & Hc). rewrite Hu in Hw'. injection Hw' as <-.
    destruct (yi_called _ H _ _ Hu Hc) as (pc & p & Hi). pose proof (Hd _ _ _ Hi) as ->. apply In_nth_error in Hi as (k & Hk).
    destruct (yi_dn _ H _ _ _ _ Hk) as (_ & (w2 & Hw2 & _ & _ & Hf2) & _). rewrite Hu in Hw2. injection Hw2 as <-.
    rewrite (proj2 Hf2 eq_refl) in Hf. discriminate.
Qed.

Lemma yc_pending ls s tr o : run step (c_init P) ls = Running s tr -> all_returned s -> done_returned s -> started o tr ->
  notified o tr = 1 \/ ((exists u, is_unit tr u /\ ~ unit_done tr u) /\ ~ cancel_requested o tr).
Proof.
  intros Hr Hret Hd Hst. pose proof (ti_run ls s tr Hr) as HI. pose proof (ti_jt _ _ HI) as [[HG HTI] _]. pose proof HTI as (HD & HS & _).
  destruct (quiescent _ _ _ s o HG Hret (proj2 (HS o) Hst)) as [Hdn|(Hq & _ & Hnr)].
  - left. now rewrite HD, Hdn.
  - right. pose proof HG as (_ & _ & (_ & HQ) & _). apply HQ in Hq. cbn in Hq. split.
    + apply (open_unit s tr HI Hd). intros E. rewrite E in Hq. destruct Hq.
    + intros Hcr. destruct (requested_iff _ _ _ _ _ _ (conj HG HTI) Hcr) as (e & He1 & He2). rewrite (Hnr e He1) in He2. discriminate.
Qed.

(** all units were ended at some point: the waits that were started before are notified, even if the group is used again *)
Lemma not_queued_stable ls : forall s tr s' tr' o, TI s tr -> In o (starts tr) -> o_node (c_op s o) <> NQueued ->
  run_from step s tr ls = Running s' tr' -> TI s' tr' /\ In o (starts tr') /\ o_node (c_op s' o) <> NQueued.
Proof.
  induction ls as [|l ls IH]; intros s tr s' tr' o HI Hst Hn Hr; cbn in Hr.
  - injection Hr as <- <-. auto.
  - destruct (step s l) as [s1 es| |f es] eqn:Hs; try discriminate.
    pose proof (TI_step _ _ _ _ _ HI Hs) as HI1.
    apply (IH s1 (tr ++ es)); auto; [rewrite starts_app, in_app_iff; auto|].
    pose proof (ti_jt _ _ HI) as HJT. pose proof (JT_reliable _ _ _ _ _ _ HJT) as HR. pose proof HJT as [[HG (_ & HS & _)] _].
    pose proof (step_effect _ _ _ _ _ _ _ HG HR Hs) as He. apply HS in Hst.
    destruct He as [s1 o1 tok a pes Hl Hn1 Hd Hst' Hss|s1 o1 tok a v pes Hl Hn1 Hd Hst' Hss|s1 o1 es Hp|s1 es Hcp Hss Hes|s1 pl taken pes Hp Htk Hss].
    + specialize (Hss o). destruct (Nat.eqb_spec o o1) as [E|E]; [congruence|]. apply stat_eq in Hss. destruct Hss as (_ & _ & H & _). congruence.
    + specialize (Hss o). destruct (Nat.eqb_spec o o1) as [E|E]; [congruence|]. apply stat_eq in Hss. destruct Hss as (_ & _ & H & _). congruence.
    + destruct Hp as [s1 Hcp Hss|s1 e Hn1 Ht Hr' Htry Hss|s1 v Hf Hn1 Hd Hcp Hss|s1 v Hn1 Hd Hr' Hss]; specialize (Hss o);
        try (destruct (Nat.eqb_spec o o1) as [E|E]); apply stat_eq in Hss; destruct Hss as (_ & _ & H & _); cbn in H; congruence.
    + specialize (Hss o). apply stat_eq in Hss. destruct Hss as (_ & _ & H & _). congruence.
    + specialize (Hss o). destruct (memb o taken); apply stat_eq in Hss; destruct Hss as (_ & _ & H & _); cbn in H; congruence.
Qed.

Lemma yc_woken ls1 s1 tr1 ls2 s2 tr2 o : run step (c_init P) ls1 = Running s1 tr1 -> done_returned s1 -> (forall u, is_unit tr1 u -> unit_done tr1 u) ->
  run step (c_init P) (ls1 ++ ls2) = Running s2 tr2 -> all_returned s2 -> started o tr1 -> notified o tr2 = 1.
Proof.
  intros Hr1 Hd Hu Hr2 Hret Hst. unfold run in Hr2. rewrite run_from_app in Hr2. fold (run step (c_init P) ls1) in Hr2. rewrite Hr1 in Hr2.
  pose proof (ti_run ls1 s1 tr1 Hr1) as HI.
  assert (Hn : o_node (c_op s1 o) <> NQueued).
  { intros Hn. pose proof (ti_jt _ _ HI) as [[(_ & _ & (_ & HQ) & _) _] _]. apply HQ in Hn. cbn in Hn.
    destruct (open_unit s1 tr1 HI Hd) as (u & H1 & H2); [|now apply H2, Hu]. intros E. rewrite E in Hn. destruct Hn. }
  destruct (not_queued_stable ls2 s1 tr1 s2 tr2 o HI Hst Hn Hr2) as (HI2 & Hst2 & Hn2).
  pose proof (ti_jt _ _ HI2) as [[HG (HD & HS & _)] _].
  destruct (quiescent _ _ _ s2 o HG Hret (proj2 (HS o) Hst2)) as [Hdn|(Hqd & _)]; [now rewrite HD, Hdn|contradiction].
Qed.

(** ** Failures *)
Lemma yc_fail ls f tr : run step (c_init P) ls = Failed f tr ->
  (f = BadUnlink /\ exists s o x,
     TI s tr /\ get_pc x (c_op s o) = PTry /\ o_node (c_op s o) = NTaken /\ y_val (c_prim s) (y_read (c_prim s) 0 (pick o)) > 0 /\
     exists ls1, run step (c_init P) ls1 = Running s tr) \/
  (eager = true /\ f = UseAfterFree /\ exists o, In (EDestroy o) tr /\ notified o tr = 1 /\ cancel_requested o tr).
Proof.
  intros Hr. destruct (t_failure _ _ wait_group_c_tlaws _ _ _ Hr) as [(ls1 & s & tr1 & l & es & Hr1 & -> & HJT & Hc)|H]; [left|right; exact H].
  pose proof (ti_run ls1 s tr1 Hr1) as HI.
  destruct Hc as [(o & tok & a & _ & _ & Hst & _)|[(pl & pes & _ & Hp & _)|[(o & x & _ & _ & Hres & _)|(o & x & _ & Hp & Hn & Ht & ->)]]].
  - cbn [p_start P wait_group_c] in Hst. destruct (start_cases (c_prim s) o a) as [[_ E]|[_ E]]; rewrite E in Hst; discriminate.
  - exfalso. exact (step_nofail _ _ _ _ (yinv_of _ _ HJT) Hp).
  - discriminate.
  - rewrite app_nil_r. cbn [p_try P wait_group_c] in Ht. destruct (try_cases (c_prim s) o) as [[_ E]|[(_ & _ & E)|(Hv & _ & E)]]; rewrite E in Ht; try discriminate.
    injection Ht as <-. split; auto. exists s, o, x. eauto 10.
Qed.

(** *** with the re-use rule *)
Definition UI (s : cst) (tr : trace) : Prop :=
  TI s tr /\ forall o, o_node (c_op s o) = NTaken -> o_done (c_op s o) = false -> forall i, y_lo (c_prim s) <= i < length (y_h (c_prim s)) -> y_val (c_prim s) i = 0.

Lemma reuse_pre (t1 t2 : trace) : reuse_rule (t1 ++ t2) -> reuse_rule t1.
Proof. intros H a us b ->. apply (H a us (b ++ t2)). rewrite <- app_assoc. reflexivity. Qed.

Lemma UI_step s tr l s' es : UI s tr -> step s l = Next s' es -> reuse_rule (tr ++ es) -> UI s' (tr ++ es).
Proof.
  intros [HI HU] Hs HRU. pose proof (TI_step _ _ _ _ _ HI Hs) as HI'. split; [exact HI'|]. intros o Hn Hd.
  pose proof (ti_jt _ _ HI) as HJT. pose proof (ti_jt _ _ HI') as HJT'.
  pose proof (JT_reliable _ _ _ _ _ _ HJT) as HR. pose proof HJT as [[HG HTI] HTK].
  pose proof HTI as (HDn & _). pose proof (yinv_of _ _ HJT) as HY. destruct (newest_lt _ HY) as [Hn1 Hn2]. pose proof (yi_lo _ HY) as Hlo.
  pose proof (step_effect _ _ _ _ _ _ _ HG HR Hs) as He.
  assert (Hd0 : o_done (c_op s o) = false).
  { destruct HJT' as [[_ (HDn' & _)] _]. specialize (HDn' o). rewrite Hd in HDn'. specialize (HDn o).
    rewrite ndone_app in HDn'. destruct (o_done (c_op s o)); auto. lia. }
  destruct (taken_new _ _ _ _ He Hn) as [Hn0|(pl & taken & pes & Hp & Hes & Hin & Hq)].
  - pose proof (HU o Hn0 Hd0) as Hz. pose proof (Hz _ (conj (proj1 (Nat.lt_succ_r _ _) (eq_ind _ (fun n => y_lo (c_prim s) < n) Hlo _ Hn2)) Hn1) : y_val (c_prim s) (y_newest (c_prim s)) = 0) as Hz0.
    destruct (step_prim_eff _ _ _ He) as [Hp Hes _|o1 tok a pes Hp _ _|o1 tok a v pes Hp _ _|o1 _ Hp _ _|o1 v Hp _|pl taken pes Hp Hes _].
    + rewrite Hp. exact Hz.
    + pose proof (read_range (c_prim s) (fst a) (snd a) HY) as Hrr. cbn [p_start P wait_group_c] in Hp. destruct (start_cases (c_prim s) o1 a) as [[_ E]|[Hv E]]; rewrite E in Hp; [discriminate|].
      rewrite Hz in Hv by auto. lia.
    + pose proof (read_range (c_prim s) (fst a) (snd a) HY) as Hrr. cbn [p_start P wait_group_c] in Hp. destruct (start_cases (c_prim s) o1 a) as [[_ E]|[Hv E]]; rewrite E in Hp; [|discriminate].
      injection Hp as Hp _ _. rewrite <- Hp. cbn [y_lo y_h]. intros i Hi. apply (Hz i). lia.
    + pose proof (read_range (c_prim s) 0 (pick o1) HY) as Hrr. cbn [p_try P wait_group_c] in Hp. destruct (try_cases (c_prim s) o1) as [[_ E]|[(Hv & _ & E)|(Hv & _ & E)]]; rewrite E in Hp; try discriminate.
      rewrite Hz in Hv by auto. lia.
    + cbn in Hp. unfold y_resume in Hp. injection Hp as Hp _. rewrite <- Hp. exact Hz.
    + cbn [p_step P wait_group_c] in Hp. destruct pl as [n|v p|k i]; cbn [y_step] in Hp.
      * injection Hp as Hp _ <-. rewrite <- Hp. cbn [y_lo y_h]. intros i Hi. unfold y_val at 1; cbn [y_h]. rewrite val_app. rewrite app_length in Hi. cbn in Hi.
        destruct (Nat.eqb_spec i (length (y_h (c_prim s)))) as [Ei|Ei]; [|apply Hz; lia]. rewrite Hz0. cbn.
        destruct n as [|n]; [reflexivity|]. exfalso. subst es.
        assert (Hst : started o tr) by (apply (t_node_started _ _ _ s tr o HJT); congruence).
        pose proof (HRU tr _ [] eq_refl ltac:(discriminate)) as H. specialize (fun H1 => H H1 o Hst). rewrite HDn, Hd0 in H. discriminate H.
        intros u Hu. apply (ti_done _ _ HI). apply (ti_unit _ _ HI) in Hu. destruct (nth_error (y_un (c_prim s)) u) as [w|] eqn:Hw; [|apply nth_error_None in Hw; lia].
        exists w. split; [exact Hw|]. apply (yi_fin _ HY _ _ Hw). eapply zero_fin; eauto.
      * destruct (nth_error (y_un (c_prim s)) v) as [w|]; [|discriminate]. destruct (negb (u_called w) && (u_pos w <=? p) && (p <? length (y_h (c_prim s)))); [|discriminate].
        injection Hp as Hp _ _. rewrite <- Hp. exact Hz.
      * remember (c_prim s') as ps. destruct (done_cases _ _ _ _ _ _ Hp) as [v pc p Hk Hpc Hp' Hi|v pc p Hk Hpc Hv|v pc p Hk -> Hv]; [exact Hz|lia|lia].
  - cbn [p_step P wait_group_c] in Hp. destruct pl as [n|v p|k i]; cbn [y_step] in Hp.
    + injection Hp as _ <- _. destruct Hin.
    + destruct (nth_error (y_un (c_prim s)) v) as [w0|]; [|discriminate]. destruct (negb (u_called w0) && (u_pos w0 <=? p) && (p <? length (y_h (c_prim s)))); [|discriminate].
      injection Hp as _ <- _. destruct Hin.
    + remember (c_prim s') as ps. destruct (done_cases _ _ _ _ _ _ Hp) as [v pc p Hk' Hpc Hp' Hi|v pc p Hk' Hpc Hv|v pc p Hk' -> Hv]; try destruct Hin.
      destruct (Nat.eqb_spec (y_val (c_prim s) (y_newest (c_prim s))) 1) as [E|E]; [|destruct Hin].
      cbn [y_lo y_h]. intros j Hj. rewrite app_length in Hj. cbn in Hj. unfold y_val at 1; cbn [y_h]. rewrite val_app. destruct (Nat.eqb_spec j (length (y_h (c_prim s)))); lia.
Qed.

Lemma ui_run ls s tr : run step (c_init P) ls = Running s tr -> reuse_rule tr -> UI s tr.
Proof.
  refine (run_inv_client step reuse_rule UI (c_init P) reuse_pre _ UI_step ls s tr).
  split; [apply TI_init|]. cbn. discriminate.
Qed.

Lemma yc_reuse_fail ls f tr : run step (c_init P) ls = Failed f tr -> reuse_rule tr ->
  eager = true /\ f = UseAfterFree /\ exists o, In (EDestroy o) tr /\ notified o tr = 1 /\ cancel_requested o tr.
Proof.
  intros Hr H1. destruct (yc_fail _ _ _ Hr) as [(_ & s & o & x & HI & Hp & Hn & Hv & ls1 & Hr1)|H]; auto. exfalso.
  destruct (ui_run _ _ _ Hr1 H1) as [_ HU]. pose proof (ti_jt _ _ HI) as [[HG _] _]. pose proof (yinv_of _ _ (ti_jt _ _ HI)) as HY.
  rewrite (HU o Hn (try_not_done _ _ _ s o x HG Hp)) in Hv by (apply read_range, HY). lia.
Qed.

Lemma yc_done_enabled ls s tr k u pc p : run step (c_init P) ls = Running s tr -> nth_error (y_dn (c_prim s)) k = Some (u, pc, p) -> pc <> YEnd ->
  exists s' es, step s (LPrim (P := P) (YStep k (length (y_h (c_prim s)) - 1))) = Next s' es.
Proof.
  intros Hr Hk Hpc. pose proof (yinv_of _ _ (ti_jt _ _ (ti_run ls s tr Hr))) as H. cbn [step p_step wait_group_c y_step].
  assert (Hx : y_done (c_prim s) k (length (y_h (c_prim s)) - 1) <> PNo).
  { destruct (newest_lt _ H) as [Hn1 Hn2]. destruct (yi_dn _ H _ _ _ _ Hk) as (Hp & _). unfold y_done. rewrite Hk.
    assert (E : (p <=? length (y_h (c_prim s)) - 1) && (length (y_h (c_prim s)) - 1 <? length (y_h (c_prim s))) = true)
      by (apply andb_true_iff; split; [apply Nat.leb_le|apply Nat.ltb_lt]; lia).
    rewrite E. destruct pc as [|[|[|x]]|]; try discriminate; try congruence.
    - destruct (y_val (c_prim s) (y_newest (c_prim s))); discriminate.
    - destruct (y_val (c_prim s) (length (y_h (c_prim s)) - 1) =? S (S x)); [|discriminate]. unfold y_newest. rewrite Nat.eqb_refl. discriminate. }
  destruct (y_done (c_prim s) k (length (y_h (c_prim s)) - 1)) as [ps tk es| |f es] eqn:E; [eauto|congruence|].
  exfalso. exact (step_nofail (c_prim s) (YStep k _) _ _ H E).
Qed.
End Runs.
End Proofs.
