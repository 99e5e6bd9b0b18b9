(** Proofs about promise / future handles. *)
From Coq Require Import List Arith Bool Lia.
From Verif Require Import Lts ListFacts M_Handles S_Handles.
Import ListNotations.

Definition pts (k : nat) (v : option nat) : nat := match v with Some k' => if Nat.eqb k' k then 1 else 0 | None => 0 end.
Definition refs (ow : list (option nat)) (k : nat) : nat := sum (map (pts k) ow).

Definition cnt_ok (sh : list shared) (r : nat -> nat) : Prop :=
  forall k x, nth_error sh k = Some x -> s_ctr x = r k /\ s_freed x = Nat.eqb (r k) 0.

Definition own_l (ow : list (option nat)) (h : nat) : option nat := match nth_error ow h with Some v => v | None => None end.

Lemma refs_set ow h v k : h < length ow -> refs (set_nth ow h v) k + pts k (own_l ow h) = refs ow k + pts k v.
Proof.
  intros Hh. unfold refs, own_l. destruct (nth_error ow h) as [y|] eqn:E; [|apply nth_error_None in E; lia].
  now apply sum_map_set_nth.
Qed.
Lemma refs_snoc ow v k : refs (ow ++ [v]) k = refs ow k + pts k v.
Proof. unfold refs. rewrite map_app, sum_app. simpl. lia. Qed.
Lemma refs_ge ow h k : own_l ow h = Some k -> refs ow k >= 1.
Proof.
  unfold own_l, refs. destruct (nth_error ow h) as [y|] eqn:E; [|discriminate]. intros ->. apply nth_error_In in E.
  pose proof (sum_map_le (pts k) _ _ E) as H. simpl in H. rewrite Nat.eqb_refl in H. exact H.
Qed.
Lemma refs_pos ow k : refs ow k > 0 <-> exists h, own_l ow h = Some k.
Proof.
  split.
  - unfold refs. induction ow as [|v ow IH]; simpl; [lia|]. intros H. destruct v as [k'|]; simpl in H.
    + destruct (Nat.eqb_spec k' k) as [->|Hne]; [exists 0; reflexivity|]. destruct (IH H) as [h Hh]. exists (S h). exact Hh.
    + destruct (IH H) as [h Hh]. exists (S h). exact Hh.
  - intros [h Hh]. apply refs_ge in Hh. lia.
Qed.
Lemma pts_same k : pts k (Some k) = 1.
Proof. simpl. now rewrite Nat.eqb_refl. Qed.
Lemma own_set_same ow h v : h < length ow -> own_l (set_nth ow h v) h = v.
Proof.
  intros H. unfold own_l. destruct (nth_error ow h) as [y|] eqn:E; [|apply nth_error_None in E; lia].
  now rewrite (nth_error_set_nth_same _ _ _ _ E).
Qed.
Lemma own_set_other ow h h' v : h <> h' -> own_l (set_nth ow h v) h' = own_l ow h'.
Proof. intros H. unfold own_l. now rewrite nth_error_set_nth_other. Qed.
Lemma own_snoc_old ow v h : h < length ow -> own_l (ow ++ [v]) h = own_l ow h.
Proof. intros H. unfold own_l. now rewrite nth_error_app1. Qed.
Lemma set_own ow h : set_nth ow h (own_l ow h) = ow.
Proof.
  revert h. induction ow as [|v ow IH]; intros [|h]; try reflexivity. change (own_l (v :: ow) (S h)) with (own_l ow h). simpl. now rewrite IH.
Qed.
Lemma set_set {A} (l : list A) i x y : set_nth (set_nth l i x) i y = set_nth l i y.
Proof. revert i. induction l as [|z l IH]; intros [|i]; simpl; auto. now rewrite IH. Qed.
Lemma set_snoc {A} (l : list A) i x y : i < length l -> set_nth (l ++ [y]) i x = set_nth l i x ++ [y].
Proof. revert i. induction l as [|z l IH]; intros [|i]; simpl; try lia; auto. intros H. rewrite IH; auto. lia. Qed.

Lemma frees_app k t1 t2 : frees k (t1 ++ t2) = frees k t1 + frees k t2.
Proof. induction t1 as [|e t1 IH]; simpl; auto. destruct e; simpl; auto. rewrite IH. lia. Qed.

(** ** The shared states *)
Definition minus1 (r : nat -> nat) (v : option nat) (k : nat) : nat := r k - pts k v.
Definition plus1 (r : nat -> nat) (v : option nat) (k : nat) : nat := r k + pts k v.

Lemma cnt_ext sh r r' : (forall k, r k = r' k) -> cnt_ok sh r -> cnt_ok sh r'.
Proof. intros H H1 k x Hk. rewrite <- !H. auto. Qed.

Lemma unref_spec sh hd r v : cnt_ok sh r -> (forall k, v = Some k -> k < length sh /\ r k > 0) ->
  exists sh' es, unref_if (HS sh hd) v = Good (HS sh' hd) es /\ length sh' = length sh /\ cnt_ok sh' (minus1 r v) /\
    calls_of es = [] /\ forall k, frees k es = if Nat.eqb (pts k v) 1 && Nat.eqb (r k) 1 then 1 else 0.
Proof.
  intros Hc Hv. destruct v as [k|].
  - destruct (Hv k eq_refl) as [Hk Hr]. unfold unref_if, deref. simpl hs_sh.
    destruct (nth_error sh k) as [x|] eqn:E; [|apply nth_error_None in E; lia].
    destruct (Hc _ _ E) as [H1 H2]. rewrite H2. destruct (Nat.eqb_spec (r k) 0) as [|_]; [lia|].
    assert (Hnew : forall y, s_ctr y = r k - 1 -> s_freed y = Nat.eqb (r k - 1) 0 -> cnt_ok (set_nth sh k y) (minus1 r (Some k))).
    { intros y Hy1 Hy2 j z Hz. unfold minus1. simpl. destruct (Nat.eqb_spec k j) as [<-|Hne].
      - rewrite (nth_error_set_nth_same _ _ _ _ E) in Hz. injection Hz as <-. auto.
      - rewrite nth_error_set_nth_other in Hz by auto. rewrite Nat.sub_0_r. auto. }
    rewrite H1. destruct (r k) as [|[|c]] eqn:Er; [lia| |].
    + eexists _, _. split; [reflexivity|]. split; [apply set_nth_length|]. split; [apply Hnew; auto|]. split; [reflexivity|].
      intros j. simpl. destruct (Nat.eqb_spec k j) as [<-|Hne]; simpl; [rewrite Er; reflexivity|auto].
    + eexists _, _. split; [reflexivity|]. split; [apply set_nth_length|]. split; [apply Hnew; simpl; lia|]. split; [reflexivity|].
      intros j. simpl. destruct (Nat.eqb_spec k j) as [<-|Hne]; simpl; [rewrite Er; reflexivity|auto].
  - exists sh, []. simpl. split; [auto|]. split; [auto|]. split; [|auto]. eapply cnt_ext; [|exact Hc]. intros k. unfold minus1. simpl. lia.
Qed.

Lemma ref_spec sh hd r k : cnt_ok sh r -> k < length sh -> r k > 0 ->
  exists sh', ref (HS sh hd) (Some k) = Good (HS sh' hd) [] /\ length sh' = length sh /\ cnt_ok sh' (plus1 r (Some k)).
Proof.
  intros Hc Hk Hr. unfold ref, deref. simpl hs_sh. simpl hs_hd.
  destruct (nth_error sh k) as [x|] eqn:E; [|apply nth_error_None in E; lia].
  destruct (Hc _ _ E) as [H1 H2]. rewrite H2. destruct (Nat.eqb_spec (r k) 0) as [|_]; [lia|].
  eexists. split; [reflexivity|]. split; [apply set_nth_length|].
  intros j z Hz. unfold plus1. simpl. destruct (Nat.eqb_spec k j) as [<-|Hne].
  - rewrite (nth_error_set_nth_same _ _ _ _ E) in Hz. injection Hz as <-. simpl. rewrite H1. split; auto.
    destruct (Nat.eqb_spec (r k + 1) 0); [lia|auto].
  - rewrite nth_error_set_nth_other in Hz by auto. rewrite Nat.add_0_r. auto.
Qed.

Lemma ref_freed sh hd r k : cnt_ok sh r -> r k = 0 -> ref (HS sh hd) (Some k) = Bad UseAfterFree [].
Proof.
  intros Hc Hr. unfold ref, deref. simpl hs_sh. destruct (nth_error sh k) as [x|] eqn:E; auto.
  destruct (Hc _ _ E) as [H1 H2]. now rewrite H2, Hr.
Qed.

(** ** One call *)
Definition HI (s : hst) (a : sp) : Prop :=
  map h_st (hs_hd s) = sp_own a /\ length (hs_sh s) = sp_next a /\
  cnt_ok (hs_sh s) (refs (sp_own a)) /\
  (forall h k, own a h = Some k -> k < sp_next a).

Lemma own_own_l a h : own a h = own_l (sp_own a) h. Proof. reflexivity. Qed.
Lemma st_own s a h : map h_st (hs_hd s) = sp_own a -> st_of s h = own a h.
Proof. intros H. unfold st_of, own. rewrite <- H, nth_error_map. now destruct (nth_error (hs_hd s) h). Qed.

Lemma set_st_hd s h v : map h_st (hs_hd (set_st s h v)) = set_nth (map h_st (hs_hd s)) h v /\ hs_sh (set_st s h v) = hs_sh s.
Proof.
  unfold set_st. destruct (nth_error (hs_hd s) h) as [x|] eqn:E; simpl.
  - rewrite map_set_nth. auto.
  - split; auto. apply nth_error_None in E. assert (H : forall {A} (l : list A) i y, length l <= i -> set_nth l i y = l).
    { clear. intros A l. induction l as [|z l IH]; intros [|i] y Hi; simpl in *; auto; [lia|]. rewrite IH; auto. lia. }
    rewrite H; auto. now rewrite map_length.
Qed.
Lemma kill_hd s h : map h_st (hs_hd (kill s h)) = set_nth (map h_st (hs_hd s)) h None /\ hs_sh (kill s h) = hs_sh s.
Proof.
  unfold kill. pose proof (set_st_hd s h None) as H. unfold set_st in H. destruct (nth_error (hs_hd s) h) as [x|] eqn:E; simpl in *; auto.
  now rewrite map_set_nth.
Qed.
Lemma new_hd s b v : map h_st (hs_hd (new_handle s b v)) = map h_st (hs_hd s) ++ [v] /\ hs_sh (new_handle s b v) = hs_sh s.
Proof. unfold new_handle. simpl. now rewrite map_app. Qed.

Lemma is_a_lt b s h : is_a b s h = true -> h < length (map h_st (hs_hd s)).
Proof. unfold is_a. rewrite map_length. destruct (nth_error (hs_hd s) h) eqn:E; [|discriminate]. intros _. apply nth_error_Some. congruence. Qed.

(** has state [k] been freed, according to the specification? *)
Definition fr (a : sp) (k : nat) : nat := if Nat.ltb k (sp_next a) && Nat.eqb (refs (sp_own a) k) 0 then 1 else 0.

(** the outcome of a call that obeys the rule *)
Definition good_call (s : hst) (a : sp) (c : hcall) : Prop :=
  exists s' es, do_call s c = Good s' es /\ HI s' (sp_call a c) /\ calls_of es = [] /\
    forall k, fr a k + frees k es = fr (sp_call a c) k.

Lemma pts_le k v : pts k v <= 1.
Proof. destruct v as [j|]; simpl; auto. destruct (Nat.eqb j k); auto. Qed.

Lemma refs_two ow h1 h2 k : h1 <> h2 -> own_l ow h1 = Some k -> own_l ow h2 = Some k -> refs ow k >= 2.
Proof.
  intros Hne H1 H2.
  assert (Hl : h1 < length ow) by (unfold own_l in H1; destruct (nth_error ow h1) eqn:E; [apply nth_error_Some; congruence|discriminate]).
  pose proof (refs_set ow h1 None k Hl) as H. rewrite H1, pts_same in H. simpl in H.
  assert (H3 : own_l (set_nth ow h1 None) h2 = Some k) by (now rewrite own_set_other).
  apply refs_ge in H3. lia.
Qed.

Lemma bound_set a h v n : (forall h k, own a h = Some k -> k < n) -> (forall k, v = Some k -> k < n) ->
  forall h' k, own_l (set_nth (sp_own a) h v) h' = Some k -> k < n.
Proof.
  intros H Hv h' k. destruct (Nat.eq_dec h h') as [<-|Hne]; [|rewrite own_set_other by auto; apply H].
  unfold own_l. destruct (nth_error (sp_own a) h) as [y|] eqn:E.
  - rewrite (nth_error_set_nth_same _ _ _ _ E). auto.
  - intros Hk. exfalso. apply nth_error_None in E. assert (nth_error (set_nth (sp_own a) h v) h = None) as En by (apply nth_error_None; now rewrite set_nth_length).
    rewrite En in Hk. discriminate.
Qed.
Lemma bound_snoc ow v n : (forall h k, own_l ow h = Some k -> k < n) -> (forall k, v = Some k -> k < n) ->
  forall h' k, own_l (ow ++ [v]) h' = Some k -> k < n.
Proof.
  intros H Hv h' k. destruct (Nat.lt_ge_cases h' (length ow)) as [Hl|Hl]; [rewrite own_snoc_old by auto; apply H|].
  unfold own_l. rewrite nth_error_app2 by auto. destruct (h' - length ow) as [|m]; simpl; [auto|]. now destruct m.
Qed.

Ltac frtac := repeat match goal with
  | |- context [Nat.ltb ?a ?b] => destruct (Nat.ltb_spec a b)
  | |- context [Nat.eqb ?a ?b] => destruct (Nat.eqb_spec a b)
  end; simpl; try lia.

(** a copy of [v] is added for a new handle *)
Lemma copy_call s a v prom : HI s a -> (v = None \/ exists h, v = own a h) ->
  exists s', ref_if (new_handle s prom v) v = Good s' [] /\ HI s' (add a v) /\ forall k, fr (add a v) k = fr a k.
Proof.
  intros (H1 & H2 & H3 & H4) Hv. destruct (new_hd s prom v) as [Hh Hs].
  assert (Hb : forall k, v = Some k -> k < sp_next a /\ refs (sp_own a) k > 0).
  { intros k ->. destruct Hv as [|[h Hv]]; [discriminate|]. split; [now apply (H4 h)|]. apply (refs_ge _ h). now rewrite <- own_own_l. }
  assert (Hf : forall k, fr (add a v) k = fr a k).
  { intros k. unfold fr, add. simpl. rewrite refs_snoc. destruct v as [j|]; simpl; [|now rewrite Nat.add_0_r].
    destruct (Nat.eqb_spec j k) as [->|]; [|now rewrite Nat.add_0_r]. destruct (Hb k eq_refl). frtac. }
  assert (Hbd : forall h k, own (add a v) h = Some k -> k < sp_next a).
  { intros h k. apply bound_snoc; auto. intros j Hj. apply (Hb j Hj). }
  destruct v as [k|].
  - destruct (Hb k eq_refl) as [Hk Hr].
    destruct (ref_spec (hs_sh s) (hs_hd (new_handle s prom (Some k))) _ k H3 ltac:(lia) Hr) as (sh' & He & Hl & Hc).
    eexists. split; [exact He|]. split; [|exact Hf]. split; [simpl; now rewrite map_app, H1|]. split; [simpl; lia|]. split; [|exact Hbd].
    simpl. eapply cnt_ext; [|exact Hc]. intros j. unfold plus1. now rewrite refs_snoc.
  - eexists. split; [reflexivity|]. split; [|exact Hf]. split; [now rewrite Hh, H1|]. split; [now rewrite Hs|]. split; [|exact Hbd].
    rewrite Hs. simpl. eapply cnt_ext; [|exact H3]. intros j. rewrite refs_snoc. simpl. lia.
Qed.

(** ownership moves around, but every state keeps its number of owners *)
Lemma perm_call s a a' s' : HI s a -> map h_st (hs_hd s') = sp_own a' -> hs_sh s' = hs_sh s -> sp_next a' = sp_next a ->
  (forall k, refs (sp_own a') k = refs (sp_own a) k) -> HI s' a' /\ forall k, fr a' k = fr a k.
Proof.
  intros (H1 & H2 & H3 & H4) Hm Hs Hn Hr. split.
  - split; [exact Hm|]. split; [rewrite Hs, Hn; exact H2|]. split.
    + rewrite Hs. eapply cnt_ext; [|exact H3]. intros k. now rewrite Hr.
    + intros h k Hk. rewrite own_own_l in Hk. apply refs_ge in Hk. rewrite Hr in Hk. destruct (proj1 (refs_pos (sp_own a) k) Hk) as [h' Hh'].
      rewrite Hn. apply (H4 h'). exact Hh'.
  - intros k. unfold fr. now rewrite Hr, Hn.
Qed.

(** one owner disappears *)
Lemma drop_call s a a' hd v : HI s a -> map h_st hd = sp_own a' -> sp_next a' = sp_next a ->
  (forall k, v = Some k -> refs (sp_own a) k > 0) ->
  (forall k, refs (sp_own a') k + pts k v = refs (sp_own a) k) ->
  exists s' es, unref_if (HS (hs_sh s) hd) v = Good s' es /\ HI s' a' /\ calls_of es = [] /\ forall k, fr a k + frees k es = fr a' k.
Proof.
  intros (H1 & H2 & H3 & H4) Hm Hn Hv Hr.
  assert (Hb : forall k, refs (sp_own a) k > 0 -> k < sp_next a).
  { intros k Hk. destruct (proj1 (refs_pos (sp_own a) k) Hk) as [h' Hh']. apply (H4 h'). exact Hh'. }
  destruct (unref_spec (hs_sh s) hd _ v H3) as (sh' & es & He & Hl & Hc & Hcs & Hf).
  { intros k Hk. split; [rewrite H2; apply Hb; auto|auto]. }
  eexists _, es. split; [exact He|]. split; [|split; [exact Hcs|]].
  - split; [exact Hm|]. split; [simpl; lia|]. split.
    + simpl. eapply cnt_ext; [|exact Hc]. intros k. unfold minus1. specialize (Hr k). lia.
    + intros h k Hk. rewrite own_own_l in Hk. apply refs_ge in Hk. rewrite Hn. apply Hb. specialize (Hr k). lia.
  - intros k. rewrite Hf. unfold fr. rewrite Hn. specialize (Hr k). specialize (Hb k). pose proof (pts_le k v). frtac.
Qed.

Lemma swap_call s a g f : HI s a -> g < length (sp_own a) -> f < length (sp_own a) ->
  exists s' es, Good (set_st (set_st s g (st_of s f)) f (st_of s g)) [] = Good s' es /\ HI s' (put (put a g (own a f)) f (own a g)) /\
    calls_of es = [] /\ forall k, fr a k + frees k es = fr (put (put a g (own a f)) f (own a g)) k.
Proof.
  intros HIa Hg Hf. pose proof HIa as (H1 & _). rewrite (st_own s a g H1), (st_own s a f H1).
  eexists _, _. split; [reflexivity|]. destruct (set_st_hd s g (own a f)) as [Ha Hb].
  destruct (set_st_hd (set_st s g (own a f)) f (own a g)) as [Hc Hd].
  destruct (perm_call s a (put (put a g (own a f)) f (own a g)) (set_st (set_st s g (own a f)) f (own a g)) HIa) as [HI' Hfr]; auto.
  - now rewrite Hc, Ha, H1.
  - now rewrite Hd, Hb.
  - intros k. simpl. pose proof (refs_set (sp_own a) g (own a f) k Hg) as R1.
    pose proof (refs_set (set_nth (sp_own a) g (own a f)) f (own a g) k ltac:(now rewrite set_nth_length)) as R2.
    assert (Ho : own_l (set_nth (sp_own a) g (own a f)) f = own a f).
    { destruct (Nat.eq_dec g f) as [<-|Hne]; [now apply own_set_same|now rewrite own_set_other]. }
    rewrite Ho in R2. rewrite !own_own_l in *. lia.
  - split; [exact HI'|]. split; [reflexivity|]. intros k. simpl. now rewrite Hfr, Nat.add_0_r.
Qed.

Lemma call_good s a c : HI s a -> can_call s c = true -> call_ok a c -> good_call s a c.
Proof.
  intros HIa Hcan Hok. pose proof HIa as (H1 & H2 & H3 & H4).
  assert (Hlt : forall b h, is_a b s h = true -> h < length (sp_own a)) by (intros b h H; rewrite <- H1; eapply is_a_lt; eauto).
  unfold good_call.
  destruct c as [|p| |f|f|p|g f|g f|g f|p q|p q|p|f|h]; cbn [do_call sp_call can_call call_ok] in *.
  - (* NewPromise *)
    assert (Hz : refs (sp_own a) (sp_next a) = 0).
    { destruct (Nat.eq_dec (refs (sp_own a) (sp_next a)) 0) as [|Hne]; auto. exfalso.
      destruct (proj1 (refs_pos (sp_own a) (sp_next a)) ltac:(lia)) as [h Hh]. specialize (H4 h _ Hh). lia. }
    eexists _, _. split; [reflexivity|]. split; [|split; [reflexivity|]].
    + split; [simpl; rewrite map_app, H1; simpl; now rewrite H2|]. split; [simpl; rewrite app_length; simpl; lia|]. split.
      * simpl. intros k x Hk. rewrite refs_snoc. destruct (Nat.lt_ge_cases k (sp_next a)) as [Hl|Hl].
        -- rewrite nth_error_app1 in Hk by lia. simpl. destruct (Nat.eqb_spec (sp_next a) k); [lia|]. rewrite Nat.add_0_r. auto.
        -- rewrite nth_error_app2 in Hk by lia. destruct (k - length (hs_sh s)) as [|m] eqn:E; [|destruct m; discriminate].
           simpl in Hk. injection Hk as <-. replace k with (sp_next a) by lia. rewrite Hz, pts_same. auto.
      * intros h k. simpl. change (own_l (sp_own a ++ [Some (sp_next a)]) h = Some k -> k < sp_next a + 1). apply bound_snoc.
        -- intros h' k' Hk. specialize (H4 h' k' Hk). lia.
        -- intros k' [= <-]. lia.
    + intros k. unfold fr. simpl. rewrite refs_snoc. simpl. destruct (Nat.eqb_spec (sp_next a) k) as [<-|Hne]; frtac.
  - (* GetFuture *)
    rewrite (st_own s a p H1). destruct (copy_call s a (own a p) false HIa ltac:(eauto)) as (s' & He & HI' & Hf).
    exists s', []. split; [exact He|split; [exact HI'|split; [reflexivity|]]]. intros k. simpl. now rewrite Hf, Nat.add_0_r.
  - (* DefFuture *)
    destruct (copy_call s a None false HIa (or_introl eq_refl)) as (s' & He & HI' & Hf). simpl in He.
    exists s', []. split; [exact He|split; [exact HI'|split; [reflexivity|]]]. intros k. simpl. now rewrite Hf, Nat.add_0_r.
  - (* CopyFuture *)
    rewrite (st_own s a f H1). destruct (copy_call s a (own a f) false HIa ltac:(eauto)) as (s' & He & HI' & Hf).
    exists s', []. split; [exact He|split; [exact HI'|split; [reflexivity|]]]. intros k. simpl. now rewrite Hf, Nat.add_0_r.
  - (* MoveFuture *)
    specialize (Hlt _ _ Hcan). rewrite (st_own s a f H1). eexists _, _. split; [reflexivity|].
    destruct (set_st_hd (new_handle s false (own a f)) f None) as [Ha Hb]. destruct (new_hd s false (own a f)) as [Hc Hd].
    destruct (perm_call s a (add (put a f None) (own a f)) (set_st (new_handle s false (own a f)) f None) HIa) as [HI' Hf].
    + rewrite Ha, Hc, H1. simpl. now apply set_snoc.
    + now rewrite Hb, Hd.
    + reflexivity.
    + intros k. simpl. rewrite refs_snoc. pose proof (refs_set (sp_own a) f None k Hlt) as H. rewrite own_own_l. simpl in H. lia.
    + split; [exact HI'|]. split; [reflexivity|]. intros k. simpl. now rewrite Hf, Nat.add_0_r.
  - (* MovePromise *)
    specialize (Hlt _ _ Hcan). rewrite (st_own s a p H1). eexists _, _. split; [reflexivity|].
    destruct (set_st_hd (new_handle s true (own a p)) p None) as [Ha Hb]. destruct (new_hd s true (own a p)) as [Hc Hd].
    destruct (perm_call s a (add (put a p None) (own a p)) (set_st (new_handle s true (own a p)) p None) HIa) as [HI' Hf].
    + rewrite Ha, Hc, H1. simpl. now apply set_snoc.
    + now rewrite Hb, Hd.
    + reflexivity.
    + intros k. simpl. rewrite refs_snoc. pose proof (refs_set (sp_own a) p None k Hlt) as H. rewrite own_own_l. simpl in H. lia.
    + split; [exact HI'|]. split; [reflexivity|]. intros k. simpl. now rewrite Hf, Nat.add_0_r.
  - (* CopyAssign *)
    apply andb_prop in Hcan. destruct Hcan as [Hg Hf]. apply Hlt in Hg. apply Hlt in Hf.
    destruct Hok as (k & Hk & Hself). rewrite (st_own s a g H1).
    assert (Htwo : own a g = Some k -> refs (sp_own a) k >= 2).
    { intros Hgk. destruct (Nat.eq_dec g f) as [E|E].
      - destruct (Hself E) as (h & Hne & Hh). apply (refs_two _ h g); auto.
      - apply (refs_two _ f g); auto. }
    assert (Hone : refs (sp_own a) k >= 1) by (apply (refs_ge _ f); exact Hk).
    destruct s as [sh hd]. simpl hs_sh in *. simpl hs_hd in *.
    destruct (unref_spec sh hd _ (own a g) H3) as (sh' & es & He & Hl & Hc & Hcs & Hfr).
    { intros j Hj. rewrite H2. split; [apply (H4 g); auto|apply (refs_ge _ g); exact Hj]. }
    rewrite He. unfold andthen. rewrite (st_own (HS sh' hd) a f H1), Hk.
    destruct (set_st_hd (HS sh' hd) g (Some k)) as [Ha Hb]. simpl hs_sh in Hb. simpl hs_hd in Ha.
    destruct (set_st (HS sh' hd) g (Some k)) as [sh1 hd1] eqn:Eset. simpl in Hb, Ha. subst sh1.
    destruct (ref_spec sh' hd1 _ k Hc ltac:(rewrite Hl, H2; apply (H4 f); exact Hk)) as (sh2 & He2 & Hl2 & Hc2).
    { unfold minus1. pose proof (pts_le k (own a g)) as Hp. destruct (own a g) as [j|] eqn:Eg; simpl in *; [|lia].
      destruct (Nat.eqb_spec j k) as [->|]; [specialize (Htwo eq_refl)|]; lia. }
    rewrite He2. eexists _, _. split; [reflexivity|].
    assert (Hr : forall j, refs (set_nth (sp_own a) g (Some k)) j + pts j (own a g) = refs (sp_own a) j + pts j (Some k)) by (intros j; now apply refs_set).
    assert (Hge : forall j, pts j (own a g) <= refs (sp_own a) j).
    { intros j. destruct (own a g) as [i|] eqn:Eg; simpl; [|lia]. destruct (Nat.eqb_spec i j) as [->|]; [|lia]. apply (refs_ge _ g). exact Eg. }
    split; [|split].
    + split; [simpl; now rewrite Ha, H1|]. split; [simpl; lia|]. split.
      * simpl. eapply cnt_ext; [|exact Hc2]. intros j. unfold plus1, minus1. specialize (Hr j). specialize (Hge j). lia.
      * intros h j. apply bound_set; auto. intros i [= <-]. apply (H4 f). exact Hk.
    + rewrite app_nil_r. exact Hcs.
    + intros j. rewrite app_nil_r, Hfr. unfold fr. simpl sp_own. simpl sp_next. specialize (Hr j). specialize (Hge j).
      assert (Hbj : refs (sp_own a) j > 0 -> j < sp_next a).
      { intros Hj. destruct (proj1 (refs_pos (sp_own a) j) Hj) as [h' Hh']. apply (H4 h'). exact Hh'. }
      assert (Htw : pts j (own a g) = 1 -> pts j (Some k) = 1 -> refs (sp_own a) j >= 2).
      { intros Hx Hy. simpl in Hy. destruct (Nat.eqb_spec k j) as [->|]; [|discriminate]. apply Htwo.
        destruct (own a g) as [i|]; simpl in Hx; [|discriminate]. destruct (Nat.eqb_spec i j) as [->|]; [auto|discriminate]. }
      assert (Hkj : pts j (Some k) = 1 -> refs (sp_own a) j >= 1).
      { simpl. destruct (Nat.eqb_spec k j) as [->|]; [auto|discriminate]. }
      pose proof (pts_le j (own a g)). pose proof (pts_le j (Some k)). change (if Nat.eqb k j then 1 else 0) with (pts j (Some k)) in *. clear Hfr.
      remember (pts j (Some k)) as y. remember (pts j (own a g)) as x. frtac.
  - (* MoveAssign *)
    apply andb_prop in Hcan. destruct Hcan as [Hg Hf]. apply Hlt in Hg. apply Hlt in Hf. now apply swap_call.
  - (* SwapFuture *)
    apply andb_prop in Hcan. destruct Hcan as [Hg Hf]. apply Hlt in Hg. apply Hlt in Hf. now apply swap_call.
  - (* AssignPromise *)
    apply andb_prop in Hcan. destruct Hcan as [Hp Hq]. apply Hlt in Hp. apply Hlt in Hq.
    rewrite (st_own s a q H1).
    destruct (set_st_hd s q None) as [Ha Hb]. assert (Ha' : map h_st (hs_hd (set_st s q None)) = sp_own (put a q None)) by (now rewrite Ha, H1).
    rewrite (st_own _ (put a q None) p Ha').
    destruct (set_st_hd (set_st s q None) p (own a q)) as [Hc Hd].
    remember (set_st (set_st s q None) p (own a q)) as s2 eqn:Es2. clear Es2. rewrite Hb in Hd. rewrite Ha, H1 in Hc.
    destruct s2 as [sh2 hd2]. simpl in Hc, Hd. subst sh2.
    destruct (Nat.eqb_spec p q) as [<-|Hne].
    + assert (Ho : own (put a p None) p = None) by (apply own_set_same; auto). rewrite Ho.
      destruct (drop_call s a a hd2 None HIa) as (s' & es & He & HI' & Hcs & Hf); auto.
      * rewrite Hc, set_set. apply set_own.
      * intros k. discriminate.
      * eauto 10.
    + assert (Ho : own (put a q None) p = own a p) by (apply own_set_other; auto). rewrite Ho.
      apply (drop_call s a (put (put a q None) p (own a q)) hd2 (own a p) HIa); auto.
      * intros k Hk. apply (refs_ge _ p). exact Hk.
      * intros k. simpl. pose proof (refs_set (sp_own a) q None k Hq) as R1.
        pose proof (refs_set (set_nth (sp_own a) q None) p (own a q) k ltac:(now rewrite set_nth_length)) as R2.
        rewrite own_set_other in R2 by auto. rewrite !own_own_l in *. simpl in R1. lia.
  - (* SwapPromise *)
    apply andb_prop in Hcan. destruct Hcan as [Hg Hf]. apply Hlt in Hg. apply Hlt in Hf. now apply swap_call.
  - (* SetValue *)
    specialize (Hlt _ _ Hcan). rewrite (st_own s a p H1). destruct (own a p) as [k|] eqn:Ek; [|contradiction].
    assert (Hr : refs (sp_own a) k >= 1) by (apply (refs_ge _ p); exact Ek).
    unfold deref. destruct (nth_error (hs_sh s) k) as [x|] eqn:E; [|apply nth_error_None in E; specialize (H4 p k Ek); lia].
    destruct (H3 _ _ E) as [_ Hfx]. rewrite Hfx. destruct (Nat.eqb_spec (refs (sp_own a) k) 0); [lia|].
    destruct (set_st_hd s p None) as [Ha Hb]. destruct (set_st s p None) as [sh2 hd2]. simpl in Ha, Hb. subst sh2.
    apply (drop_call s a (put a p None) hd2 (Some k) HIa); auto.
    + now rewrite Ha, H1.
    + intros j [= <-]. lia.
    + intros j. pose proof (refs_set (sp_own a) p None j Hlt) as R. rewrite <- own_own_l, Ek in R. simpl in *. lia.
  - (* UseFuture *)
    rewrite (st_own s a f H1). destruct (own a f) as [k|] eqn:Ek; [|contradiction].
    assert (Hr : refs (sp_own a) k >= 1) by (apply (refs_ge _ f); exact Ek).
    unfold deref. destruct (nth_error (hs_sh s) k) as [x|] eqn:E; [|apply nth_error_None in E; specialize (H4 f k Ek); lia].
    destruct (H3 _ _ E) as [_ Hfx]. rewrite Hfx. destruct (Nat.eqb_spec (refs (sp_own a) k) 0); [lia|].
    exists s, []. split; [auto|split; [exact HIa|split; [auto|]]]. intros j. simpl. lia.
  - (* Drop *)
    assert (Hh : h < length (sp_own a)) by (apply orb_prop in Hcan; destruct Hcan; eauto). rewrite (st_own s a h H1).
    destruct (kill_hd s h) as [Ha Hb]. destruct (kill s h) as [sh2 hd2]. simpl in Ha, Hb. subst sh2.
    apply (drop_call s a (put a h None) hd2 (own a h) HIa); auto.
    + now rewrite Ha, H1.
    + intros j Hj. apply (refs_ge _ h). exact Hj.
    + intros j. pose proof (refs_set (sp_own a) h None j Hh) as R. rewrite <- own_own_l in R. simpl in *. lia.
Qed.

(** a call that breaks the rule fails *)
Lemma call_bad s a c : HI s a -> can_call s c = true -> ~ call_ok a c -> exists f es, do_call s c = Bad f es.
Proof.
  intros HIa Hcan Hok. pose proof HIa as (H1 & H2 & H3 & H4).
  destruct c as [|p| |f|f|p|g f|g f|g f|p q|p q|p|f|h]; cbn [do_call can_call call_ok] in *; try tauto.
  - apply andb_prop in Hcan. destruct Hcan as [Hg Hf]. rewrite (st_own s a g H1). destruct s as [sh hd]. simpl hs_sh in *. simpl hs_hd in *.
    destruct (unref_spec sh hd _ (own a g) H3) as (sh' & es & He & Hl & Hc & Hcs & Hfr).
    { intros j Hj. rewrite H2. split; [apply (H4 g); auto|apply (refs_ge _ g); exact Hj]. }
    rewrite He. unfold andthen. rewrite (st_own (HS sh' hd) a f H1). destruct (own a f) as [k|] eqn:Ek; [|simpl; eauto].
    destruct (set_st_hd (HS sh' hd) g (Some k)) as [Ha Hb]. simpl hs_sh in Hb.
    destruct (set_st (HS sh' hd) g (Some k)) as [sh1 hd1]. simpl in Hb. subst sh1.
    destruct (Nat.eq_dec g f) as [<-|Hne]; [|exfalso; apply Hok; exists k; split; [auto|congruence]].
    rewrite (ref_freed sh' hd1 _ k Hc); [eauto|]. unfold minus1. rewrite Ek, pts_same.
    destruct (Nat.eq_dec (refs (sp_own a) k) 1) as [E|E]; [lia|]. exfalso. apply Hok. exists k. split; [auto|]. intros _.
    assert (Hg' : g < length (sp_own a)) by (rewrite <- H1; exact (is_a_lt _ _ _ Hg)).
    pose proof (refs_ge (sp_own a) g k Ek) as Hge. pose proof (refs_set (sp_own a) g None k Hg') as R. rewrite <- own_own_l, Ek, pts_same in R. simpl in R.
    destruct (proj1 (refs_pos (set_nth (sp_own a) g None) k) ltac:(lia)) as [h Hh]. exists h.
    destruct (Nat.eq_dec h g) as [->|Hne]; [rewrite own_set_same in Hh by auto; discriminate|]. split; auto. rewrite own_set_other in Hh by auto. exact Hh.
  - rewrite (st_own s a p H1). destruct (own a p) as [k|]; [exfalso; apply Hok; discriminate|]. simpl. eauto.
  - rewrite (st_own s a f H1). destruct (own a f) as [k|]; [exfalso; apply Hok; discriminate|]. simpl. eauto.
Qed.

(** ** Runs *)
Notation hrun ls := (run hstep hs_init ls).

Lemma calls_of_app t1 t2 : calls_of (t1 ++ t2) = calls_of t1 ++ calls_of t2.
Proof. apply flat_map_app. Qed.
Lemma owners_snoc cs c : owners (cs ++ [c]) = sp_call (owners cs) c.
Proof. unfold owners. now rewrite fold_left_app. Qed.

Lemma call_dec a c : call_ok a c \/ ~ call_ok a c.
Proof.
  destruct c as [|p| |f|f|p|g f|g f|g f|p q|p q|p|f|h]; simpl; auto.
  - destruct (own a f) as [k|] eqn:Ek; [|right; intros (k & H & _); discriminate].
    destruct (Nat.eq_dec g f) as [<-|Hne]; [|left; exists k; split; [auto|congruence]].
    destruct (Nat.lt_ge_cases g (length (sp_own a))) as [Hg|Hg].
    + destruct (Nat.eq_dec (refs (set_nth (sp_own a) g None) k) 0) as [E|E].
      * right. intros (k' & [= <-] & H). destruct (H eq_refl) as (h & Hne & Hh).
        assert (refs (set_nth (sp_own a) g None) k > 0) by (apply refs_pos; exists h; rewrite own_set_other; auto). lia.
      * left. exists k. split; auto. intros _. destruct (proj1 (refs_pos (set_nth (sp_own a) g None) k) ltac:(lia)) as [h Hh]. exists h.
        destruct (Nat.eq_dec h g) as [->|Hne]; [rewrite own_set_same in Hh by auto; discriminate|]. split; auto. now rewrite own_set_other in Hh by auto.
    + unfold own in Ek. rewrite (proj2 (nth_error_None _ _) Hg) in Ek. discriminate.
  - destruct (own a p); [left; discriminate|right; tauto].
  - destruct (own a f); [left; discriminate|right; tauto].
Qed.

Definition HJ (s : hst) (tr : list hevent) : Prop :=
  HI s (owners (calls_of tr)) /\ (forall k, frees k tr = fr (owners (calls_of tr)) k) /\ calls_ok tr.

Lemma HJ_step s tr l s' es : HJ s tr -> hstep s l = Next s' es -> HJ s' (tr ++ es).
Proof.
  intros (HI1 & HF & HC) Hs. unfold hstep in Hs. destruct (can_call s l) eqn:Hcan; [|discriminate].
  assert (Hok : call_ok (owners (calls_of tr)) l).
  { destruct (call_dec (owners (calls_of tr)) l) as [H|H]; auto. destruct (call_bad _ _ _ HI1 Hcan H) as (f & es' & Hb). rewrite Hb in Hs. discriminate. }
  destruct (call_good _ _ _ HI1 Hcan Hok) as (s1 & es1 & He & HI2 & Hcs & Hf). rewrite He in Hs. injection Hs as <- <-.
  assert (Hcalls : calls_of (tr ++ ECall l :: es1) = calls_of tr ++ [l]) by (rewrite calls_of_app; simpl; now rewrite Hcs).
  split; [|split].
  - now rewrite Hcalls, owners_snoc.
  - intros k. rewrite Hcalls, owners_snoc, frees_app, HF. simpl. apply Hf.
  - intros c1 c c2 H. rewrite Hcalls in H. destruct c2 as [|x c2 _] using rev_ind.
    + apply app_inj_tail in H. destruct H as [<- <-]. exact Hok.
    + rewrite app_comm_cons, app_assoc in H. apply app_inj_tail in H. destruct H as [H _]. exact (HC _ _ _ H).
Qed.

Lemma HJ_run ls s tr : hrun ls = Running s tr -> HJ s tr.
Proof.
  refine (run_inv hstep HJ hs_init _ HJ_step ls s tr). split; [|split].
  - split; [auto|]. split; [auto|]. split; [intros [|k] x; discriminate|]. intros [|h] k; discriminate.
  - auto.
  - intros [|? ?] c c2; discriminate.
Qed.

Lemma owned_refs a k : owned a k <-> refs (sp_own a) k > 0.
Proof. split; [intros [h H]; apply refs_pos; eauto|]. intros H. apply refs_pos in H. exact H. Qed.

Lemma h_freed ls s tr k : hrun ls = Running s tr ->
  frees k tr <= 1 /\ (frees k tr = 1 <-> k < sp_next (owners (calls_of tr)) /\ ~ owned (owners (calls_of tr)) k).
Proof.
  intros Hr. destruct (HJ_run _ _ _ Hr) as (_ & HF & _). rewrite HF, owned_refs. unfold fr.
  destruct (Nat.ltb_spec k (sp_next (owners (calls_of tr)))); destruct (Nat.eqb_spec (refs (sp_own (owners (calls_of tr))) k) 0); simpl; split; try lia; split; intros; lia.
Qed.

Lemma h_handles ls s tr h : hrun ls = Running s tr -> st_of s h = own (owners (calls_of tr)) h.
Proof. intros Hr. destruct (HJ_run _ _ _ Hr) as ((H & _) & _). now apply st_own. Qed.

Lemma h_fail ls f tr : hrun ls = Failed f tr -> ~ calls_ok tr.
Proof.
  intros Hr HC. destruct (run_from_failed hstep ls _ _ _ _ Hr) as (ls1 & l & s & tr1 & es & H1 & H2 & ->).
  destruct (HJ_run _ _ _ H1) as (HI1 & _). unfold hstep in H2. destruct (can_call s l) eqn:Hcan; [|discriminate].
  assert (Hes : exists es', es = ECall l :: es') by (destruct (do_call s l); [discriminate|injection H2; eauto]). destruct Hes as [es' ->].
  assert (Hok : call_ok (owners (calls_of tr1)) l).
  { apply (HC _ _ (calls_of es')). now rewrite calls_of_app. }
  destruct (call_good _ _ _ HI1 Hcan Hok) as (s1 & es1 & He & _). rewrite He in H2. discriminate.
Qed.

(** and conversely *)
Lemma h_ok ls s tr : hrun ls = Running s tr -> calls_ok tr.
Proof. intros Hr. apply (HJ_run _ _ _ Hr). Qed.

Lemma h_enabled ls s tr c : hrun ls = Running s tr -> can_call s c = true -> call_ok (owners (calls_of tr)) c ->
  exists s' es, hstep s c = Next s' es.
Proof.
  intros Hr Hcan Hok. destruct (HJ_run _ _ _ Hr) as (HI1 & _). destruct (call_good _ _ _ HI1 Hcan Hok) as (s1 & es1 & He & _).
  unfold hstep. rewrite Hcan, He. eauto.
Qed.
