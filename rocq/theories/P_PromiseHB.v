(** Race freedom and visibility for the shared state of promise / future. *)
From Coq Require Import List Arith Bool Lia.
From Verif Require Import Lts ListFacts M_HB P_HB M_PromiseHB.
Import ListNotations.

(** ** The base model *)
Definition b2n (b : bool) : nat := if b then 1 else 0.
Definition sumH (l : list hd) : nat := sum (map (fun d => b2n (d_has d)) l).
Definition sumP (l : list hd) : nat := sum (map (fun d => b2n (d_prom d && d_has d)) l).

Lemma sumH_app l d : sumH (l ++ [d]) = sumH l + b2n (d_has d).
Proof. unfold sumH. rewrite map_app, sum_app. simpl. lia. Qed.
Lemma sumP_app l d : sumP (l ++ [d]) = sumP l + b2n (d_prom d && d_has d).
Proof. unfold sumP. rewrite map_app, sum_app. simpl. lia. Qed.
Lemma sumP_le l : sumP l <= sumH l.
Proof. unfold sumP, sumH. apply sum_map_mono. intros d _. destruct (d_prom d), (d_has d); simpl; lia. Qed.
Lemma hdl_some s h : live s h = true \/ holds s h = true -> nth_error (p_hd s) h = Some (hdl s h).
Proof.
  intros H. unfold hdl. destruct (nth_error (p_hd s) h) eqn:E.
  - f_equal. symmetry. now apply nth_error_nth.
  - exfalso. unfold live, holds, hdl in H. rewrite nth_overflow in H by now apply nth_error_None. simpl in H. intuition congruence.
Qed.
Lemma hdl_lt s h : live s h = true \/ holds s h = true -> h < length (p_hd s).
Proof. intros H. apply nth_error_Some. rewrite (hdl_some _ _ H). discriminate. Qed.
Lemma nth_set_nth {A} (l : list A) i x d j : i < length l -> nth j (set_nth l i x) d = if j =? i then x else nth j l d.
Proof.
  revert i j. induction l as [|a l IH]; intros i j H; simpl in H; [lia|]. destruct i as [|i], j as [|j]; simpl; auto. apply IH. lia.
Qed.
Lemma hdl_put s h d l c x : live s h = true -> hdl (with_hd s (put s h d l) c) x = if x =? h then Hd (prom s h) l d else hdl s x.
Proof. intros H. unfold hdl at 1. simpl. unfold put. rewrite nth_set_nth by (apply hdl_lt; auto). reflexivity. Qed.
Lemma nth_app_last {A} (l : list A) x d j : nth j (l ++ [x]) d = if j =? length l then x else nth j l d.
Proof.
  destruct (Nat.eqb_spec j (length l)) as [->|Hn].
  - rewrite app_nth2, Nat.sub_diag by lia. reflexivity.
  - destruct (Nat.lt_ge_cases j (length l)); [now apply app_nth1|]. rewrite !nth_overflow; auto. rewrite app_length. simpl. lia.
Qed.
Lemma sumH_put s h d l : live s h = true -> sumH (put s h d l) + b2n (holds s h) = sumH (p_hd s) + b2n d.
Proof. intros H. exact (sum_map_set_nth (fun d => b2n (d_has d)) (p_hd s) h (Hd (prom s h) l d) _ (hdl_some _ _ (or_introl H))). Qed.
Lemma sumP_put s h d l : live s h = true -> sumP (put s h d l) + b2n (prom s h && holds s h) = sumP (p_hd s) + b2n (prom s h && d).
Proof. intros H. exact (sum_map_set_nth (fun d => b2n (d_prom d && d_has d)) (p_hd s) h (Hd (prom s h) l d) _ (hdl_some _ _ (or_introl H))). Qed.
Lemma put_length s h d l : length (put s h d l) = length (p_hd s).
Proof. apply set_nth_length. Qed.
Lemma holds_sum s h : holds s h = true -> 1 <= sumH (p_hd s).
Proof.
  intros H. pose proof (hdl_some s h (or_intror H)) as Hn. apply nth_error_In in Hn. pose proof (sum_map_le (fun d => b2n (d_has d)) _ _ Hn) as K.
  simpl in K. unfold holds in H. rewrite H in K. exact K.
Qed.
Lemma proms_sum s h g : live s g = true -> holds s h = true -> prom s h = true -> holds s g = true -> prom s g = true -> h <> g -> 2 <= sumP (p_hd s).
Proof.
  intros Hlg Hh Hp Hg Hq Hne. pose proof (sumP_put s g false true Hlg) as K. rewrite Hg, Hq in K. simpl in K.
  pose proof (hdl_put s g false true 0 h Hlg) as E. destruct (Nat.eqb_spec h g) as [|_]; [contradiction|].
  assert (Hn : nth_error (put s g false true) h = Some (hdl s h)).
  { rewrite <- E. apply (hdl_some (with_hd s (put s g false true) 0) h). right. unfold holds. rewrite E. exact Hh. }
  apply nth_error_In in Hn. pose proof (sum_map_le (fun d => b2n (d_prom d && d_has d)) _ _ Hn) as K1. simpl in K1.
  unfold holds in Hh. unfold prom in Hp. rewrite Hh, Hp in K1. simpl in K1. unfold sumP at 1 in K. lia.
Qed.
Lemma prom_sum s h : holds s h = true -> prom s h = true -> 1 <= sumP (p_hd s).
Proof.
  intros H Hp. pose proof (hdl_some s h (or_intror H)) as Hn. apply nth_error_In in Hn. pose proof (sum_map_le (fun d => b2n (d_prom d && d_has d)) _ _ Hn) as K.
  simpl in K. unfold holds in H. unfold prom in Hp. rewrite H, Hp in K. exact K.
Qed.

Record OI (s : pst) (r : pop) : Prop := {
  i_fut : prom s (o_fut r) = false /\ o_fut r < length (p_hd s);
  i_pend : o_fin r = false -> holds s (o_fut r) = true;
  i_set : o_at r = AtIt \/ o_at r = AtComp -> p_has s = true;
  i_hit : o_at r = AtHit -> o_c r = CTried;
  i_canc : o_at r = AtCanc -> o_c r = CDone;
  i_fin : o_fin r = true -> o_l r = true /\ pdone (o_at r) = true /\ (o_c r = CNone \/ o_c r = CDone) }.
Record BI (s : pst) : Prop := {
  b_new : p_new s = false -> p_ctr s = 0 /\ p_op s = [] /\ p_has s = false;
  b_ctr : p_ctr s = sumH (p_hd s);
  b_dead : p_dead s = p_new s && (p_ctr s =? 0);
  b_live : forall h, holds s h = true -> live s h = true;
  b_pr : sumP (p_hd s) <= 1;
  b_has : p_has s = true -> p_sv s = SvNo -> sumP (p_hd s) = 0;
  b_sv : forall p, p_sv s = SvSplice p \/ p_sv s = SvLoop p -> holds s p = true /\ prom s p = true /\ p_has s = true;
  b_op : forall o r, nth_error (p_op s) o = Some r -> OI s r }.

Lemma holds_alive s h : BI s -> holds s h = true -> p_dead s = false /\ p_new s = true /\ p_ctr s >= 1.
Proof.
  intros B H. pose proof (holds_sum _ _ H) as K. pose proof (b_ctr _ B). assert (p_ctr s >= 1) by lia. split; [|split].
  - rewrite (b_dead _ B). destruct (Nat.eqb_spec (p_ctr s) 0); [lia|]. apply andb_false_r.
  - destruct (p_new s) eqn:E; [reflexivity|]. destruct (b_new _ B E). lia.
  - lia.
Qed.
Lemma quiet_op s h : quiet s h = true -> forall o r, nth_error (p_op s) o = Some r -> o_fut r = h -> o_fin r = true.
Proof.
  unfold quiet. rewrite forallb_forall. intros H o r Hn <-. specialize (H r (nth_error_In _ _ Hn)). rewrite Nat.eqb_refl in H. exact H.
Qed.
Lemma idle_inv s h : idle s h = true -> live s h = true /\ setting s h = false /\ quiet s h = true.
Proof. unfold idle. rewrite !andb_true_iff, negb_true_iff. tauto. Qed.
Lemma setting_false s h p : setting s h = false -> p_sv s = SvSplice p \/ p_sv s = SvLoop p -> p <> h.
Proof. unfold setting. intros H [E|E]; rewrite E in H; now apply Nat.eqb_neq. Qed.

(** The handles change *)
Lemma BI_hd s l c : BI s -> p_new s = true -> c = sumH l -> p_dead s = (c =? 0) -> length (p_hd s) <= length l ->
  (forall h, d_has (nth h l (Hd false false false)) = true -> d_live (nth h l (Hd false false false)) = true) ->
  sumP l <= sumP (p_hd s) ->
  (forall p, p_sv s = SvSplice p \/ p_sv s = SvLoop p -> nth p l (Hd false false false) = hdl s p) ->
  (forall h, h < length (p_hd s) -> d_prom (nth h l (Hd false false false)) = prom s h) ->
  (forall o r, nth_error (p_op s) o = Some r -> o_fin r = false -> d_has (nth (o_fut r) l (Hd false false false)) = true) ->
  BI (with_hd s l c).
Proof.
  intros B Hnew Hc Hd Hlen Hl Hp Hsv Hpr Hpe. constructor; simpl.
  - congruence.
  - exact Hc.
  - rewrite Hnew. exact Hd.
  - exact Hl.
  - pose proof (b_pr _ B). lia.
  - intros H1 H2. pose proof (b_has _ B H1 H2). lia.
  - intros p H. pose proof (b_sv _ B p H) as K. unfold holds, prom, hdl in *. simpl. rewrite (Hsv p H). exact K.
  - intros o r Hn. destruct (b_op _ B o r Hn) as [[A1 A2] A3 A4 A5 A6 A7]. constructor; auto; simpl.
    + split; [|lia]. unfold prom, hdl. simpl. rewrite Hpr by exact A2. exact A1.
    + intros Hf. unfold holds, hdl. simpl. eauto.
Qed.
(** One get changes *)
Lemma BI_op s o r r0 : BI s -> nth_error (p_op s) o = Some r0 -> OI s r -> BI (with_op s (set_nth (p_op s) o r)).
Proof.
  intros B Hn Ho. constructor; simpl; try apply B.
  - intros E. destruct (b_new _ B E) as (_ & E' & _). rewrite E' in Hn. destruct o; discriminate.
  - intros o' r' Hn'. destruct (Nat.eq_dec o' o) as [->|Hne].
    + rewrite (nth_error_set_nth_same _ _ _ _ Hn) in Hn'. injection Hn' as <-. destruct Ho. constructor; auto.
    + rewrite nth_error_set_nth_other in Hn' by congruence. destruct (b_op _ B _ _ Hn'). constructor; auto.
Qed.
Lemma settle_fut r b : o_fut (settle r b) = o_fut r.
Proof. unfold settle. destruct (o_l r && _); [|reflexivity]. destruct (o_c r), b; reflexivity. Qed.
Lemma settle_at r b : o_at (settle r b) = o_at r.
Proof. unfold settle. destruct (o_l r && _); [|reflexivity]. destruct (o_c r), b; reflexivity. Qed.
Lemma settle_fin r b : o_fin r = false -> o_fin (settle r b) = true -> o_l r = true /\ pdone (o_at r) = true /\ (o_c r = CNone \/ o_c r = CDone) /\ o_c (settle r b) = o_c r /\ o_l (settle r b) = true.
Proof.
  intros Hf. unfold settle. destruct (o_l r && pdone (o_at r)) eqn:E; [|congruence]. apply andb_true_iff in E. destruct E as [E1 E2].
  destruct (o_c r), b; simpl; try congruence; intros _; repeat split; auto.
Qed.
Lemma settle_c r b : o_c (settle r b) = o_c r \/ (o_c r = CNone /\ o_c (settle r b) = CTake).
Proof. unfold settle. destruct (o_l r && _); [|auto]. destruct (o_c r) eqn:E, b; auto. Qed.
Lemma settle_l r b : o_l (settle r b) = o_l r.
Proof. unfold settle. destruct (o_l r && _) eqn:E; [|reflexivity]. apply andb_true_iff in E. destruct E as [E _]. destruct (o_c r), b; simpl; congruence. Qed.
Lemma OI_settle s r b : OI s r -> o_fin r = false -> OI s (settle r b).
Proof.
  intros [A1 A2 A3 A4 A5 A6] Hf. constructor; rewrite ?settle_fut, ?settle_at; auto.
  - intros H. destruct (settle_c r b) as [E|[E1 E2]]; [rewrite E; auto|]. rewrite (A4 H) in E1. discriminate.
  - intros H. destruct (settle_c r b) as [E|[E1 E2]]; [rewrite E; auto|]. rewrite (A5 H) in E1. discriminate.
  - intros H. destruct (settle_fin r b Hf H) as (E1 & E2 & E3 & E4 & E5). rewrite E4, E5. auto.
Qed.
Lemma trans_next s o r r0 b : BI s -> nth_error (p_op s) o = Some r0 -> o_fin r = false -> OI s r ->
  exists es, trans s o r b = Next (with_op s (set_nth (p_op s) o (settle r b))) es /\ es = (if o_fin (settle r b) then [EDone o (ok_of r)] else []).
Proof.
  intros B Hn Hf Ho. unfold trans. destruct (o_fin (settle r b)) eqn:Ef; [|eauto].
  replace (ok_of (settle r b)) with (ok_of r) by (unfold ok_of; now rewrite settle_at).
  destruct (ok_of r) eqn:Eo; [|eauto]. destruct (holds_alive _ _ B (i_pend _ _ Ho Hf)) as (E & _). unfold alive. rewrite E.
  rewrite (i_set _ _ Ho); [eauto|]. right. unfold ok_of in Eo. destruct (o_at r); congruence.
Qed.


Lemma sv_other s p h : BI s -> setting s h = false -> p_sv s = SvSplice p \/ p_sv s = SvLoop p -> p <> h. Proof. intros _. apply setting_false. Qed.
Lemma BI_unref s h l : BI s -> holds s h = true -> quiet s h = true -> setting s h = false ->
  exists s' es, unref s h l (p_sv s) = Next s' es /\ BI s'.
Proof.
  intros B Hh Hq Hs. destruct (holds_alive _ _ B Hh) as (Ed & En & Ec). pose proof (b_live _ B _ Hh) as Hl. unfold unref, alive. rewrite Ed.
  pose proof (sumH_put s h false l Hl) as S1. pose proof (sumP_put s h false l Hl) as S2. pose proof (b_ctr _ B) as S3. rewrite Hh in S1. rewrite andb_false_r in S2. simpl in S1, S2.
  destruct (p_ctr s) as [|c] eqn:Ect; [lia|]. eexists _, _. split; [reflexivity|].
  constructor; simpl.
  - congruence.
  - lia.
  - rewrite En. reflexivity.
  - intros x Hx. pose proof (hdl_put s h false l 0 x Hl) as E. unfold holds, live, hdl in *. simpl in *. rewrite E in *. destruct (x =? h) eqn:Ex; [discriminate|]. exact (b_live _ B x Hx).
  - pose proof (b_pr _ B). lia.
  - intros H1 H2. pose proof (b_has _ B H1 H2). lia.
  - intros p Hp. pose proof (b_sv _ B p Hp) as K. pose proof (setting_false _ _ _ Hs Hp) as Hne. pose proof (hdl_put s h false l 0 p Hl) as E. unfold holds, prom, hdl in *. simpl in *. rewrite E. destruct (Nat.eqb_spec p h); [contradiction|]. exact K.
  - intros o r Hn. destruct (b_op _ B o r Hn) as [[A1 A2] A3 A4 A5 A6 A7]. pose proof (hdl_put s h false l 0 (o_fut r) Hl) as E. constructor; auto; simpl.
    + rewrite put_length. split; [|exact A2]. unfold prom, hdl in *. simpl in *. rewrite E. destruct (Nat.eqb_spec (o_fut r) h) as [<-|]; [simpl; exact A1|exact A1].
    + intros Hf. unfold holds, hdl in *. simpl in *. rewrite E. destruct (Nat.eqb_spec (o_fut r) h) as [Eh|]; [|auto]. rewrite (quiet_op _ _ Hq _ _ Hn Eh) in Hf. discriminate.
Qed.
Lemma BI_end s p : BI s -> p_sv s = SvLoop p -> any_it s = false -> exists s' es, unref s p true SvNo = Next s' es /\ BI s'.
Proof.
  intros B Hs Ha. destruct (b_sv _ B p (or_intror Hs)) as (Hh & Hp & Hv). destruct (holds_alive _ _ B Hh) as (Ed & En & Ec). pose proof (b_live _ B _ Hh) as Hl. unfold unref, alive. rewrite Ed.
  pose proof (sumH_put s p false true Hl) as S1. pose proof (sumP_put s p false true Hl) as S2. pose proof (b_ctr _ B) as S3. rewrite Hh in S1, S2. rewrite Hp, andb_false_r in S2. simpl in S1, S2.
  destruct (p_ctr s) as [|c] eqn:Ect; [lia|]. eexists _, _. split; [reflexivity|]. pose proof (b_pr _ B) as S4.
  constructor; simpl.
  - congruence.
  - lia.
  - rewrite En. reflexivity.
  - intros x Hx. pose proof (hdl_put s p false true 0 x Hl) as E. unfold holds, live, hdl in *. simpl in *. rewrite E in *. destruct (x =? p) eqn:Ex; [reflexivity|]. exact (b_live _ B x Hx).
  - lia.
  - lia.
  - intros q [|]; discriminate.
  - intros o r Hn. destruct (b_op _ B o r Hn) as [[A1 A2] A3 A4 A5 A6 A7]. pose proof (hdl_put s p false true 0 (o_fut r) Hl) as E.
    assert (Hne : o_fut r <> p) by (intros E1; rewrite E1 in A1; congruence). constructor; auto; simpl.
    + rewrite put_length. split; [|exact A2]. unfold prom, hdl in *. simpl in *. rewrite E. destruct (Nat.eqb_spec (o_fut r) p) as [|]; [contradiction|exact A1].
    + intros Hf. unfold holds, hdl in *. simpl in *. rewrite E. destruct (Nat.eqb_spec (o_fut r) p) as [|]; [contradiction|auto].
Qed.

Lemma BI_new s : BI s -> p_new s = false -> sumH (p_hd s) = 0 /\ p_sv s = SvNo /\ (forall h, holds s h = false).
Proof.
  intros B Hn. destruct (b_new _ B Hn) as (E1 & E2 & E3). pose proof (b_ctr _ B) as E4. split; [lia|]. split.
  - destruct (p_sv s) as [|p|p] eqn:E; [reflexivity| |]; destruct (b_sv _ B p) as (_ & _ & K); auto; congruence.
  - intros h. destruct (holds s h) eqn:E; [|reflexivity]. pose proof (holds_sum _ _ E). lia.
Qed.
(** Without the state *)
Lemma BI_hd0 s l : BI s -> p_new s = false -> sumH l = 0 -> (forall h, d_has (nth h l (Hd false false false)) = false) -> BI (with_hd s l (p_ctr s)).
Proof.
  intros B Hn Hl Hh. destruct (b_new _ B Hn) as (E1 & E2 & E3). destruct (BI_new _ B Hn) as (E4 & E5 & E6). constructor; simpl.
  - auto.
  - congruence.
  - apply B.
  - intros h. unfold holds, hdl. simpl. rewrite Hh. discriminate.
  - pose proof (sumP_le l). lia.
  - congruence.
  - intros p [|]; congruence.
  - intros o r Hx. rewrite E2 in Hx. destruct o; discriminate.
Qed.
Lemma alive_holds s h k : BI s -> holds s h = true -> alive s k = k.
Proof. intros B H. unfold alive. destruct (holds_alive _ _ B H) as (-> & _). reflexivity. Qed.

(** One more handle that does not refer to the state, or whose reference was counted *)
Lemma BI_add s d c : BI s -> d_live d = true -> d_prom d && d_has d = false -> (d_has d = true -> p_dead s = false /\ p_new s = true) -> c = p_ctr s + b2n (d_has d) -> BI (with_hd s (p_hd s ++ [d]) c).
Proof.
  intros B Hl Hp Hd ->. destruct (p_new s) eqn:En.
  - apply BI_hd; auto.
    + rewrite sumH_app, <- (b_ctr _ B). reflexivity.
    + rewrite (b_dead _ B), En. simpl. destruct (d_has d) eqn:E; simpl; [|now rewrite Nat.add_0_r]. destruct (Hd eq_refl) as [K _]. rewrite (b_dead _ B), En in K. simpl in K. rewrite K.
      destruct (p_ctr s); [discriminate|]. reflexivity.
    + rewrite app_length. lia.
    + intros h. rewrite nth_app_last. destruct (h =? length (p_hd s)); [auto|]. apply (b_live _ B).
    + rewrite sumP_app, Hp. simpl. lia.
    + intros p Hv. rewrite nth_app_last. destruct (Nat.eqb_spec p (length (p_hd s))) as [->|]; [|reflexivity]. destruct (b_sv _ B _ Hv) as (K & _). pose proof (hdl_lt _ _ (or_intror K)). lia.
    + intros h Hh. rewrite nth_app_last. destruct (Nat.eqb_spec h (length (p_hd s))); [lia|reflexivity].
    + intros o r Hn Hf. rewrite nth_app_last. destruct (b_op _ B _ _ Hn) as [[A1 A2] A3 _ _ _ _]. destruct (Nat.eqb_spec (o_fut r) (length (p_hd s))); [lia|]. apply A3, Hf.
  - assert (Hf : d_has d = false). { destruct (d_has d); [|reflexivity]. destruct (Hd eq_refl). discriminate. }
    rewrite Hf. simpl. rewrite Nat.add_0_r. destruct (BI_new _ B En) as (E4 & E5 & E6). apply BI_hd0; auto.
    + rewrite sumH_app, Hf. simpl. lia.
    + intros h. rewrite nth_app_last. destruct (h =? length (p_hd s)); [exact Hf|apply E6].
Qed.
Lemma BI_put s h l : BI s -> idle s h = true -> holds s h = false -> BI (with_hd s (put s h false l) (p_ctr s)).
Proof.
  intros B Hi Hh. destruct (idle_inv _ _ Hi) as (Hl & Hs & Hq). pose proof (sumH_put s h false l Hl) as S1. pose proof (sumP_put s h false l Hl) as S2. rewrite Hh in S1. rewrite andb_false_r in S2. simpl in S1, S2.
  pose proof (fun x => hdl_put s h false l (p_ctr s) x Hl) as E. unfold hdl at 1 in E. simpl in E. destruct (p_new s) eqn:En.
  - apply BI_hd; auto.
    + rewrite (b_ctr _ B). lia.
    + rewrite (b_dead _ B), En. reflexivity.
    + rewrite put_length. lia.
    + intros x. rewrite E. destruct (x =? h); [discriminate|apply (b_live _ B)].
    + lia.
    + intros p Hp. rewrite E. pose proof (setting_false _ _ _ Hs Hp). destruct (Nat.eqb_spec p h); [contradiction|reflexivity].
    + intros x Hx. rewrite E. destruct (Nat.eqb_spec x h) as [->|]; reflexivity.
    + intros o r Hn Hf. rewrite E. destruct (Nat.eqb_spec (o_fut r) h) as [Eh|]; [rewrite (quiet_op _ _ Hq _ _ Hn Eh) in Hf; discriminate|]. exact (i_pend _ _ (b_op _ B _ _ Hn) Hf).
  - destruct (BI_new _ B En) as (E4 & E5 & E6). apply BI_hd0; auto; [lia|]. intros x. rewrite E. destruct (x =? h); [reflexivity|apply E6].
Qed.

Lemma BI_swap s g h : BI s -> idle s g = true -> idle s h = true -> prom s g = prom s h ->
  BI (with_hd (with_hd s (put s g (holds s h) true) (p_ctr s)) (put (with_hd s (put s g (holds s h) true) (p_ctr s)) h (holds s g) true) (p_ctr s)).
Proof.
  intros B Hg Hh Hp. destruct (idle_inv _ _ Hg) as (Lg & Sg & Qg). destruct (idle_inv _ _ Hh) as (Lh & Sh & Qh).
  set (s1 := with_hd s (put s g (holds s h) true) (p_ctr s)). pose proof (fun x => hdl_put s g (holds s h) true (p_ctr s) x Lg) as E1. fold s1 in E1.
  assert (Lh1 : live s1 h = true) by (unfold live; rewrite E1; destruct (h =? g); [reflexivity|exact Lh]).
  assert (Ph1 : prom s1 h = prom s h) by (unfold prom; rewrite E1; destruct (Nat.eqb_spec h g) as [->|]; reflexivity).
  pose proof (fun x => hdl_put s1 h (holds s g) true (p_ctr s) x Lh1) as E2. unfold hdl at 1 in E2. simpl p_hd in E2.
  assert (E3 : forall x, nth x (put s1 h (holds s g) true) (Hd false false false) = if x =? h then Hd (prom s h) true (holds s g) else if x =? g then Hd (prom s g) true (holds s h) else hdl s x).
  { intros x. rewrite E2, Ph1, E1. reflexivity. }
  pose proof (sumH_put s g (holds s h) true Lg) as S1. pose proof (sumP_put s g (holds s h) true Lg) as S2.
  pose proof (sumH_put s1 h (holds s g) true Lh1) as S3. pose proof (sumP_put s1 h (holds s g) true Lh1) as S4. rewrite Ph1 in S4.
  assert (Hh1 : holds s1 h = holds s h) by (unfold holds at 1; rewrite E1; destruct (Nat.eqb_spec h g) as [->|]; reflexivity). rewrite Hh1 in S3, S4.
  change (p_hd s1) with (put s g (holds s h) true) in S3, S4. rewrite Hp in S2.
  assert (T1 : sumH (put s1 h (holds s g) true) = sumH (p_hd s)) by lia.
  assert (T2 : sumP (put s1 h (holds s g) true) = sumP (p_hd s)) by lia.
  change (BI (with_hd s (put s1 h (holds s g) true) (p_ctr s))). destruct (p_new s) eqn:En.
  - apply BI_hd; auto.
    + rewrite T1. apply (b_ctr _ B).
    + rewrite (b_dead _ B), En. reflexivity.
    + rewrite put_length. simpl. rewrite put_length. lia.
    + intros x. rewrite E3. destruct (x =? h); [reflexivity|]. destruct (x =? g); [reflexivity|]. apply (b_live _ B).
    + lia.
    + intros p Hv. rewrite E3. pose proof (setting_false _ _ _ Sg Hv). pose proof (setting_false _ _ _ Sh Hv). destruct (Nat.eqb_spec p h); [contradiction|]. destruct (Nat.eqb_spec p g); [contradiction|]. reflexivity.
    + intros x Hx. rewrite E3. destruct (Nat.eqb_spec x h) as [->|]; [reflexivity|]. destruct (Nat.eqb_spec x g) as [->|]; reflexivity.
    + intros o r Hn Hf. rewrite E3. destruct (Nat.eqb_spec (o_fut r) h) as [Eh|]; [rewrite (quiet_op _ _ Qh _ _ Hn Eh) in Hf; discriminate|].
      destruct (Nat.eqb_spec (o_fut r) g) as [Eg|]; [rewrite (quiet_op _ _ Qg _ _ Hn Eg) in Hf; discriminate|]. exact (i_pend _ _ (b_op _ B _ _ Hn) Hf).
  - destruct (BI_new _ B En) as (E4 & E5 & E6). apply BI_hd0; auto; [lia|]. intros x. rewrite E3. destruct (x =? h); [apply E6|]. destruct (x =? g); apply E6.
Qed.
Lemma BI_move s h : BI s -> idle s h = true -> BI (with_hd s (put s h false true ++ [Hd (prom s h) true (holds s h)]) (p_ctr s)).
Proof.
  intros B Hi. destruct (idle_inv _ _ Hi) as (Hl & Hs & Hq). pose proof (sumH_put s h false true Hl) as S1. pose proof (sumP_put s h false true Hl) as S2. rewrite andb_false_r in S2. simpl in S1, S2.
  pose proof (fun x => hdl_put s h false true (p_ctr s) x Hl) as E. unfold hdl at 1 in E. simpl in E.
  assert (E3 : forall x, nth x (put s h false true ++ [Hd (prom s h) true (holds s h)]) (Hd false false false) =
     if x =? length (p_hd s) then Hd (prom s h) true (holds s h) else if x =? h then Hd (prom s h) true false else hdl s x).
  { intros x. rewrite nth_app_last, put_length, E. reflexivity. }
  destruct (p_new s) eqn:En.
  - apply BI_hd; auto.
    + rewrite sumH_app, (b_ctr _ B). simpl. lia.
    + rewrite (b_dead _ B), En. reflexivity.
    + rewrite app_length, put_length. lia.
    + intros x. rewrite E3. destruct (x =? _); [reflexivity|]. destruct (x =? h); [reflexivity|apply (b_live _ B)].
    + rewrite sumP_app. simpl. lia.
    + intros p Hp. rewrite E3. pose proof (setting_false _ _ _ Hs Hp). destruct (b_sv _ B _ Hp) as (K & _). pose proof (hdl_lt _ _ (or_intror K)).
      destruct (Nat.eqb_spec p (length (p_hd s))); [lia|]. destruct (Nat.eqb_spec p h); [contradiction|reflexivity].
    + intros x Hx. rewrite E3. destruct (Nat.eqb_spec x (length (p_hd s))); [lia|]. destruct (Nat.eqb_spec x h) as [->|]; reflexivity.
    + intros o r Hn Hf. rewrite E3. destruct (b_op _ B _ _ Hn) as [[A1 A2] A3 _ _ _ _]. destruct (Nat.eqb_spec (o_fut r) (length (p_hd s))); [lia|].
      destruct (Nat.eqb_spec (o_fut r) h) as [Eh|]; [rewrite (quiet_op _ _ Hq _ _ Hn Eh) in Hf; discriminate|]. auto.
  - destruct (BI_new _ B En) as (E4 & E5 & E6). apply BI_hd0; auto.
    + rewrite sumH_app, E6. simpl. lia.
    + intros x. rewrite E3. destruct (x =? _); [apply E6|]. destruct (x =? h); [reflexivity|apply E6].
Qed.
Lemma BI_assign s g : BI s -> idle s g = true -> prom s g = false -> holds s g = false -> p_dead s = false -> p_new s = true -> BI (with_hd s (put s g true true) (S (p_ctr s))).
Proof.
  intros B Hi Hp Hh Hd En. destruct (idle_inv _ _ Hi) as (Hl & Hs & Hq). pose proof (sumH_put s g true true Hl) as S1. pose proof (sumP_put s g true true Hl) as S2. rewrite Hp in S2. rewrite Hh in S1. simpl in S1, S2.
  pose proof (fun x => hdl_put s g true true (p_ctr s) x Hl) as E. unfold hdl at 1 in E. simpl in E.
  apply BI_hd; auto.
  - rewrite (b_ctr _ B). lia.
  - rewrite put_length. lia.
  - intros x. rewrite E. destruct (x =? g); [reflexivity|apply (b_live _ B)].
  - lia.
  - intros p Hv. rewrite E. pose proof (setting_false _ _ _ Hs Hv). destruct (Nat.eqb_spec p g); [contradiction|reflexivity].
  - intros x Hx. rewrite E. destruct (Nat.eqb_spec x g) as [->|]; reflexivity.
  - intros o r Hn Hf. rewrite E. destruct (Nat.eqb_spec (o_fut r) g) as [Eh|]; [reflexivity|]. exact (i_pend _ _ (b_op _ B _ _ Hn) Hf).
Qed.
Lemma BI_addop s r : BI s -> p_new s = true -> OI s r -> BI (with_op s (p_op s ++ [r])).
Proof.
  intros B En Ho. constructor; simpl; try apply B; [congruence|]. intros o' r' Hn. apply nth_snoc in Hn. destruct Hn as [Hn|[_ ->]]; [destruct (b_op _ B _ _ Hn)|destruct Ho]; constructor; auto.
Qed.

Definition good (r : outcome pst pevent) : Prop := match r with Next s' _ => BI s' | Disabled => True | Fail _ _ => False end.
Lemma good_trans s o r r0 b : BI s -> nth_error (p_op s) o = Some r0 -> o_fin r = false -> OI s r -> good (trans s o r b).
Proof.
  intros B Hn Hf Ho. destruct (trans_next s o r r0 b B Hn Hf Ho) as (es & -> & _). simpl. eapply BI_op; eauto using OI_settle.
Qed.
Lemma BI_good s l : BI s -> good (p_step s l).
Proof.
  intros B. destruct l as [| |h|h|g h|h d|g f|p|o b|f|o b|o|o|o]; cbn [p_step].
  - destruct (p_new s) eqn:En; [exact I|]. simpl. destruct (b_new _ B En) as (E1 & E2 & E3). destruct (BI_new _ B En) as (E4 & E5 & E6). constructor; simpl.
    + discriminate.
    + rewrite sumH_app, E4. reflexivity.
    + reflexivity.
    + intros h. unfold holds, live, hdl. simpl. rewrite nth_app_last. destruct (h =? length (p_hd s)); [reflexivity|]. intros K. pose proof (E6 h) as K'. unfold holds, hdl in K'. congruence.
    + rewrite sumP_app. pose proof (sumP_le (p_hd s)). simpl. lia.
    + discriminate.
    + intros p [|]; discriminate.
    + rewrite E2. intros [|o] r; discriminate.
  - apply BI_add; simpl; auto; try discriminate; lia.
  - destruct (live s h && negb (setting s h)); [|exact I]. destruct (holds s h) eqn:Hh.
    + rewrite (alive_holds _ _ _ B Hh). destruct (holds_alive _ _ B Hh) as (K1 & K2 & _). apply BI_add; auto. simpl. lia.
    + apply BI_add; simpl; auto; try discriminate; lia.
  - destruct (idle s h) eqn:Hi; [|exact I]. apply BI_move; auto.
  - destruct (idle s g) eqn:Hg; [|exact I]. destruct (idle s h) eqn:Hh; [|exact I]. destruct (Bool.eqb (prom s g) (prom s h)) eqn:Hp; [|exact I]. apply BI_swap; auto. now apply eqb_prop.
  - destruct (idle s h) eqn:Hi; [|exact I]. destruct (idle_inv _ _ Hi) as (Hl & Hs & Hq). destruct (holds s h) eqn:Hh; [|apply BI_put; auto].
    destruct (BI_unref s h (negb d) B Hh Hq Hs) as (s' & es & -> & K). exact K.
  - destruct (idle s g && negb (prom s g) && negb (holds s g) && live s f && negb (prom s f) && holds s f) eqn:E; [|exact I]. rewrite !andb_true_iff, !negb_true_iff in E. destruct E as (((((Hi & Hp) & Hh) & Hl) & Hq) & Hf).
    rewrite (alive_holds _ _ _ B Hf). destruct (holds_alive _ _ B Hf) as (K1 & K2 & _). apply BI_assign; auto.
  - destruct (idle s p && prom s p && holds s p) eqn:E; [|exact I]. rewrite !andb_true_iff in E. destruct E as ((Hi & Hp) & Hh). rewrite (alive_holds _ _ _ B Hh). destruct (idle_inv _ _ Hi) as (Hl & Hs & Hq).
    assert (Hv : p_has s = false).
    { destruct (p_has s) eqn:Ev; [exfalso|reflexivity]. pose proof (prom_sum _ _ Hh Hp) as K. destruct (p_sv s) as [|q|q] eqn:Esv.
      - pose proof (b_has _ B Ev Esv). lia.
      - destruct (b_sv _ B q (or_introl Esv)) as (Q1 & Q2 & _). pose proof (proms_sum s q p Hl Q1 Q2 Hh Hp (setting_false _ _ _ Hs (or_introl Esv))). pose proof (b_pr _ B). lia.
      - destruct (b_sv _ B q (or_intror Esv)) as (Q1 & Q2 & _). pose proof (proms_sum s q p Hl Q1 Q2 Hh Hp (setting_false _ _ _ Hs (or_intror Esv))). pose proof (b_pr _ B). lia. }
    rewrite Hv. simpl. constructor; simpl; try apply B.
    + intros E. destruct (holds_alive _ _ B Hh) as (_ & K & _). congruence.
    + discriminate.
    + intros q [[= <-]|]; [|discriminate]. auto.
    + intros o r Hn. destruct (b_op _ B _ _ Hn) as [A1 A2 A3 A4 A5 A6]. constructor; auto.
  - destruct (p_sv s) as [|p|p] eqn:Esv; [exact I| |].
    + destruct (b_sv _ B p (or_introl Esv)) as (Hh & Hp & Hv). rewrite (alive_holds _ _ _ B Hh), Hv. simpl. constructor; simpl; try apply B.
      * intros E. destruct (holds_alive _ _ B Hh) as (_ & K & _). congruence.
      * discriminate.
      * intros q [|[= <-]]; [discriminate|]. auto.
      * intros o' r' Hn. rewrite nth_error_map in Hn. destruct (nth_error (p_op s) o') as [r|] eqn:Ho; [|discriminate]. injection Hn as <-. destruct (b_op _ B _ _ Ho) as [A1 A2 A3 A4 A5 A6].
        unfold splice. destruct (o_at r) eqn:Ea; constructor; simpl; rewrite ?Ea; auto; try discriminate; intros K; destruct (A6 K) as (_ & K' & _); discriminate.
    + destruct (any_it s) eqn:Eit.
      * destruct (nth_error (p_op s) o) as [r|] eqn:Ho; [|exact I]. destruct (o_at r) eqn:Ea; try exact I. destruct (b_sv _ B p (or_intror Esv)) as (_ & _ & Hv).
        destruct (b_op _ B _ _ Ho) as [A1 A2 A3 A4 A5 A6]. eapply good_trans; eauto. constructor; simpl; auto; try discriminate.
        intros _. apply A2. destruct (o_fin r) eqn:Ef; [|reflexivity]. destruct (A6 eq_refl) as (_ & K & _). rewrite Ea in K. discriminate.
      * destruct (BI_end s p B Esv Eit) as (s' & es & -> & K). exact K.
  - destruct (live s f && negb (prom s f) && holds s f) eqn:E; [|exact I]. rewrite !andb_true_iff, negb_true_iff in E. destruct E as ((Hl & Hp) & Hh). cbv zeta. rewrite (alive_holds _ _ _ B Hh). destruct (holds_alive _ _ B Hh) as (_ & En & _).
    destruct (p_has s) eqn:Ev; simpl; apply BI_addop; auto; constructor; simpl; auto; try discriminate; try (split; [exact Hp|apply hdl_lt; auto]). intros [|]; discriminate.
  - destruct (nth_error (p_op s) o) as [r|] eqn:Ho; [|exact I]. destruct (o_l r) eqn:El; [exact I|]. destruct (b_op _ B _ _ Ho) as [A1 A2 A3 A4 A5 A6]. eapply good_trans; eauto. constructor; simpl; auto; [|discriminate].
    intros _. apply A2. destruct (o_fin r) eqn:Ef; [|reflexivity]. destruct (A6 eq_refl) as (K & _). congruence.
  - destruct (nth_error (p_op s) o) as [r|] eqn:Ho; [|exact I]. destruct (o_fin r) eqn:Ef; [exact I|]. destruct (b_op _ B _ _ Ho) as [A1 A2 A3 A4 A5 A6]. specialize (A2 Ef).
    assert (K : o_c r = CNone \/ o_c r = CTake -> good (alive s (if p_has s then Next (with_op s (set_nth (p_op s) o (Op (o_fut r) (o_at r) (o_l r) CTried false))) []
       else match o_at r with AtQ => Next (with_op s (set_nth (p_op s) o (Op (o_fut r) AtHit (o_l r) CTried false))) [] | _ => Fail BadUnlink [] end))).
    { intros Hc. rewrite (alive_holds _ _ _ B A2). destruct (p_has s) eqn:Ev.
      - simpl. eapply BI_op; eauto. constructor; simpl; auto; [|discriminate]. intros K. rewrite (A5 K) in Hc. destruct Hc; discriminate.
      - assert (Ea : o_at r = AtQ).
        { destruct (o_at r) eqn:Ea; auto; exfalso; [specialize (A3 (or_introl eq_refl))|specialize (A3 (or_intror eq_refl))|specialize (A4 eq_refl)|specialize (A5 eq_refl)]; try discriminate; destruct Hc; congruence. }
        rewrite Ea. simpl. eapply BI_op; eauto. constructor; simpl; auto; try discriminate. intros [|]; discriminate. }
    destruct (o_c r); try exact I; apply K; auto.
  - destruct (nth_error (p_op s) o) as [r|] eqn:Ho; [|exact I]. destruct (o_c r) eqn:Ec; try exact I. destruct (b_op _ B _ _ Ho) as [A1 A2 A3 A4 A5 A6].
    assert (Ef : o_fin r = false). { destruct (o_fin r) eqn:Ef; [|reflexivity]. destruct (A6 eq_refl) as (_ & _ & [K|K]); congruence. }
    eapply good_trans; eauto. constructor; simpl; auto; try discriminate.
    + intros K. destruct (o_at r); auto; destruct K; discriminate.
    + destruct (o_at r); discriminate.
  - destruct (nth_error (p_op s) o) as [r|] eqn:Ho; [|exact I]. destruct (o_fin r && ok_of r && holds s (o_fut r)) eqn:E; [|exact I]. rewrite !andb_true_iff in E. destruct E as (_ & Hh). rewrite (alive_holds _ _ _ B Hh). exact B.
Qed.
Lemma BI_init : BI p_start.
Proof. constructor; simpl; auto; try discriminate; [intros h; unfold holds, hdl; simpl; destruct h; discriminate|intros p [|]; discriminate|intros [|o] r; discriminate]. Qed.

(** ** Happens-before *)
Notation v_ h t := (mv_cur (ms_view h t)).
Notation lg h := (mm_log (ms_mem h)).
Notation rl h x := (mm_rel (ms_mem h) x).
Notation st h := (ms_base h).
Notation hv := (hview ph_src).

(** The construction of the state is the first four accesses. *)
Definition C0 (v : hbs) : Prop := forall i, i < 4 -> In i v.
Definition KS (g : mlog) (v : hbs) : Prop := forall i a p, nth_error g i = Some (a, p) -> 4 <= i -> ma_loc a = l_has \/ ma_loc a = l_val -> ma_wr a = true -> In i v.
Lemma C0_incl v w : C0 v -> incl v w -> C0 w. Proof. intros H Hi i Hl. apply Hi, H, Hl. Qed.
Lemma KS_incl g v w : KS g v -> incl v w -> KS g w. Proof. intros H Hi i a p Hn Hl Ha Hw. apply Hi. eapply H; eauto. Qed.

Record GI (m : mmem) (has : bool) : Prop := {
  g_len : 4 <= length (mm_log m);
  g_obj : forall i a p, nth_error (mm_log m) i = Some (a, p) -> 4 <= i -> ma_loc a = l_obj -> ma_wr a = false;
  g_q : forall i a p, nth_error (mm_log m) i = Some (a, p) -> 4 <= i -> ma_loc a = l_q -> In i (mm_rel m x_mtx);
  g_has0 : has = false -> forall i a p, nth_error (mm_log m) i = Some (a, p) -> 4 <= i -> ma_loc a = l_has -> In i (mm_rel m x_mtx);
  g_val0 : has = false -> forall i a p, nth_error (mm_log m) i = Some (a, p) -> 4 <= i -> ma_loc a <> l_val;
  g_ks : has = true -> KS (mm_log m) (mm_rel m x_mtx) }.
Definition newacc (m' : mmem) (has' : bool) (i : nat) (a : maccess) : Prop :=
  (ma_loc a = l_obj -> ma_wr a = false) /\ (ma_loc a = l_q -> In i (mm_rel m' x_mtx)) /\ (has' = false -> ma_loc a = l_has -> In i (mm_rel m' x_mtx)) /\
  (has' = false -> ma_loc a <> l_val) /\ (has' = true -> ma_loc a = l_has \/ ma_loc a = l_val -> ma_wr a = true -> In i (mm_rel m' x_mtx)).
Lemma GI_step m v l m' v' has has' : eff m v l m' v' -> GI m has -> (has = true -> has' = true) ->
  (forall i a, In i (mv_cur v') -> In (Touch (ma_loc a) (ma_wr a)) l -> newacc m' has' i a) -> GI m' has'.
Proof.
  intros Ef [A B C D F G] Hh Hnew.
  assert (N : forall i a p, nth_error (mm_log m') i = Some (a, p) -> nth_error (mm_log m) i = Some (a, p) \/ newacc m' has' i a).
  { intros i a p Hn. destruct (eff_cases Ef _ _ _ Hn) as [[_ Ho]|(_ & Hi & Ht)]; auto. }
  pose proof (ef_rel _ _ _ _ _ Ef x_mtx) as R.
  constructor.
  - pose proof (ef_len _ _ _ _ _ Ef). lia.
  - intros i a p Hn Hi Hl. destruct (N _ _ _ Hn) as [Ho|(K & _)]; eauto.
  - intros i a p Hn Hi Hl. destruct (N _ _ _ Hn) as [Ho|(_ & K & _)]; eauto.
  - intros E i a p Hn Hi Hl. destruct (N _ _ _ Hn) as [Ho|(_ & _ & K & _)]; auto. destruct has; [rewrite Hh in E; [discriminate|reflexivity]|]. apply R. eapply D; eauto.
  - intros E i a p Hn Hi Hl. destruct (N _ _ _ Hn) as [Ho|(_ & _ & _ & K & _)]; [|now apply K]. destruct has; [rewrite Hh in E; [discriminate|reflexivity]|]. eapply F; eauto.
  - intros E i a p Hn Hi Hl Hw. destruct (N _ _ _ Hn) as [Ho|(_ & _ & _ & _ & K)]; auto. apply R. destruct has; [eapply G; eauto|]. destruct Hl as [Hl|Hl]; [eapply D; eauto|]. destruct (F eq_refl _ _ _ Ho Hi Hl).
Qed.
(** Steps without writes *)
Definition readonly (has : bool) (l : list mact) : Prop := forall x w, In (Touch x w) l -> w = false /\ x <> l_q /\ (has = false -> x = l_obj).
Lemma GI_read m v l m' v' has : eff m v l m' v' -> GI m has -> readonly has l -> GI m' has.
Proof.
  intros Ef G Hr. apply (GI_step _ _ _ _ _ _ _ Ef G); auto. intros i a _ Ht. destruct (Hr _ _ Ht) as (E1 & E2 & E3). split; [auto|]. split; [congruence|].
  split; [intros E; rewrite (E3 E); discriminate|]. split; [intros E; rewrite (E3 E); discriminate|congruence].
Qed.
Lemma KS_step m v l m' v' u : eff m v l m' v' -> (~ In (Touch l_has true) l /\ ~ In (Touch l_val true) l) -> KS (mm_log m) u -> KS (mm_log m') u.
Proof.
  intros Ef [N1 N2] H i a p Hn Hi Hl Hw. destruct (eff_cases Ef _ _ _ Hn) as [[_ Ho]|(_ & _ & Ht)]; [eapply H; eauto|]. rewrite Hw in Ht. destruct Hl as [E|E]; rewrite E in Ht; contradiction.
Qed.
Lemma KS_own m v l m' v' : eff m v l m' v' -> KS (mm_log m) (mv_cur v') -> KS (mm_log m') (mv_cur v').
Proof. intros Ef H i a p Hn Hi Hl Hw. destruct (eff_cases Ef _ _ _ Hn) as [[_ Ho]|(_ & K & _)]; [eapply H; eauto|exact K]. Qed.

(** A get *)
Record OV (h : mst (S := pst)) (o : nat) (r : pop) : Prop := {
  ov_l0 : C0 (v_ h (t_l o)) /\ C0 (v_ h (t_r o));
  ov_c0 : o_c r = CTried -> C0 (v_ h (t_c o));
  ov_f0 : o_fin r = true -> C0 (v_ h (t_f o));
  ov_comp : o_at r = AtComp -> o_fin r = false -> KS (lg h) (rl h (x_op o));
  ov_compf : o_at r = AtComp -> o_fin r = true -> KS (lg h) (v_ h (t_f o));
  ov_l : o_fin r = false -> o_l r = true -> incl (v_ h (t_l o)) (rl h (x_op o));
  ov_c : o_fin r = false -> o_c r = CDone -> incl (v_ h (t_c o)) (rl h (x_op o));
  ov_fl : o_fin r = true -> incl (v_ h (t_l o)) (v_ h (t_f o)) /\ incl (v_ h (t_c o)) (v_ h (t_f o));
  ov_e : o_c r = CNone \/ o_c r = CTake -> v_ h (t_c o) = [];
  ov_ef : o_fin r = false -> v_ h (t_f o) = [] }.
(** Views through which an access reaches the destruction of the state *)
Definition tk (s : pst) (t : nat) : Prop :=
  (exists x, holds s x = true /\ t = t_h x) \/ (exists o r, nth_error (p_op s) o = Some r /\ holds s (o_fut r) = true /\ (t = t_l o \/ t = t_c o \/ t = t_f o)).
Definition cov (h : mst (S := pst)) (i : nat) : Prop := In i (rl h x_ctr) \/ exists t, tk (st h) t /\ In i (v_ h t).
Record Inv (h : mst (S := pst)) : Prop := {
  w_g : GI (ms_mem h) (p_has (st h));
  w_h : forall x, holds (st h) x = true -> C0 (v_ h (t_h x));
  w_sv : forall p, p_sv (st h) = SvSplice p \/ p_sv (st h) = SvLoop p -> KS (lg h) (v_ h (t_h p));
  w_op : forall o r, nth_error (p_op (st h)) o = Some r -> OV h o r;
  w_fh : forall x, length (p_hd (st h)) <= x -> v_ h (t_h x) = [];
  w_fo : forall o, length (p_op (st h)) <= o -> v_ h (t_l o) = [] /\ v_ h (t_r o) = [] /\ v_ h (t_c o) = [] /\ v_ h (t_f o) = [];
  w_cov : forall i, i < length (lg h) -> cov h i }.
Definition WI (h : mst (S := pst)) : Prop :=
  (p_new (st h) = false -> lg h = []) /\ (p_new (st h) = true -> p_dead (st h) = false -> Inv h).

Ltac tne := unfold t_h, t_l, t_r, t_c, t_f in *; lia.
Ltac tin := simpl; unfold t_h, t_l, t_r, t_c, t_f in *; intuition lia.

Lemma cov_step h l v0 m' v' s' d : (forall i, i < length (lg h) -> cov h i) -> eff (ms_mem h) v0 l m' v' ->
  let h' := MS s' m' (m_set (ms_view h) d v') in
  (length (mm_log m') = length (lg h) \/ forall i, In i (mv_cur v') -> cov h' i) ->
  (forall t, tk (st h) t -> (tk s' t /\ incl (v_ h t) (v_ h' t)) \/ (incl (v_ h t) (mv_cur v') /\ forall i, In i (mv_cur v') -> cov h' i)) ->
  forall i, i < length (mm_log m') -> cov h' i.
Proof.
  intros Hc Ef h' Hn Ht i Hi. destruct (Nat.lt_ge_cases i (length (lg h))) as [Hl|Hl].
  - destruct (Hc i Hl) as [K|(t & Hk & K)].
    + left. exact (ef_rel _ _ _ _ _ Ef x_ctr i K).
    + destruct (Ht t Hk) as [[K1 K2]|[K1 K2]]; [right; eauto|auto].
  - destruct Hn as [E|Hn]; [lia|]. apply Hn. destruct (nth_error (mm_log m') i) as [[a p]|] eqn:E; [|apply nth_error_None in E; lia]. exact (proj1 (ef_new _ _ _ _ _ Ef i a p Hl E)).
Qed.
Lemma cov_tok h v t : tk (st h) t -> ms_view h t = v -> forall i, In i (mv_cur v) -> cov h i.
Proof. intros Hk <- i Hi. right. eauto. Qed.
Lemma cov_rel h u : incl u (rl h x_ctr) -> forall i, In i u -> cov h i.
Proof. intros H i Hi. left. auto. Qed.

(** Gets that do not step *)
Lemma OV_keep h o r l v0 m' v' s' d : OV h o r -> eff (ms_mem h) v0 l m' v' -> (~ In (Touch l_has true) l /\ ~ In (Touch l_val true) l) \/ o_at r <> AtComp ->
  ~ In (t_l o) d -> ~ In (t_r o) d -> ~ In (t_c o) d -> ~ In (t_f o) d -> OV (MS s' m' (m_set (ms_view h) d v')) o r.
Proof.
  intros [A B C D F G I J K M] Ef Hw N1 N2 N3 N4. pose proof (ef_rel _ _ _ _ _ Ef (x_op o)) as R.
  constructor; simpl; rewrite ?(set_out _ _ _ _ N1), ?(set_out _ _ _ _ N2), ?(set_out _ _ _ _ N3), ?(set_out _ _ _ _ N4); auto.
  - intros E1 E2. destruct Hw as [Hw|]; [|contradiction]. apply (KS_step _ _ _ _ _ _ Ef Hw). apply (KS_incl _ _ _ (D E1 E2) R).
  - intros E1 E2. destruct Hw as [Hw|]; [|contradiction]. apply (KS_step _ _ _ _ _ _ Ef Hw). auto.
  - intros E1 E2. eapply incl_tran; eauto.
  - intros E1 E2. eapply incl_tran; eauto.
Qed.

Section Access.
Context {m : mmem} {has : bool} (G : GI m has).
Notation g := (mm_log m).
Lemma a_obj u : C0 u -> kw g u l_obj.
Proof. intros H i a p Hn Hl Hw. destruct (Nat.lt_ge_cases i 4); [auto|]. rewrite (g_obj _ _ G _ _ _ Hn) in Hw by auto. discriminate. Qed.
Lemma a_q u : C0 u -> kn g (u ++ mm_rel m x_mtx) l_q.
Proof. intros H i a p Hn Hl. apply in_or_app. destruct (Nat.lt_ge_cases i 4); [auto|]. right. eapply (g_q _ _ G); eauto. Qed.
Lemma a_has0 u : C0 u -> has = false -> kn g (u ++ mm_rel m x_mtx) l_has.
Proof. intros H E i a p Hn Hl. apply in_or_app. destruct (Nat.lt_ge_cases i 4); [auto|]. right. eapply (g_has0 _ _ G); eauto. Qed.
Lemma a_val0 u : C0 u -> has = false -> kn g u l_val.
Proof. intros H E i a p Hn Hl. destruct (Nat.lt_ge_cases i 4); [auto|]. destruct (g_val0 _ _ G E _ _ _ Hn); auto. Qed.
Lemma a_ks u : C0 u -> KS g u -> kw g u l_has /\ kw g u l_val.
Proof. intros H K. split; intros i a p Hn Hl Hw; (destruct (Nat.lt_ge_cases i 4); [auto|]); eapply K; eauto. Qed.
Lemma a_has u : C0 u -> kw g (u ++ mm_rel m x_mtx) l_has.
Proof.
  intros H. destruct (Bool.bool_dec has true) as [E|E]; [|apply Bool.not_true_is_false in E; apply kn_kw, a_has0; auto]. apply a_ks; [eapply C0_incl; [exact H|apply incl_appl, incl_refl]|]. eapply KS_incl; [exact (g_ks _ _ G E)|apply incl_appr, incl_refl].
Qed.
End Access.

Lemma in_gets s h o : In o (gets s h) <-> exists r, nth_error (p_op s) o = Some r /\ o_fut r = h.
Proof.
  unfold gets. rewrite filter_In, in_seq. destruct (nth_error (p_op s) o) as [r|] eqn:E.
  - split; [intros [_ K]; apply Nat.eqb_eq in K; eauto|]. intros (r' & [= <-] & <-). rewrite Nat.eqb_refl. split; [|reflexivity]. assert (o < length (p_op s)) by (apply nth_error_Some; congruence). lia.
  - split; [intros [_ K]; discriminate|intros (r & K & _); discriminate].
Qed.

(** All views of h and of the gets on it *)
Lemma all_view h l v x : Inv h -> quiet (st h) x = true -> incl (t_all (st h) x) (ph_src (st h) l) ->
  incl (v_ h (t_h x)) (mv_cur (hv h l v)) /\ forall o r, nth_error (p_op (st h)) o = Some r -> o_fut r = x -> incl (v_ h (t_l o)) (mv_cur (hv h l v)) /\ incl (v_ h (t_c o)) (mv_cur (hv h l v)) /\ incl (v_ h (t_f o)) (mv_cur (hv h l v)).
Proof.
  intros W Hq Hs. split; [apply in_hview, Hs; left; reflexivity|]. intros o r Hn Hf. pose proof (quiet_op _ _ Hq _ _ Hn Hf) as Ef. destruct (ov_fl _ _ _ (w_op _ W _ _ Hn) Ef) as [K1 K2].
  assert (K : incl (v_ h (t_f o)) (mv_cur (hv h l v))). { apply in_hview, Hs. right. apply in_map, in_gets. eauto. }
  split; [eapply incl_tran; eauto|]. split; [eapply incl_tran; eauto|exact K].
Qed.
Lemma only_holder s x y : BI s -> p_ctr s = 1 -> holds s x = true -> holds s y = true -> y = x.
Proof.
  intros B Hc Hx Hy. destruct (Nat.eq_dec y x) as [|Hne]; [assumption|exfalso]. pose proof (b_live _ B _ Hx) as Hl. pose proof (sumH_put s x false true Hl) as K. rewrite Hx in K. simpl in K. pose proof (b_ctr _ B).
  pose proof (holds_sum (with_hd s (put s x false true) 0) y) as Q. unfold holds in Q at 1. rewrite (hdl_put s x false true 0 y Hl) in Q. destruct (Nat.eqb_spec y x); [contradiction|]. specialize (Q Hy). simpl in Q. lia.
Qed.
(** The last reference *)
Lemma last_ka h x u : BI (st h) -> Inv h -> p_ctr (st h) = 1 -> holds (st h) x = true -> incl (v_ h (t_h x)) u ->
  (forall o r, nth_error (p_op (st h)) o = Some r -> o_fut r = x -> incl (v_ h (t_l o)) u /\ incl (v_ h (t_c o)) u /\ incl (v_ h (t_f o)) u) -> ka (lg h) (u ++ rl h x_ctr).
Proof.
  intros B W Hc Hx Hu Ho i Hi. apply in_or_app. destruct (w_cov _ W i Hi) as [K|(t & Hk & K)]; [auto|left].
  destruct Hk as [(y & Hy & ->)|(o & r & Hn & Hy & Ht)].
  - rewrite (only_holder _ _ _ B Hc Hx Hy) in K. auto.
  - destruct (Ho o r Hn (only_holder _ _ _ B Hc Hx Hy)) as (K1 & K2 & K3). destruct Ht as [->|[->| ->]]; auto.
Qed.

Section Orders.
Variables r_acq r_rel : bool.
Notation hstep := (ph_step r_acq r_rel true true).
Notation acts := (ph_acts r_acq r_rel true true).

Lemma exec_read1 (m : mmem) v x l : kw (mm_log m) (mv_cur v) x -> (forall m1 v1, m_exec m v [Touch x false] = Some (m1, v1) -> m_exec m1 v1 l <> None) -> m_exec m v (Touch x false :: l) <> None.
Proof.
  intros H K. change (Touch x false :: l) with ([Touch x false] ++ l). rewrite exec_app. pose proof (exec_ok [Touch x false] m v) as E. destruct (m_exec m v [Touch x false]) as [[m1 v1]|] eqn:E1; [apply K; reflexivity|].
  exfalso. apply E; [|intros y [[= <-]|[]]; exact H|reflexivity]. intros y [[=]|[]].
Qed.
Lemma ok_unref h u x : BI (st h) -> Inv h -> C0 (mv_cur u) -> holds (st h) x = true -> incl (v_ h (t_h x)) (mv_cur u) ->
  (forall o r, nth_error (p_op (st h)) o = Some r -> o_fut r = x -> incl (v_ h (t_l o)) (mv_cur u) /\ incl (v_ h (t_c o)) (mv_cur u) /\ incl (v_ h (t_f o)) (mv_cur u)) ->
  m_exec (ms_mem h) u (unref_acts true true (st h)) <> None.
Proof.
  intros B W Hc Hx Hu Ho. unfold unref_acts. destruct (Nat.eqb_spec (p_ctr (st h)) 1) as [E1|E1].
  - pose proof (last_ka h x _ B W E1 Hx Hu Ho) as Hk.
    cbn [app]. apply exec_read1; [apply (a_obj (w_g _ W)); exact Hc|]. intros m1 v1 X1. pose proof (exec_touches [Touch l_obj false] _ _ _ _ eq_refl X1) as [R1 _]. pose proof (eff_exec _ _ _ _ _ X1) as F1.
    assert (Ka : ka (mm_log m1) (mv_cur v1 ++ mm_rel m1 x_ctr)).
    { rewrite R1. intros i Hi. destruct (nth_error (mm_log m1) i) as [[a p]|] eqn:En; [|apply nth_error_None in En; lia]. destruct (eff_cases F1 _ _ _ En) as [[Hl _]|(_ & K & _)]; apply in_or_app; [|auto].
      specialize (Hk i Hl). apply in_app_or in Hk. destruct Hk; [left; now apply (ef_cur _ _ _ _ _ F1)|auto]. }
    cbn [m_exec m_exec1]. apply (exec_ok [Touch l_obj false; Touch l_has false; Touch l_val true; Touch l_has true; Touch l_q true; Touch l_obj true]); simpl; intros y _; [|apply kn_kw]; apply ka_kn; exact Ka.
  - cbn [app]. apply exec_read1; [apply (a_obj (w_g _ W)); exact Hc|]. intros m1 v1 _. discriminate.
Qed.
Lemma ok_ref m v : kw (mm_log m) (mv_cur v) l_obj -> m_exec m v (ref_acts r_acq r_rel) <> None.
Proof. intros H. unfold ref_acts. apply exec_read1; [exact H|]. intros m1 v1 _. discriminate. Qed.
Lemma ok_trans m has v o r : GI m has -> C0 (mv_cur v) -> (o_fin r && ok_of r = true -> KS (mm_log m) (mv_cur v ++ mm_rel m (x_op o))) -> m_exec m v (Rmw (x_op o) true true :: res_acts r) <> None.
Proof.
  intros G H K. unfold res_acts. destruct (o_fin r && ok_of r); [|discriminate]. specialize (K eq_refl). cbn [m_exec m_exec1]. apply (exec_ok [Touch l_has false; Touch l_val false]); simpl.
  - intros x [[=]|[[=]|[]]].
  - destruct (a_ks (mv_cur v ++ mm_rel m (x_op o)) (C0_incl _ _ H (incl_appl _ (incl_refl _))) K) as [K1 K2]. intros x [[= <-]|[[= <-]|[]]]; assumption.
Qed.
Lemma settled_shape s l o r : settled s l = Some (o, r) -> exists r0 r1 b, nth_error (p_op s) o = Some r0 /\ r = settle r1 b /\ o_fin r1 = false /\
  match l with
  | LSv o' _ => o = o' /\ r1 = Op (o_fut r0) AtComp (o_l r0) (o_c r0) false
  | LListen o' _ => o = o' /\ r1 = Op (o_fut r0) (o_at r0) true (o_c r0) false
  | LCan o' => o = o' /\ r1 = Op (o_fut r0) (match o_at r0 with AtHit => AtCanc | a => a end) (o_l r0) CDone false
  | _ => False
  end.
Proof.
  destruct l; cbn [settled]; try discriminate; (destruct (nth_error (p_op s) o0) as [r0|] eqn:E; [|discriminate]); intros [= <- <-]; exists r0; eauto 10.
Qed.
Lemma in1 {A} (x : A) l : In x (x :: l). Proof. left. reflexivity. Qed.
Hint Resolve in1 : core.

Lemma WI_ok h l v s' es : BI (st h) -> WI h -> p_step (st h) l = Next s' es -> m_exec (ms_mem h) (hv h l v) (acts (st h) l) <> None.
Proof.
  intros B [W0 W1] Hs.
  assert (HW : forall x, holds (st h) x = true -> Inv h /\ incl (v_ h (t_h x)) (v_ h (t_h x)) /\ C0 (v_ h (t_h x))).
  { intros x Hx. destruct (holds_alive _ _ B Hx) as (K1 & K2 & _). pose proof (W1 K2 K1) as W. split; [exact W|]. split; [apply incl_refl|]. exact (w_h _ W _ Hx). }
  destruct l as [| |x|x|g x|x d|g f|p|o b|f|o b|o|o|o]; cbn [p_step ph_acts] in *; try discriminate.
  - destruct (p_new (st h)) eqn:En; [discriminate|]. apply exec_ok; intros y _; rewrite (W0 eq_refl); [|apply kn_kw]; apply kn_nil.
  - destruct (holds (st h) x) eqn:Hx; [|discriminate]. destruct (HW x Hx) as (W & _ & C). apply ok_ref. apply (a_obj (w_g _ W)). eapply C0_incl; [exact C|]. apply in_hview. simpl. auto.
  - destruct (idle (st h) x) eqn:Hi; [|discriminate]. destruct (holds (st h) x) eqn:Hx; [|discriminate]. destruct (HW x Hx) as (W & _ & C). destruct (idle_inv _ _ Hi) as (_ & _ & Hq).
    destruct (all_view h (LRelease x d) v x W Hq (incl_refl _)) as [K1 K2]. apply (ok_unref h _ x); auto. eapply C0_incl; eauto.
  - destruct (idle (st h) g && negb (prom (st h) g) && negb (holds (st h) g) && live (st h) f && negb (prom (st h) f) && holds (st h) f) eqn:E; [|discriminate]. rewrite !andb_true_iff in E. destruct E as (_ & Hx).
    destruct (HW f Hx) as (W & _ & C). apply ok_ref. apply (a_obj (w_g _ W)). eapply C0_incl; [exact C|]. apply in_hview. simpl. auto.
  - destruct (idle (st h) p && prom (st h) p && holds (st h) p) eqn:E; [|discriminate]. rewrite !andb_true_iff in E. destruct E as ((Hi & Hp) & Hh). rewrite (alive_holds _ _ _ B Hh) in Hs. destruct (p_has (st h)) eqn:Ev; [discriminate|].
    destruct (HW p Hh) as (W & _ & C). pose proof (w_g _ W) as G. rewrite Ev in G. assert (C' : C0 (mv_cur (hv h (LSet p) v))) by (eapply C0_incl; [exact C|apply in_hview; simpl; auto]).
    apply (mid_ok _ _ [Touch l_obj false]); [reflexivity| | | |].
    + intros y [[=]|[]].
    + intros y [[= <-]|[]]. apply (a_obj G). exact C'.
    + intros y Hy. simpl in Hy. destruct Hy as [[=]|[[= <-]|[[= <-]|[[=]|[]]]]].
      * apply (kn_incl _ (mv_cur (hv h (LSet p) v))); [|apply incl_appl, incl_refl]. apply (a_val0 G); auto.
      * apply (a_has0 G); auto.
    + intros y Hy. simpl in Hy. destruct Hy as [[= <-]|[[=]|[[=]|[[=]|[]]]]]. apply (a_has G). exact C'.
  - destruct (p_sv (st h)) as [|p|p] eqn:Esv; [discriminate| |].
    + destruct (b_sv _ B p (or_introl Esv)) as (Hh & Hp & Hv). destruct (HW p Hh) as (W & _ & C). pose proof (w_g _ W) as G. rewrite Hv in G.
      assert (I1 : incl (v_ h (t_h p)) (mv_cur (hv h (LSv o b) v))) by (apply in_hview; simpl; rewrite Esv; auto). pose proof (C0_incl _ _ C I1) as C'.
      apply (mid_ok _ _ [Touch l_has false; Touch l_obj false]); [reflexivity| | | |].
      * intros y [[=]|[[=]|[]]].
      * intros y [[= <-]|[[= <-]|[]]]; [|apply (a_obj G); exact C']. apply a_ks; [exact C'|]. eapply KS_incl; [exact (w_sv _ W p (or_introl Esv))|exact I1].
      * intros y [[= <-]|[[=]|[]]]. apply (a_q G). exact C'.
      * intros y [[=]|[[=]|[]]].
    + destruct (b_sv _ B p (or_intror Esv)) as (Hh & Hp & Hv). destruct (HW p Hh) as (W & _ & C). pose proof (w_g _ W) as G. rewrite Hv in G.
      assert (I1 : incl (v_ h (t_h p)) (mv_cur (hv h (LSv o b) v))) by (apply in_hview; simpl; rewrite Esv; auto). pose proof (C0_incl _ _ C I1) as C'.
      destruct (any_it (st h)).
      * unfold trans_acts. destruct (settled (st h) (LSv o b)) as [[o' r]|] eqn:Es; [|discriminate]. apply (ok_trans _ _ _ _ _ G C'). intros _. eapply KS_incl; [exact (w_sv _ W p (or_intror Esv))|]. apply incl_appl. exact I1.
      * apply (ok_unref h _ p); auto. intros o' r Hn Hf. exfalso. destruct (i_fut _ _ (b_op _ B _ _ Hn)) as [K _]. rewrite Hf in K. congruence.
  - destruct (live (st h) f && negb (prom (st h) f) && holds (st h) f) eqn:E; [|discriminate]. rewrite !andb_true_iff in E. destruct E as (_ & Hh). destruct (HW f Hh) as (W & _ & C). pose proof (w_g _ W) as G.
    assert (C' : C0 (mv_cur (hv h (LGet f) v))) by (eapply C0_incl; [exact C|apply in_hview; simpl; auto]).
    destruct (p_has (st h)) eqn:Ev.
    + pose proof (g_ks _ _ G eq_refl) as K.
      destruct (a_ks (mv_cur (hv h (LGet f) v) ++ rl h x_mtx) (C0_incl _ _ C' (incl_appl _ (incl_refl _))) (KS_incl _ _ _ K (incl_appr _ (incl_refl _)))) as [K1 K2].
      apply (mid_ok _ _ [Touch l_obj false] x_mtx [Touch l_has false; Unlock x_mtx; Touch l_has false; Touch l_val false]); [reflexivity| | | |].
      * intros y [[=]|[]].
      * intros y [[= <-]|[]]. apply (a_obj G). exact C'.
      * intros y Hy. simpl in Hy. destruct Hy as [[=]|[[=]|[[=]|[[=]|[]]]]].
      * intros y Hy. simpl in Hy. destruct Hy as [[= <-]|[[=]|[[= <-]|[[= <-]|[]]]]]; assumption.
    + apply (mid_ok _ _ [Touch l_obj false] x_mtx [Touch l_has false; Touch l_q true; Unlock x_mtx]); [reflexivity| | | |].
      * intros y [[=]|[]].
      * intros y [[= <-]|[]]. apply (a_obj G). exact C'.
      * intros y Hy. simpl in Hy. destruct Hy as [[=]|[[= <-]|[[=]|[]]]]. apply (a_q G). exact C'.
      * intros y Hy. simpl in Hy. destruct Hy as [[= <-]|[[=]|[[=]|[]]]]. apply (a_has G). exact C'.
  - destruct (nth_error (p_op (st h)) o) as [r0|] eqn:Ho; [|discriminate]. destruct (o_l r0) eqn:El; [discriminate|].
    assert (Ef : o_fin r0 = false). { destruct (o_fin r0) eqn:Ef; [|reflexivity]. destruct (i_fin _ _ (b_op _ B _ _ Ho) Ef) as (K & _). congruence. }
    destruct (HW _ (i_pend _ _ (b_op _ B _ _ Ho) Ef)) as (W & _ & _). pose proof (w_op _ W _ _ Ho) as V.
    unfold trans_acts. destruct (settled (st h) (LListen o b)) as [[o' r]|] eqn:Es; [|discriminate]. destruct (settled_shape _ _ _ _ Es) as (r0' & r1 & b' & Hn & -> & Hf & -> & ->). rewrite Hn in Ho. injection Ho as ->.
    apply (ok_trans _ _ _ _ _ (w_g _ W)).
    + eapply C0_incl; [exact (proj1 (ov_l0 _ _ _ V))|]. apply in_hview. simpl. auto.
    + intros K. apply andb_true_iff in K. destruct K as [_ K]. unfold ok_of in K. rewrite settle_at in K. simpl in K. destruct (o_at r0) eqn:Ea; try discriminate. eapply KS_incl; [exact (ov_comp _ _ _ V Ea Ef)|apply incl_appr, incl_refl].
  - destruct (nth_error (p_op (st h)) o) as [r|] eqn:Ho; [|discriminate]. destruct (o_fin r) eqn:Ef; [discriminate|]. pose proof (i_pend _ _ (b_op _ B _ _ Ho) Ef) as Hh.
    destruct (HW _ Hh) as (W & _ & _). pose proof (w_op _ W _ _ Ho) as V. pose proof (w_g _ W) as G. assert (C' : C0 (mv_cur (hv h (LTry o) v))). { eapply C0_incl; [exact (proj2 (ov_l0 _ _ _ V))|]. apply in_hview. simpl. auto. }
    apply (mid_ok _ _ [Touch l_obj false] x_mtx (Touch l_has false :: (if p_has (st h) then [] else [Touch l_q true]) ++ [Unlock x_mtx])); [reflexivity| | | |].
    + intros y [[=]|[]].
    + intros y [[= <-]|[]]. apply (a_obj G). exact C'.
    + intros y Hy. destruct Hy as [[=]|Hy]. apply in_app_or in Hy. destruct Hy as [Hy|[[=]|[]]]. destruct (p_has (st h)); [destruct Hy|]. destruct Hy as [[= <-]|[]]. apply (a_q G). exact C'.
    + intros y Hy. destruct Hy as [[= <-]|Hy]; [apply (a_has G); exact C'|]. apply in_app_or in Hy. destruct Hy as [Hy|[[=]|[]]]. destruct (p_has (st h)); [destruct Hy|]. destruct Hy as [[=]|[]].
  - destruct (nth_error (p_op (st h)) o) as [r0|] eqn:Ho; [|discriminate]. destruct (o_c r0) eqn:Ec; try discriminate.
    assert (Ef : o_fin r0 = false). { destruct (o_fin r0) eqn:Ef; [|reflexivity]. destruct (i_fin _ _ (b_op _ B _ _ Ho) Ef) as (_ & _ & [K|K]); congruence. }
    destruct (HW _ (i_pend _ _ (b_op _ B _ _ Ho) Ef)) as (W & _ & _). pose proof (w_op _ W _ _ Ho) as V.
    unfold trans_acts. destruct (settled (st h) (LCan o)) as [[o' r]|] eqn:Es; [|discriminate]. destruct (settled_shape _ _ _ _ Es) as (r0' & r1 & b' & Hn & -> & Hf & -> & ->). rewrite Hn in Ho. injection Ho as ->.
    apply (ok_trans _ _ _ _ _ (w_g _ W)).
    + eapply C0_incl; [apply (ov_c0 _ _ _ V Ec)|]. apply in_hview. simpl. auto.
    + intros K. apply andb_true_iff in K. destruct K as [_ K]. unfold ok_of in K. rewrite settle_at in K. simpl in K. destruct (o_at r0) eqn:Ea; try discriminate. eapply KS_incl; [exact (ov_comp _ _ _ V Ea Ef)|apply incl_appr, incl_refl].
  - destruct (nth_error (p_op (st h)) o) as [r|] eqn:Ho; [|discriminate]. destruct (o_fin r && ok_of r && holds (st h) (o_fut r)) eqn:E; [|discriminate]. rewrite !andb_true_iff in E. destruct E as ((Ef & Ek) & Hh).
    destruct (HW _ Hh) as (W & _ & _). pose proof (w_op _ W _ _ Ho) as V. assert (Ea : o_at r = AtComp) by (unfold ok_of in Ek; destruct (o_at r); congruence).
    apply exec_read1; [|intros; discriminate]. assert (I1 : incl (v_ h (t_f o)) (mv_cur (hv h (LRead o) v))) by (apply in_hview; simpl; auto).
    apply (a_ks (mv_cur (hv h (LRead o) v))); [eapply C0_incl; [exact (ov_f0 _ _ _ V Ef)|exact I1]|eapply KS_incl; [exact (ov_compf _ _ _ V Ea Ef)|exact I1]].
Qed.
End Orders.
