(** Proofs about wait_in_group under the C++ memory model. *)
From Coq Require Import List Arith Bool Lia.
From Verif Require Import Lts ListFacts M_Weak M_WaitGroupW S_WaitGroupW P_WaitGroupW M_WaitGroupWD S_WaitGroupWD P_WaitGroupWD M_InGroup S_InGroup.
Import ListNotations.

(** ** What a step of the group does *)
Definition acc_at (s : gst) (u : nat) : option (option nat) := option_map u_acc (nth_error (g_un s) u).
(** units keep their access; calls of done() keep their unit and what they know *)
Record Ext (l : option nat) (s s' : gst) : Prop := ExtI {
  ex_len : length (g_un s) <= length (g_un s');
  ex_none : forall u, acc_at s u = Some None -> l <> Some u -> acc_at s' u = Some None;
  ex_some : forall u n, acc_at s u = Some (Some n) -> acc_at s' u = Some (Some n);
  ex_dn : forall k u pc v, nth_error (g_dn s) k = Some (u, pc, v) -> exists pc' v', nth_error (g_dn s') k = Some (u, pc', v') /\ incl (v_tok v) (v_tok v') }.
Definition done_of (l : glabel) : option nat := match l with GLDone u _ => Some u | _ => None end.

Lemma dn_set (l : list (nat * wdpc * view)) k u pc v p w : nth_error l k = Some (u, pc, v) -> incl (v_tok v) (v_tok w) ->
  forall k' u' pc' v', nth_error l k' = Some (u', pc', v') -> exists pc2 v2, nth_error (set_nth l k (u, p, w)) k' = Some (u', pc2, v2) /\ incl (v_tok v') (v_tok v2).
Proof.
  intros Hk Hi k' u' pc' v' H. destruct (Nat.eq_dec k k') as [<-|Hn].
  - rewrite (nth_error_set_nth_same _ _ _ _ Hk). rewrite Hk in H. injection H as <- <- <-. eauto.
  - rewrite nth_error_set_nth_other by auto. rewrite H. do 2 eexists. split; [reflexivity|apply incl_refl].
Qed.
Lemma Ext_refl l s : Ext l s s.
Proof. split; auto. intros. do 2 eexists. split; [eassumption|apply incl_refl]. Qed.
Lemma Ext_trans l s1 s2 s3 : Ext l s1 s2 -> Ext l s2 s3 -> Ext l s1 s3.
Proof.
  intros [A1 A2 A3 A4] [B1 B2 B3 B4]. split; [lia|auto|auto|]. intros k u pc v H. destruct (A4 _ _ _ _ H) as (pc1 & v1 & H1 & I1). destruct (B4 _ _ _ _ H1) as (pc2 & v2 & H2 & I2).
  do 2 eexists. split; [exact H2|]. exact (incl_tran I1 I2).
Qed.
Lemma Ext_mark l s k m : Ext l s (g_mark s k m).
Proof.
  destruct (mark_same s k m) as (_ & _ & _ & _ & E5 & _). split; unfold acc_at; rewrite ?E5; auto.
  intros k' u pc v H. unfold g_mark. destruct (nth_error (g_dn s) k) as [[[u0 pc0] v0]|] eqn:Ek; simpl; [|do 2 eexists; split; [exact H|apply incl_refl]].
  apply (dn_set _ _ _ _ _ _ _ Ek) with (1 := fun x Hx => or_intror Hx) (2 := H).
Qed.
Lemma Ext_same l s s' : g_un s' = g_un s -> g_dn s' = g_dn s -> Ext l s s'.
Proof. intros E1 E2. split; unfold acc_at; rewrite ?E1, ?E2; auto. intros. do 2 eexists. split; [eassumption|apply incl_refl]. Qed.
Lemma Ext_fin l s s' k u pc v p u1 q : nth_error (g_dn s) k = Some (u, pc, v) -> (g_un s' = g_un s \/ g_un s' = fin_unit (g_un s) u1 q) ->
  (exists w, g_dn s' = set_nth (g_dn s) k (u, p, w) /\ incl (v_tok v) (v_tok w)) -> Ext l s s'.
Proof.
  intros Hk Hu (w & Hd & Hi). assert (Ha : forall u', acc_at s' u' = acc_at s u') by (intros u'; unfold acc_at; destruct Hu as [-> | ->]; [reflexivity|apply fin_unit_acc]).
  split.
  - destruct Hu as [-> | ->]; [lia|rewrite fin_unit_len; lia].
  - intros u' H _. rewrite Ha. exact H.
  - intros u' n H. rewrite Ha. exact H.
  - rewrite Hd. exact (dn_set _ _ _ _ _ _ _ Hk Hi).
Qed.

Lemma tok_rmw {A} acq (h : hist A) v : incl (v_tok v) (v_tok (rmw_view acq h v)).
Proof. unfold rmw_view. destruct acq; simpl; [apply incl_appl, incl_refl|apply incl_refl]. Qed.

Lemma g_ext d_acq d_rel a_acq a_rel s l s' es : g_step d_acq d_rel a_acq a_rel s l = Next s' es ->
  Ext (done_of l) s s' /\ (forall u n, In (GEDone u n) es -> (exists v, l = GLDone u v) /\ u < length (g_un s)) /\
  (forall o b, In (GENotify o b) es -> forall u n, ~ In (GEDone u n) es).
Proof.
  destruct l as [n v|u v|k i|o v i|k]; cbn [g_step done_of].
  - destruct (v_ts v <? length (g_h s)); [|discriminate]. intros E. injection E as <- <-. split; [|split; [intros u m [H|[]]; discriminate|intros o b [H|[]]; discriminate]].
    split; simpl; unfold acc_at; simpl.
    + rewrite app_length. lia.
    + intros u H _. destruct (nth_error (g_un s) u) as [w|] eqn:Hu; [|discriminate]. rewrite nth_error_app1 by (apply nth_error_Some; congruence). rewrite Hu. exact H.
    + intros u m H. destruct (nth_error (g_un s) u) as [w|] eqn:Hu; [|discriminate]. rewrite nth_error_app1 by (apply nth_error_Some; congruence). rewrite Hu. exact H.
    + intros. do 2 eexists. split; [eassumption|apply incl_refl].
  - destruct (nth_error (g_un s) u) as [[p [a|] f]|] eqn:Hu; try discriminate. destruct ((p <=? v_ts v) && (v_ts v <? length (g_h s))); [|discriminate].
    intros E. injection E as <- <-. split; [|split].
    + split; simpl; unfold acc_at; simpl.
      * rewrite set_nth_length. lia.
      * intros u' H Hn. rewrite nth_error_set_nth_other by (intros ->; congruence). exact H.
      * intros u' m H. destruct (Nat.eq_dec u u') as [<-|Hn]; [rewrite Hu in H; discriminate|]. rewrite nth_error_set_nth_other by auto. exact H.
      * intros k u' pc v' H. rewrite nth_error_app1 by (apply nth_error_Some; congruence). do 2 eexists. split; [exact H|apply incl_refl].
    + intros u' m [H|[]]. injection H as <- <-. split; [eauto|]. apply nth_error_Some. congruence.
    + intros o b [H|[]]. discriminate.
  - destruct (nth_error (g_dn s) k) as [[[u pc] v]|] eqn:Hk; [|discriminate]. unfold g_done_step.
    assert (Hz : forall s1 : gst, (exists p u1 q, (g_un s1 = g_un s \/ g_un s1 = fin_unit (g_un s) u1 q) /\ exists w, g_dn s1 = set_nth (g_dn s) k (u, p, w) /\ incl (v_tok v) (v_tok w)) ->
      Ext None s s1) by (intros s1 (p & u1 & q & H1 & H2); exact (Ext_fin None s s1 k u pc v p u1 q Hk H1 H2)).
    destruct pc as [|[|[|x]]|]; try discriminate.
    + destruct (rd (g_h s) v i) as [[x w]|]; [|discriminate]. intros E. injection E as <- <-. split; [|split; [intros ? ? []|intros ? ? []]].
      apply Hz. exists (GLoop x), 0, 0. split; [left; reflexivity|]. eexists. split; [reflexivity|]. simpl. apply incl_refl.
    + destruct (g_newest s) as [|c]; [discriminate|]. intros E. injection E as <- <-. split; [|split; [intros ? ? []|intros ? ? []]].
      apply Hz. exists GEnd, u, (length (g_h s)). split; [right; reflexivity|]. eexists. split; [reflexivity|]. apply incl_tran with (2 := tok_rmw _ _ _). simpl. apply incl_appl, incl_refl.
    + destruct (rd (g_h s) v i) as [[y w]|]; [|discriminate]. destruct (y =? S (S x)).
      * destruct (i =? newest (g_h s)); [|discriminate]. intros E. injection E as <- <-. split; [|split; [intros ? ? []|intros ? ? []]].
        apply Hz. exists GEnd, u, (length (g_h s)). split; [right; reflexivity|]. eexists. split; [reflexivity|]. apply tok_rmw.
      * intros E. injection E as <- <-. split; [|split; [intros ? ? []|intros ? ? []]].
        apply Hz. exists (GLoop y), 0, 0. split; [left; reflexivity|]. eexists. split; [reflexivity|]. simpl. apply incl_refl.
  - destruct (g_op s o); try discriminate. destruct (rd (g_h s) (vjoin v (g_lv s)) i) as [[[|x] w]|]; [| |discriminate]; (destruct (v_ts v <? length (g_h s)); [|discriminate]);
      intros E; injection E as <- <-; (split; [apply Ext_same; reflexivity|]); simpl; split.
    + intros u n [H|[H|[]]]; discriminate.
    + intros o' b _ u n [H|[H|[]]]; discriminate.
    + intros u n [H|[]]; discriminate.
    + intros o' b _ u n [H|[]]; discriminate.
  - destruct (nth_error (g_wk s) k) as [[[|o os] v]|]; try discriminate. destruct (g_op s o); try discriminate. intros E. injection E as <- <-.
    split; [apply Ext_same; reflexivity|]. split; [intros u n [H|[]]; discriminate|intros o' b _ u n [H|[]]; discriminate].
Qed.

Definition zdone_of (l : zlabel) : option nat := match l with ZStep (GLDone u _) => Some u | _ => None end.
Lemma gev_ZE es : gev (map ZE es) = es.
Proof. induction es as [|e es IH]; [reflexivity|]. simpl. congruence. Qed.
Lemma z_ext d_acq d_rel a_acq a_rel z l z' es : z_step d_acq d_rel a_acq a_rel z l = Next z' es ->
  Ext (zdone_of l) (z_g z) (z_g z') /\ (forall u n, In (GEDone u n) (gev es) -> (exists v, l = ZStep (GLDone u v)) /\ u < length (g_un (z_g z))) /\
  (forall o b, In (GENotify o b) (gev es) -> forall u n, ~ In (GEDone u n) (gev es)).
Proof.
  destruct l as [[n v|u v|k i|o v i|k]|kn]; cbn [z_step zdone_of].
  - destruct (z_dead z); [discriminate|]. destruct (g_step _ _ _ _ _ _) as [s' es'| |f es'] eqn:Hs; try discriminate. simpl. intros E. injection E as <- <-. rewrite gev_ZE.
    destruct (g_ext _ _ _ _ _ _ _ _ Hs) as (H1 & H2 & H3). simpl. split; [exact H1|]. split; [|exact H3]. intros u m Hi. destruct (H2 u m Hi) as [(v' & Hv) _]. discriminate.
  - destruct (z_dead z); [discriminate|]. destruct (g_step _ _ _ _ _ _) as [s' es'| |f es'] eqn:Hs; try discriminate. simpl. intros E. injection E as <- <-. rewrite gev_ZE.
    destruct (g_ext _ _ _ _ _ _ _ _ Hs) as (H1 & H2 & H3). simpl. split; [exact H1|]. split; [|exact H3]. intros u' m Hi. destruct (H2 u' m Hi) as [(v' & Hv) Hl].
    injection Hv as <- <-. split; [eauto|exact Hl].
  - destruct (nth_error (g_dn (z_g z)) k) as [[[u pc] v]|]; [|discriminate].
    destruct (g_step _ _ _ _ _ _) as [s' es'| |f es'] eqn:Hs; try discriminate; (destruct (z_dead z); [discriminate|]); simpl; [|discriminate]. intros E. injection E as <- <-. rewrite gev_ZE.
    destruct (g_ext _ _ _ _ _ _ _ _ Hs) as (H1 & H2 & H3). simpl. split; [exact (Ext_trans _ _ _ _ (Ext_mark _ _ _ _) H1)|]. split; [|exact H3].
    intros u' m Hi. destruct (H2 u' m Hi) as [(v' & Hv) _]. discriminate.
  - destruct (z_dead z); [discriminate|]. destruct (g_step _ _ _ _ _ _) as [s' es'| |f es'] eqn:Hs; try discriminate. simpl. intros E. injection E as <- <-. rewrite gev_ZE.
    destruct (g_ext _ _ _ _ _ _ _ _ Hs) as (H1 & H2 & H3). simpl. split; [exact H1|]. split; [|exact H3]. intros u m Hi. destruct (H2 u m Hi) as [(v' & Hv) _]. discriminate.
  - destruct (g_step _ _ _ _ _ _) as [s' es'| |f es'] eqn:Hs; try discriminate. simpl. intros E. injection E as <- <-. rewrite gev_ZE.
    destruct (g_ext _ _ _ _ _ _ _ _ Hs) as (H1 & H2 & H3). simpl. split; [exact H1|]. split; [|exact H3]. intros u m Hi. destruct (H2 u m Hi) as [(v' & Hv) _]. discriminate.
  - destruct (z_dead z); [discriminate|]. destruct (may_del z kn); [|discriminate]. destruct (forallb _ _); [|discriminate]. intros E. injection E as <- <-. simpl.
    split; [apply Ext_same; reflexivity|]. split; [intros u n []|intros o b []].
Qed.

(** ** Traces *)
Lemma zev_app a b : zev (a ++ b) = zev a ++ zev b.
Proof. apply flat_map_app. Qed.
Lemma zev_IE es : zev (map IE es) = es.
Proof. induction es as [|e es IH]; [reflexivity|]. simpl. congruence. Qed.
Lemma in_zev e tr : In e (zev tr) <-> In (IE e) tr.
Proof.
  unfold zev. rewrite in_flat_map. split.
  - intros (x & Hx & H). destruct x; simpl in H; intuition congruence.
  - intros H. exists (IE e). split; [exact H|simpl; auto].
Qed.
Lemma in_gev e tr : In e (gev tr) <-> In (ZE e) tr.
Proof.
  unfold gev. rewrite in_flat_map. split.
  - intros (x & Hx & H). destruct x; simpl in H; intuition congruence.
  - intros H. exists (ZE e). split; [exact H|simpl; auto].
Qed.
Lemma gev_app2 a b : gev (a ++ b) = gev a ++ gev b.
Proof. apply flat_map_app. Qed.
(** the events of i without its destruction *)
Definition core (i : nat) (tr : list ievent) : list ievent :=
  filter (fun e => match e with IEStart j _ | IEComp j _ | IEOut j _ => j =? i | _ => false end) tr.
Lemma core_app i a b : core i (a ++ b) = core i a ++ core i b.
Proof. apply filter_app. Qed.
Lemma core_IE i es : core i (map IE es) = [].
Proof. induction es as [|e es IH]; [reflexivity|exact IH]. Qed.
Lemma ev_app i a b : in_events i (a ++ b) = in_events i a ++ in_events i b.
Proof. apply filter_app. Qed.
Lemma ev_IE i es : in_events i (map IE es) = [].
Proof. induction es as [|e es IH]; [reflexivity|exact IH]. Qed.

Lemma objs_spec v m : In m (objs v) <-> In (TObj m) (v_tok v).
Proof.
  unfold objs. rewrite in_flat_map. split.
  - intros (t & Ht & H). destruct t; simpl in H; intuition congruence.
  - intros H. exists (TObj m). split; [exact H|simpl; auto].
Qed.
Lemma accs_spec v m : In m (accs v) <-> In (TData m) (v_tok v).
Proof.
  unfold accs. rewrite in_flat_map. split.
  - intros (t & Ht & H). destruct t; simpl in H; intuition congruence.
  - intros H. exists (TData m). split; [exact H|simpl; auto].
Qed.

Lemma vis_old tr es : sees_ops tr ->
  (forall t1 o b t2, es = t1 ++ IE (ZE (GENotify o b)) :: t2 -> forall known i u, In (IE (ZE (GEWait o known))) (tr ++ t1) -> In (IEStart i u) (tr ++ t1) -> In u known ->
    exists n, In (IEComp i n) (tr ++ t1) /\ In n b) -> sees_ops (tr ++ es).
Proof.
  intros H Hn t1 o b t2 E known i u H1 H2 H3. destruct (app_eq_app _ _ _ _ E) as (l & [[-> E2]|[-> E2]]).
  - destruct l as [|x l].
    + simpl in E2. rewrite app_nil_r in *. specialize (Hn [] o b t2 (eq_sym E2) known i u). rewrite app_nil_r in Hn. auto.
    + simpl in E2. injection E2 as <- ->. exact (H t1 o b l eq_refl known i u H1 H2 H3).
  - apply (Hn l o b t2 E2 known i u H1 H2 H3).
Qed.

(** ** The invariant *)
Section Run.
Variable n0 : nat.
Variables a_acq a_rel early : bool.
Notation step := (i_step true true a_acq a_rel early).
Notation gs s := (z_g (i_z s)).

Definition op_ok (s : ist) (tr : list ievent) (i : nat) : Prop :=
  match i_op s i with
  | IIdle => core i tr = []
  | IRun u => core i tr = [IEStart i u]
  | ICall u k => exists n pc v, core i tr = [IEStart i u; IEComp i n] /\ nth_error (g_dn (gs s)) k = Some (u, pc, v) /\
                 In (TData n) (v_tok v) /\ In (TObj (acc_in i 0)) (v_tok v) /\ In (TObj (acc_in i 1)) (v_tok v)
  | IDone => exists u n b, core i tr = [IEStart i u; IEComp i n; IEOut i b] /\ In n b
  end.

Record IJ (s : ist) (tr : list ievent) : Prop := IJnv {
  ij_z : ZJ (i_z s) (zev tr);
  ij_bnd : forall u n, In (GEDone u n) (gev (zev tr)) -> u < length (g_un (gs s));
  ij_run : forall i u, i_op s i = IRun u -> In u (i_un s) /\ acc_at (gs s) u = Some None;
  ij_inj : forall i j u, i_op s i = IRun u -> i_op s j = IRun u -> i = j;
  ij_st : forall i u, In (IEStart i u) tr -> In u (i_un s) /\ (i_op s i = IRun u \/ exists n, acc_at (gs s) u = Some (Some n));
  ij_pair : forall i u n, In (IEStart i u) tr -> In (GEDone u n) (gev (zev tr)) -> In (IEComp i n) tr;
  ij_un : forall u, In u (i_un s) -> u < length (g_un (gs s));
  ij_op : forall i, op_ok s tr i;
  ij_not : forall i c, In (i, c) (i_not s) -> i_op s i = IDone /\ In (acc_in i 0) c /\ In (acc_in i 1) c /\ In (acc_in i 2) c;
  ij_vis : sees_ops tr }.

Lemma acc_lt s u x : acc_at s u = Some x -> u < length (g_un s).
Proof. unfold acc_at. intros H. apply nth_error_Some. destruct (nth_error (g_un s) u); discriminate. Qed.

Lemma IJ_init : IJ (i_init n0) [].
Proof.
  split; simpl; try discriminate; try (intros; contradiction).
  - apply ZJ_init.
  - intros i. reflexivity.
  - intros [|x t1] o b t2 E; discriminate.
Qed.

(** a step of the group, by anyone: what it leaves alone *)
Lemma op_ok_ext l s tr z' lp es i : Ext l (gs s) (z_g z') -> op_ok s tr i -> core i es = [] ->
  op_ok (IS z' (i_op s) (i_dead s) (i_un s) lp (i_not s)) (tr ++ es) i.
Proof.
  intros X H Hc. unfold op_ok in *. simpl. rewrite core_app, Hc, app_nil_r. destruct (i_op s i); auto.
  destruct H as (n & pc & v & H1 & H2 & H3 & H4 & H5). destruct (ex_dn _ _ _ X _ _ _ _ H2) as (pc' & v' & H6 & H7). exists n, pc', v'. auto 10.
Qed.

(** the notifications of a step of the group *)
Lemma vis_base s tr z' es l : IJ s tr -> z_step true true a_acq a_rel (i_z s) l = Next z' es -> sees_ops (tr ++ map IE es).
Proof.
  intros J Hs. destruct (z_ext _ _ _ _ _ _ _ _ Hs) as (_ & _ & Hx). pose proof (proj1 (ZJ_step a_acq a_rel _ _ l (ij_z _ _ J)) _ _ Hs) as Z'.
  apply vis_old; [exact (ij_vis _ _ J)|]. intros t1 o b t2 E known i u H1 H2 H3.
  assert (He : zev (map IE es) = zev (t1 ++ IE (ZE (GENotify o b)) :: t2)) by (rewrite E; reflexivity). rewrite zev_IE, zev_app in He. simpl in He.
  assert (Ht : forall e, In e t1 -> exists z, e = IE z). { intros e Hi. assert (Hm : In e (map IE es)) by (rewrite E; apply in_or_app; auto). apply in_map_iff in Hm as (z & <- & _). eauto. }
  assert (Hst : In (IEStart i u) tr). { apply in_app_or in H2 as [H2|H2]; [exact H2|]. destruct (Ht _ H2) as (z & Hz). discriminate. }
  destruct (gi_vis _ _ (zj_g _ _ Z') (gev (zev (tr ++ t1))) o b (gev (zev t2))) with (known := known) (u := u) as (n & Hn & Hb).
  - rewrite He, zev_app, !gev_app2. simpl. rewrite <- app_assoc. reflexivity.
  - apply in_gev, in_zev. exact H1.
  - exact H3.
  - exists n. split; [|exact Hb]. apply in_or_app. left. apply (ij_pair _ _ J i u n Hst).
    rewrite zev_app in Hn. unfold gev in Hn. rewrite flat_map_app in Hn. apply in_app_or in Hn as [Hn|Hn]; [exact Hn|]. exfalso.
    apply (Hx o b) with (u := u) (n := n); rewrite He; unfold gev; rewrite flat_map_app; simpl; apply in_or_app; [right; left; reflexivity|left; exact Hn].
Qed.


Lemma IJ_base s tr l s' es : IJ s tr -> step s (ILBase l) = Next s' es -> IJ s' (tr ++ es).
Proof.
  intros J. cbn [i_step]. destruct (is_own s l) eqn:Ho; [discriminate|]. destruct (z_step true true a_acq a_rel (i_z s) l) as [z' es'| |f es'] eqn:Hs; try discriminate.
  intros E. injection E as <- <-. destruct (z_ext _ _ _ _ _ _ _ _ Hs) as (X & Hd & _).
  assert (Hno : forall e, (forall z, e <> IE z) -> In e (tr ++ map IE es') -> In e tr). { intros e He Hi. apply in_app_or in Hi as [Hi|Hi]; [exact Hi|]. apply in_map_iff in Hi as (z & Hz & _). destruct (He z (eq_sym Hz)). }
  assert (Hown : forall u, zdone_of l = Some u -> ~ In u (i_un s)).
  { intros u Hu Hi. destruct l as [[| u0 v0 | | |]|]; try discriminate. simpl in Hu, Ho. injection Hu as <-. apply memb_In in Hi. congruence. }
  split; simpl.
  - rewrite zev_app, zev_IE. exact (proj1 (ZJ_step a_acq a_rel _ _ l (ij_z _ _ J)) _ _ Hs).
  - intros u n Hi. rewrite zev_app, zev_IE, gev_app2 in Hi. pose proof (ex_len _ _ _ X). apply in_app_or in Hi as [Hi|Hi]; [pose proof (ij_bnd _ _ J u n Hi); lia|].
    destruct (Hd u n Hi) as [_ Hl]. lia.
  - intros i u Hi. destruct (ij_run _ _ J i u Hi) as [H1 H2]. split; [exact H1|]. apply (ex_none _ _ _ X); [exact H2|]. intros Hu. exact (Hown u Hu H1).
  - exact (ij_inj _ _ J).
  - intros i u Hi. apply Hno in Hi; [|discriminate]. destruct (ij_st _ _ J i u Hi) as [H1 [H2|(n & H2)]]; (split; [exact H1|]); [left; exact H2|]. right. exists n. exact (ex_some _ _ _ X u n H2).
  - intros i u n H1 H2. apply Hno in H1; [|discriminate]. apply in_or_app. left. rewrite zev_app, zev_IE, gev_app2 in H2. apply in_app_or in H2 as [H2|H2]; [exact (ij_pair _ _ J i u n H1 H2)|].
    exfalso. destruct (Hd u n H2) as [(v & ->) _]. exact (Hown u eq_refl (proj1 (ij_st _ _ J i u H1))).
  - intros u Hu. pose proof (ij_un _ _ J u Hu). pose proof (ex_len _ _ _ X). lia.
  - intros i. apply (op_ok_ext _ _ _ _ _ _ _ X (ij_op _ _ J i)), core_IE.
  - exact (ij_not _ _ J).
  - exact (vis_base _ _ _ _ _ J Hs).
Qed.

Lemma vis_cons tr e : (forall z, e <> IE z) -> sees_ops tr -> sees_ops (tr ++ [e]).
Proof.
  intros He H. apply vis_old; [exact H|]. intros t1 o b t2 E. destruct t1 as [|x [|y t1]]; simpl in E; [injection E as -> _; destruct (He _ eq_refl)|discriminate|discriminate].
Qed.

Lemma op_ok_other s s' tr es i : i_op s' i = i_op s i -> g_dn (gs s') = g_dn (gs s) -> op_ok s tr i -> core i es = [] -> op_ok s' (tr ++ es) i.
Proof. intros H1 H2 H Hc. unfold op_ok in *. rewrite H1, H2, core_app, Hc, app_nil_r. exact H. Qed.

Lemma IJ_start s tr i v s' es : IJ s tr -> step s (ILStart i v) = Next s' es -> IJ s' (tr ++ es).
Proof.
  intros J. cbn [i_step]. destruct (i_op s i) eqn:Hop; try discriminate. destruct (z_step true true a_acq a_rel (i_z s) (ZStep (GLAdd 1 v))) as [z' es'| |f es'] eqn:Hs; try discriminate.
  intros E. injection E as <- <-. destruct (z_ext _ _ _ _ _ _ _ _ Hs) as (X & Hd & _). set (u := length (g_un (gs s))) in *.
  assert (Hnew : acc_at (z_g z') u = Some None /\ length (g_un (z_g z')) = S u).
  { cbn [z_step g_step] in Hs. destruct (z_dead (i_z s)); [discriminate|]. destruct (v_ts (vadd v (TCall (length (z_who (i_z s))))) <? length (g_h (gs s))); [|discriminate].
    simpl in Hs. injection Hs as <- <-. simpl. unfold acc_at. simpl. rewrite nth_error_app2 by (unfold u; lia). rewrite app_length. unfold u. rewrite Nat.sub_diag. simpl. split; [reflexivity|lia]. }
  destruct Hnew as [Hacc Hlen].
  assert (Hfresh : forall j w, i_op s j = IRun w -> w < u) by (intros j w Hj; exact (acc_lt _ _ _ (proj2 (ij_run _ _ J j w Hj)))).
  assert (Hno : forall e, (forall z, e <> IE z) -> e <> IEStart i u -> In e (tr ++ IEStart i u :: map IE es') -> In e tr).
  { intros e He Hn Hi. apply in_app_or in Hi as [Hi|[Hi|Hi]]; [exact Hi|congruence|]. apply in_map_iff in Hi as (z & Hz & _). destruct (He z (eq_sym Hz)). }
  assert (Hnd : forall w n, ~ In (GEDone w n) (gev es')). { intros w n Hi. destruct (Hd w n Hi) as [(v' & Hv) _]. discriminate. }
  assert (Hzev : zev (tr ++ IEStart i u :: map IE es') = zev tr ++ es') by (rewrite zev_app; simpl; rewrite zev_IE; reflexivity).
  split; simpl.
  - rewrite Hzev. exact (proj1 (ZJ_step a_acq a_rel _ _ _ (ij_z _ _ J)) _ _ Hs).
  - intros w n Hi. rewrite Hzev, gev_app2 in Hi. rewrite Hlen. apply in_app_or in Hi as [Hi|Hi]; [pose proof (ij_bnd _ _ J w n Hi); fold u in H; lia|destruct (Hnd _ _ Hi)].
  - intros j w Hj. destruct (Nat.eq_dec j i) as [->|Hn].
    + rewrite upd_same in Hj. injection Hj as <-. split; [left; reflexivity|exact Hacc].
    + rewrite upd_other in Hj by auto. destruct (ij_run _ _ J j w Hj) as [H1 H2]. split; [right; exact H1|]. apply (ex_none _ _ _ X); [exact H2|discriminate].
  - intros j k w Hj Hk. destruct (Nat.eq_dec j i) as [->|Hn], (Nat.eq_dec k i) as [->|Hn']; [reflexivity| | |].
    + rewrite upd_same in Hj. rewrite upd_other in Hk by auto. injection Hj as <-. specialize (Hfresh _ _ Hk). lia.
    + rewrite upd_same in Hk. rewrite upd_other in Hj by auto. injection Hk as <-. specialize (Hfresh _ _ Hj). lia.
    + rewrite upd_other in Hj, Hk by auto. exact (ij_inj _ _ J j k w Hj Hk).
  - intros j w Hi. destruct (Nat.eq_dec j i) as [->|Hn].
    + destruct (Nat.eq_dec w u) as [->|Hw]; [split; [left; reflexivity|left; apply upd_same]|]. exfalso. apply Hno in Hi; [|discriminate|congruence].
      pose proof (ij_op _ _ J i) as Hc. unfold op_ok in Hc. rewrite Hop in Hc. assert (Hf : In (IEStart i w) (core i tr)) by (apply filter_In; split; [exact Hi|apply Nat.eqb_refl]).
      rewrite Hc in Hf. exact Hf.
    + apply Hno in Hi; [|discriminate|congruence]. destruct (ij_st _ _ J j w Hi) as [H1 [H2|(n & H2)]]; (split; [right; exact H1|]).
      * left. rewrite upd_other by auto. exact H2.
      * right. exists n. exact (ex_some _ _ _ X w n H2).
  - intros j w n H1 H2. apply in_or_app. left. rewrite Hzev, gev_app2 in H2. apply in_app_or in H2 as [H2|H2]; [|destruct (Hnd _ _ H2)].
    destruct (Nat.eq_dec w u) as [->|Hw]; [exfalso; pose proof (ij_bnd _ _ J u n H2); unfold u in H; lia|]. apply Hno in H1; [|discriminate|congruence]. exact (ij_pair _ _ J j w n H1 H2).
  - intros w [<-|Hw]; [lia|]. pose proof (ij_un _ _ J w Hw). rewrite Hlen. unfold u. lia.
  - intros j. destruct (Nat.eq_dec j i) as [->|Hn].
    + unfold op_ok. simpl. rewrite upd_same, core_app. pose proof (ij_op _ _ J i) as Hc. unfold op_ok in Hc. rewrite Hop in Hc. rewrite Hc. simpl. rewrite Nat.eqb_refl, core_IE. reflexivity.
    + assert (Hc : core j (IEStart i u :: map IE es') = []) by (simpl; rewrite (proj2 (Nat.eqb_neq i j)) by auto; apply core_IE).
      pose proof (op_ok_ext _ _ _ _ (i_lp s) _ _ X (ij_op _ _ J j) Hc) as H. unfold op_ok in *. simpl in *. rewrite upd_other by auto. exact H.
  - intros j c Hi. destruct (ij_not _ _ J j c Hi) as (H1 & H2). rewrite upd_other by congruence. auto.
  - replace (tr ++ IEStart i u :: map IE es') with ((tr ++ [IEStart i u]) ++ map IE es') by (rewrite <- app_assoc; reflexivity).
    apply vis_old; [apply vis_cons; [discriminate|exact (ij_vis _ _ J)]|]. intros t1 o b t2 E. exfalso.
    assert (He : forall x, In x es' -> exists us, x = ZE (GEAdd us)).
    { cbn [z_step g_step] in Hs. destruct (z_dead (i_z s)); [discriminate|]. destruct (v_ts (vadd v (TCall (length (z_who (i_z s))))) <? length (g_h (gs s))); [|discriminate].
      simpl in Hs. injection Hs as <- <-. intros x [<-|[]]. eauto. }
    assert (Hin : In (IE (ZE (GENotify o b))) (map IE es')) by (rewrite E; apply in_or_app; right; left; reflexivity).
    apply in_map_iff in Hin as (x & Hx & Hx2). destruct (He x Hx2) as (us & ->). congruence.
Qed.

Lemma IJ_comp s tr i v s' es : IJ s tr -> step s (ILComp i v) = Next s' es -> IJ s' (tr ++ es).
Proof.
  intros J. cbn [i_step]. destruct (i_op s i) as [|u|u k|] eqn:Hop; try discriminate. destruct (memb (acc_in i 0) (objs v)) eqn:Hk; [cbn [negb]|discriminate].
  destruct (i_dead s i || z_dead (i_z s)); [discriminate|].
  destruct (z_step true true a_acq a_rel (i_z s) (ZStep (GLDone u (vadd v (TObj (acc_in i 1)))))) as [z' es'| |f es'] eqn:Hs; try discriminate.
  intros E. injection E as <- <-. destruct (z_ext _ _ _ _ _ _ _ _ Hs) as (X & Hd & _). set (n := g_acc (gs s)) in *.
  assert (Hnew : acc_at (z_g z') u = Some (Some n) /\ es' = [ZE (GEDone u n)] /\
                 nth_error (g_dn (z_g z')) (length (g_dn (gs s))) = Some (u, GLoad, vadd (vadd v (TObj (acc_in i 1))) (TData n))).
  { cbn [z_step g_step] in Hs. destruct (z_dead (i_z s)); [discriminate|]. destruct (nth_error (g_un (gs s)) u) as [[p [a|] f]|] eqn:Hu; try discriminate.
    destruct ((p <=? _) && _); [|discriminate]. simpl in Hs. injection Hs as <- <-. simpl. unfold acc_at. simpl. rewrite (nth_error_set_nth_same _ _ _ _ Hu).
    rewrite nth_error_app2, Nat.sub_diag by lia. repeat split. }
  destruct Hnew as (Hacc & -> & Hdn). simpl (map IE _). destruct (ij_run _ _ J i u Hop) as [Hiu Hnone].
  assert (Hno : forall e, (forall z, e <> IE z) -> e <> IEComp i n -> In e (tr ++ [IEComp i n; IE (ZE (GEDone u n))]) -> In e tr).
  { intros e He Hn Hi. apply in_app_or in Hi as [Hi|[Hi|[Hi|[]]]]; [exact Hi|congruence|destruct (He _ (eq_sym Hi))]. }
  assert (Hzev : zev (tr ++ [IEComp i n; IE (ZE (GEDone u n))]) = zev tr ++ [ZE (GEDone u n)]) by (rewrite zev_app; reflexivity).
  split; simpl.
  - rewrite Hzev. exact (proj1 (ZJ_step a_acq a_rel _ _ _ (ij_z _ _ J)) _ _ Hs).
  - intros w m Hi. rewrite Hzev, gev_app2 in Hi. pose proof (ex_len _ _ _ X). apply in_app_or in Hi as [Hi|[Hi|[]]].
    + pose proof (ij_bnd _ _ J w m Hi). lia.
    + injection Hi as <- <-. exact (acc_lt _ _ _ Hacc).
  - intros j w Hj. destruct (Nat.eq_dec j i) as [->|Hn]; [rewrite upd_same in Hj; discriminate|]. rewrite upd_other in Hj by auto.
    destruct (ij_run _ _ J j w Hj) as [H1 H2]. split; [exact H1|]. apply (ex_none _ _ _ X); [exact H2|]. simpl. intros E. injection E as <-. exact (Hn (ij_inj _ _ J j i u Hj Hop)).
  - intros j k w Hj Hk'. destruct (Nat.eq_dec j i) as [->|Hn]; [rewrite upd_same in Hj; discriminate|]. destruct (Nat.eq_dec k i) as [->|Hn']; [rewrite upd_same in Hk'; discriminate|].
    rewrite upd_other in Hj, Hk' by auto. exact (ij_inj _ _ J j k w Hj Hk').
  - intros j w Hi. apply Hno in Hi; [|discriminate|discriminate]. destruct (ij_st _ _ J j w Hi) as [H1 [H2|(m & H2)]]; (split; [exact H1|]).
    + destruct (Nat.eq_dec j i) as [->|Hn]; [right; exists n; assert (w = u) by congruence; subst w; exact Hacc|]. left. rewrite upd_other by auto. exact H2.
    + right. exists m. exact (ex_some _ _ _ X w m H2).
  - intros j w m H1 H2. apply Hno in H1; [|discriminate|discriminate]. rewrite Hzev, gev_app2 in H2. apply in_or_app. apply in_app_or in H2 as [H2|[H2|[]]]; [left; exact (ij_pair _ _ J j w m H1 H2)|].
    injection H2 as <- <-. right. left. f_equal. destruct (ij_st _ _ J j u H1) as [_ [H2|(m & H2)]]; [exact (eq_sym (ij_inj _ _ J j i u H2 Hop))|congruence].
  - intros w Hw. pose proof (ij_un _ _ J w Hw). pose proof (ex_len _ _ _ X). lia.
  - intros j. destruct (Nat.eq_dec j i) as [->|Hn].
    + unfold op_ok. simpl. rewrite upd_same, core_app. pose proof (ij_op _ _ J i) as Hc. unfold op_ok in Hc. rewrite Hop in Hc. rewrite Hc. simpl. rewrite Nat.eqb_refl.
      do 3 eexists. split; [reflexivity|]. split; [exact Hdn|]. simpl. split; [left; reflexivity|]. split; [right; right; apply objs_spec, memb_In; exact Hk|right; left; reflexivity].
    + assert (Hc : core j [IEComp i n; IE (ZE (GEDone u n))] = []) by (simpl; rewrite (proj2 (Nat.eqb_neq i j)) by auto; reflexivity).
      pose proof (op_ok_ext _ _ _ _ (i_lp s) _ _ X (ij_op _ _ J j) Hc) as H. unfold op_ok in *. simpl in *. rewrite upd_other by auto. exact H.
  - intros j c Hi. destruct (ij_not _ _ J j c Hi) as (H1 & H2). rewrite upd_other by congruence. auto.
  - apply vis_old; [exact (ij_vis _ _ J)|]. intros t1 o b t2 E. destruct t1 as [|x [|y [|y' t1]]]; simpl in E; discriminate.
Qed.

Lemma returned_dn s k v : returned s k = Some v -> exists u, nth_error (g_dn (gs s)) k = Some (u, GEnd, v).
Proof.
  unfold returned. destruct (nth_error (g_dn (gs s)) k) as [[[u [| |]] w]|]; try discriminate. intros H. exists u. destruct (i_lp s k) as [j|]; [|congruence].
  destruct (nth_error (g_wk (gs s)) j) as [[[|] ?]|]; congruence.
Qed.

Lemma IJ_out s tr i s' es : IJ s tr -> step s (ILOut i) = Next s' es -> IJ s' (tr ++ es).
Proof.
  intros J. cbn [i_step]. destruct (i_op s i) as [|u|u k|] eqn:Hop; try discriminate. destruct (returned s k) as [v|] eqn:Hr; [|discriminate]. destruct (i_dead s i); [discriminate|].
  intros E. injection E as <- <-. destruct (returned_dn _ _ _ Hr) as (u' & Hdn).
  pose proof (ij_op _ _ J i) as Hc. unfold op_ok in Hc. rewrite Hop in Hc. destruct Hc as (n & pc & v' & Hc & Hk & Hn & H0 & H1). rewrite Hdn in Hk. injection Hk as -> <- <-.
  assert (Hno : forall e, e <> IEOut i (accs v) -> In e (tr ++ [IEOut i (accs v)]) -> In e tr) by (intros e He Hi; apply in_app_or in Hi as [Hi|[Hi|[]]]; congruence).
  assert (Hzev : zev (tr ++ [IEOut i (accs v)]) = zev tr) by (rewrite zev_app; simpl; apply app_nil_r).
  split; simpl.
  - rewrite Hzev. exact (ij_z _ _ J).
  - rewrite Hzev. exact (ij_bnd _ _ J).
  - intros j w Hj. destruct (Nat.eq_dec j i) as [->|Hn']; [rewrite upd_same in Hj; discriminate|]. rewrite upd_other in Hj by auto. exact (ij_run _ _ J j w Hj).
  - intros j m w Hj Hm. destruct (Nat.eq_dec j i) as [->|Hn']; [rewrite upd_same in Hj; discriminate|]. destruct (Nat.eq_dec m i) as [->|Hn2]; [rewrite upd_same in Hm; discriminate|].
    rewrite upd_other in Hj, Hm by auto. exact (ij_inj _ _ J j m w Hj Hm).
  - intros j w Hi. apply Hno in Hi; [|discriminate]. destruct (ij_st _ _ J j w Hi) as [H2 [H3|H3]]; (split; [exact H2|]); [|right; exact H3]. left. rewrite upd_other by congruence. exact H3.
  - intros j w m H2 H3. apply Hno in H2; [|discriminate]. rewrite Hzev in H3. apply in_or_app. left. exact (ij_pair _ _ J j w m H2 H3).
  - exact (ij_un _ _ J).
  - intros j. destruct (Nat.eq_dec j i) as [->|Hn'].
    + unfold op_ok. simpl. rewrite upd_same, core_app, Hc. simpl. rewrite Nat.eqb_refl. do 3 eexists. split; [reflexivity|]. apply accs_spec. exact Hn.
    + apply (op_ok_other s); [simpl; apply upd_other; auto|reflexivity|exact (ij_op _ _ J j)|]. simpl. rewrite (proj2 (Nat.eqb_neq i j)) by auto. reflexivity.
  - intros j c [Hi|Hi].
    + injection Hi as <- <-. rewrite upd_same. split; [reflexivity|]. split; [|split]; [| |left; reflexivity]; right; apply objs_spec; assumption.
    + destruct (ij_not _ _ J j c Hi) as (H2 & H3). rewrite upd_other by congruence. auto.
  - apply vis_cons; [discriminate|exact (ij_vis _ _ J)].
Qed.

Lemma IJ_del s tr i kn s' es : IJ s tr -> step s (ILDel i kn) = Next s' es -> IJ s' (tr ++ es).
Proof.
  intros J. cbn [i_step]. destruct (i_dead s i); [discriminate|]. destruct (told_out s i kn || (early && told_wait s i)); [|discriminate]. destruct (forallb _ _); [|discriminate].
  intros E. injection E as <- <-.
  assert (Hno : forall e, e <> IEDel i -> In e (tr ++ [IEDel i]) -> In e tr) by (intros e He Hi; apply in_app_or in Hi as [Hi|[Hi|[]]]; congruence).
  assert (Hzev : zev (tr ++ [IEDel i]) = zev tr) by (rewrite zev_app; simpl; apply app_nil_r).
  split; simpl; rewrite ?Hzev; try solve [apply J].
  - intros j w Hi. apply Hno in Hi; [|discriminate]. exact (ij_st _ _ J j w Hi).
  - intros j w m H2 H3. apply Hno in H2; [|discriminate]. apply in_or_app. left. exact (ij_pair _ _ J j w m H2 H3).
  - intros j. apply (op_ok_other s); [reflexivity|reflexivity|exact (ij_op _ _ J j)|reflexivity].
  - apply vis_cons; [discriminate|exact (ij_vis _ _ J)].
Qed.

Lemma IJ_step s tr l s' es : IJ s tr -> step s l = Next s' es -> IJ s' (tr ++ es).
Proof. intros J H. destruct l; eauto using IJ_base, IJ_start, IJ_comp, IJ_out, IJ_del. Qed.

(** *** done() returns before the receiver is notified *)
Lemma z_stay z l z' es : z_step true true a_acq a_rel z l = Next z' es ->
  (forall k u v, nth_error (g_dn (z_g z)) k = Some (u, GEnd, v) -> nth_error (g_dn (z_g z')) k = Some (u, GEnd, v) /\ forall i, l <> ZStep (GLStep k i)) /\
  (forall j w, nth_error (g_wk (z_g z)) j = Some ([], w) -> nth_error (g_wk (z_g z')) j = Some ([], w)).
Proof.
  destruct l as [[n v|u v|k i|o v i|k]|kn]; cbn [z_step].
  - destruct (z_dead z); [discriminate|]. cbn [g_step]. destruct (v_ts (vadd v (TCall (length (z_who z)))) <? length (g_h (z_g z))); [|discriminate]. simpl. intros E. injection E as <- <-. simpl.
    split; [split; [assumption|discriminate]|auto].
  - destruct (z_dead z); [discriminate|]. cbn [g_step]. destruct (nth_error (g_un (z_g z)) u) as [[p [a|] f]|]; try discriminate. destruct (_ && _); [|discriminate]. simpl. intros E. injection E as <- <-. simpl.
    split; [|auto]. intros k u' v' Hk. rewrite nth_error_app1 by (apply nth_error_Some; congruence). split; [exact Hk|discriminate].
  - destruct (nth_error (g_dn (z_g z)) k) as [[[u pc] v]|] eqn:Hk; [|discriminate]. destruct (g_step _ _ _ _ _ _) as [s' es'| |f es'] eqn:Hs; try discriminate; (destruct (z_dead z); [discriminate|]); simpl; [|discriminate].
    intros E. injection E as <- <-. simpl. set (m := length (z_who z)) in *. destruct (mark_same (z_g z) k m) as (_ & _ & _ & _ & _ & E6 & _).
    assert (Hd : g_dn (g_mark (z_g z) k m) = set_nth (g_dn (z_g z)) k (u, pc, vadd v (TCall m))) by (unfold g_mark; rewrite Hk; reflexivity).
    cbn [g_step] in Hs. rewrite Hd, (nth_error_set_nth_same _ _ _ _ Hk) in Hs. unfold g_done_step in Hs. rewrite Hd, E6 in Hs.
    assert (Hgo : pc <> GEnd /\ (exists p w, g_dn s' = set_nth (set_nth (g_dn (z_g z)) k (u, pc, vadd v (TCall m))) k (u, p, w)) /\ (g_wk s' = g_wk (z_g z) \/ exists x, g_wk s' = g_wk (z_g z) ++ [x])).
    { destruct pc as [|[|[|x]]|]; try discriminate; (split; [discriminate|]).
      - destruct (rd _ _ i) as [[x w]|]; [|discriminate]. injection Hs as <- <-. simpl. eauto 6.
      - destruct (g_newest _) as [|c]; [discriminate|]. injection Hs as <- <-. simpl. destruct (c =? 0); eauto 6.
      - destruct (rd _ _ i) as [[y w]|]; [|discriminate]. destruct (y =? S (S x)); [destruct (i =? _); [|discriminate]|]; injection Hs as <- <-; simpl; eauto 6. }
    destruct Hgo as (Hpc & (p & w & Hdn) & Hwk). split.
    + intros k' u' v' Hk'. assert (Hn : k' <> k) by congruence. rewrite Hdn, !nth_error_set_nth_other by auto. split; [exact Hk'|congruence].
    + intros j w' Hj. destruct Hwk as [-> |(x & ->)]; [exact Hj|]. rewrite nth_error_app1 by (apply nth_error_Some; congruence). exact Hj.
  - destruct (z_dead z); [discriminate|]. cbn [g_step]. destruct (g_op (z_g z) o); try discriminate. destruct (rd _ _ i) as [[[|x] w]|]; [| |discriminate]; (destruct (_ <? _); [|discriminate]);
      simpl; intros E; injection E as <- <-; simpl; (split; [split; [assumption|discriminate]|auto]).
  - cbn [g_step]. destruct (nth_error (g_wk (z_g z)) k) as [[[|o os] v]|] eqn:Hk; try discriminate. destruct (g_op (z_g z) o); try discriminate. simpl. intros E. injection E as <- <-. simpl.
    split; [split; [assumption|discriminate]|]. intros j w Hj. rewrite nth_error_set_nth_other by (intros ->; congruence). exact Hj.
  - destruct (z_dead z); [discriminate|]. destruct (may_del z kn); [|discriminate]. destruct (forallb _ _); [|discriminate]. intros E. injection E as <- <-. simpl.
    split; [split; [assumption|discriminate]|auto].
Qed.
Lemma returned_stay s z' l op dead un nt u es : z_step true true a_acq a_rel (i_z s) l = Next z' es -> done_returned s u -> done_returned (IS z' op dead un (note_loop s l z') nt) u.
Proof.
  intros Hs (k & v & Hk & Hj). destruct (z_stay _ _ _ _ Hs) as [H1 H2]. destruct (H1 k u v Hk) as [Hk' Hn]. exists k, v. simpl. split; [exact Hk'|].
  intros j Hl. assert (Hl' : i_lp s k = Some j).
  { unfold note_loop in Hl. destruct l as [[| |k' i'| |]|]; try exact Hl. destruct (_ <? _); [|exact Hl]. rewrite upd_other in Hl; [exact Hl|]. intros ->. exact (Hn i' eq_refl). }
  destruct (Hj j Hl') as (w & Hw). exists w. exact (H2 j w Hw).
Qed.
Lemma after_step s tr l s' es : IJ s tr -> out_after s tr -> step s l = Next s' es -> out_after s' (tr ++ es).
Proof.
  intros J A Hs.
  assert (Hkeep : (forall u, done_returned s u -> done_returned s' u) -> (forall i b, ~ In (IEOut i b) es) -> out_after s' (tr ++ es)).
  { intros H1 H2 i b Hi. apply in_app_or in Hi as [Hi|Hi]; [|destruct (H2 _ _ Hi)]. destruct (A i b Hi) as (u & Hu & Hd). exists u. split; [apply in_or_app; auto|auto]. }
  assert (Hmap : forall es' i b, ~ In (IEOut i b) (map IE es')) by (intros es' i b Hi; apply in_map_iff in Hi as (z & Hz & _); discriminate).
  destruct l as [l|i v|i v|i|i kn]; cbn [i_step] in Hs.
  - destruct (is_own s l); [discriminate|]. destruct (z_step _ _ _ _ _ _) as [z' es'| |f es'] eqn:Hz; try discriminate. injection Hs as <- <-. apply Hkeep; [|apply Hmap].
    intros u Hu. exact (returned_stay _ _ _ _ _ _ _ _ _ Hz Hu).
  - destruct (i_op s i); try discriminate. destruct (z_step _ _ _ _ _ _) as [z' es'| |f es'] eqn:Hz; try discriminate. injection Hs as <- <-. apply Hkeep.
    + intros u' Hu. exact (returned_stay s z' (ZStep (GLAdd 1 v)) _ _ _ _ _ _ Hz Hu).
    + intros j b [Hi|Hi]; [discriminate|exact (Hmap _ _ _ Hi)].
  - destruct (i_op s i) as [|u|u k|]; try discriminate. destruct (negb _); [discriminate|]. destruct (_ || _); [discriminate|].
    destruct (z_step _ _ _ _ _ _) as [z' es'| |f es'] eqn:Hz; try discriminate. injection Hs as <- <-. apply Hkeep.
    + intros u' Hu. exact (returned_stay s z' (ZStep (GLDone u (vadd v (TObj (acc_in i 1))))) _ _ _ _ _ _ Hz Hu).
    + intros j b [Hi|Hi]; [discriminate|exact (Hmap _ _ _ Hi)].
  - destruct (i_op s i) as [|u|u k|] eqn:Hop; try discriminate. destruct (returned s k) as [v|] eqn:Hr; [|discriminate]. destruct (i_dead s i); [discriminate|]. injection Hs as <- <-.
    pose proof (ij_op _ _ J i) as Hc. unfold op_ok in Hc. rewrite Hop in Hc. destruct Hc as (n & pc & v' & Hc & Hk & _).
    intros j b Hi. apply in_app_or in Hi as [Hi|[Hi|[]]].
    + destruct (A j b Hi) as (u' & Hu & Hd). exists u'. split; [apply in_or_app; auto|exact Hd].
    + injection Hi as <- <-. exists u. split.
      * apply in_or_app. left. apply (proj1 (proj1 (filter_In _ (IEStart i u) tr) ltac:(unfold core in Hc; rewrite Hc; left; reflexivity))).
      * unfold returned in Hr. rewrite Hk in Hr. destruct pc; try discriminate. exists k, v'. split; [exact Hk|]. simpl. intros j Hj. rewrite Hj in Hr.
        destruct (nth_error (g_wk (gs s)) j) as [[[|o os] w]|]; try discriminate. eauto.
  - destruct (i_dead s i); [discriminate|]. destruct (_ || _); [|discriminate]. destruct (forallb _ _); [|discriminate]. injection Hs as <- <-. apply Hkeep; [auto|]. intros j b [Hi|[]]. discriminate.
Qed.
Theorem i_after ls s tr : run step (i_init n0) ls = Running s tr -> out_after s tr.
Proof.
  intros H. apply (run_inv step (fun s tr => IJ s tr /\ out_after s tr) (i_init n0)) with (3 := H).
  - split; [apply IJ_init|intros i b []].
  - intros s1 tr1 l s2 es [J A] Hs. split; [exact (IJ_step _ _ _ _ _ J Hs)|exact (after_step _ _ _ _ _ J A Hs)].
Qed.

(** *** The waits for the group *)
Definition comp_done (tr : list ievent) : Prop := forall i u n, In (IEStart i u) tr -> In (IEComp i n) tr -> In (GEDone u n) (gev (zev tr)).
Lemma in_core i e tr : In e (core i tr) <-> In e tr /\ match e with IEStart j _ | IEComp j _ | IEOut j _ => j =? i | _ => false end = true.
Proof. apply filter_In. Qed.
Lemma comp_step s tr l s' es : IJ s tr -> comp_done tr -> step s l = Next s' es -> comp_done (tr ++ es).
Proof.
  intros J A Hs.
  assert (Hmono : forall e, In e (gev (zev tr)) -> In e (gev (zev (tr ++ es)))) by (intros e He; rewrite zev_app, gev_app2; apply in_or_app; auto).
  assert (Hkeep : (forall i u, ~ In (IEStart i u) es) -> (forall i n, ~ In (IEComp i n) es) -> comp_done (tr ++ es)).
  { intros H1 H2 i u n Hi Hn. apply in_app_or in Hi as [Hi|Hi]; [|destruct (H1 _ _ Hi)]. apply in_app_or in Hn as [Hn|Hn]; [|destruct (H2 _ _ Hn)]. apply Hmono. eauto. }
  assert (Hmap : forall es' e, (forall z, e <> IE z) -> ~ In e (map IE es')) by (intros es' e He Hi; apply in_map_iff in Hi as (z & Hz & _); exact (He z (eq_sym Hz))).
  destruct l as [l|i v|i v|i|i kn]; cbn [i_step] in Hs.
  - destruct (is_own s l); [discriminate|]. destruct (z_step _ _ _ _ _ _) as [z' es'| |f es'] eqn:Hz; try discriminate. injection Hs as <- <-. apply Hkeep; intros; apply Hmap; discriminate.
  - destruct (i_op s i) eqn:Hop; try discriminate. destruct (z_step _ _ _ _ _ _) as [z' es'| |f es'] eqn:Hz; try discriminate. injection Hs as <- <-.
    pose proof (ij_op _ _ J i) as Hc. unfold op_ok in Hc. rewrite Hop in Hc. intros j u n Hj Hn.
    apply in_app_or in Hn as [Hn|[Hn|Hn]]; [|discriminate|exfalso; revert Hn; apply Hmap; discriminate].
    apply in_app_or in Hj as [Hj|[Hj|Hj]]; [apply Hmono; eauto| |exfalso; revert Hj; apply Hmap; discriminate].
    injection Hj as <- <-. exfalso. assert (Hf : In (IEComp i n) (core i tr)) by (apply in_core; split; [exact Hn|apply Nat.eqb_refl]). rewrite Hc in Hf. exact Hf.
  - destruct (i_op s i) as [|u|u k|] eqn:Hop; try discriminate. destruct (negb _); [discriminate|]. destruct (_ || _); [discriminate|].
    destruct (z_step true true a_acq a_rel (i_z s) (ZStep (GLDone u (vadd v (TObj (acc_in i 1)))))) as [z' es'| |f es'] eqn:Hz; try discriminate. injection Hs as <- <-.
    assert (He : es' = [ZE (GEDone u (g_acc (gs s)))]).
    { cbn [z_step g_step] in Hz. destruct (z_dead (i_z s)); [discriminate|]. destruct (nth_error (g_un (gs s)) u) as [[p [a|] f]|]; try discriminate.
      destruct ((p <=? _) && _); [|discriminate]. simpl in Hz. injection Hz as _ <-. reflexivity. }
    pose proof (ij_op _ _ J i) as Hc. unfold op_ok in Hc. rewrite Hop in Hc. intros j w n Hj Hn.
    apply in_app_or in Hj as [Hj|[Hj|Hj]]; [|discriminate|exfalso; revert Hj; apply Hmap; discriminate].
    apply in_app_or in Hn as [Hn|[Hn|Hn]]; [apply Hmono; eauto| |exfalso; revert Hn; apply Hmap; discriminate].
    injection Hn as <- <-. assert (Hf : In (IEStart i w) (core i tr)) by (apply in_core; split; [exact Hj|apply Nat.eqb_refl]). rewrite Hc in Hf. destruct Hf as [Hf|[]]. injection Hf as <-.
    rewrite zev_app, gev_app2. apply in_or_app. right. rewrite He. left. reflexivity.
  - destruct (i_op s i); try discriminate. destruct (returned s k); [|discriminate]. destruct (i_dead s i); [discriminate|]. injection Hs as <- <-. apply Hkeep; intros j x [Hi|[]]; discriminate.
  - destruct (i_dead s i); [discriminate|]. destruct (_ || _); [|discriminate]. destruct (forallb _ _); [|discriminate]. injection Hs as <- <-. apply Hkeep; intros j x [Hi|[]]; discriminate.
Qed.
Lemma igl_step s tr l s' es : IJ s tr -> GL n0 (gs s) (gev (zev tr)) -> step s l = Next s' es -> GL n0 (gs s') (gev (zev (tr ++ es))).
Proof.
  intros J L Hs. rewrite zev_app. pose proof (ij_z _ _ J) as Z. destruct l as [l|i v|i v|i|i kn]; cbn [i_step] in Hs.
  - destruct (is_own s l); [discriminate|]. destruct (z_step _ _ _ _ _ _) as [z' es'| |f es'] eqn:Hz; try discriminate. injection Hs as <- <-. rewrite zev_IE. exact (ZL_step n0 a_acq a_rel _ _ _ _ _ Z L Hz).
  - destruct (i_op s i); try discriminate. destruct (z_step _ _ _ _ _ _) as [z' es'| |f es'] eqn:Hz; try discriminate. injection Hs as <- <-. simpl. rewrite zev_IE. exact (ZL_step n0 a_acq a_rel _ _ _ _ _ Z L Hz).
  - destruct (i_op s i); try discriminate. destruct (negb _); [discriminate|]. destruct (_ || _); [discriminate|].
    destruct (z_step _ _ _ _ _ _) as [z' es'| |f es'] eqn:Hz; try discriminate. injection Hs as <- <-. simpl. rewrite zev_IE. exact (ZL_step n0 a_acq a_rel _ _ _ _ _ Z L Hz).
  - destruct (i_op s i); try discriminate. destruct (returned s k); [|discriminate]. destruct (i_dead s i); [discriminate|]. injection Hs as <- <-. simpl. rewrite app_nil_r. exact L.
  - destruct (i_dead s i); [discriminate|]. destruct (_ || _); [|discriminate]. destruct (forallb _ _); [|discriminate]. injection Hs as <- <-. simpl. rewrite app_nil_r. exact L.
Qed.
Theorem i_waits ls s tr : run step (i_init n0) ls = Running s tr ->
  (forall o, notified o (gev (zev tr)) <= 1) /\
  (g_quiet (gs s) -> all_ended n0 tr -> forall o known, In (IE (ZE (GEWait o known))) tr -> notified o (gev (zev tr)) = 1).
Proof.
  intros H. assert (K : IJ s tr /\ comp_done tr /\ GL n0 (gs s) (gev (zev tr))).
  { apply (run_inv step (fun s tr => IJ s tr /\ comp_done tr /\ GL n0 (gs s) (gev (zev tr))) (i_init n0)) with (3 := H).
    - split; [apply IJ_init|]. split; [intros i u n []|apply GL_init].
    - intros s1 tr1 l s2 es (J & A & L) Hs. split; [exact (IJ_step _ _ _ _ _ J Hs)|]. split; [exact (comp_step _ _ _ _ _ J A Hs)|exact (igl_step _ _ _ _ _ J L Hs)]. }
  destruct K as (J & A & L). split.
  - intros o. rewrite (gl_n _ _ _ L o). destruct (g_op (gs s) o); lia.
  - intros Q E o known Ho. apply (g_live_at n0 _ _ o known (zj_g _ _ (ij_z _ _ J)) L Q); [|apply in_gev, in_zev; exact Ho].
    intros u Hu. destruct (E u Hu) as [(i & n & H1 & H2)|(n & Hn)]; [exists n; exact (A i u n H1 H2)|exists n; apply in_gev, in_zev; exact Hn].
Qed.

Theorem i_inv ls s tr : run step (i_init n0) ls = Running s tr -> IJ s tr.
Proof. apply (run_inv step IJ (i_init n0) IJ_init). exact IJ_step. Qed.
End Run.

(** ** Operations that are destroyed when their receiver was notified *)
Section Late.
Variable n0 : nat.
Variables a_acq a_rel : bool.
Notation step := (i_step true true a_acq a_rel false).

Record IL (s : ist) (tr : list ievent) : Prop := ILnv {
  il_j : IJ s tr;
  il_dead : forall i, i_dead s i = true -> i_op s i = IDone;
  il_ev : forall i, in_events i tr = core i tr ++ if i_dead s i then [IEDel i] else [] }.

Lemma told_done s tr i kn : IJ s tr -> told_out s i kn = true -> i_op s i = IDone /\ forallb (fun m => memb m kn) (acc_of_op i IDone) = true.
Proof.
  intros J H. apply existsb_exists in H as ((j & c) & Hc & H). simpl in H. apply andb_true_iff in H as [Hj Hk]. apply Nat.eqb_eq in Hj. subst j.
  destruct (ij_not _ _ J i c Hc) as (H0 & H1 & H2 & H3). split; [exact H0|]. rewrite forallb_forall in *. intros m Hm. apply Hk. simpl in Hm. intuition congruence.
Qed.

Lemma core_ev i es : (forall j, ~ In (IEDel j) es) -> in_events i es = core i es.
Proof.
  intros H. unfold in_events, core. apply filter_ext_in. intros e He. destruct e; try reflexivity. destruct (H _ He).
Qed.

Lemma IL_step s tr l : IL s tr -> (forall s' es, step s l = Next s' es -> IL s' (tr ++ es)) /\ forall f es, step s l <> Fail f es.
Proof.
  intros [J D V]. split.
  - intros s' es Hs. pose proof (IJ_step a_acq a_rel false s tr l s' es J Hs) as J'.
    assert (Hmap : forall (x : ievent) es' j, (forall j, x <> IEDel j) -> ~ In (IEDel j) (x :: map IE es')).
    { intros x es' j Hx [Hi|Hi]; [exact (Hx j Hi)|]. apply in_map_iff in Hi as (z & Hz & _). discriminate. }
    destruct l as [l|i v|i v|i|i kn]; cbn [i_step] in Hs.
    + destruct (is_own s l); [discriminate|]. destruct (z_step _ _ _ _ _ _) as [z' es'| |f es']; try discriminate. injection Hs as <- <-. split; [exact J'|exact D|].
      intros i. simpl. rewrite ev_app, ev_IE, core_app, core_IE, !app_nil_r. exact (V i).
    + destruct (i_op s i) eqn:Hop; try discriminate. destruct (z_step _ _ _ _ _ _) as [z' es'| |f es']; try discriminate. injection Hs as <- <-. split; [exact J'| |]; simpl.
      * intros j Hj. specialize (D j Hj). rewrite upd_other by congruence. exact D.
      * intros j. rewrite ev_app, core_app, (V j), (core_ev j _ (fun m => Hmap (IEStart i _) es' m ltac:(discriminate))). destruct (i_dead s j) eqn:Ej; [|rewrite !app_nil_r; reflexivity].
        assert (j <> i) by (intros ->; specialize (D i Ej); congruence). simpl. rewrite (proj2 (Nat.eqb_neq i j)) by auto. rewrite core_IE, !app_nil_r. reflexivity.
    + destruct (i_op s i) eqn:Hop; try discriminate. destruct (negb _); [discriminate|]. destruct (i_dead s i || _) eqn:Ed; [discriminate|]. apply orb_false_iff in Ed as [Ed _].
      destruct (z_step _ _ _ _ _ _) as [z' es'| |f es']; try discriminate. injection Hs as <- <-. split; [exact J'| |]; simpl.
      * intros j Hj. specialize (D j Hj). rewrite upd_other by congruence. exact D.
      * intros j. rewrite ev_app, core_app, (V j), (core_ev j _ (fun m => Hmap (IEComp i _) es' m ltac:(discriminate))). destruct (i_dead s j) eqn:Ej; [|rewrite !app_nil_r; reflexivity].
        assert (j <> i) by (intros ->; congruence). simpl. rewrite (proj2 (Nat.eqb_neq i j)) by auto. rewrite core_IE, !app_nil_r. reflexivity.
    + destruct (i_op s i) eqn:Hop; try discriminate. destruct (returned s k); [|discriminate]. destruct (i_dead s i) eqn:Ed; [discriminate|]. injection Hs as <- <-. split; [exact J'| |]; simpl.
      * intros j Hj. specialize (D j Hj). rewrite upd_other by congruence. exact D.
      * intros j. rewrite ev_app, core_app, (V j), (core_ev j _ (fun m => Hmap (IEOut i _) [] m ltac:(discriminate))). destruct (i_dead s j) eqn:Ej; [|rewrite !app_nil_r; reflexivity].
        assert (j <> i) by (intros ->; congruence). simpl. rewrite (proj2 (Nat.eqb_neq i j)) by auto. rewrite !app_nil_r. reflexivity.
    + destruct (i_dead s i) eqn:Ed; [discriminate|]. destruct (told_out s i kn) eqn:Et; [|discriminate]. cbn [orb] in Hs. destruct (forallb _ _); [|discriminate]. injection Hs as <- <-.
      destruct (told_done _ _ _ _ J Et) as [Hop _]. split; [exact J'| |]; simpl.
      * intros j Hj. destruct (Nat.eq_dec j i) as [->|Hn]; [exact Hop|]. rewrite upd_other in Hj by auto. exact (D j Hj).
      * intros j. rewrite ev_app, core_app, (V j). simpl. destruct (Nat.eq_dec j i) as [->|Hn].
        -- rewrite upd_same, Ed, Nat.eqb_refl, !app_nil_r. reflexivity.
        -- rewrite upd_other by auto. rewrite (proj2 (Nat.eqb_neq i j)) by auto. rewrite !app_nil_r. reflexivity.
  - intros f es Hs. destruct l as [l|i v|i v|i|i kn]; cbn [i_step] in Hs.
    + destruct (is_own s l); [discriminate|]. destruct (z_step _ _ _ _ _ _) as [z' es'| |f' es'] eqn:Hz; try discriminate. exact (proj2 (ZJ_step a_acq a_rel _ _ l (ij_z _ _ J)) _ _ Hz).
    + destruct (i_op s i) eqn:Hop; try discriminate. destruct (z_step _ _ _ _ _ _) as [z' es'| |f' es'] eqn:Hz; try discriminate. exact (proj2 (ZJ_step a_acq a_rel _ _ _ (ij_z _ _ J)) _ _ Hz).
    + destruct (i_op s i) as [|u|u k|] eqn:Hop; try discriminate. destruct (negb _); [discriminate|]. destruct (i_dead s i || z_dead (i_z s)) eqn:Ed.
      * apply orb_true_iff in Ed as [Ed|Ed]; [specialize (D i Ed); congruence|]. destruct (ij_run _ _ J i u Hop) as [_ Ha].
        destruct (zj_d _ _ (ij_z _ _ J) Ed u (acc_lt _ _ _ Ha)) as (w & fi & Hw & Hf). pose proof (zj_g _ _ (ij_z _ _ J)) as G.
        destruct (hi_top _ _ (gi_hi _ _ G)) as (_ & Hsee & _). pose proof (proj2 (hi_un _ _ (gi_hi _ _ G) _ _ Hw) fi Hf) as Hfl.
        destruct (Hsee u w fi Hw Hf ltac:(lia)) as (m & Hm & _). unfold acc_at in Ha. rewrite Hw in Ha. simpl in Ha. congruence.
      * destruct (z_step _ _ _ _ _ _) as [z' es'| |f' es'] eqn:Hz; try discriminate. exact (proj2 (ZJ_step a_acq a_rel _ _ _ (ij_z _ _ J)) _ _ Hz).
    + destruct (i_op s i) eqn:Hop; try discriminate. destruct (returned s k); [|discriminate]. destruct (i_dead s i) eqn:Ed; [|discriminate]. specialize (D i Ed). congruence.
    + destruct (i_dead s i) eqn:Ed; [discriminate|]. destruct (told_out s i kn) eqn:Et; [|discriminate]. cbn [orb] in Hs. destruct (told_done _ _ _ _ J Et) as [Hop Hf].
      rewrite Hop, Hf in Hs. discriminate.
Qed.

Lemma IL_init : IL (i_init n0) [].
Proof. split; [apply IJ_init|discriminate|reflexivity]. Qed.
Theorem i_late ls s tr : run step (i_init n0) ls = Running s tr -> IL s tr.
Proof. apply (run_inv step IL (i_init n0) IL_init). intros s1 tr1 l s2 es J Hs. exact (proj1 (IL_step s1 tr1 l J) s2 es Hs). Qed.
Theorem i_safe ls f tr : run step (i_init n0) ls <> Failed f tr.
Proof. revert ls f tr. apply (run_safe step IL (i_init n0) IL_init); intros s1 tr1 l; [intros s2 es J Hs; exact (proj1 (IL_step s1 tr1 l J) s2 es Hs)|intros f es J; exact (proj2 (IL_step s1 tr1 l J) f es)]. Qed.
Theorem i_life ls s tr i : run step (i_init n0) ls = Running s tr -> life_of i tr.
Proof.
  intros H. destruct (i_late _ _ _ H) as [J D V]. specialize (V i). pose proof (ij_op _ _ J i) as Hop. unfold op_ok in Hop. unfold life_of. rewrite V.
  destruct (i_dead s i) eqn:Ed; [specialize (D i Ed); rewrite D in Hop|rewrite app_nil_r; destruct (i_op s i)].
  - destruct Hop as (u & n & b & -> & Hb). right. exists u. right. exists n. right. exists b. split; [exact Hb|right; reflexivity].
  - auto.
  - eauto.
  - destruct Hop as (n & pc & v & -> & _). right. exists u. right. exists n. left. reflexivity.
  - destruct Hop as (u' & n & b & -> & Hb). right. exists u'. right. exists n. right. exists b. split; [exact Hb|left; reflexivity].
Qed.

(** the loops that calls of done() wait for *)
Definition lp_ok (s : ist) : Prop := forall k j, i_lp s k = Some j -> j < length (g_wk (z_g (i_z s))).
Lemma g_wk_len d_acq d_rel s l s' es : g_step d_acq d_rel a_acq a_rel s l = Next s' es -> length (g_wk s) <= length (g_wk s').
Proof.
  destruct l as [n v|u v|k i|o v i|k]; cbn [g_step].
  - destruct (v_ts v <? length (g_h s)); [|discriminate]. intros E. injection E as <- <-. simpl. lia.
  - destruct (nth_error (g_un s) u) as [[p [a|] f]|]; try discriminate. destruct (_ && _); [|discriminate]. intros E. injection E as <- <-. simpl. lia.
  - destruct (nth_error (g_dn s) k) as [[[u pc] v]|]; [|discriminate]. unfold g_done_step. destruct pc as [|[|[|x]]|]; try discriminate.
    + destruct (rd (g_h s) v i) as [[x w]|]; [|discriminate]. intros E. injection E as <- <-. simpl. lia.
    + destruct (g_newest s) as [|c]; [discriminate|]. intros E. injection E as <- <-. simpl. destruct (c =? 0); [rewrite app_length|]; lia.
    + destruct (rd (g_h s) v i) as [[y w]|]; [|discriminate]. destruct (y =? S (S x)); [destruct (i =? newest (g_h s)); [|discriminate]|]; intros E; injection E as <- <-; simpl; lia.
  - destruct (g_op s o); try discriminate. destruct (rd (g_h s) (vjoin v (g_lv s)) i) as [[[|x] w]|]; [| |discriminate]; (destruct (v_ts v <? length (g_h s)); [|discriminate]);
      intros E; injection E as <- <-; simpl; lia.
  - destruct (nth_error (g_wk s) k) as [[[|o os] v]|]; try discriminate. destruct (g_op s o); try discriminate. intros E. injection E as <- <-. simpl. rewrite set_nth_length. lia.
Qed.
Lemma z_wk_len d_acq d_rel z l z' es : z_step d_acq d_rel a_acq a_rel z l = Next z' es -> length (g_wk (z_g z)) <= length (g_wk (z_g z')).
Proof.
  destruct l as [[n v|u v|k i|o v i|k]|kn]; cbn [z_step].
  3: { destruct (nth_error (g_dn (z_g z)) k) as [[[u pc] v]|]; [|discriminate]. destruct (g_step _ _ _ _ _ _) as [s' es'| |f es'] eqn:Hs; try discriminate; (destruct (z_dead z); [discriminate|]); simpl; [|discriminate].
       intros E. injection E as <- <-. pose proof (g_wk_len _ _ _ _ _ _ Hs) as H. unfold g_mark in H. destruct (nth_error (g_dn (z_g z)) k) as [[[? ?] ?]|]; exact H. }
  5: { destruct (z_dead z); [discriminate|]. destruct (may_del z kn); [|discriminate]. destruct (forallb _ _); [|discriminate]. intros E. injection E as <- <-. simpl. lia. }
  all: try (destruct (z_dead z); [discriminate|]); destruct (g_step _ _ _ _ _ _) as [s' es'| |f es'] eqn:Hs; try discriminate; simpl; intros E; injection E as <- <-; exact (g_wk_len _ _ _ _ _ _ Hs).
Qed.
Lemma lp_step early s l s' es : i_step true true a_acq a_rel early s l = Next s' es -> lp_ok s -> lp_ok s'.
Proof.
  intros Hs L. destruct l as [l|i v|i v|i|i kn]; cbn [i_step] in Hs.
  - destruct (is_own s l); [discriminate|]. destruct (z_step _ _ _ _ _ _) as [z' es'| |f es'] eqn:Hz; try discriminate. injection Hs as <- <-. pose proof (z_wk_len _ _ _ _ _ _ Hz) as Hl.
    assert (H0 : forall k j, i_lp s k = Some j -> j < length (g_wk (z_g z'))) by (intros k j H; specialize (L k j H); lia).
    intros k j. simpl. unfold note_loop. destruct l as [[| |k' i'| |]|]; try apply H0. destruct (_ <? _) eqn:E; [|apply H0]. apply Nat.ltb_lt in E.
    destruct (Nat.eq_dec k k') as [->|Hn]; [rewrite upd_same; intros H; injection H as <-; exact E|rewrite upd_other by auto; apply H0].
  - destruct (i_op s i); try discriminate. destruct (z_step _ _ _ _ _ _) as [z' es'| |f es'] eqn:Hz; try discriminate. injection Hs as <- <-. pose proof (z_wk_len _ _ _ _ _ _ Hz) as Hl.
    intros k j H. simpl in *. specialize (L k j H). lia.
  - destruct (i_op s i); try discriminate. destruct (negb _); [discriminate|]. destruct (_ || _); [discriminate|].
    destruct (z_step _ _ _ _ _ _) as [z' es'| |f es'] eqn:Hz; try discriminate. injection Hs as <- <-. pose proof (z_wk_len _ _ _ _ _ _ Hz) as Hl.
    intros k j H. simpl in *. specialize (L k j H). lia.
  - destruct (i_op s i); try discriminate. destruct (returned s k); [|discriminate]. destruct (i_dead s i); [discriminate|]. injection Hs as <- <-. exact L.
  - destruct (i_dead s i); [discriminate|]. destruct (_ || _); [|discriminate]. destruct (forallb _ _); [|discriminate]. injection Hs as <- <-. exact L.
Qed.

Theorem i_live ls s tr i n : run step (i_init n0) ls = Running s tr -> i_quiet true true a_acq a_rel false s -> In (IEComp i n) tr -> exists b, In (IEOut i b) tr.
Proof.
  intros H [[Qd Qw] Q] Hi. assert (Lp : lp_ok s).
  { apply (run_inv step (fun s _ => lp_ok s) (i_init n0)) with (3 := H); [discriminate|]. intros s1 tr1 l s2 es L Hs. exact (lp_step false _ _ _ _ Hs L). }
  destruct (i_late _ _ _ H) as [J D _]. pose proof (ij_op _ _ J i) as Hop. unfold op_ok in Hop.
  assert (Hc : In (IEComp i n) (core i tr)) by (apply filter_In; split; [exact Hi|apply Nat.eqb_refl]).
  destruct (i_op s i) as [|u|u k|] eqn:Ho.
  - rewrite Hop in Hc. destruct Hc.
  - rewrite Hop in Hc. destruct Hc as [Hc|[]]. discriminate.
  - exfalso. destruct Hop as (m & pc & v & _ & Hk & _). pose proof (Qd _ _ _ (nth_error_In _ _ Hk)) as ->.
    assert (Hr : returned s k = Some v).
    { unfold returned. rewrite Hk. destruct (i_lp s k) as [j|] eqn:Ej; [|reflexivity]. specialize (Lp k j Ej). destruct (nth_error (g_wk (z_g (i_z s))) j) as [[os w]|] eqn:Ew; [|apply nth_error_None in Ew; lia].
      rewrite (Qw os w (nth_error_In _ _ Ew)). reflexivity. }
    destruct (i_dead s i) eqn:Ed; [specialize (D i Ed); congruence|].
    eapply (Q i). cbn [i_step]. rewrite Ho, Hr, Ed. reflexivity.
  - destruct Hop as (u & m & b & Hc' & _). exists b. assert (Hb : In (IEOut i b) (core i tr)) by (rewrite Hc'; simpl; auto). exact (proj1 (proj1 (filter_In _ _ _) Hb)).
Qed.
End Late.

