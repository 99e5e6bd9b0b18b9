(** generator<T> objects: proofs. *)
From Coq Require Import List Arith Bool Lia.
From Verif Require Import Lts ListFacts M_Generator S_Generator P_Generator M_GeneratorMove S_GeneratorMove.
Import ListNotations.

Lemma frame_app f a b : frame f (a ++ b) = frame f a ++ frame f b. Proof. apply flat_map_app. Qed.
Lemma frame_same f es : frame f (map (WB f) es) = es.
Proof. induction es as [|e es IH]; simpl; [reflexivity|]. now rewrite Nat.eqb_refl, IH. Qed.
Lemma frame_other f f' es : f' <> f -> frame f' (map (WB f) es) = [].
Proof. intros H. induction es as [|e es IH]; simpl; [reflexivity|]. destruct (Nat.eqb_spec f f'); [congruence|exact IH]. Qed.
Lemma gvars_snoc tr e : gvars_of (tr ++ [e]) = gvars_step (gvars_of tr) e. Proof. unfold gvars_of. now rewrite fold_left_app. Qed.
Lemma gvars_WB tr f es : gvars_of (tr ++ map (WB f) es) = gvars_of tr.
Proof. unfold gvars_of. rewrite fold_left_app. generalize (fold_left gvars_step tr (fun _ => None)). induction es as [|e es IH]; intros m; simpl; auto. Qed.
Lemma in_WB f es e : (forall f e', e <> WB f e') -> ~ In e (map (WB f) es).
Proof. intros H Hin. apply in_map_iff in Hin. destruct Hin as (e' & <- & _). exact (H f e' eq_refl). Qed.

(** ** One frame *)
Definition ndes (tr : list gevent) : nat := length (filter (fun e => match e with GEDestroy => true | _ => false end) tr).
Lemma ndes_app a b : ndes (a ++ b) = ndes a + ndes b. Proof. unfold ndes. now rewrite filter_app, app_length. Qed.
Lemma g_alive_step g l g' es : g_step g l = Next g' es ->
  match l with GLDestroy => g_alive g = true /\ g_alive g' = false /\ es = [GEDestroy] | _ => g_alive g' = g_alive g /\ ndes es = 0 end.
Proof.
  destruct g as [c p ct cu ops al]. unfold g_step, g_use. simpl. destruct l as [n|v| | | | | |n|].
  - destruct (memb n ops); [discriminate|]. destruct al; [|discriminate]. destruct c; try discriminate. intros [= <- <-]. auto.
  - destruct c; try discriminate. destruct p; try discriminate. destruct al; [|discriminate]. intros [= <- <-]. auto.
  - destruct c; try discriminate. destruct p; try discriminate. destruct al; [|discriminate]. intros [= <- <-]. auto.
  - destruct c; try discriminate. destruct al; [|discriminate]. intros [= <- <-]. auto.
  - destruct c; try discriminate. destruct al; [|discriminate]. intros [= <- <-]. auto.
  - destruct p; try discriminate. destruct al; [|discriminate]. destruct ct; [|discriminate]. intros [= <- <-]. auto.
  - destruct p; try discriminate. destruct al; [|discriminate]. destruct (memb n ops); [|discriminate]. intros [= <- <-]. auto.
  - destruct (memb n ops); [|discriminate]. intros [= <- <-]. auto.
  - destruct al; [|discriminate]. intros [= <- <-]. auto.
Qed.
Definition reach (g : gst) (tr : list gevent) : Prop := exists ls, run g_step g_init ls = Running g tr.
Lemma reach_step g tr l g' es : reach g tr -> g_step g l = Next g' es -> reach g' (tr ++ es).
Proof. intros (ls & H) Hs. exists (ls ++ [l]). unfold run in *. rewrite run_from_app, H. cbn [run_from]. now rewrite Hs. Qed.
Lemma reach_fail g tr l f es : reach g tr -> g_step g l = Fail f es -> exists ls, run g_step g_init ls = Failed f (tr ++ es).
Proof. intros (ls & H) Hs. exists (ls ++ [l]). unfold run in *. rewrite run_from_app, H. cbn [run_from]. now rewrite Hs. Qed.
Lemma reach_ndes g tr : reach g tr -> ndes tr = if g_alive g then 0 else 1.
Proof.
  intros (ls & H). revert H. apply (run_inv g_step (fun g tr => ndes tr = if g_alive g then 0 else 1) g_init); [reflexivity|].
  intros s tr0 l s' es HJ Hs. pose proof (g_alive_step _ _ _ _ Hs) as Ha. rewrite ndes_app, HJ. destruct l; try (destruct Ha as [-> ->]; lia).
  destruct Ha as (-> & -> & ->). reflexivity.
Qed.

(** ** The invariant *)
Record W (s : wst) (tr : list wevent) : Prop := MkW {
  w_rep : forall x, w_var s x = gvars_of tr x;
  w_none : forall f, w_fr s f = None -> frame f tr = [] /\ ~ created f tr;
  w_some : forall f g, w_fr s f = Some g -> reach g (frame f tr) /\ created f tr;
  w_live : forall x f, w_var s x = Some (Some f) -> exists g, w_fr s f = Some g /\ g_alive g = true;
  w_uni : forall x y f, w_var s x = Some (Some f) -> w_var s y = Some (Some f) -> x = y;
  w_held : forall f g, w_fr s f = Some g -> g_alive g = true -> exists x, w_var s x = Some (Some f);
  w_sf : forall q f, w_snd s q = Some (Some f) <-> sender_of tr q f;
  w_sn : forall q, w_snd s q = Some None -> sender_null tr q;
  w_made : forall q f, w_snd s q = Some (Some f) -> exists g, w_fr s f = Some g;
  w_snd_new : forall q x, In (WSender q x) tr -> w_snd s q <> None }.

Lemma W_init : W w_init [].
Proof.
  split; simpl; try discriminate; try reflexivity; try tauto.
  - intros f _. split; [reflexivity|]. intros (x & []).
  - intros q f. split; [discriminate|]. intros ([|] & x & t2 & [=] & _).
Qed.

Lemma sender_of_app tr es q f : sender_of tr q f -> sender_of (tr ++ es) q f.
Proof. intros (t1 & x & t2 & -> & H). exists t1, x, (t2 ++ es). split; [now rewrite <- app_assoc|exact H]. Qed.
Lemma sender_null_app tr es q : sender_null tr q -> sender_null (tr ++ es) q.
Proof. intros (t1 & x & t2 & -> & H). exists t1, x, (t2 ++ es). split; [now rewrite <- app_assoc|exact H]. Qed.
Lemma sender_of_inv tr es q f : (forall x, ~ In (WSender q x) es) -> sender_of (tr ++ es) q f -> sender_of tr q f.
Proof.
  intros Hn (t1 & x & t2 & E & H). apply app_eq_app in E. destruct E as (m & [(-> & E)|(-> & E)]).
  - destruct m as [|e m]; simpl in E; [exfalso; apply (Hn x); rewrite <- E; now left|]. injection E as <- _. exists t1, x, m. auto.
  - exfalso. apply (Hn x). rewrite E. apply in_elt.
Qed.
Lemma created_app tr es f : created f tr -> created f (tr ++ es).
Proof. intros (x & H). exists x. apply in_app_iff. now left. Qed.

(** a step of one frame, after an event [pre] that changes no variable *)
Lemma W_frame fr var snd tr f g l g' es pre : W (WS fr var snd) tr -> fr f = Some g -> g_step g l = Next g' es -> l <> GLDestroy ->
  (pre = [] \/ exists q n, pre = [WNext q n]) -> W (WS (upd fr f (Some g')) var snd) (tr ++ pre ++ map (WB f) es).
Proof.
  intros [A1 A2 A3 A4 A5 A6 A7 A8 A9 A10] Hf Hs Hl Hp. simpl in *.
  assert (Ha : g_alive g' = g_alive g). { pose proof (g_alive_step _ _ _ _ Hs) as H. destruct l; try (apply H). congruence. }
  assert (Ev : gvars_of (tr ++ pre ++ map (WB f) es) = gvars_of tr). { rewrite app_assoc, gvars_WB. destruct Hp as [->|(q & n & ->)]; [now rewrite app_nil_r|now rewrite gvars_snoc]. }
  assert (Ep : forall f', frame f' pre = []) by (intros f'; destruct Hp as [->|(q & n & ->)]; reflexivity).
  assert (Hc : forall f', created f' (tr ++ pre ++ map (WB f) es) -> created f' tr).
  { intros f' (x & Hin). exists x. rewrite !in_app_iff in Hin. destruct Hin as [H|[H|H]]; [exact H| |].
    - exfalso. destruct Hp as [->|(q & n & ->)]; [destruct H|destruct H as [[=]|[]]].
    - exfalso. revert H. apply in_WB. discriminate. }
  split; simpl; rewrite ?Ev.
  - exact A1.
  - intros f' H. destruct (Nat.eq_dec f' f) as [->|Hne]; [rewrite upd_same in H; discriminate|]. rewrite upd_other in H by congruence. destruct (A2 _ H) as [B1 B2].
    rewrite !frame_app, Ep, B1, frame_other by congruence. split; [reflexivity|]. intros HC. exact (B2 (Hc _ HC)).
  - intros f' g1 H. destruct (Nat.eq_dec f' f) as [->|Hne].
    + rewrite upd_same in H. injection H as <-. rewrite !frame_app, Ep, frame_same. simpl. destruct (A3 _ _ Hf) as [B1 B2]. split; [exact (reach_step _ _ _ _ _ B1 Hs)|now apply created_app].
    + rewrite upd_other in H by congruence. destruct (A3 _ _ H) as [B1 B2]. rewrite !frame_app, Ep, frame_other, !app_nil_r by congruence. split; [exact B1|now apply created_app].
  - intros x f' H. destruct (A4 _ _ H) as (g1 & H1 & H2). destruct (Nat.eq_dec f' f) as [->|Hne]; [rewrite upd_same|rewrite upd_other by congruence]; [|eauto]. exists g'. split; congruence.
  - exact A5.
  - intros f' g1 H H1. destruct (Nat.eq_dec f' f) as [->|Hne]; [rewrite upd_same in H; injection H as <-|rewrite upd_other in H by congruence]; [|eauto]. apply (A6 f g Hf). congruence.
  - intros q f'. rewrite A7. split; [apply sender_of_app|]. apply sender_of_inv. intros x Hin. apply in_app_iff in Hin. destruct Hin as [H|H].
    + destruct Hp as [->|(q' & n & ->)]; [destruct H|destruct H as [[=]|[]]].
    + revert H. apply in_WB. discriminate.
  - intros q H. apply sender_null_app. auto.
  - intros q f' H. destruct (Nat.eq_dec f' f) as [->|Hne]; [rewrite upd_same|rewrite upd_other by congruence]; eauto.
  - intros q x Hin. apply (A10 q x). rewrite !in_app_iff in Hin. destruct Hin as [H|[H|H]]; [exact H| |].
    + exfalso. destruct Hp as [->|(q' & n & ->)]; [destruct H|destruct H as [[=]|[]]].
    + exfalso. revert H. apply in_WB. discriminate.
Qed.

(** a change of the variables, of which [old] stops to be held *)
Lemma W_vars fr var snd tr e old fr' es var' : W (WS fr var snd) tr -> (forall x f, e <> WCall x f) -> (forall q x, e <> WSender q x) -> (forall f g, e <> WB f g) ->
  w_drop fr old = Next fr' es -> (forall x, var' x = gvars_of (tr ++ [e]) x) ->
  (forall x f, var' x = Some (Some f) -> old <> Some f /\ exists x0, var x0 = Some (Some f)) ->
  (forall x y f, var' x = Some (Some f) -> var' y = Some (Some f) -> x = y) ->
  (forall x f, var x = Some (Some f) -> old = Some f \/ exists y, var' y = Some (Some f)) ->
  W (WS fr' var' snd) (tr ++ e :: es).
Proof.
  intros [A1 A2 A3 A4 A5 A6 A7 A8 A9 A10] He1 He2 He3 Hd H1 H2 H3 H4. simpl in *.
  assert (Hcase : (old = None /\ fr' = fr /\ es = []) \/ exists f g g', old = Some f /\ fr f = Some g /\ g_step g GLDestroy = Next g' [GEDestroy] /\ g_alive g' = false /\ fr' = upd fr f (Some g') /\ es = [WB f GEDestroy]).
  { unfold w_drop in Hd. destruct old as [f|]; [|injection Hd as <- <-; auto]. destruct (fr f) as [g|] eqn:Ef; [|discriminate].
    destruct (g_step g GLDestroy) as [g' es0| |] eqn:Hg; try discriminate. injection Hd as <- <-. right. pose proof (g_alive_step _ _ _ _ Hg) as (B1 & B2 & ->). exists f, g, g'. auto 10. }
  change (e :: es) with ([e] ++ es). rewrite app_assoc.
  assert (Ev : gvars_of ((tr ++ [e]) ++ es) = gvars_of (tr ++ [e])). { destruct Hcase as [(_ & _ & ->)|(f & g & g' & _ & _ & _ & _ & _ & ->)]; [now rewrite app_nil_r|]. now rewrite gvars_snoc. }
  assert (Ee : forall f, frame f [e] = []) by (intros f; destruct e; try reflexivity; destruct (He3 f0 e eq_refl)).
  assert (Hes : forall e', In e' es -> exists f, e' = WB f GEDestroy) by (intros e' Hin; destruct Hcase as [(_ & _ & ->)|(f & g & g' & _ & _ & _ & _ & _ & ->)]; [destruct Hin|destruct Hin as [<-|[]]; eauto]).
  assert (Hc : forall f, created f ((tr ++ [e]) ++ es) -> created f tr).
  { intros f (x & Hin). exists x. rewrite !in_app_iff in Hin. destruct Hin as [[H|[E|[]]]|H]; [exact H|destruct (He1 _ _ E)|destruct (Hes _ H) as (? & [=])]. }
  split; simpl; rewrite ?Ev.
  - exact H1.
  - intros f H. assert (Hf : fr f = None /\ frame f es = []).
    { destruct Hcase as [(_ & -> & ->)|(f0 & g & g' & _ & Ef & _ & _ & -> & ->)]; [auto|]. destruct (Nat.eq_dec f f0) as [->|Hne]; [rewrite upd_same in H; discriminate|]. rewrite upd_other in H by congruence.
      split; [exact H|]. simpl. destruct (Nat.eqb_spec f0 f); [congruence|reflexivity]. }
    destruct Hf as [Hf Hf']. destruct (A2 _ Hf) as [B1 B2]. rewrite !frame_app, Ee, Hf', B1. split; [reflexivity|]. intros HC. exact (B2 (Hc _ HC)).
  - intros f g H. destruct Hcase as [(_ & -> & ->)|(f0 & g0 & g' & _ & Ef & Hg & Hal & -> & ->)].
    + rewrite !frame_app, Ee, !app_nil_r. destruct (A3 _ _ H) as [B1 B2]. split; [exact B1|]. now apply created_app.
    + rewrite !frame_app, Ee, app_nil_r. destruct (Nat.eq_dec f f0) as [->|Hne].
      * rewrite upd_same in H. injection H as <-. simpl. rewrite Nat.eqb_refl. destruct (A3 _ _ Ef) as [B1 B2]. split; [exact (reach_step _ _ _ _ _ B1 Hg)|now do 2 apply created_app].
      * rewrite upd_other in H by congruence. simpl. destruct (Nat.eqb_spec f0 f); [congruence|]. simpl. rewrite app_nil_r. destruct (A3 _ _ H) as [B1 B2]. split; [exact B1|now do 2 apply created_app].
  - intros x f H. destruct (H2 _ _ H) as (B1 & x0 & B2). destruct (A4 _ _ B2) as (g & B3 & B4). exists g. split; [|exact B4].
    destruct Hcase as [(_ & -> & ->)|(f0 & g0 & g' & -> & Ef & Hg & Hal & -> & ->)]; [exact B3|]. rewrite upd_other by congruence. exact B3.
  - exact H3.
  - intros f g H Hal. assert (Hf : fr f = Some g /\ old <> Some f).
    { destruct Hcase as [(-> & -> & ->)|(f0 & g0 & g' & -> & Ef & Hg & Hal' & -> & ->)]; [split; [exact H|discriminate]|]. destruct (Nat.eq_dec f f0) as [->|Hne]; [rewrite upd_same in H; congruence|].
      rewrite upd_other in H by congruence. split; [exact H|congruence]. }
    destruct Hf as [Hf Hf']. destruct (A6 _ _ Hf Hal) as (x & Hx). destruct (H4 _ _ Hx) as [B|B]; [congruence|exact B].
  - intros q f. rewrite A7. split; [intros H; do 2 apply sender_of_app; exact H|]. intros H. apply sender_of_inv in H; [|intros x Hin; destruct (Hes _ Hin) as (? & [=])].
    apply sender_of_inv in H; [exact H|]. intros x [E|[]]. exact (He2 _ _ E).
  - intros q H. do 2 apply sender_null_app. auto.
  - intros q f H. destruct (A9 _ _ H) as (g & Hg). destruct Hcase as [(-> & -> & ->)|(f0 & g0 & g' & -> & Ef & _ & _ & -> & ->)]; [eauto|]. destruct (Nat.eq_dec f f0) as [->|Hne]; [rewrite upd_same|rewrite upd_other by congruence]; eauto.
  - intros q x Hin. apply (A10 q x). rewrite !in_app_iff in Hin. destruct Hin as [[H|[E|[]]]|H]; [exact H|destruct (He2 _ _ E)|destruct (Hes _ H) as (? & [=])].
Qed.

Lemma upd_eq {A} (m : nat -> A) k v x : upd m k v x = if x =? k then v else m x. Proof. reflexivity. Qed.

Lemma W_step s tr l s' es : W s tr -> w_step s l = Next s' es -> W s' (tr ++ es).
Proof.
  intros HW Hs. pose proof HW as [A1 A2 A3 A4 A5 A6 A7 A8 A9 A10]. destruct s as [fr var snd]. destruct l as [x f|y x|y x|x|q x|q n|f l]; cbn [w_step] in Hs; cbn [w_fr w_var w_snd] in *.
  - destruct (var x) eqn:Ex; [discriminate|]. destruct (fr f) eqn:Ef; [discriminate|]. injection Hs as <- <-. destruct (A2 _ Ef) as [B1 B2].
    assert (Hnv : forall z, var z <> Some (Some f)) by (intros z Hz; destruct (A4 _ _ Hz) as (g & Hg & _); congruence).
    split; cbn [w_fr w_var w_snd].
    + intros z. rewrite gvars_snoc. simpl. rewrite !upd_eq. now rewrite A1.
    + intros f' H. destruct (Nat.eq_dec f' f) as [->|Hne]; [rewrite upd_same in H; discriminate|]. rewrite upd_other in H by congruence. destruct (A2 _ H) as [C1 C2].
      rewrite frame_app, C1. split; [reflexivity|]. intros (z & Hin). apply in_app_iff in Hin. destruct Hin as [Hin|[E|[]]]; [apply C2; exists z; exact Hin|congruence].
    + intros f' g H. rewrite frame_app. simpl. rewrite app_nil_r. destruct (Nat.eq_dec f' f) as [->|Hne].
      * rewrite upd_same in H. injection H as <-. rewrite B1. split; [exists []; reflexivity|]. exists x. apply in_app_iff. right. now left.
      * rewrite upd_other in H by congruence. destruct (A3 _ _ H) as [C1 C2]. split; [exact C1|now apply created_app].
    + intros z f' H. rewrite upd_eq in H. destruct (Nat.eqb_spec z x) as [->|Hz].
      * injection H as <-. rewrite upd_same. exists g_init. auto.
      * destruct (A4 _ _ H) as (g & C1 & C2). exists g. rewrite upd_other; [auto|congruence].
    + intros z w f' Hz Hw. rewrite upd_eq in Hz, Hw. destruct (Nat.eqb_spec z x) as [->|Hzx], (Nat.eqb_spec w x) as [->|Hwx]; auto.
      * exfalso. injection Hz as <-. exact (Hnv _ Hw).
      * exfalso. injection Hw as <-. exact (Hnv _ Hz).
      * exact (A5 _ _ _ Hz Hw).
    + intros f' g H Hal. destruct (Nat.eq_dec f' f) as [->|Hne]; [exists x; apply upd_same|]. rewrite upd_other in H by congruence. destruct (A6 _ _ H Hal) as (z & Hz). exists z. rewrite upd_other; [exact Hz|congruence].
    + intros q f'. rewrite A7. split; [apply sender_of_app|]. apply sender_of_inv. intros z [[=]|[]].
    + intros q H. apply sender_null_app. auto.
    + intros q f' H. destruct (Nat.eq_dec f' f) as [->|Hne]; [rewrite upd_same|rewrite upd_other by congruence]; eauto.
    + intros q z Hin. apply (A10 q z). apply in_app_iff in Hin. destruct Hin as [H|[[=]|[]]]. exact H.
  - destruct (var y) eqn:Ey; [discriminate|]. destruct (var x) as [h|] eqn:Ex; [|discriminate]. injection Hs as <- <-. assert (Hne : x <> y) by congruence.
    apply (W_vars fr var snd tr (WCtor y x) None fr []); try discriminate; try reflexivity; try exact HW.
    + intros z. rewrite gvars_snoc. simpl. rewrite !upd_eq. now rewrite <- !A1, Ex.
    + intros z f Hz. split; [discriminate|]. rewrite !upd_eq in Hz. destruct (Nat.eqb_spec z y); [exists x; congruence|]. destruct (Nat.eqb_spec z x); [discriminate|eauto].
    + intros z w f Hz Hw. rewrite !upd_eq in Hz, Hw. destruct (Nat.eqb_spec z y), (Nat.eqb_spec w y); subst; auto.
      * destruct (Nat.eqb_spec w x); [discriminate|]. injection Hz as ->. destruct (n0 (A5 _ _ _ Hw Ex)).
      * destruct (Nat.eqb_spec z x); [discriminate|]. injection Hw as ->. destruct (n0 (A5 _ _ _ Hz Ex)).
      * destruct (Nat.eqb_spec z x); [discriminate|]. destruct (Nat.eqb_spec w x); [discriminate|]. exact (A5 _ _ _ Hz Hw).
    + intros z f Hz. right. destruct (Nat.eq_dec z x) as [->|Hzx]; [exists y|exists z].
      * rewrite upd_same. congruence.
      * rewrite !upd_other; congruence.
  - destruct (var x) as [h|] eqn:Ex; [|discriminate]. destruct (upd var x (Some None) y) as [old|] eqn:Ey; [|discriminate]. destruct (w_drop fr old) as [fr' es0| |] eqn:Hd; try discriminate. injection Hs as <- <-.
    apply (W_vars fr var snd tr (WAssign y x) old fr' es0); try discriminate; try exact Hd; try exact HW.
    + intros z. rewrite gvars_snoc. simpl. destruct (Nat.eqb_spec y x) as [->|Hne]; rewrite !upd_eq, <- ?A1; [destruct (Nat.eqb_spec z x); [congruence|reflexivity]|now rewrite Ex].
    + intros z f Hz. rewrite !upd_eq in Hz. rewrite upd_eq in Ey. destruct (Nat.eqb_spec z y) as [->|Hzy].
      * injection Hz as ->. split; [|exists x; exact Ex]. intros ->. destruct (Nat.eqb_spec y x); [discriminate|]. exact (n (A5 _ _ _ Ey Ex)).
      * destruct (Nat.eqb_spec z x) as [->|Hzx]; [discriminate|]. split; [|eauto]. intros ->. destruct (Nat.eqb_spec y x); [discriminate|]. exact (Hzy (A5 _ _ _ Hz Ey)).
    + intros z w f Hz Hw. rewrite !upd_eq in Hz, Hw. destruct (Nat.eqb_spec z y), (Nat.eqb_spec w y); subst; auto.
      * destruct (Nat.eqb_spec w x); [discriminate|]. injection Hz as ->. destruct (n0 (A5 _ _ _ Hw Ex)).
      * destruct (Nat.eqb_spec z x); [discriminate|]. injection Hw as ->. destruct (n0 (A5 _ _ _ Hz Ex)).
      * destruct (Nat.eqb_spec z x); [discriminate|]. destruct (Nat.eqb_spec w x); [discriminate|]. exact (A5 _ _ _ Hz Hw).
    + intros z f Hz. rewrite upd_eq in Ey. destruct (Nat.eq_dec z x) as [->|Hzx]; [right; exists y; rewrite upd_same; congruence|]. destruct (Nat.eq_dec z y) as [->|Hzy].
      * left. destruct (Nat.eqb_spec y x); congruence.
      * right. exists z. rewrite !upd_other; congruence.
  - destruct (var x) as [h|] eqn:Ex; [|discriminate]. destruct (w_drop fr h) as [fr' es0| |] eqn:Hd; try discriminate. injection Hs as <- <-.
    apply (W_vars fr var snd tr (WDestroy x) h fr' es0); try discriminate; try exact Hd; try exact HW.
    + intros z. rewrite gvars_snoc. simpl. rewrite !upd_eq. now rewrite A1.
    + intros z f Hz. rewrite upd_eq in Hz. destruct (Nat.eqb_spec z x); [discriminate|]. split; [|eauto]. intros ->. exact (n (A5 _ _ _ Hz Ex)).
    + intros z w f Hz Hw. rewrite upd_eq in Hz, Hw. destruct (Nat.eqb_spec z x); [discriminate|]. destruct (Nat.eqb_spec w x); [discriminate|]. exact (A5 _ _ _ Hz Hw).
    + intros z f Hz. destruct (Nat.eq_dec z x) as [->|Hzx]; [left; congruence|right]. exists z. rewrite upd_other; congruence.
  - destruct (snd q) eqn:Eq; [discriminate|]. destruct (var x) as [h|] eqn:Ex; [|discriminate]. injection Hs as <- <-. split; cbn [w_fr w_var w_snd].
    + intros z. rewrite gvars_snoc. apply A1.
    + intros f H. destruct (A2 _ H) as [B1 B2]. rewrite frame_app, B1. split; [reflexivity|]. intros (z & Hin). apply in_app_iff in Hin. destruct Hin as [Hin|[[=]|[]]]. apply B2. exists z. exact Hin.
    + intros f g H. rewrite frame_app. simpl. rewrite app_nil_r. destruct (A3 _ _ H) as [B1 B2]. split; [exact B1|now apply created_app].
    + exact A4.
    + exact A5.
    + exact A6.
    + intros p f. rewrite upd_eq. destruct (Nat.eqb_spec p q) as [E|E].
      * subst p. split.
        -- intros [= ->]. exists tr, x, []. split; [reflexivity|]. unfold stands. now rewrite <- A1.
        -- intros (t1 & z & t2 & E & Hz). destruct t2 as [|e t2] using rev_ind.
           ++ apply app_inj_tail in E. destruct E as [<- [= <-]]. unfold stands in Hz. rewrite <- A1, Ex in Hz. exact Hz.
           ++ exfalso. clear IHt2. change (t1 ++ WSender q z :: t2 ++ [e]) with (t1 ++ (WSender q z :: t2) ++ [e]) in E. rewrite app_assoc in E. apply app_inj_tail in E. destruct E as [-> _].
              apply (A10 q z); [apply in_elt|exact Eq].
      * rewrite A7. split; [apply sender_of_app|]. apply sender_of_inv. intros z [E'|[]]. congruence.
    + intros p H. rewrite upd_eq in H. destruct (Nat.eqb_spec p q) as [E|E]; [subst p; injection H as ->; exists tr, x, []; split; [reflexivity|now rewrite <- A1]|apply sender_null_app; auto].
    + intros q' f H. rewrite upd_eq in H. destruct (Nat.eqb_spec q' q) as [->|Hne]; [|eauto]. injection H as ->. destruct (A4 _ _ Ex) as (g & Hg & _). eauto.
    + intros q' z Hin. rewrite upd_eq. destruct (Nat.eqb_spec q' q) as [->|Hne]; [discriminate|]. apply in_app_iff in Hin. destruct Hin as [Hin|[E|[]]]; [exact (A10 _ _ Hin)|congruence].
  - destruct (snd q) as [[f|]|] eqn:Eq; try discriminate. destruct (fr f) as [g|] eqn:Ef; [|discriminate]. destruct (g_step g (GLNext n)) as [g' es0| |] eqn:Hg; try discriminate. injection Hs as <- <-.
    apply (W_frame fr var snd tr f g (GLNext n) g' es0 [WNext q n] HW Ef Hg); [discriminate|right; eauto].
  - assert (Hb : exists g g' es0, fr f = Some g /\ g_step g l = Next g' es0 /\ l <> GLDestroy /\ s' = WS (upd fr f (Some g')) var snd /\ es = map (WB f) es0).
    { destruct l; try discriminate Hs; (destruct (fr f) as [g|]; [|discriminate Hs]); match type of Hs with context [g_step g ?l] => destruct (g_step g l) as [g' es0| |] eqn:Hg end; try discriminate Hs; injection Hs as <- <-;
        exists g, g', es0; repeat split; auto; discriminate. }
    destruct Hb as (g & g' & es0 & Ef & Hg & Hl & -> & ->). exact (W_frame fr var snd tr f g l g' es0 [] HW Ef Hg Hl (or_introl eq_refl)).
Qed.

Lemma W_of ls s tr : run w_step w_init ls = Running s tr -> W s tr.
Proof. revert s tr. exact (fun s tr H => run_inv w_step W w_init W_init W_step ls s tr H). Qed.

(** ** Results *)
Lemma gm_owner ls s tr x y f : run w_step w_init ls = Running s tr -> stands tr x f -> stands tr y f -> x = y.
Proof. intros Hr Hx Hy. pose proof (W_of _ _ _ Hr) as HW. apply (w_uni _ _ HW x y f); rewrite (w_rep _ _ HW); assumption. Qed.

Lemma gm_exact ls s tr f : run w_step w_init ls = Running s tr -> created f tr ->
  (destroyed f tr = 0 /\ exists x, stands tr x f) \/ (destroyed f tr = 1 /\ forall x, ~ stands tr x f).
Proof.
  intros Hr Hc. pose proof (W_of _ _ _ Hr) as HW. destruct (w_fr s f) as [g|] eqn:Ef; [|destruct (proj2 (w_none _ _ HW _ Ef) Hc)].
  destruct (w_some _ _ HW _ _ Ef) as [Hg _]. apply reach_ndes in Hg. change (destroyed f tr) with (ndes (frame f tr)). rewrite Hg. destruct (g_alive g) eqn:Ha.
  - left. split; [reflexivity|]. destruct (w_held _ _ HW _ _ Ef Ha) as (x & Hx). exists x. unfold stands. rewrite <- (w_rep _ _ HW). exact Hx.
  - right. split; [reflexivity|]. intros x Hx. unfold stands in Hx. rewrite <- (w_rep _ _ HW) in Hx. destruct (w_live _ _ HW _ _ Hx) as (g1 & H1 & H2). congruence.
Qed.

Lemma gm_frame ls s tr f : run w_step w_init ls = Running s tr ->
  (created f tr -> exists g ls', w_fr s f = Some g /\ run g_step g_init ls' = Running g (frame f tr)) /\ (~ created f tr -> frame f tr = []).
Proof.
  intros Hr. pose proof (W_of _ _ _ Hr) as HW. destruct (w_fr s f) as [g|] eqn:Ef; split; intros Hc.
  - destruct (w_some _ _ HW _ _ Ef) as [(ls' & H) _]. eauto.
  - destruct (Hc (proj2 (w_some _ _ HW _ _ Ef))).
  - destruct (proj2 (w_none _ _ HW _ Ef) Hc).
  - apply (w_none _ _ HW _ Ef).
Qed.

Lemma gm_next ls s t1 q n t2 : run w_step w_init ls = Running s (t1 ++ WNext q n :: t2) ->
  exists f t3, sender_of t1 q f /\ (forall f', sender_of t1 q f' -> f' = f) /\ t2 = WB f (GENext n) :: t3.
Proof.
  intros Hr. destruct (run_split_event _ _ _ _ _ _ _ Hr) as (ls1 & l & ls2 & s1 & s2 & tr0 & e1 & e2 & -> & H1 & Hs & -> & Hrest). pose proof (W_of _ _ _ H1) as HW.
  destruct (run_from_trace_prefix _ _ _ _ _ _ Hrest) as (es' & Hes).
  assert (Ht2 : t2 = e2 ++ es') by (rewrite <- !app_assoc in Hes; apply app_inv_head in Hes; apply app_inv_head in Hes; simpl in Hes; now injection Hes).
  assert (Hno : forall f es, ~ In (WNext q n) (map (WB f) es)) by (intros f es; apply in_WB; discriminate).
  assert (Hdr : forall fr h fr' es, w_drop fr h = Next fr' es -> ~ In (WNext q n) es).
  { intros fr h fr' es. unfold w_drop. destruct h as [f|]; [|intros [= _ <-] []]. destruct (fr f) as [g|]; [|discriminate]. destruct (g_step g GLDestroy); try discriminate. intros [= _ <-]. apply Hno. }
  destruct s1 as [fr var snd]. destruct l as [x f|y x|y x|x|q' x|q' n'|f l]; cbn [w_step] in Hs.
  - destruct (var x); [discriminate|]. destruct (fr f); [discriminate|]. injection Hs as _ E. destruct e1 as [|? [|]]; discriminate.
  - destruct (var y); [discriminate|]. destruct (var x); [|discriminate]. injection Hs as _ E. destruct e1 as [|? [|]]; discriminate.
  - destruct (var x); [|discriminate]. destruct (upd _ _ _ y); [|discriminate]. destruct (w_drop _ _) eqn:Hd; try discriminate. injection Hs as _ E. destruct e1 as [|? e1]; [discriminate|]. injection E as _ E.
    destruct (Hdr _ _ _ _ Hd). rewrite E. apply in_elt.
  - destruct (var x); [|discriminate]. destruct (w_drop _ _) eqn:Hd; try discriminate. injection Hs as _ E. destruct e1 as [|? e1]; [discriminate|]. injection E as _ E.
    destruct (Hdr _ _ _ _ Hd). rewrite E. apply in_elt.
  - destruct (snd q'); [discriminate|]. destruct (var x); [|discriminate]. injection Hs as _ E. destruct e1 as [|? [|]]; discriminate.
  - destruct (snd q') as [[f|]|] eqn:Eq; try discriminate. destruct (fr f) as [g|] eqn:Ef; [|discriminate]. destruct (g_step g (GLNext n')) as [g' es0| |] eqn:Hg; try discriminate. injection Hs as _ E.
    destruct e1 as [|? e1]; [|exfalso; injection E as _ E; apply (Hno f es0); rewrite E; apply in_elt]. injection E as -> -> E.
    assert (He0 : es0 = [GENext n]).
    { destruct g as [c p ct cu ops al]. simpl in Hg. destruct (memb n ops); [discriminate|]. destruct al; [|discriminate]. destruct c; try discriminate. injection Hg as _ <-. reflexivity. }
    subst es0. rewrite app_nil_r. exists f, es'. split; [apply (w_sf _ _ HW q f); exact Eq|]. split; [|rewrite Ht2, <- E; reflexivity].
    intros f' Hf'. apply (w_sf _ _ HW q f') in Hf'. simpl in Hf'. congruence.
  - exfalso. assert (Hb : exists es0, e1 ++ WNext q n :: e2 = map (WB f) es0).
    { destruct l; try discriminate Hs; (destruct (fr f) as [g|]; [|discriminate Hs]); match type of Hs with context [g_step g ?l] => destruct (g_step g l) as [g' es0| |] end; try discriminate Hs; injection Hs as _ <-; eauto. }
    destruct Hb as (es0 & E). apply (Hno f es0). rewrite <- E. apply in_elt.
Qed.

Lemma gm_fail ls e tr : run w_step w_init ls = Failed e tr ->
  (e = NullDeref /\ exists t q n, tr = t ++ [WNext q n] /\ sender_null t q) \/
  (exists f t l es ls' g, tr = t ++ es /\ run g_step g_init ls' = Running g (frame f t) /\ g_step g l = Fail e (frame f es) /\
     ((es = map (WB f) (frame f es) /\ forall n, l <> GLNext n) \/ exists q n, l = GLNext n /\ es = WNext q n :: map (WB f) (frame f es))).
Proof.
  intros Hr. unfold run in Hr. destruct (run_from_failed _ _ _ _ _ _ Hr) as (ls1 & l & s & tr1 & es & H1 & Hs & ->). pose proof (W_of _ _ _ H1) as HW. destruct s as [fr var snd].
  assert (Hdrop : forall x f' es', var x = Some (Some f') -> forall f0, w_drop fr (Some f') <> Fail f0 es').
  { intros x f' es' Hx f0. unfold w_drop. destruct (w_live _ _ HW _ _ Hx) as (g & Hg & Ha). simpl in Hg. rewrite Hg. destruct g as [c p ct cu ops al]. simpl in Ha. subst al. simpl. discriminate. }
  destruct l as [x f|y x|y x|x|q' x|q' n'|f l]; cbn [w_step] in Hs.
  - destruct (var x); [discriminate|]. destruct (fr f); discriminate.
  - destruct (var y); [discriminate|]. destruct (var x); discriminate.
  - exfalso. destruct (var x) as [h|] eqn:Ex; [|discriminate]. destruct (upd var x (Some None) y) as [[f'|]|] eqn:Ey; [|discriminate|discriminate].
    destruct (w_drop fr (Some f')) as [| |f0 es0] eqn:Hd; try discriminate. rewrite upd_eq in Ey. destruct (Nat.eqb_spec y x); [discriminate|]. exact (Hdrop _ _ _ Ey _ Hd).
  - exfalso. destruct (var x) as [[f'|]|] eqn:Ex; [|discriminate|discriminate]. destruct (w_drop fr (Some f')) as [| |f0 es0] eqn:Hd; try discriminate. exact (Hdrop _ _ _ Ex _ Hd).
  - destruct (snd q'); [discriminate|]. destruct (var x); discriminate.
  - destruct (snd q') as [[f|]|] eqn:Eq; [| |discriminate].
    + destruct (w_made _ _ HW _ _ Eq) as (g & Ef). simpl in Ef. rewrite Ef in Hs. destruct (g_step g (GLNext n')) as [| |e0 es0] eqn:Hg; try discriminate. injection Hs as <- <-.
      destruct (w_some _ _ HW _ _ Ef) as [(ls' & Hl) _]. right. exists f, tr1, (GLNext n'), (WNext q' n' :: map (WB f) es0), ls', g. simpl. rewrite frame_same. eauto 10.
    + injection Hs as <- <-. left. split; [reflexivity|]. exists tr1, q', n'. split; [reflexivity|]. exact (w_sn _ _ HW _ Eq).
  - right. assert (Hb : exists g es0, fr f = Some g /\ g_step g l = Fail e es0 /\ es = map (WB f) es0 /\ forall n, l <> GLNext n).
    { destruct l; try discriminate Hs; (destruct (fr f) as [g|]; [|discriminate Hs]); match type of Hs with context [g_step g ?l] => destruct (g_step g l) as [| |e0 es0] eqn:Hg end; try discriminate Hs; injection Hs as <- <-; exists g, es0; repeat split; auto; discriminate. }
    destruct Hb as (g & es0 & Ef & Hg & -> & Hn). destruct (w_some _ _ HW _ _ Ef) as [(ls' & Hl) _]. exists f, tr1, l, (map (WB f) es0), ls', g. rewrite frame_same. auto 10.
Qed.

Lemma gm_safe ls e tr : run w_step w_init ls = Failed e tr -> w_rule tr ->
  (e = NullDeref /\ exists t q n, tr = t ++ [WNext q n] /\ sender_null t q) \/
  (e = ResumeFinished /\ exists t q n f, tr = t ++ [WNext q n; WB f (GENext n)] /\ In None (g_got (frame f t))).
Proof.
  intros Hr HR. destruct (gm_fail _ _ _ Hr) as [H|(f & t & l & es & ls' & g & -> & Hl & Hg & He)]; [now left|right].
  assert (Hf : run g_step g_init (ls' ++ [l]) = Failed e (frame f t ++ frame f es)). { unfold run in *. rewrite run_from_app, Hl. cbn [run_from]. now rewrite Hg. }
  specialize (HR f). rewrite frame_app in HR. destruct (gen_safe _ _ _ Hf HR) as (-> & u & n & E & Hin). split; [reflexivity|].
  assert (Hes : frame f es = [GENext n] /\ l = GLNext n).
  { assert (Hx : frame f es <> []).
    { intros E0. rewrite E0 in *. destruct g as [c p ct cu ops al]. unfold g_step, g_use in Hg. destruct l as [m|v| | | | | |m|].
      - destruct (memb m ops); [discriminate|]. destruct al; [|discriminate]. destruct c; discriminate.
      - destruct c; try discriminate. destruct p; try discriminate. destruct al; discriminate.
      - destruct c; try discriminate. destruct p; try discriminate. destruct al; discriminate.
      - destruct c; try discriminate. destruct al; discriminate.
      - destruct c; try discriminate. destruct al; discriminate.
      - destruct p; try discriminate. destruct al; [|discriminate]. destruct ct; discriminate.
      - destruct p; try discriminate. destruct al; [|discriminate]. destruct (memb n0 ops); discriminate.
      - destruct (memb m ops); discriminate.
      - destruct al; discriminate. }
    destruct g as [c p ct cu ops al]. unfold g_step, g_use in Hg. destruct l as [m|v| | | | | |m|].
    - destruct (memb m ops); [discriminate|]. simpl in Hg. destruct al; [|discriminate]. assert (E1 : frame f es = [GENext m]) by (destruct c; try discriminate; now injection Hg as <-).
      rewrite E1 in E. apply app_inj_tail in E. destruct E as [_ [= <-]]. auto.
    - destruct c; try discriminate. destruct p; try discriminate. destruct al; discriminate.
    - destruct c; try discriminate. destruct p; try discriminate. destruct al; discriminate.
    - destruct c; try discriminate. destruct al; discriminate.
    - destruct c; try discriminate. destruct al; discriminate.
    - destruct p; try discriminate. destruct al; [|discriminate]. destruct ct; discriminate.
    - destruct p; try discriminate. destruct al; [|discriminate]. destruct (memb n0 ops); discriminate.
    - destruct (memb m ops); discriminate.
    - destruct al; discriminate. }
  destruct Hes as [E1 ->]. rewrite E1 in *. apply app_inj_tail in E. destruct E as [<- _].
  destruct He as [[_ H]|(q & m & [= <-] & E2)].
  - destruct (H n eq_refl).
  - exists t, q, n, f. rewrite E2. auto.
Qed.

(** ** Checking the client rule *)
Definition g_idleb (tr : list gevent) : bool := forallb (fun n => memb n (g_dones tr)) (g_nexts tr).
Fixpoint g_ruleb (t1 tr : list gevent) : bool :=
  match tr with
  | [] => true
  | e :: tr' => match e with
                | GENext n => negb (memb n (g_nexts t1)) && g_idleb t1 && negb (existsb (fun e => match e with GEDestroy => true | _ => false end) t1)
                | GEFree n => memb n (g_dones t1)
                | GEDestroy => g_idleb t1
                | _ => true
                end && g_ruleb (t1 ++ [e]) tr'
  end.
Lemma g_idleb_sound t : g_idleb t = true -> g_idle t.
Proof. intros H n Hn. unfold g_idleb in H. rewrite forallb_forall in H. apply memb_In. exact (H n Hn). Qed.
Lemma g_ruleb_gen tr : forall t0, g_ruleb t0 tr = true -> forall t1 e t2, tr = t1 ++ e :: t2 ->
  match e with GENext n => ~ In n (g_nexts (t0 ++ t1)) /\ g_idle (t0 ++ t1) /\ ~ In GEDestroy (t0 ++ t1) | GEFree n => In n (g_dones (t0 ++ t1)) | GEDestroy => g_idle (t0 ++ t1) | _ => True end.
Proof.
  induction tr as [|e tr IH]; intros t0 H t1 e' t2 E; [destruct t1; discriminate|]. simpl in H. apply andb_true_iff in H. destruct H as [H1 H2].
  destruct t1 as [|e1 t1]; injection E as <- E.
  - rewrite app_nil_r. destruct e; try exact I.
    + apply andb_true_iff in H1. destruct H1 as [H1 H3]. apply andb_true_iff in H1. destruct H1 as [H1 H4]. split; [|split].
      * intros Hin. apply memb_In in Hin. rewrite Hin in H1. discriminate.
      * now apply g_idleb_sound.
      * intros Hin. apply negb_true_iff in H3. assert (Ht : existsb (fun e => match e with GEDestroy => true | _ => false end) t0 = true) by (apply existsb_exists; exists GEDestroy; auto). congruence.
    + now apply memb_In.
    + now apply g_idleb_sound.
  - specialize (IH _ H2 t1 e' t2 E). rewrite <- app_assoc in IH. exact IH.
Qed.
Lemma w_ruleb_sound n tr : forallb (fun f => g_ruleb [] (frame f tr)) (seq 0 n) = true -> forallb (fun e => match e with WB f _ => f <? n | _ => true end) tr = true -> w_rule tr.
Proof.
  intros H1 H2 f. destruct (le_lt_dec n f) as [Hf|Hf].
  - assert (E : frame f tr = []).
    { clear H1. induction tr as [|e tr IH]; [reflexivity|]. simpl in H2. apply andb_true_iff in H2. destruct H2 as [H2 H3]. simpl. rewrite (IH H3).
      destruct e; try reflexivity. apply Nat.ltb_lt in H2. destruct (Nat.eqb_spec f0 f); [lia|reflexivity]. }
    rewrite E. intros [|] ? ? E'; discriminate.
  - rewrite forallb_forall in H1. intros t1 e t2 E. exact (g_ruleb_gen _ [] (H1 f (proj2 (in_seq _ _ _) (conj (Nat.le_0_l f) Hf))) t1 e t2 E).
Qed.
