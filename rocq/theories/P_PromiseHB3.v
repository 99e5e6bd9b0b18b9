(** Visibility for the shared state of promise / future. *)
From Coq Require Import List Arith Bool Lia.
From Verif Require Import Lts ListFacts M_HB P_HB M_PromiseHB S_PromiseHB P_PromiseHB P_PromiseHB2.
Import ListNotations.

Lemma split_app {A} (l1 l2 : list A) : forall t1 x t2, l1 ++ l2 = t1 ++ x :: t2 -> (exists t, l1 = t1 ++ x :: t) \/ (exists e1 e2, l2 = e1 ++ x :: e2 /\ t1 = l1 ++ e1).
Proof.
  induction l1 as [|a l1 IH]; intros t1 x t2 E; simpl in E; [right; exists t1, t2; auto|]. destruct t1 as [|b t1]; simpl in E; injection E as <- E.
  - left. exists l1. reflexivity.
  - destruct (IH _ _ _ E) as [(t & ->)|(e1 & e2 & -> & ->)]; [left; exists t; reflexivity|right; exists e1, e2; auto].
Qed.
Lemma map_split {A B} (f : A -> B) l : forall t1 x t2, map f l = t1 ++ x :: t2 -> exists e1 y e2, l = e1 ++ y :: e2 /\ t1 = map f e1 /\ x = f y.
Proof.
  induction l as [|a l IH]; intros t1 x t2 E; [destruct t1; discriminate|]. destruct t1 as [|b t1]; simpl in E; injection E as <- E; [exists [], a, l; auto|].
  destruct (IH _ _ _ E) as (e1 & y & e2 & -> & -> & ->). exists (a :: e1), y, e2. auto.
Qed.

Definition setpos (h : mst (S := pst)) (u : hbs) : Prop := exists i a p, nth_error (lg h) i = Some (a, p) /\ 4 <= i /\ ma_loc a = l_has /\ ma_wr a = true /\ incl u (i :: p).
Record TI (h : mst (S := pst)) (tr : list (pevent * hbs)) : Prop := {
  t_get : forall o, o < length (p_op (st h)) -> exists u, In (EGet o, u) tr /\ incl u (v_ h (t_l o));
  t_set1 : p_has (st h) = true -> exists t1 u t2, tr = t1 ++ (ESet, u) :: t2 /\ ~ In ESet (map fst t1) /\ ~ In ESet (map fst t2) /\ setpos h u;
  t_set0 : p_has (st h) = false -> ~ In ESet (map fst tr);
  t_done : forall t1 o ok v t2, tr = t1 ++ (EDone o ok, v) :: t2 -> sees_get o t1 v /\ (ok = true -> sees_set t1 v);
  t_free : forall t1 v t2, tr = t1 ++ (EFree, v) :: t2 -> sees_all t1 v }.

Lemma TI_mk h tr s' m' w' es (u' : hbs) : let h' := MS s' m' w' in TI h tr ->
  (exists g, mm_log m' = lg h ++ g) ->
  (forall o, o < length (p_op s') -> (o < length (p_op (st h)) /\ incl (v_ h (t_l o)) (mv_cur (w' (t_l o)))) \/ (In (EGet o) es /\ mv_cur (w' (t_l o)) = u')) ->
  (p_has s' = p_has (st h) /\ ~ In ESet es) \/ (p_has (st h) = false /\ p_has s' = true /\ es = [ESet] /\ setpos h' u') ->
  (forall e1 o ok e2, es = e1 ++ EDone o ok :: e2 -> sees_get o (tr ++ map (fun e => (e, u')) e1) u' /\ (ok = true -> sees_set (tr ++ map (fun e => (e, u')) e1) u')) ->
  (forall e1 e2, es = e1 ++ EFree :: e2 -> sees_all (tr ++ map (fun e => (e, u')) e1) u') ->
  TI h' (tr ++ map (fun e => (e, u')) es).
Proof.
  intros h' T [g Eg] HG HS HD HF.
  assert (Old : forall u, setpos h u -> setpos h' u).
  { intros u (i & a & p & Hn & K). exists i, a, p. split; [|exact K]. simpl. rewrite Eg, nth_error_app1; [exact Hn|]. apply nth_error_Some. congruence. }
  assert (MF : forall l, map fst (map (fun e : pevent => (e, u')) l) = l) by (intros l; rewrite map_map; apply map_id).
  constructor.
  - intros o Ho. destruct (HG o Ho) as [[Hl Hi]|[Hi E]].
    + destruct (t_get _ _ T o Hl) as (u & Hu & Hi'). exists u. split; [apply in_or_app; auto|]. eapply incl_tran; eauto.
    + exists u'. split; [apply in_or_app; right; apply in_map_iff; eauto|]. simpl. rewrite E. apply incl_refl.
  - intros Eh. simpl in Eh. destruct HS as [[E N]|(E1 & E2 & -> & K)].
    + rewrite E in Eh. destruct (t_set1 _ _ T Eh) as (t1 & u & t2 & -> & N1 & N2 & K). exists t1, u, (t2 ++ map (fun e => (e, u')) es). split; [now rewrite <- app_assoc|]. split; [exact N1|]. split; [|auto].
      rewrite map_app, MF. intros Q. apply in_app_or in Q. tauto.
    + exists tr, u', []. split; [reflexivity|]. split; [exact (t_set0 _ _ T E1)|]. split; [auto|exact K].
  - intros Eh. simpl in Eh. destruct HS as [[E N]|(_ & E2 & _)]; [|congruence]. rewrite E in Eh. rewrite map_app, MF. intros Q. apply in_app_or in Q. destruct Q as [Q|Q]; [exact (t_set0 _ _ T Eh Q)|tauto].
  - intros t1 o ok v t2 E. apply split_app in E. destruct E as [(t & E)|(e1 & e2 & E & ->)]; [eapply t_done; eauto|]. apply map_split in E. destruct E as (e1' & y & e2' & Ees & -> & [= <- ->]). eauto.
  - intros t1 v t2 E. apply split_app in E. destruct E as [(t & E)|(e1 & e2 & E & ->)]; [eapply t_free; eauto|]. apply map_split in E. destruct E as (e1' & y & e2' & Ees & -> & [= <- ->]). eauto.
Qed.

Section Orders.
Variables r_acq r_rel : bool.
Notation hstep := (ph_step r_acq r_rel true true).
Notation acts := (ph_acts r_acq r_rel true true).

Lemma dst_l s l o : o < length (p_op s) -> In (t_l o) (ph_dst s l) -> In (t_l o) (ph_src s l).
Proof.
  assert (TD : In (t_l o) (trans_dst s l) -> False). { unfold trans_dst. destruct (settled s l) as [[o' r]|]; [|intros []]. unfold fin_t. destruct (o_fin r); [|intros []]. intros [K|[]]. tne. }
  intros Ho. destruct l as [| |x|x|g x|x d|g f|p|o' b|f|o' b|o'|o'|o']; cbn [ph_dst ph_src]; try (solve [intros K; repeat (destruct K as [K|K]; [tne|]); destruct K]).
  - destruct (p_sv s) as [|p|p]; [auto| |]; (intros [K|K]; [tne|]); [destruct K|]. destruct (any_it s); [tauto|destruct K].
  - cbv zeta. intros [K|[K|K]]; [assert (o = length (p_op s)) by tne; lia|tne|]. destruct (p_has s); [|destruct K]. destruct K as [K|[]]. tne.
  - intros [K|K]; [left; exact K|tauto].
  - intros [K|K]; [tne|tauto].
Qed.
Lemma op_len s l s' es : p_step s l = Next s' es -> length (p_op s') = length (p_op s) \/ exists f, l = LGet f.
Proof.
  assert (AL : forall k, alive s k = Next s' es -> k = Next s' es) by (intros k; unfold alive; destruct (p_dead s); [discriminate|auto]).
  assert (UN : forall x b sv, unref s x b sv = Next s' es -> p_op s' = p_op s) by (intros x b sv H; unfold unref in H; apply AL in H; destruct (p_ctr s); [discriminate|]; injection H as <- _; auto).
  assert (TR : forall o r b, trans s o r b = Next s' es -> length (p_op s') = length (p_op s)).
  { intros o r b H. unfold trans in H. destruct (o_fin _); [destruct (ok_of _); [apply AL in H; destruct (p_has s); [|discriminate]|]|]; injection H as <- _; simpl; apply set_nth_length. }
  destruct l as [| |x|x|g x|x d|g f|p|o b|f|o b|o|o|o]; cbn [p_step]; intros Hs; eauto; left.
  - destruct (p_new s); [discriminate|]. injection Hs as <- _. reflexivity.
  - injection Hs as <- _. reflexivity.
  - destruct (_ && _); [|discriminate]. destruct (holds s x); [apply AL in Hs|]; injection Hs as <- _; reflexivity.
  - destruct (idle s x); [|discriminate]. injection Hs as <- _. reflexivity.
  - destruct (_ && _); [|discriminate]. injection Hs as <- _. reflexivity.
  - destruct (idle s x); [|discriminate]. destruct (holds s x); [now rewrite (UN _ _ _ Hs)|]. injection Hs as <- _. reflexivity.
  - destruct (_ && _); [|discriminate]. apply AL in Hs. injection Hs as <- _. reflexivity.
  - destruct (_ && _); [|discriminate]. apply AL in Hs. destruct (p_has s); [discriminate|]. injection Hs as <- _. reflexivity.
  - destruct (p_sv s); [discriminate| |].
    + apply AL in Hs. destruct (p_has s); [|discriminate]. injection Hs as <- _. simpl. apply map_length.
    + destruct (any_it s); [|now rewrite (UN _ _ _ Hs)]. destruct (nth_error (p_op s) o) as [r|]; [|discriminate]. destruct (o_at r); try discriminate. eauto.
  - destruct (nth_error (p_op s) o) as [r|]; [|discriminate]. destruct (o_l r); [discriminate|]. eauto.
  - destruct (nth_error (p_op s) o) as [r|]; [|discriminate]. destruct (o_fin r); [discriminate|].
    destruct (o_c r); try discriminate; apply AL in Hs; (destruct (p_has s); [|destruct (o_at r); try discriminate]); injection Hs as <- _; simpl; apply set_nth_length.
  - destruct (nth_error (p_op s) o) as [r|]; [|discriminate]. destruct (o_c r); try discriminate. eauto.
  - destruct (nth_error (p_op s) o) as [r|]; [|discriminate]. destruct (_ && _); [|discriminate]. apply AL in Hs. injection Hs as <- _. reflexivity.
Qed.
(** Events of a step *)
Inductive evs (s : pst) (l : plabel) (s' : pst) : list pevent -> Prop :=
| ev_none es : p_has s' = p_has s -> (forall e, In e es -> e = ENew \/ (exists x, e = ERef x) \/ (exists x, e = EUnref x) \/ (exists o, e = ERead o)) -> (forall f, l <> LGet f) -> evs s l s' es
| ev_set : p_has s = false -> p_has s' = true -> (exists p, l = LSet p) -> evs s l s' [ESet]
| ev_get f o : l = LGet f -> o = length (p_op s) -> length (p_op s') = S o -> p_has s' = p_has s -> p_has s = false -> evs s l s' [EGet o]
| ev_fast f o r : l = LGet f -> o = length (p_op s) -> length (p_op s') = S o -> nth_error (p_op s') o = Some r -> o_fin r = true -> o_at r = AtComp -> p_has s' = p_has s -> p_has s = true -> evs s l s' [EGet o; EDone o true]
| ev_done o r ok : p_has s' = p_has s -> o < length (p_op s) -> nth_error (p_op s') o = Some r -> o_fin r = true -> (ok = true -> o_at r = AtComp) -> In (t_f o) (ph_dst s l) -> p_dead s' = false -> p_new s' = true -> (forall f, l <> LGet f) -> evs s l s' [EDone o ok]
| ev_free x : p_has s' = p_has s -> p_ctr s = 1 -> holds s x = true -> quiet s x = true -> In (t_h x) (ph_src s l) -> (forall o r, nth_error (p_op s) o = Some r -> o_fut r = x -> In (t_f o) (ph_src s l)) -> acts s l = unref_acts true true s -> (forall f, l <> LGet f) -> evs s l s' [EUnref x; EFree].
Lemma trans_evs s l o r0 r b s' es : BI s -> nth_error (p_op s) o = Some r0 -> o_fin r = false -> OI s r -> trans s o r b = Next s' es -> (forall f, l <> LGet f) -> (o_fin (settle r b) = true -> In (t_f o) (ph_dst s l)) -> evs s l s' es.
Proof.
  intros B Hn Hf O Hs Hl Hd. destruct (trans_next s o r r0 b B Hn Hf O) as (es0 & E & Ees). rewrite Hs in E. injection E as -> <-. rewrite Ees. destruct (o_fin (settle r b)) eqn:Ef.
  - destruct (holds_alive _ _ B (i_pend _ _ O Hf)) as (D1 & D2 & _). eapply (ev_done s l _ o (settle r b)); auto.
    + apply nth_error_Some. congruence.
    + simpl. exact (nth_error_set_nth_same _ _ _ _ Hn).
    + intros K. rewrite settle_at. unfold ok_of in K. destruct (o_at r); congruence.
  - apply ev_none; auto. intros e [].
Qed.
Lemma step_evs s l s' es : BI s -> p_step s l = Next s' es -> evs s l s' es.
Proof.
  intros B Hs.
  assert (AL : forall k, alive s k = Next s' es -> k = Next s' es) by (intros k; unfold alive; destruct (p_dead s); [discriminate|auto]).
  assert (Nn : forall e : pevent, In e [] -> e = ENew \/ (exists x, e = ERef x) \/ (exists x, e = EUnref x) \/ (exists o, e = ERead o)) by (intros e []).
  destruct l as [| |x|x|g x|x d|g f|p|o b|f|o b|o|o|o]; cbn [p_step] in Hs.
  - destruct (p_new s) eqn:En; [discriminate|]. injection Hs as <- <-. destruct (b_new _ B En) as (_ & _ & E). apply ev_none; [simpl; auto| |discriminate]. intros e [<-|[]]. auto.
  - injection Hs as <- <-. apply ev_none; auto; discriminate.
  - destruct (_ && _); [|discriminate]. destruct (holds s x); [apply AL in Hs|]; injection Hs as <- <-; (apply ev_none; [reflexivity| |discriminate]); auto. intros e [<-|[]]. eauto.
  - destruct (idle s x); [|discriminate]. injection Hs as <- <-. apply ev_none; auto; discriminate.
  - destruct (_ && _); [|discriminate]. injection Hs as <- <-. apply ev_none; auto; discriminate.
  - destruct (idle s x) eqn:Hi; [|discriminate]. destruct (holds s x) eqn:Hx; [|injection Hs as <- <-; apply ev_none; auto; discriminate]. destruct (idle_inv _ _ Hi) as (Hl & _ & Hq).
    unfold unref in Hs. apply AL in Hs. destruct (p_ctr s) as [|[|c]] eqn:Hc; try discriminate; injection Hs as <- <-; cbn [Nat.eqb].
    + apply ev_free; auto; try discriminate; [left; reflexivity|intros o r Hn Hf; right; apply in_map, in_gets; eauto|cbn [ph_acts]; rewrite Hx; reflexivity].
    + apply ev_none; [reflexivity| |discriminate]. intros e [<-|[]]. eauto.
  - destruct (_ && _); [|discriminate]. apply AL in Hs. injection Hs as <- <-. apply ev_none; [reflexivity| |discriminate]. intros e [<-|[]]. eauto.
  - destruct (_ && _); [|discriminate]. apply AL in Hs. destruct (p_has s) eqn:Ev; [discriminate|]. injection Hs as <- <-. apply ev_set; eauto.
  - destruct (p_sv s) as [|p|p] eqn:Esv; [discriminate| |].
    + apply AL in Hs. destruct (p_has s) eqn:Ev; [|discriminate]. injection Hs as <- <-. apply ev_none; auto; discriminate.
    + destruct (b_sv _ B p (or_intror Esv)) as (Hh & Hp & Ev). destruct (any_it s) eqn:Eit.
      * destruct (nth_error (p_op s) o) as [r|] eqn:Ho; [|discriminate]. destruct (o_at r) eqn:Ea; try discriminate. destruct (b_op _ B _ _ Ho) as [A1 A2 A3 A4 A5 A6]. pose proof (notfin_a _ _ (b_op _ B _ _ Ho) Ea) as Ef.
        refine (trans_evs s _ o r _ _ s' es B Ho _ _ Hs _ _); [reflexivity|constructor; simpl; auto; discriminate|discriminate|]. intros K. cbn [ph_dst]. rewrite Esv, Eit. right. unfold trans_dst. cbn [settled]. rewrite Ho. unfold fin_t. rewrite K. left. reflexivity.
      * unfold unref in Hs. apply AL in Hs. destruct (p_ctr s) as [|[|c]] eqn:Hc; try discriminate; injection Hs as <- <-; cbn [Nat.eqb].
        -- assert (Nf : forall o' r, nth_error (p_op s) o' = Some r -> o_fut r <> p). { intros o' r Hn E. destruct (i_fut _ _ (b_op _ B _ _ Hn)) as [K _]. rewrite E in K. congruence. }
           apply ev_free; auto; try discriminate.
           ++ unfold quiet. apply forallb_forall. intros r Hr. apply In_nth_error in Hr. destruct Hr as [o' Hn]. destruct (Nat.eqb_spec (o_fut r) p) as [E|]; [destruct (Nf _ _ Hn E)|reflexivity].
           ++ simpl. rewrite Esv. left. reflexivity.
           ++ intros o' r Hn E. destruct (Nf _ _ Hn E).
           ++ cbn [ph_acts]. rewrite Esv, Eit. reflexivity.
        -- apply ev_none; [reflexivity| |discriminate]. intros e [<-|[]]. eauto.
  - destruct (_ && _); [|discriminate]. cbv zeta in Hs. apply AL in Hs. destruct (p_has s) eqn:Ev; injection Hs as <- <-.
    + eapply ev_fast; eauto; simpl; [rewrite app_length; simpl; lia|rewrite nth_error_app2, Nat.sub_diag by lia; reflexivity|reflexivity|reflexivity].
    + eapply ev_get; eauto. simpl. rewrite app_length. simpl. lia.
  - destruct (nth_error (p_op s) o) as [r|] eqn:Ho; [|discriminate]. destruct (o_l r) eqn:El; [discriminate|]. destruct (b_op _ B _ _ Ho) as [A1 A2 A3 A4 A5 A6]. pose proof (notfin_l _ _ (b_op _ B _ _ Ho) El) as Ef.
    refine (trans_evs s _ o r _ _ s' es B Ho _ _ Hs _ _); [reflexivity|constructor; simpl; auto; discriminate|discriminate|]. intros K. cbn [ph_dst]. right. unfold trans_dst. cbn [settled]. rewrite Ho. unfold fin_t. rewrite K. left. reflexivity.
  - destruct (nth_error (p_op s) o) as [r|]; [|discriminate]. destruct (o_fin r); [discriminate|].
    destruct (o_c r); try discriminate; apply AL in Hs; (destruct (p_has s) eqn:Ev; [|destruct (o_at r); try discriminate]); injection Hs as <- <-; apply ev_none; auto; discriminate.
  - destruct (nth_error (p_op s) o) as [r|] eqn:Ho; [|discriminate]. destruct (o_c r) eqn:Ec; try discriminate. destruct (b_op _ B _ _ Ho) as [A1 A2 A3 A4 A5 A6]. pose proof (notfin_c _ _ (b_op _ B _ _ Ho) Ec) as Ef.
    refine (trans_evs s _ o r _ _ s' es B Ho _ _ Hs _ _); [reflexivity|constructor; simpl; auto; try discriminate; [intros K; apply A3; destruct (o_at r), K; auto; discriminate|intros K; destruct (o_at r); congruence]|discriminate|].
    intros K. cbn [ph_dst]. right. unfold trans_dst. cbn [settled]. rewrite Ho. unfold fin_t. rewrite K. left. reflexivity.
  - destruct (nth_error (p_op s) o) as [r|]; [|discriminate]. destruct (_ && _); [|discriminate]. apply AL in Hs. injection Hs as <- <-. apply ev_none; [reflexivity| |discriminate]. intros e [<-|[]]. eauto 6.
Qed.

Lemma exec_last m v l x y m' v' : m_exec m v (l ++ [Touch x true; Unlock y]) = Some (m', v') -> exists i p, nth_error (mm_log m') i = Some (MA x true, p) /\ length (mm_log m) <= i /\ mv_cur v' = i :: p.
Proof.
  intros H. rewrite exec_app in H. destruct (m_exec m v l) as [[m1 v1]|] eqn:E; [|discriminate]. pose proof (ef_len _ _ _ _ _ (eff_exec _ _ _ _ _ E)) as L. cbn [m_exec m_exec1 Unlock] in H. destruct (m_ordered _ _ _); [|discriminate].
  injection H as <- <-. cbn. exists (length (mm_log m1)), (mv_cur v1). split; [|auto]. rewrite nth_error_app2, Nat.sub_diag by lia. reflexivity.
Qed.
Lemma see_set h tr (u : hbs) : TI h tr -> p_has (st h) = true -> KS (lg h) u -> closed (lg h) u -> sees_set tr u.
Proof.
  intros T Eh K C. destruct (t_set1 _ _ T Eh) as (t1 & w & t2 & E & N1 & N2 & (i & a & p & Hn & Hi & Hl & Hw & Hu)). exists t1, w, t2. do 3 (split; [auto; fail|]).
  pose proof (K i a p Hn Hi (or_introl Hl) Hw) as Q. intros x Hx. destruct (Hu x Hx) as [<-|Hx']; [exact Q|]. exact (C i a p Hn Q x Hx').
Qed.
Lemma TI_step ls h tr l v s' es m' v' : run hstep ph_init ls = Running h tr -> TI h tr -> p_step (st h) l = Next s' es -> m_exec (ms_mem h) (hv h l v) (acts (st h) l) = Some (m', v') ->
  TI (MS s' m' (m_set (ms_view h) (ph_dst (st h) l) v')) (tr ++ map (fun e => (e, mv_cur v')) es).
Proof.
  intros Hr T Hs He. destruct (ph_run _ _ _ _ _ Hr) as [B W]. pose proof (h_snoc p_step ph_src ph_dst acts ls p_start h tr l v s' es m' v' Hr Hs He) as Hr'.
  destruct (ph_run _ _ _ _ _ Hr') as [B' W']. pose proof (hb_bounded p_step ph_src ph_dst acts _ _ _ _ Hr) as HB. pose proof (hb_closed p_step ph_src ph_dst acts _ _ _ _ Hr') as HC. cbn [ms_base] in *.
  set (h' := MS s' m' (m_set (ms_view h) (ph_dst (st h) l) v')) in *.
  destruct (exec_mono _ _ _ _ _ He) as (Hcur & _ & Hlog & _).
  assert (Hold : forall o, o < length (p_op (st h)) -> incl (v_ h (t_l o)) (mv_cur (m_set (ms_view h) (ph_dst (st h) l) v' (t_l o)))).
  { intros o Ho. unfold m_set. destruct (memb (t_l o) (ph_dst (st h) l)) eqn:E; [|apply incl_refl]. apply memb_In in E. eapply incl_tran; [apply (in_hview ph_src h l v); apply dst_l; auto|exact Hcur]. }
  pose proof (op_len _ _ _ _ Hs) as Hlen. destruct (step_evs _ _ _ _ B Hs) as [es Eh Hes Nl|Eh Eh' [p ->]|f o -> Eo El Eh Eh0|f o r -> Eo El Hn Hf Ha Eh Eh1|o r ok Eh Ho Hn Hf Ha Hd Edd Enn Nl|x Eh Hc Hx Hq Hsrc Hg Ea Nl].
  - apply (TI_mk h); auto.
    + intros o Ho. left. destruct Hlen as [E|[f E]]; [rewrite E in Ho; auto|destruct (Nl f E)].
    + left. split; [exact Eh|]. intros K. destruct (Hes _ K) as [E|[(y & E)|[(y & E)|(y & E)]]]; discriminate.
    + intros e1 o ok e2 ->. exfalso. destruct (Hes (EDone o ok)) as [E|[(y & E)|[(y & E)|(y & E)]]]; try discriminate. apply in_or_app. right. left. reflexivity.
    + intros e1 e2 ->. exfalso. destruct (Hes EFree) as [E|[(y & E)|[(y & E)|(y & E)]]]; try discriminate. apply in_or_app. right. left. reflexivity.
  - apply (TI_mk h); auto.
    + intros o Ho. left. destruct Hlen as [E|[f E]]; [rewrite E in Ho; auto|discriminate].
    + right. do 3 (split; [auto; fail|]). assert (G4 : 4 <= length (lg h)).
      { cbn [p_step] in Hs. destruct (idle (st h) p && prom (st h) p && holds (st h) p) eqn:E; [|discriminate]. rewrite !andb_true_iff in E. destruct E as (_ & Hh). destruct (holds_alive _ _ B Hh) as (K1 & K2 & _). exact (g_len _ _ (w_g _ (proj2 W K2 K1))). }
      cbn [ph_acts] in He. destruct (exec_last _ _ [Touch l_obj false; Lock x_mtx; Touch l_has false; Touch l_val true] l_has x_mtx _ _ He) as (i & q & Hn & Hi & Hv). exists i, (MA l_has true), q. split; [exact Hn|]. split; [lia|].
      split; [reflexivity|]. split; [reflexivity|]. rewrite Hv. apply incl_refl.
    + intros [|e [|e' e1]] o ok e2 E; discriminate.
    + intros [|e [|e' e1]] e2 E; discriminate.
  - apply (TI_mk h); auto.
    + intros o' Ho'. destruct (Nat.eq_dec o' o) as [->|Hne]; [right|left; split; [lia|apply Hold; lia]]. split; [left; reflexivity|]. rewrite set_in; [reflexivity|]. cbn [ph_dst]. cbv zeta. rewrite Eo. left. reflexivity.
    + left. split; [exact Eh|]. intros [[=]|[]].
    + intros [|e [|e' e1]] o' ok e2 E; discriminate.
    + intros [|e [|e' e1]] e2 E; discriminate.
  - assert (Tf : m_set (ms_view h) (ph_dst (st h) (LGet f)) v' (t_f o) = v'). { apply set_in. cbn [ph_dst]. cbv zeta. rewrite Eo, Eh1. right. right. left. reflexivity. }
    assert (Hal : p_new s' = true /\ p_dead s' = false).
    { cbn [p_step] in Hs. destruct (live (st h) f && negb (prom (st h) f) && holds (st h) f) eqn:E; [|discriminate]. rewrite !andb_true_iff in E. destruct E as (_ & Hh). destruct (holds_alive _ _ B Hh) as (K1 & K2 & _). cbv zeta in Hs. rewrite (alive_holds _ _ _ B Hh), Eh1 in Hs. injection Hs as <-. auto. }
    pose proof (proj2 W' (proj1 Hal) (proj2 Hal)) as I'. pose proof (w_op _ I' o r Hn) as V. pose proof (ov_compf _ _ _ V Ha Hf) as K. unfold h' in K. cbn [ms_view ms_mem] in K. rewrite Tf in K.
    pose proof (hc_cur _ HC (t_f o)) as C. unfold h' in C. cbn [ms_view ms_mem] in C. rewrite Tf in C.
    assert (G : forall o', o' < length (p_op s') -> (o' < length (p_op (st h)) /\ incl (v_ h (t_l o')) (mv_cur (m_set (ms_view h) (ph_dst (st h) (LGet f)) v' (t_l o')))) \/ (In (EGet o') [EGet o; EDone o true] /\ mv_cur (m_set (ms_view h) (ph_dst (st h) (LGet f)) v' (t_l o')) = mv_cur v')).
    { intros o' Ho'. destruct (Nat.eq_dec o' o) as [->|Hne]; [right|left; split; [lia|apply Hold; lia]]. split; [left; reflexivity|]. rewrite set_in; [reflexivity|]. cbn [ph_dst]. cbv zeta. rewrite Eo. left. reflexivity. }
    assert (T1 : TI h' (tr ++ map (fun e => (e, mv_cur v')) [EGet o])).
    { apply (TI_mk h); auto.
      - intros o' Ho'. destruct (G o' Ho') as [Q|[[[= Q]|[[=]|[]]] Q2]]; [auto|right]. split; [left; congruence|exact Q2].
      - left. split; [exact Eh|]. intros [[=]|[]].
      - intros [|e [|e' e1]] o' ok e2 E; discriminate.
      - intros [|e [|e' e1]] e2 E; discriminate. }
    apply (TI_mk h); auto.
    + left. split; [exact Eh|]. intros [[=]|[[=]|[]]].
    + intros [|e [|e' e1]] o' ok e2 E; try discriminate; try (destruct e1; discriminate). injection E as <- <- <- _. split.
      * exists (mv_cur v'). split; [apply in_or_app; right; left; reflexivity|apply incl_refl].
      * intros _. eapply (see_set h'); eauto.
    + intros [|e [|e' [|e'' e1]]] e2 E; discriminate.
  - assert (Tf : m_set (ms_view h) (ph_dst (st h) l) v' (t_f o) = v') by (apply set_in; exact Hd).
    assert (Hnd : ok = true -> p_new s' = true /\ p_dead s' = false -> sees_set tr (mv_cur v')).
    { intros Eok [N1 N2]. pose proof (proj2 W' N1 N2) as I'. pose proof (w_op _ I' o r Hn) as V. pose proof (ov_compf _ _ _ V (Ha Eok) Hf) as K. unfold h' in K. cbn [ms_view ms_mem] in K. rewrite Tf in K.
      pose proof (hc_cur _ HC (t_f o)) as C. unfold h' in C. cbn [ms_view ms_mem] in C. rewrite Tf in C.
      assert (T1 : TI h' (tr ++ map (fun e => (e, mv_cur v')) [])).
      { apply (TI_mk h); auto; [intros o' Ho'; left; destruct Hlen as [E|[f E]]; [rewrite E in Ho'; auto|destruct (Nl f E)]|intros [|e e1] o' ok' e2 E; discriminate|intros [|e e1] e2 E; discriminate]. }
      simpl in T1. rewrite app_nil_r in T1. eapply (see_set h'); eauto. cbn [ms_base h']. apply (i_set _ _ (b_op _ B' _ _ Hn)). auto. }
    assert (Hal : p_new s' = true /\ p_dead s' = false).
    { auto. }
    apply (TI_mk h); auto.
    + intros o' Ho'. left. destruct Hlen as [E|[f E]]; [rewrite E in Ho'; auto|destruct (Nl f E)].
    + left. split; [exact Eh|]. intros [[=]|[]].
    + intros [|e [|e' e1]] o' ok' e2 E; try discriminate. injection E as <- <- _. simpl. rewrite app_nil_r. split; [|auto].
      destruct (t_get _ _ T o Ho) as (u & Hu & Hi). exists u. split; [exact Hu|]. pose proof (proj2 W' (proj1 Hal) (proj2 Hal)) as I'. pose proof (proj1 (ov_fl _ _ _ (w_op _ I' o r Hn) Hf)) as K.
      unfold h' in K. cbn [ms_view] in K. rewrite Tf in K. eapply incl_tran; [exact Hi|]. eapply incl_tran; [apply Hold; exact Ho|exact K].
    + intros [|e [|e' e1]] e2 E; discriminate.
  - apply (TI_mk h); auto.
    + intros o Ho. left. destruct Hlen as [E|[f E]]; [rewrite E in Ho; auto|destruct (Nl f E)].
    + left. split; [exact Eh|]. intros [[=]|[[=]|[]]].
    + intros [|e [|e' [|e'' e1]]] o' ok' e2 E; discriminate.
    + intros [|e [|e' [|e'' e1]]] e2 E; try discriminate. injection E as <- _. destruct (holds_alive _ _ B Hx) as (K1 & K2 & _). pose proof (proj2 W K2 K1) as I.
      assert (Sx : incl (v_ h (t_h x)) (mv_cur (hv h l v))) by (apply in_hview; exact Hsrc).
      assert (Ka : ka (lg h) (mv_cur v')).
      { rewrite Ea in He. unfold unref_acts in He. 
        assert (Q : ka (lg h) (mv_cur (hv h l v) ++ rl h x_ctr)).
        { apply (last_ka h x); auto. intros o r Hn Hf. pose proof (quiet_op _ _ Hq _ _ Hn Hf) as Efi. destruct (ov_fl _ _ _ (w_op _ I _ _ Hn) Efi) as [Q1 Q2].
          assert (Q3 : incl (v_ h (t_f o)) (mv_cur (hv h l v))) by (apply in_hview; eauto). split; [eapply incl_tran; eauto|]. split; [eapply incl_tran; eauto|exact Q3]. }
        intros i Hi. specialize (Q i Hi). apply in_app_or in Q. destruct Q as [Q|Q]; [auto|]. unfold unref_acts in He. rewrite exec_app in He. destruct (m_exec _ _ [Touch l_obj false; _]) as [[m1 v1]|] eqn:E1 in He; [|discriminate].
        pose proof (exec_rmw _ _ [Touch l_obj false] _ _ _ _ _ eq_refl E1) as (_ & R1 & _). apply exec_mono in He. destruct He as [He _]. apply He, (R1 eq_refl), Q. }
      intros e u Hu i Hi. apply in_app_or in Hu. destruct Hu as [Hu|[[= _ <-]|[]]]; [|exact Hi]. apply Ka. exact (hb_tr _ _ HB _ _ Hu i Hi).
Qed.
Lemma TI_init : TI ph_init [].
Proof. constructor; simpl; try discriminate; auto; [intros o Ho; lia|intros [|] ? ? ? ? E; discriminate|intros [|] ? ? E; discriminate]. Qed.
Lemma promise_TI ls h tr : run hstep ph_init ls = Running h tr -> TI h tr.
Proof.
  intros Hr. apply (h_inv p_step ph_src ph_dst acts (fun _ => True) TI p_start) with (ls := ls); auto; [apply TI_init|].
  clear. intros ls h tr l v s' es m' v' Hr T Hs He _. eapply TI_step; eauto.
Qed.
End Orders.
