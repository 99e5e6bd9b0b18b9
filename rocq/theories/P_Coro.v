(** Proofs about M_Coro. *)
From Coq Require Import List Arith Bool Lia.
From Verif Require Import Lts ListFacts M_Result M_Coro S_Coro.
Import ListNotations.

(** ** Frames *)
(** The frames that carry on the program *)
Definition ismain (f : frame) : bool := match f with KLeaf _ | KStart _ | KDone => false | _ => true end.
Definition mains (l : list frame) : list frame := filter ismain l.
Definition isk (n : nat) (f : frame) : nat := match f with KStart m => if m =? n then 1 else 0 | _ => 0 end.
Definition kc (n : nat) (l : list frame) : nat := sum (map (isk n) l).
Definition tailok (f : frame) : Prop := match f with KStart _ | KDone => True | _ => False end.
Definition tails (ths : list (list frame)) : Prop := forall st, In st ths -> forall f, In f (tl st) -> tailok f.

Lemma mains_app a b : mains (a ++ b) = mains a ++ mains b.
Proof. apply filter_app. Qed.
Lemma kc_app n a b : kc n (a ++ b) = kc n a + kc n b.
Proof. unfold kc. now rewrite map_app, sum_app. Qed.
Lemma kc_cons n f l : kc n (f :: l) = isk n f + kc n l.
Proof. reflexivity. Qed.
Lemma set_nth_split {A} (l : list A) i x y : nth_error l i = Some x -> exists l1 l2, l = l1 ++ x :: l2 /\ set_nth l i y = l1 ++ y :: l2.
Proof.
  revert i. induction l as [|a l IH]; intros [|i] H; simpl in *; try discriminate.
  - injection H as ->. exists [], l. auto.
  - destruct (IH _ H) as (l1 & l2 & -> & E). exists (a :: l1), l2. simpl. now rewrite E.
Qed.
Lemma tails_mains st : (forall f, In f st -> tailok f) -> mains st = [].
Proof.
  induction st as [|f st IH]; intros H; [reflexivity|]. simpl.
  assert (tailok f) by (apply H; now left). destruct f; try contradiction; simpl; apply IH; intros g Hg; apply H; now right.
Qed.

Lemma th_kc n ths t f st st' : nth_error ths t = Some (f :: st) ->
  kc n (concat (set_nth ths t (st' ++ st))) + isk n f = kc n (concat ths) + kc n st'.
Proof.
  intros H. destruct (set_nth_split ths t (f :: st) (st' ++ st) H) as (l1 & l2 & -> & ->).
  rewrite !concat_app. cbn [concat]. rewrite <- !app_comm_cons, !kc_app, kc_cons, !kc_app. lia.
Qed.
Lemma th_tails ths t f st st' : tails ths -> nth_error ths t = Some (f :: st) ->
  (forall g, In g (tl st') -> tailok g) -> tails (set_nth ths t (st' ++ st)).
Proof.
  intros HT H Hs s Hin g Hg. destruct (In_set_nth _ _ _ _ Hin) as [->|Hin'].
  - assert (Hst : forall g, In g st -> tailok g) by (apply nth_error_In in H; exact (HT _ H)).
    destruct st' as [|h st']; simpl in Hg.
    + destruct st; [destruct Hg|]. apply Hst. now right.
    + apply in_app_or in Hg. destruct Hg; auto.
  - exact (HT _ Hin' _ Hg).
Qed.
Lemma th_main ths t f st st' g : tails ths -> nth_error ths t = Some (f :: st) -> mains (concat ths) = [g] -> ismain f = true ->
  g = f /\ mains (concat (set_nth ths t (st' ++ st))) = mains st'.
Proof.
  intros HT H HM Hf. destruct (set_nth_split ths t (f :: st) (st' ++ st) H) as (l1 & l2 & -> & ->).
  assert (Hst : mains st = []).
  { apply tails_mains. apply nth_error_In in H. exact (HT _ H). }
  rewrite !concat_app in *. simpl in *. rewrite !mains_app in *. simpl in HM. rewrite mains_app, Hst in HM. rewrite Hf in HM.
  rewrite Hst. destruct (mains (concat l1)) as [|a l].
  - simpl in *. injection HM as -> HM. rewrite HM. rewrite !app_nil_r. auto.
  - simpl in HM. injection HM as _ HM. destruct l; discriminate.
Qed.
Lemma th_other ths t f st st' : nth_error ths t = Some (f :: st) -> ismain f = false -> mains st' = [] ->
  mains (concat (set_nth ths t (st' ++ st))) = mains (concat ths).
Proof.
  intros H Hf Hs. destruct (set_nth_split ths t (f :: st) (st' ++ st) H) as (l1 & l2 & -> & ->).
  rewrite !concat_app. simpl. rewrite !mains_app. simpl. rewrite Hf, mains_app, Hs. reflexivity.
Qed.
Lemma th_start ths t f st st' g : tails ths -> nth_error ths t = Some (f :: st) -> mains (concat ths) = [] -> mains st' = [g] ->
  mains (concat (set_nth ths t (st' ++ st))) = [g].
Proof.
  intros HT H HM Hs. destruct (set_nth_split ths t (f :: st) (st' ++ st) H) as (l1 & l2 & -> & ->).
  rewrite !concat_app in *. simpl in *. rewrite !mains_app in *. apply app_eq_nil in HM. destruct HM as [M1 M2].
  assert (M3 : mains (st ++ concat l2) = []) by (simpl in M2; destruct (ismain f); [discriminate|exact M2]).
  rewrite mains_app in M3. apply app_eq_nil in M3. destruct M3 as [M3 M4]. now rewrite M1, M3, M4, Hs.
Qed.

(** ** The table of coroutines *)
Definition el := (nat * coro * nat)%type.
Definition ids (L : list el) : list nat := map (fun e => fst (fst e)) L.
Definition deadc (x : coro) : Prop := c_st x = CDead /\ c_aw x = ANone.
Definition Tab (cs : list coro) (th : list frame) (L : list el) : Prop :=
  NoDup (ids L) /\ (forall n x k, In (n, x, k) L -> nth_error cs n = Some x /\ kc n th = k) /\
  (forall n, ~ In n (ids L) -> kc n th = 0 /\ forall x, nth_error cs n = Some x -> deadc x) /\
  (forall n x k, In (n, x, k) L -> c_par x = None -> k = 0).

Lemma in_ids n x k L : In (n, x, k) L -> In n (ids L).
Proof. intros H. apply (in_map (fun e => fst (fst e))) in H. exact H. Qed.
Lemma ids_in n L : In n (ids L) -> exists x k, In (n, x, k) L.
Proof. intros H. apply in_map_iff in H. destruct H as (((m & x) & k) & E & H). simpl in E. subst. eauto. Qed.
Lemma Tab_th cs th th' L : Tab cs th L -> (forall n, kc n th' = kc n th) -> Tab cs th' L.
Proof. intros (H1 & H2 & H3 & H4) E. split; [exact H1|]. split; [|split; [|exact H4]]; intros n; intros; rewrite E; auto. Qed.
Lemma Tab_upd cs th th' L1 L2 n x k x' k' : Tab cs th (L1 ++ (n, x, k) :: L2) ->
  (forall m, m <> n -> kc m th' = kc m th) -> kc n th' = k' -> k' = 0 \/ c_par x' <> None \/ c_par x' = c_par x /\ k' = k ->
  Tab (set_nth cs n x') th' (L1 ++ (n, x', k') :: L2).
Proof.
  intros (H1 & H2 & H3 & H4) Eo En Er.
  assert (Ei : forall y j, ids (L1 ++ (n, y, j) :: L2) = ids L1 ++ n :: ids L2) by (intros; unfold ids; now rewrite map_app).
  assert (Hn : nth_error cs n = Some x) by (apply (H2 n x k), in_or_app; right; now left).
  rewrite Ei in H1.
  assert (Hno : forall y j, In (n, y, j) (L1 ++ L2) -> False).
  { intros y j H. apply in_ids in H. apply NoDup_remove_2 in H1. apply H1. unfold ids in *. now rewrite map_app in H. }
  split; [now rewrite Ei|]. split; [|split].
  - intros m y j H. apply in_app_or in H. destruct H as [H|[H|H]].
    2:{ injection H as <- <- <-. split; [exact (nth_error_set_nth_same _ _ _ _ Hn)|exact En]. }
    all: assert (m <> n) by (intros ->; apply (Hno y j), in_or_app; auto).
    all: rewrite nth_error_set_nth_other, Eo by auto; apply H2, in_or_app; simpl; tauto.
  - intros m H. rewrite Ei in H. rewrite <- (Ei x k) in H.
    assert (m <> n) by (intros ->; apply H; rewrite Ei; apply in_or_app; right; now left).
    rewrite nth_error_set_nth_other, Eo by auto. apply H3, H.
  - intros m y j H Hp. apply in_app_or in H. destruct H as [H|[H|H]].
    2:{ injection H as <- <- <-. destruct Er as [|[|[Ep Ek]]]; [assumption|contradiction|]. rewrite Ek. apply (H4 n x); [apply in_or_app; right; now left|congruence]. }
    all: apply (H4 m y); [apply in_or_app; simpl; tauto|exact Hp].
Qed.
Lemma Tab_new cs th th' L x : Tab cs th L -> (forall n, kc n th' = kc n th) ->
  Tab (cs ++ [x]) th' ((length cs, x, 0) :: L).
Proof.
  intros (H1 & H2 & H3 & H6) E.
  assert (Hlen : ~ In (length cs) (ids L)).
  { intros H. destruct (ids_in _ _ H) as (y & j & H'). destruct (H2 _ _ _ H') as [H4 _].
    assert (length cs < length cs) by (apply nth_error_Some; congruence). lia. }
  split; [simpl; constructor; auto|]. split; [|split].
  - intros n y j [H|H].
    + injection H as <- <- <-. rewrite nth_error_app2, Nat.sub_diag by lia. split; [reflexivity|]. rewrite E. apply (H3 _ Hlen).
    + destruct (H2 _ _ _ H) as [H4 H5]. rewrite nth_error_app1 by (apply nth_error_Some; congruence). rewrite E. auto.
  - intros n H. simpl in H. destruct (H3 n) as [H4 H5]; [tauto|]. rewrite E. split; [exact H4|].
    intros y Hy. apply H5. rewrite nth_error_app1 in Hy; [exact Hy|].
    assert (n < length (cs ++ [x])) by (apply nth_error_Some; congruence). rewrite app_length in *. simpl in *. lia.
  - intros n y j [H|H] Hp; [now injection H as <- <- <-|exact (H6 _ _ _ H Hp)].
Qed.
Lemma Tab_kill cs th th' L1 L2 n x x' : Tab cs th (L1 ++ (n, x, 0) :: L2) -> deadc x' -> (forall m, kc m th' = kc m th) ->
  Tab (set_nth cs n x') th' (L1 ++ L2).
Proof.
  intros (H1 & H2 & H3 & H4) Hd E.
  assert (Hn : nth_error cs n = Some x /\ kc n th = 0) by (apply (H2 n x 0), in_or_app; right; now left).
  assert (Ei : ids (L1 ++ (n, x, 0) :: L2) = ids L1 ++ n :: ids L2) by (unfold ids; now rewrite map_app).
  assert (Ej : ids (L1 ++ L2) = ids L1 ++ ids L2) by (unfold ids; now rewrite map_app).
  rewrite Ei in *. split; [rewrite Ej; exact (NoDup_remove_1 _ _ _ H1)|]. split; [|split].
  - intros m y j H. assert (m <> n).
    { intros ->. apply in_ids in H. rewrite Ej in H. exact (NoDup_remove_2 _ _ _ H1 H). }
    rewrite nth_error_set_nth_other, E by auto. apply H2. apply in_app_or in H. apply in_or_app. simpl. tauto.
  - intros m H. rewrite Ej in H. rewrite E. destruct (Nat.eq_dec m n) as [->|Hm].
    + split; [tauto|]. intros y Hy. rewrite (nth_error_set_nth_same _ _ _ _ (proj1 Hn)) in Hy. injection Hy as <-. exact Hd.
    + rewrite nth_error_set_nth_other by auto. apply H3. intros H'. apply H. apply in_app_or in H'. apply in_or_app.
      simpl in H'. destruct H' as [|[->|]]; tauto.
  - intros m y j H. apply (H4 m y j). apply in_app_or in H. apply in_or_app. simpl. tauto.
Qed.
Lemma Tab_dead cs th th' L x : Tab cs th L -> deadc x -> (forall n, kc n th' = kc n th) -> Tab (cs ++ [x]) th' L.
Proof.
  intros HT Hd E. assert (HT1 := Tab_new cs th th' L x HT E).
  assert (Hk := Tab_kill _ th' th' [] L (length cs) x x HT1 Hd (fun _ => eq_refl)). simpl in Hk.
  replace (set_nth (cs ++ [x]) (length cs) x) with (cs ++ [x]) in Hk; [exact Hk|].
  clear. induction cs as [|y cs IH]; simpl; [reflexivity|]. now rewrite <- IH.
Qed.
Lemma Tab_get cs th L n x k : Tab cs th L -> In (n, x, k) L -> is_dead x = false -> get cs n = Some x.
Proof. intros (_ & H & _ & _) Hin Hd. unfold get. destruct (H _ _ _ Hin) as [-> _]. now rewrite Hd. Qed.
Lemma Tab_kc cs th L n x k : Tab cs th L -> In (n, x, k) L -> kc n th = k.
Proof. intros (_ & H & _) Hin. exact (proj2 (H _ _ _ Hin)). Qed.

(** ** What the program is about to do *)
Definition chn := list ((nat * (nat -> prog)) * bool).
Definition par (lc : list (nat * (nat -> prog))) : option nat := match lc with [] => None | (c, _) :: _ => Some c end.
Definition isn (lc : list (nat * (nat -> prog))) : bool := match lc with [] => false | _ => true end.
Definition fo (i : bool) : cfp := if i then Indet else PastStart.
Fixpoint ents (aw : awk) (res : option nat) (ch : chn) : list el :=
  match ch with
  | [] => []
  | ((c, k), i) :: ch' => (c, CO (CSusp k) (par (map fst ch')) (isn (map fst ch')) (fo i) None aw res, Nat.b2n i) :: ents (ACall c) None ch'
  end.
Inductive act :=
| XGo (n : nat) (p : prog) | XInit (n : nat) (p : prog) (i : bool) | XBody (n : nat) (p : prog) (i : bool)
| XRet (n v : nat) (i : bool) | XFinal (n v : nat) | XNote (n v : nat) (f : cfp)
| XLeaf | XRecv (v : nat) (o : option (nat * coro)) | XWake (v : nat) (o : option (nat * coro))
| XEnd (c : nat) (p : prog) (i : bool) (v : nat) (o : option (nat * coro)) | XDone (v : nat).
Definition oe (o : option (nat * coro)) : list el := match o with Some (n, x) => [(n, x, 0)] | None => [] end.
Definition oaw (o : option (nat * coro)) : awk := match o with Some (n, _) => ACall n | None => ALeaf true end.
Definition live (a : act) (ch : chn) : list el :=
  let pr := par (map fst ch) in
  match a with
  | XGo n p => (n, CO (CInit p) pr false Indet None ANone None, 0) :: ents (ACall n) None ch
  | XInit n p i => (n, CO (CInit p) pr true (fo i) None ANone None, Nat.b2n i) :: ents (ACall n) None ch
  | XBody n p i => (n, CO CRun pr (isn (map fst ch)) (fo i) None ANone None, Nat.b2n i) :: ents (ACall n) None ch
  | XRet n v i => (n, CO CRet pr true (fo i) (Some v) ANone None, Nat.b2n i) :: ents (ACall n) None ch
  | XFinal n v => (n, CO CEnd pr true PastSuspend (Some v) ANone None, 1) :: ents (ACall n) None ch
  | XNote n v f => (n, CO CEnd pr true f (Some v) ANone None, 0) :: ents (ACall n) None ch
  | XLeaf => ents (ALeaf false) None ch
  | XRecv v o => oe o ++ ents (oaw o) None ch
  | XWake v o => oe o ++ ents (oaw o) (Some v) ch
  | XEnd c p i v o => oe o ++ (c, CO CRun pr (isn (map fst ch)) (fo i) None (oaw o) (Some v), Nat.b2n i) :: ents (ACall c) None ch
  | XDone _ => []
  end.
Definition mf (a : act) (lc : list (nat * (nat -> prog))) : list frame :=
  match a with
  | XGo n _ => [KGo n] | XInit n _ _ => [KInit n] | XBody n p _ => [KBody n p] | XRet n _ _ => [KRet n] | XFinal _ _ => [] | XNote n _ _ => [KNote n]
  | XLeaf => []
  | XRecv v _ => match lc with (c, _) :: _ => [KRecv c v] | [] => [] end
  | XWake _ _ => match lc with (c, _) :: _ => [KWake c] | [] => [] end
  | XEnd c p _ _ _ => [KEnd c p]
  | XDone _ => []
  end.
Definition oend (o : option (nat * coro)) : Prop := match o with Some (_, x) => c_st x = CEnd /\ c_aw x = ANone | None => True end.
Definition awf (a : act) (lc : list (nat * (nat -> prog))) : Prop :=
  match a with
  | XBody _ _ _ => True
  | XEnd _ _ _ _ o => oend o
  | XDone _ => lc = []
  | XRecv _ o | XWake _ o => lc <> [] /\ oend o
  | _ => lc <> []
  end.

(** The program with its callers *)
Inductive cret : prog -> list (nat -> prog) -> list kevent -> nat -> Prop :=
| cret_nil p tr v : ret p tr v -> cret p [] tr v
| cret_cons p k ks t1 x t2 v : ret p t1 x -> cret (k x) ks t2 v -> cret p (k :: ks) (t1 ++ t2) v.
Inductive cpre : prog -> list (nat -> prog) -> list kevent -> Prop :=
| cpre_in p ks tr : pre p tr -> cpre p ks tr
| cpre_cons p k ks t1 x t2 : ret p t1 x -> cpre (k x) ks t2 -> cpre p (k :: ks) (t1 ++ t2).
Definition good (p0 p : prog) (ks : list (nat -> prog)) (o : list kevent) : Prop :=
  (forall t v, cret p ks t v -> ret p0 (o ++ t) v) /\ (forall t, cpre p ks t -> pre p0 (o ++ t)).
Definition sp (p0 : prog) (a : act) (lc : list (nat * (nat -> prog))) (o : list kevent) (ds : list nat) : Prop :=
  match a with
  | XGo _ p | XInit _ p _ | XBody _ p _ | XEnd _ p _ _ _ => ds = [] /\ good p0 p (map snd lc) o
  | XRet _ v _ | XFinal _ v | XNote _ v _ | XRecv v _ | XWake v _ => ds = [] /\ good p0 (Ret v) (map snd lc) o
  | XLeaf => match lc with
             | (_, k) :: lc' => ds = [] /\ pre p0 o /\ (exists l t, o = t ++ [EStart l]) /\ forall x, good p0 (k x) (map snd lc') (o ++ [EComp x])
             | [] => False
             end
  | XDone v => ds = [v] /\ ret p0 o v
  end.

(** The frames that a step may add are paid for by the co_await expressions. *)
Definition plus (a : act) : nat := match a with XGo _ _ => 1 | _ => 0 end.
Definition minus (a : act) : nat := match a with XFinal _ _ | XNote _ _ _ | XLeaf => 1 | XRecv _ _ | XWake _ _ => 2 | _ => 0 end.
Definition bud (a : act) (lc : list (nat * (nat -> prog))) : nat := 3 * length lc + plus a.

Definition Inv (p0 : prog) (s : kst) (tr : list kevent) : Prop :=
  exists a ch, Tab (k_cs s) (concat (k_ths s)) (live a ch) /\ mains (concat (k_ths s)) = mf a (map fst ch) /\ tails (k_ths s) /\
               awf a (map fst ch) /\ sp p0 a (map fst ch) (obs tr) (dones tr) /\
               length (concat (k_ths s)) + bud a (map fst ch) <= 1 + minus a + 5 * awaits tr.

(** *** Facts about programs *)
Lemma ret_pre p t v : ret p t v -> pre p t.
Proof. induction 1; eauto using pre. Qed.
(** What a program observes determines what it returns. *)
Lemma ret_det p t v : ret p t v -> forall t' v' s s', ret p t' v' -> t ++ s = t' ++ s' -> t = t' /\ v = v'.
Proof.
  induction 1 as [v|l k x tr v H IH|p k t1 x t2 v H1 IH1 H2 IH2|p k tr v H IH]; intros t' v' s s' H' E; inversion H'; subst; clear H'.
  - auto.
  - simpl in E. injection E as <- E. match goal with H : ret (k _) _ _ |- _ => destruct (IH _ _ _ _ H E) as [-> ->] end. auto.
  - rewrite <- !app_assoc in E. match goal with H : ret p _ _ |- _ => destruct (IH1 _ _ _ _ H E) as [-> ->] end. apply app_inv_head in E.
    match goal with H : ret (k _) _ _ |- _ => destruct (IH2 _ _ _ _ H E) as [-> ->] end. auto.
  - match goal with H : ret k _ _ |- _ => exact (IH _ _ _ _ H E) end.
Qed.
Lemma good_pre p0 p ks o : good p0 p ks o -> pre p0 o.
Proof. intros [_ H]. rewrite <- (app_nil_r o). apply H. constructor. constructor. Qed.
Lemma good_init p : good p p [] [].
Proof. split; [intros t v H|intros t H]; inversion H; subst; assumption. Qed.
Lemma good_ret p0 v k ks o : good p0 (Ret v) (k :: ks) o -> good p0 (k v) ks o.
Proof.
  intros [H1 H2]. split; [intros t w H; apply H1|intros t H; apply H2].
  - apply (cret_cons (Ret v) k ks [] v t w); [constructor|exact H].
  - apply (cpre_cons (Ret v) k ks [] v t); [constructor|exact H].
Qed.
Lemma good_call p0 p k ks o : good p0 (Call p k) ks o -> good p0 p (k :: ks) o.
Proof.
  intros [H1 H2]. split; [intros t w H; apply H1|intros t H; apply H2]; inversion H; subst; clear H.
  - match goal with H : cret (k _) _ _ _ |- _ => inversion H; subst; clear H end.
    + apply cret_nil. eapply ret_call; eauto.
    + rewrite app_assoc. eapply cret_cons; eauto. eapply ret_call; eauto.
  - apply cpre_in. now apply pre_in.
  - match goal with H : cpre (k _) _ _ |- _ => inversion H; subst; clear H end.
    + apply cpre_in. eapply pre_call; eauto.
    + rewrite app_assoc. eapply cpre_cons; eauto. eapply ret_call; eauto.
Qed.
Lemma good_drop p0 p k ks o : good p0 (Drop p k) ks o -> good p0 k ks o.
Proof.
  intros [H1 H2]. split; [intros t w H; apply H1|intros t H; apply H2]; inversion H; subst; clear H.
  - apply cret_nil. now apply ret_drop.
  - eapply cret_cons; eauto. now apply ret_drop.
  - apply cpre_in. now apply pre_drop.
  - eapply cpre_cons; eauto. now apply ret_drop.
Qed.
Lemma good_leaf p0 l k ks o x : good p0 (Leaf l k) ks o -> good p0 (k x) ks ((o ++ [EStart l]) ++ [EComp x]).
Proof.
  intros [H1 H2]. split; [intros t w H|intros t H]; rewrite <- !app_assoc; simpl; [apply H1|apply H2]; inversion H; subst; clear H.
  - apply cret_nil. now apply ret_leaf.
  - rewrite 2 app_comm_cons. eapply cret_cons; eauto. now apply ret_leaf.
  - apply cpre_in. now apply pre_leaf.
  - rewrite 2 app_comm_cons. eapply cpre_cons; eauto. now apply ret_leaf.
Qed.
Lemma good_start p0 l k ks o : good p0 (Leaf l k) ks o -> pre p0 (o ++ [EStart l]).
Proof. intros [_ H2]. apply H2. constructor. constructor. Qed.
Lemma good_done p0 v o : good p0 (Ret v) [] o -> ret p0 o v.
Proof. intros [H1 _]. rewrite <- (app_nil_r o). apply H1. constructor. constructor. Qed.

(** ** start() of a coroutine reaches its exchange *)
Lemma ents_tog n x k ch : forall aw res, In (n, x, k) (ents aw res ch) -> 1 <= k ->
  exists ch' L1 L2, map fst ch' = map fst ch /\ ents aw res ch = L1 ++ (n, x, k) :: L2 /\
    ents aw res ch' = L1 ++ (n, set_cfp x PastStart, 0) :: L2 /\ c_cfp x = Indet /\ is_dead x = false /\ k = 1.
Proof.
  induction ch as [|((c & kk) & i) ch IH]; intros aw res H Hk; simpl in H; [destruct H|]. destruct H as [H|H].
  - injection H as <- <- <-. destruct i; [|simpl in Hk; lia].
    exists (((c, kk), false) :: ch), [], (ents (ACall c) None ch). simpl. auto 15.
  - destruct (IH _ _ H Hk) as (ch' & L1 & L2 & E1 & E2 & E3 & E4 & E5 & ->).
    exists (((c, kk), i) :: ch'), ((c, CO (CSusp kk) (par (map fst ch)) (isn (map fst ch)) (fo i) None aw res, Nat.b2n i) :: L1), L2.
    simpl. rewrite E1, E2, E3. auto 15.
Qed.
Lemma live_tog a ch n x k : In (n, x, k) (live a ch) -> 1 <= k ->
  (exists v, a = XFinal n v /\ x = CO CEnd (par (map fst ch)) true PastSuspend (Some v) ANone None /\ k = 1) \/
  exists a' ch' L1 L2, live a ch = L1 ++ (n, x, k) :: L2 /\ live a' ch' = L1 ++ (n, set_cfp x PastStart, 0) :: L2 /\
    map fst ch' = map fst ch /\ mf a' (map fst ch) = mf a (map fst ch) /\ (awf a (map fst ch) -> awf a' (map fst ch)) /\
    (forall p0 o ds, sp p0 a (map fst ch) o ds -> sp p0 a' (map fst ch) o ds) /\ c_cfp x = Indet /\ is_dead x = false /\ k = 1 /\ plus a' = plus a /\ minus a' = minus a.
Proof.
  intros H Hk.
  destruct a as [m p|m p i|m p i|m v i|m v|m v f| |v o|v o|c p i v o|v]; simpl in H.
  - destruct H as [H|H]; [injection H as <- <- <-; lia|]. right.
    destruct (ents_tog _ _ _ _ _ _ H Hk) as (ch' & L1 & L2 & E1 & E2 & E3 & E4 & E5 & ->).
    exists (XGo m p), ch', ((m, CO (CInit p) (par (map fst ch)) false Indet None ANone None, 0) :: L1), L2. simpl. rewrite E1, E2, E3. auto 15.
  - destruct H as [H|H].
    + injection H as <- <- <-. destruct i; [|simpl in Hk; lia]. right. exists (XInit m p false), ch, [], (ents (ACall m) None ch). simpl. auto 15.
    + right. destruct (ents_tog _ _ _ _ _ _ H Hk) as (ch' & L1 & L2 & E1 & E2 & E3 & E4 & E5 & ->).
      eexists (XInit m p i), ch', (_ :: L1), L2. simpl. rewrite E1, E2, E3. auto 15.
  - destruct H as [H|H].
    + injection H as <- <- <-. destruct i; [|simpl in Hk; lia]. right. exists (XBody m p false), ch, [], (ents (ACall m) None ch). simpl. auto 15.
    + right. destruct (ents_tog _ _ _ _ _ _ H Hk) as (ch' & L1 & L2 & E1 & E2 & E3 & E4 & E5 & ->).
      eexists (XBody m p i), ch', (_ :: L1), L2. simpl. rewrite E1, E2, E3. auto 15.
  - destruct H as [H|H].
    + injection H as <- <- <-. destruct i; [|simpl in Hk; lia]. right. exists (XRet m v false), ch, [], (ents (ACall m) None ch). simpl. auto 15.
    + right. destruct (ents_tog _ _ _ _ _ _ H Hk) as (ch' & L1 & L2 & E1 & E2 & E3 & E4 & E5 & ->).
      eexists (XRet m v i), ch', (_ :: L1), L2. simpl. rewrite E1, E2, E3. auto 15.
  - destruct H as [H|H].
    + injection H as <- <- <-. left. exists v. auto.
    + right. destruct (ents_tog _ _ _ _ _ _ H Hk) as (ch' & L1 & L2 & E1 & E2 & E3 & E4 & E5 & ->).
      eexists (XFinal m v), ch', (_ :: L1), L2. simpl. rewrite E1, E2, E3. auto 15.
  - destruct H as [H|H]; [injection H as <- <- <-; lia|].
    right. destruct (ents_tog _ _ _ _ _ _ H Hk) as (ch' & L1 & L2 & E1 & E2 & E3 & E4 & E5 & ->).
    eexists (XNote m v f), ch', (_ :: L1), L2. simpl. rewrite E1, E2, E3. auto 15.
  - right. destruct (ents_tog _ _ _ _ _ _ H Hk) as (ch' & L1 & L2 & E1 & E2 & E3 & E4 & E5 & ->).
    exists XLeaf, ch', L1, L2. simpl. rewrite E1, E2, E3. auto 15.
  - apply in_app_or in H. destruct H as [H|H]; [destruct o as [(m & y)|]; simpl in H; [destruct H as [H|[]]; injection H as <- <- <-; lia|destruct H]|].
    right. destruct (ents_tog _ _ _ _ _ _ H Hk) as (ch' & L1 & L2 & E1 & E2 & E3 & E4 & E5 & ->).
    exists (XRecv v o), ch', (oe o ++ L1), L2. simpl. rewrite E1, E2, E3, <- !app_assoc. auto 15.
  - apply in_app_or in H. destruct H as [H|H]; [destruct o as [(m & y)|]; simpl in H; [destruct H as [H|[]]; injection H as <- <- <-; lia|destruct H]|].
    right. destruct (ents_tog _ _ _ _ _ _ H Hk) as (ch' & L1 & L2 & E1 & E2 & E3 & E4 & E5 & ->).
    exists (XWake v o), ch', (oe o ++ L1), L2. simpl. rewrite E1, E2, E3, <- !app_assoc. auto 15.
  - apply in_app_or in H. destruct H as [H|[H|H]]; [destruct o as [(m & y)|]; simpl in H; [destruct H as [H|[]]; injection H as <- <- <-; lia|destruct H]| |].
    + injection H as <- <- <-. destruct i; [|simpl in Hk; lia]. right.
      exists (XEnd c p false v o), ch, (oe o), (ents (ACall c) None ch). simpl. auto 15.
    + right. destruct (ents_tog _ _ _ _ _ _ H Hk) as (ch' & L1 & L2 & E1 & E2 & E3 & E4 & E5 & ->).
      eexists (XEnd c p i v o), ch', (oe o ++ _ :: L1), L2. simpl. rewrite E1, E2, E3, <- !app_assoc. simpl. auto 15.
  - destruct H.
Qed.

(** ** Steps *)
Lemma obs_app a b : obs (a ++ b) = obs a ++ obs b.
Proof. apply filter_app. Qed.
Lemma dones_app a b : dones (a ++ b) = dones a ++ dones b.
Proof. unfold dones. now rewrite flat_map_app. Qed.
Lemma awaits_app a b : awaits (a ++ b) = awaits a + awaits b.
Proof. unfold awaits, starts, allocs. rewrite !flat_map_app, !app_length. lia. Qed.
Lemma th_len ths t (f : frame) st st' : nth_error ths t = Some (f :: st) ->
  length (concat (set_nth ths t (st' ++ st))) + 1 = length (concat ths) + length st'.
Proof.
  intros H. destruct (set_nth_split ths t (f :: st) (st' ++ st) H) as (l1 & l2 & -> & ->).
  rewrite !concat_app. cbn [concat]. rewrite <- !app_comm_cons, !app_length. cbn [length]. rewrite !app_length. lia.
Qed.
Lemma mk_inv p0 cs ths t f st st' a ch tr es a0 lc0 :
  length (concat ths) + bud a0 lc0 <= 1 + minus a0 + 5 * awaits tr ->
  nth_error ths t = Some (f :: st) -> tails ths -> (forall g, In g (tl st') -> tailok g) ->
  Tab cs (concat (set_nth ths t (st' ++ st))) (live a ch) -> mains (concat (set_nth ths t (st' ++ st))) = mf a (map fst ch) ->
  awf a (map fst ch) -> sp p0 a (map fst ch) (obs tr ++ obs es) (dones tr ++ dones es) ->
  length st' + 3 * length ch + plus a + minus a0 <= 1 + bud a0 lc0 + minus a + 5 * awaits es ->
  Inv p0 (KS cs (set_nth ths t (st' ++ st))) (tr ++ es).
Proof.
  intros HB Hn HT Hs HL HM HW HS Hes. exists a, ch. rewrite obs_app, dones_app. split; [exact HL|]. split; [exact HM|].
  split; [exact (th_tails _ _ _ _ _ HT Hn Hs)|]. split; [exact HW|]. split; [exact HS|].
  assert (E := th_len ths t f st st' Hn). cbn [k_ths]. rewrite awaits_app. unfold bud. rewrite map_length. lia.
Qed.
Lemma main_in ths t f st : nth_error ths t = Some (f :: st) -> ismain f = true -> In f (mains (concat ths)).
Proof.
  intros H Hf. apply filter_In. split; [|exact Hf]. apply in_concat. exists (f :: st). split; [exact (nth_error_In _ _ H)|now left].
Qed.
Lemma kc_in ths t n st : nth_error ths t = Some (KStart n :: st) -> 1 <= kc n (concat ths).
Proof.
  intros H. assert (E := th_kc n ths t (KStart n) st [] H). simpl in E. rewrite Nat.eqb_refl in E. unfold kc in E at 3. simpl in E. lia.
Qed.
Ltac rk := solve [left; reflexivity|right; left; discriminate|right; right; split; reflexivity].
Ltac blia := try match goal with |- _ <= _ => simpl; lia end.
Definition go (p0 : prog) (s : kst) (tr : list kevent) (r : outcome kst kevent) : Prop :=
  exists s' es, r = Next s' es /\ Inv p0 s' (tr ++ es).

Lemma exec_inv p0 s tr t f st : Inv p0 s tr -> nth_error (k_ths s) t = Some (f :: st) -> go p0 s tr (k_exec s t f st).
Proof.
  destruct s as [cs ths]. simpl. intros (a & ch & HT & HM & HTl & HW & HS & HB) Hn. simpl in *.
  assert (K : forall st' m, kc m (concat (set_nth ths t (st' ++ st))) + isk m f = kc m (concat ths) + kc m st')
    by (intros st' m; exact (th_kc m ths t f st st' Hn)).
  assert (MK := fun cs st' a' ch' es => mk_inv p0 cs ths t f st st' a' ch' tr es a (map fst ch) HB Hn HTl). unfold bud in MK. rewrite map_length in MK.
  destruct (ismain f) eqn:Hf.
  2:{ assert (Mo : forall st', mains st' = [] -> mains (concat (set_nth ths t (st' ++ st))) = mains (concat ths))
        by (intros st'; exact (th_other ths t f st st' Hn Hf)).
      destruct f as [| | | |n| | | | | |]; try discriminate Hf; simpl.
      - (* KLeaf *) eexists; eexists; split; [reflexivity|]. apply (MK cs [KDone] a ch []); simpl; try (rewrite !app_nil_r); blia; auto.
        + intros g [].
        + apply (Tab_th _ _ _ _ HT). intros m. assert (E := K [KDone] m). simpl in E. unfold kc in E at 3. simpl in E. lia.
        + exact (eq_trans (Mo [KDone] eq_refl) HM).
      - (* KStart *) assert (Hk := kc_in _ _ _ _ Hn).
        assert (Hin : In n (ids (live a ch))).
        { destruct (in_dec Nat.eq_dec n (ids (live a ch))) as [|Hno]; [assumption|]. destruct HT as (_ & _ & H3 & _). destruct (H3 _ Hno). lia. }
        destruct (ids_in _ _ Hin) as (x & k & Hx). assert (Hkc := Tab_kc _ _ _ _ _ _ HT Hx).
        destruct (live_tog a ch n x k Hx ltac:(lia)) as [(v & -> & -> & ->)|(a' & ch' & L1 & L2 & E1 & E2 & E3 & E4 & E5 & E6 & E7 & E8 & -> & Eplus & Eminus)].
        + erewrite (Tab_get cs _ _ n) by (try exact HT; try exact Hx; reflexivity). simpl.
          eexists; eexists; split; [reflexivity|]. apply (MK _ [KNote n] (XNote n v PastStart) ch []); simpl; try (rewrite !app_nil_r); blia; auto.
          * intros g [].
          * apply (Tab_upd cs (concat ths) _ [] (ents (ACall n) None ch) n _ 1 _ 0 HT).
            -- intros m Hm. assert (E := K [KNote n] m). simpl in E. unfold kc in E at 3. simpl in E.
               destruct (Nat.eqb_spec n m); [now subst|lia].
            -- assert (E := K [KNote n] n). simpl in E. unfold kc in E at 3. simpl in E. rewrite Nat.eqb_refl in E. simpl in E. lia.
            -- rk.
          * exact (th_start ths t _ st [KNote n] (KNote n) HTl Hn HM eq_refl).
        + rewrite (Tab_get cs _ _ n x 1 HT Hx E8). simpl. rewrite E7. rewrite E1 in HT.
          eexists; eexists; split; [reflexivity|]. apply (MK _ [KDone] a' ch' []); simpl; try (rewrite !app_nil_r); rewrite ?E3, ?Eplus, ?Eminus; auto.
          * intros g [].
          * rewrite E2. apply (Tab_upd cs (concat ths) _ L1 L2 n x 1 _ 0 HT).
            -- intros m Hm. assert (E := K [KDone] m). simpl in E. unfold kc in E at 3. simpl in E.
               destruct (Nat.eqb_spec n m); [now subst|lia].
            -- assert (E := K [KDone] n). simpl in E. unfold kc in E at 3. simpl in E. rewrite Nat.eqb_refl in E.
               lia.
            -- rk.
          * rewrite E4. exact (eq_trans (Mo [KDone] eq_refl) HM).
          * assert (El : length ch' = length ch) by (rewrite <- (map_length fst ch'), E3; apply map_length). rewrite El. simpl. lia.
      - (* KDone *) eexists; eexists; split; [reflexivity|]. apply (MK cs [] a ch []); simpl; try (rewrite !app_nil_r); blia; auto.
        + intros g [].
        + apply (Tab_th _ _ _ _ HT). intros m. assert (E := K [] m). simpl in E. unfold kc in E at 3. simpl in E. lia.
        + exact (eq_trans (Mo [] eq_refl) HM). }
  assert (Hone : mf a (map fst ch) = [f]).
  { assert (H := main_in _ _ _ _ Hn Hf). rewrite HM in H. destruct a; simpl in H |- *; try (destruct (map fst ch) as [|(c0 & k0) lc]);
      simpl in H; try contradiction; destruct H as [->|[]]; reflexivity. }
  rewrite Hone in HM.
  assert (Mm : forall st', mains (concat (set_nth ths t (st' ++ st))) = mains st')
    by (intros st'; exact (proj2 (th_main ths t f st st' f HTl Hn HM Hf))).
  assert (K0 : forall st', (forall m, kc m st' = 0) -> forall m, kc m (concat (set_nth ths t (st' ++ st))) = kc m (concat ths)).
  { intros st' H m. assert (E := K st' m). rewrite H in E. destruct f; try discriminate Hf; simpl in E; lia. }
  destruct a as [n p|n p i|n p i|n v i|n v|n v cf| |v o|v o|c p i v o|v]; simpl in Hone; try discriminate Hone.
  - (* XGo *) injection Hone as <-. simpl.
    destruct ch as [|((q & kk) & iq) ch]; [now contradiction HW|].
    erewrite (Tab_get cs _ _ n) by (try exact HT; try (simpl; left; reflexivity); reflexivity).
    unfold owner. simpl. erewrite (Tab_get cs _ _ q) by (try exact HT; try (simpl; right; left; reflexivity); reflexivity).
    simpl. rewrite Nat.eqb_refl.
    eexists; eexists; split; [reflexivity|]. apply (MK _ [KInit n; KStart n] (XInit n p true) (((q, kk), iq) :: ch) []); simpl; try (rewrite !app_nil_r); blia; auto.
    + intros g [<-|[]]. exact I.
    + assert (Ht := Tab_kc _ _ _ n _ 0 HT (or_introl eq_refl)).
      apply (Tab_upd cs (concat ths) _ [] _ n _ 0 _ 1 HT).
      * intros m Hm. assert (E := K [KInit n; KStart n] m). simpl in E. unfold kc in E at 3. simpl in E. destruct (Nat.eqb_spec n m); [now subst|lia].
      * assert (E := K [KInit n; KStart n] n). simpl in E. unfold kc in E at 3. simpl in E. rewrite Nat.eqb_refl in E. lia.
      * rk.
    + exact (Mm [KInit n; KStart n]).
  - (* XInit *) injection Hone as <-. simpl.
    erewrite (Tab_get cs _ _ n) by (try exact HT; try (simpl; left; reflexivity); reflexivity). simpl.
    eexists; eexists; split; [reflexivity|]. apply (MK _ [KBody n p] (XBody n p i) ch []); simpl; try (rewrite !app_nil_r); blia; auto.
    + intros g [].
    + assert (Ht := Tab_kc _ _ _ n _ _ HT (or_introl eq_refl)).
      destruct ch as [|((q & kk) & iq) ch]; [now contradiction HW|].
      assert (E := K0 [KBody n p] (fun _ => eq_refl)).
      apply (Tab_upd cs (concat ths) _ [] _ n _ (Nat.b2n i) _ (Nat.b2n i) HT); [intros m _; apply E|rewrite <- Ht; apply E|rk].
    + exact (Mm [KBody n p]).
  - (* XBody *) injection Hone as <-. simpl.
    erewrite (Tab_get cs _ _ n) by (try exact HT; try (simpl; left; reflexivity); reflexivity).
    assert (Ht := Tab_kc _ _ _ n _ _ HT (or_introl eq_refl)). destruct HS as [Hd HS].
    destruct p as [v|l k|p k|p k].
    + (* Ret *) destruct ch as [|((q & kk) & iq) ch]; simpl.
      * eexists; eexists; split; [reflexivity|]. apply (MK _ [KDone] (XDone v) [] [EDone v; EFree n]); simpl; blia; auto.
        -- intros g [].
        -- assert (i = false).
           { destruct HT as (_ & _ & _ & H4). specialize (H4 n _ _ (or_introl eq_refl) eq_refl). now destruct i. }
           subst i. apply (Tab_kill cs (concat ths) _ [] [] n _ _ HT); [split; reflexivity|]. exact (K0 [KDone] (fun _ => eq_refl)).
        -- exact (Mm [KDone]).
        -- rewrite Hd. split; [reflexivity|]. rewrite app_nil_r. exact (good_done _ _ _ HS).
      * unfold owner. simpl. erewrite (Tab_get cs _ _ q) by (try exact HT; try (simpl; right; left; reflexivity); reflexivity).
        simpl. rewrite Nat.eqb_refl.
        eexists; eexists; split; [reflexivity|]. apply (MK _ [KRet n] (XRet n v i) (((q, kk), iq) :: ch) []); simpl; try (rewrite !app_nil_r); blia; auto.
        -- intros g [].
        -- assert (E := K0 [KRet n] (fun _ => eq_refl)).
           apply (Tab_upd cs (concat ths) _ [] _ n _ (Nat.b2n i) _ (Nat.b2n i) HT); [intros m _; apply E|rewrite <- Ht; apply E|rk].
        -- exact (Mm [KRet n]).
        -- discriminate.
    + (* Leaf *) eexists; eexists; split; [reflexivity|]. apply (MK _ [KLeaf n; KDone] XLeaf (((n, k), i) :: ch) [EStart l]); simpl; blia; auto.
      * intros g [<-|[]]. exact I.
      * assert (E := K0 [KLeaf n; KDone] (fun _ => eq_refl)).
        apply (Tab_upd cs (concat ths) _ [] _ n _ (Nat.b2n i) _ (Nat.b2n i) HT); [intros m _; apply E|rewrite <- Ht; apply E|rk].
      * exact (Mm [KLeaf n; KDone]).
      * discriminate.
      * rewrite app_nil_r. split; [exact Hd|]. split; [exact (good_start _ _ _ _ _ HS)|]. split; [eauto|]. intros x. exact (good_leaf _ _ _ _ _ x HS).
    + (* Call *) eexists; eexists; split; [reflexivity|].
      apply (MK _ [KGo (length cs); KDone] (XGo (length cs) p) (((n, k), i) :: ch) [EAlloc (length cs)]); simpl; try (rewrite !app_nil_r); blia; auto.
      * intros g [<-|[]]. exact I.
      * assert (E := K0 [KGo (length cs); KDone] (fun _ => eq_refl)).
        assert (HT2 : Tab (set_nth cs n (set_st (set_aw (CO CRun (par (map fst ch)) (isn (map fst ch)) (fo i) None ANone None) (ACall (length cs)) None) (CSusp k)))
                  (concat (set_nth ths t (KGo (length cs) :: KDone :: st))) (ents (ACall (length cs)) None (((n, k), i) :: ch))).
        { apply (Tab_upd cs (concat ths) _ [] _ n _ (Nat.b2n i) _ (Nat.b2n i) HT); [intros m _; apply E|rewrite <- Ht; apply E|rk]. }
        assert (HT3 := Tab_new _ _ (concat (set_nth ths t (KGo (length cs) :: KDone :: st))) _ (CO (CInit p) (Some n) false Indet None ANone None) HT2 (fun _ => eq_refl)).
        rewrite set_nth_length in HT3. exact HT3.
      * exact (Mm [KGo (length cs); KDone]).
      * discriminate.
      * split; [exact Hd|]. exact (good_call _ _ _ _ _ HS).
    + (* Drop *) eexists; eexists; split; [reflexivity|].
      apply (MK _ [KBody n k] (XBody n k i) ch [EAlloc (length cs); EFree (length cs)]); simpl; try (rewrite !app_nil_r); blia; auto.
      * intros g [].
      * apply (Tab_dead cs (concat ths) _ _ _ HT); [split; reflexivity|]. exact (K0 [KBody n k] (fun _ => eq_refl)).
      * exact (Mm [KBody n k]).
      * split; [exact Hd|]. exact (good_drop _ _ _ _ _ HS).
  - (* XRet *) injection Hone as <-. simpl.
    assert (Ht := Tab_kc _ _ _ n _ _ HT (or_introl eq_refl)).
    erewrite (Tab_get cs _ _ n) by (try exact HT; try (simpl; left; reflexivity); reflexivity). simpl. destruct i; simpl.
    + eexists; eexists; split; [reflexivity|]. apply (MK _ [KDone] (XFinal n v) ch []); simpl; try (rewrite !app_nil_r); blia; auto.
      * intros g [].
      * assert (E := K0 [KDone] (fun _ => eq_refl)). simpl in Ht.
        apply (Tab_upd cs (concat ths) _ [] _ n _ 1 _ 1 HT); [intros m _; apply E|rewrite <- Ht; apply E|rk].
      * exact (Mm [KDone]).
    + eexists; eexists; split; [reflexivity|]. apply (MK _ [KNote n; KDone] (XNote n v PastSuspend) ch []); simpl; try (rewrite !app_nil_r); blia; auto.
      * intros g [<-|[]]. exact I.
      * assert (E := K0 [KNote n; KDone] (fun _ => eq_refl)). simpl in Ht.
        apply (Tab_upd cs (concat ths) _ [] _ n _ 0 _ 0 HT); [intros m _; apply E|rewrite <- Ht; apply E|rk].
      * exact (Mm [KNote n; KDone]).
  - (* XNote *) injection Hone as <-. simpl.
    destruct ch as [|((q & kk) & iq) ch]; [now contradiction HW|].
    erewrite (Tab_get cs _ _ n) by (try exact HT; try (simpl; left; reflexivity); reflexivity).
    unfold owner. simpl. erewrite (Tab_get cs _ _ q) by (try exact HT; try (simpl; right; left; reflexivity); reflexivity).
    simpl. rewrite Nat.eqb_refl.
    eexists; eexists; split; [reflexivity|].
    apply (MK _ [KRecv q v; KDone] (XRecv v (Some (n, CO CEnd (Some q) true cf (Some v) ANone None))) (((q, kk), iq) :: ch) []); simpl; try (rewrite !app_nil_r); blia; auto.
    + intros g [<-|[]]. exact I.
    + apply (Tab_th _ _ _ _ HT). exact (K0 [KRecv q v; KDone] (fun _ => eq_refl)).
    + exact (Mm [KRecv q v; KDone]).
  - (* XRecv *) destruct ch as [|((c & kk) & i) ch]; simpl in Hone; [discriminate|]. injection Hone as <-. simpl.
    assert (Hin : In (c, CO (CSusp kk) (par (map fst ch)) (isn (map fst ch)) (fo i) None (oaw o) None, Nat.b2n i) (live (XRecv v o) (((c, kk), i) :: ch)))
      by (simpl; apply in_or_app; right; now left).
    assert (Ht := Tab_kc _ _ _ _ _ _ HT Hin). rewrite (Tab_get _ _ _ _ _ _ HT Hin eq_refl). simpl.
    exists (KS (set_nth cs c (set_aw (CO (CSusp kk) (par (map fst ch)) (isn (map fst ch)) (fo i) None (oaw o) None) (oaw o) (Some v))) (set_nth ths t (KWake c :: st))), [].
    split; [destruct o as [(m & y)|]; reflexivity|].
    apply (MK _ [KWake c] (XWake v o) (((c, kk), i) :: ch) []); simpl; try (rewrite !app_nil_r); blia; auto.
    + intros g [].
    + assert (E := K0 [KWake c] (fun _ => eq_refl)).
      apply (Tab_upd cs (concat ths) _ (oe o) _ c _ (Nat.b2n i) _ (Nat.b2n i) HT); [intros m _; apply E|rewrite <- Ht; apply E|rk].
    + exact (Mm [KWake c]).
  - (* XWake *) destruct ch as [|((c & kk) & i) ch]; simpl in Hone; [discriminate|]. injection Hone as <-. simpl.
    assert (Hin : In (c, CO (CSusp kk) (par (map fst ch)) (isn (map fst ch)) (fo i) None (oaw o) (Some v), Nat.b2n i) (live (XWake v o) (((c, kk), i) :: ch)))
      by (simpl; apply in_or_app; right; now left).
    assert (Ht := Tab_kc _ _ _ _ _ _ HT Hin). rewrite (Tab_get _ _ _ _ _ _ HT Hin eq_refl). simpl.
    exists (KS (set_nth cs c (CO CRun (par (map fst ch)) (isn (map fst ch)) (fo i) None (oaw o) (Some v))) (set_nth ths t (KEnd c (kk v) :: KDone :: st))), [].
    split; [destruct o as [(m & y)|]; reflexivity|].
    apply (MK _ [KEnd c (kk v); KDone] (XEnd c (kk v) i v o) ch []); simpl; try (rewrite !app_nil_r); blia; auto.
    + intros g [<-|[]]. exact I.
    + assert (E := K0 [KEnd c (kk v); KDone] (fun _ => eq_refl)).
      apply (Tab_upd cs (concat ths) _ (oe o) _ c _ (Nat.b2n i) _ (Nat.b2n i) HT); [intros m _; apply E|rewrite <- Ht; apply E|rk].
    + exact (Mm [KEnd c (kk v); KDone]).
    + exact (proj2 HW).
    + destruct HS as [Hd HS]. split; [exact Hd|]. exact (good_ret _ _ _ _ _ HS).
  - (* XEnd *) injection Hone as <-. simpl.
    assert (Hin : In (c, CO CRun (par (map fst ch)) (isn (map fst ch)) (fo i) None (oaw o) (Some v), Nat.b2n i) (live (XEnd c p i v o) ch))
      by (simpl; apply in_or_app; right; now left).
    assert (Ht := Tab_kc _ _ _ _ _ _ HT Hin). rewrite (Tab_get _ _ _ _ _ _ HT Hin eq_refl). simpl.
    assert (E := K0 [KBody c p] (fun _ => eq_refl)).
    assert (HT2 : Tab (set_nth cs c (CO CRun (par (map fst ch)) (isn (map fst ch)) (fo i) None ANone None)) (concat (set_nth ths t (KBody c p :: st)))
                   (oe o ++ live (XBody c p i) ch)).
    { apply (Tab_upd cs (concat ths) _ (oe o) _ c _ (Nat.b2n i) _ (Nat.b2n i) HT); [intros m _; apply E|rewrite <- Ht; apply E|rk]. }
    destruct o as [(m & y)|]; simpl.
    + destruct HW as [Hy1 Hy2]. unfold set_aw. simpl.
      rewrite (Tab_get _ _ _ m y 0 HT2 (or_introl eq_refl)) by (unfold is_dead; now rewrite Hy1).
      rewrite Hy1. eexists; eexists; split; [reflexivity|].
      apply (MK _ [KBody c p] (XBody c p i) ch [EFree m]); simpl; try (rewrite !app_nil_r); blia; auto.
      * intros g [].
      * apply (Tab_kill _ _ _ [] _ m y _ HT2); [split; simpl; auto|reflexivity].
      * exact (Mm [KBody c p]).
    + eexists; eexists; split; [reflexivity|]. apply (MK _ [KBody c p] (XBody c p i) ch []); simpl; try (rewrite !app_nil_r); blia; auto.
      * intros g [].
      * exact (Mm [KBody c p]).
Qed.

Lemma good_value p0 k v ks o : good p0 (k v) ks o -> good p0 (Ret v) (k :: ks) o.
Proof.
  intros [H1 H2]. split; [intros t w H|intros t H]; inversion H; subst; clear H.
  - match goal with H : ret (Ret v) _ _ |- _ => inversion H; subst; clear H end. simpl. now apply H1.
  - match goal with H : pre (Ret v) _ |- _ => inversion H; subst; clear H end. apply H2. apply cpre_in. constructor.
  - match goal with H : ret (Ret v) _ _ |- _ => inversion H; subst; clear H end. simpl. now apply H2.
Qed.
Lemma ents_leaf n x k ch : forall aw res, In (n, x, k) (ents aw res ch) -> c_aw x = ALeaf false ->
  aw = ALeaf false /\ exists kk i ch', ch = ((n, kk), i) :: ch' /\ x = CO (CSusp kk) (par (map fst ch')) (isn (map fst ch')) (fo i) None aw res /\ k = Nat.b2n i.
Proof.
  induction ch as [|((c & kk) & i) ch IH]; intros aw res H Ha; simpl in H; [destruct H|]. destruct H as [H|H].
  - injection H as <- <- <-. simpl in Ha. split; [exact Ha|]. exists kk, i, ch. auto.
  - destruct (IH _ _ H Ha). discriminate.
Qed.
Lemma live_leaf a ch n x k : In (n, x, k) (live a ch) -> c_aw x = ALeaf false -> awf a (map fst ch) ->
  a = XLeaf /\ exists kk i ch', ch = ((n, kk), i) :: ch' /\ x = CO (CSusp kk) (par (map fst ch')) (isn (map fst ch')) (fo i) None (ALeaf false) None /\ k = Nat.b2n i.
Proof.
  intros H Ha HW.
  assert (Hoe : forall o : option (nat * coro), oend o -> In (n, x, k) (oe o) -> False).
  { intros [(m & y)|] Ho Hi; simpl in *; [|exact Hi]. destruct Hi as [Hi|[]]. injection Hi as _ -> _. destruct Ho. congruence. }
  assert (Hoa : forall o : option (nat * coro), oaw o <> ALeaf false) by (intros [(m & y)|]; discriminate).
  destruct a as [m p|m p i|m p i|m v i|m v|m v f| |v o|v o|c p i v o|v]; simpl in H.
  1-6: destruct H as [H|H]; [injection H as <- <- <-; discriminate Ha|destruct (ents_leaf _ _ _ _ _ _ H Ha); discriminate].
  - split; [reflexivity|]. exact (proj2 (ents_leaf _ _ _ _ _ _ H Ha)).
  - apply in_app_or in H. destruct H as [H|H]; [destruct (Hoe _ (proj2 HW) H)|]. destruct (ents_leaf _ _ _ _ _ _ H Ha) as [E _]. destruct (Hoa _ E).
  - apply in_app_or in H. destruct H as [H|H]; [destruct (Hoe _ (proj2 HW) H)|]. destruct (ents_leaf _ _ _ _ _ _ H Ha) as [E _]. destruct (Hoa _ E).
  - apply in_app_or in H. destruct H as [H|[H|H]]; [destruct (Hoe _ HW H)| |].
    + injection H as <- <- <-. destruct (Hoa _ Ha).
    + destruct (ents_leaf _ _ _ _ _ _ H Ha). discriminate.
  - destruct H.
Qed.

Lemma comp_inv p0 s tr c o v : Inv p0 s tr -> k_step s (LComp c o v) = Disabled \/ go p0 s tr (k_step s (LComp c o v)).
Proof.
  destruct s as [cs ths]. simpl. intros (a & ch & HT & HM & HTl & HW & HS & HB). simpl in *.
  destruct (nth_error cs c) as [x|] eqn:Hx; [|now left]. destruct (c_aw x) as [|[]|m] eqn:Ha; try (now left).
  assert (Hin : In c (ids (live a ch))).
  { destruct (in_dec Nat.eq_dec c (ids (live a ch))) as [|Hno]; [assumption|].
    destruct HT as (_ & _ & H3 & _). destruct (H3 _ Hno) as [_ H]. destruct (H _ Hx). congruence. }
  destruct (ids_in _ _ Hin) as (y & k & Hy). assert (y = x) by (destruct HT as (_ & H2 & _); destruct (H2 _ _ _ Hy); congruence). subst y.
  destruct (live_leaf _ _ _ _ _ Hy Ha HW) as (-> & kk & i & ch' & -> & -> & ->).
  assert (Ht := Tab_kc _ _ _ _ _ _ HT Hy). simpl. destruct HS as (Hd & Hp & Hl & HS).
  assert (HN : forall th', (forall m, kc m th' = kc m (concat ths)) ->
               Tab (set_nth cs c (set_aw (CO (CSusp kk) (par (map fst ch')) (isn (map fst ch')) (fo i) None (ALeaf false) None) (ALeaf true) None)) th'
                   (live (XRecv v None) (((c, kk), i) :: ch'))).
  { intros th' E. apply (Tab_upd cs (concat ths) _ [] _ c _ (Nat.b2n i) _ (Nat.b2n i) HT); [intros m _; apply E|rewrite <- Ht; apply E|rk]. }
  assert (HS2 : sp p0 (XRecv v None) (map fst (((c, kk), i) :: ch')) (obs tr ++ [EComp v]) (dones tr ++ [])).
  { simpl. rewrite app_nil_r. split; [exact Hd|]. apply good_value. apply HS. }
  destruct o as [t|].
  - destruct (nth_error ths t) as [[|f st]|] eqn:Hn; try (now left). destruct f; try (now left).
    destruct (Nat.eqb_spec c0 c) as [->|]; [|now left]. right. eexists; eexists; split; [reflexivity|].
    apply (mk_inv p0 _ ths t (KLeaf c) st [KRecv c v; KDone] (XRecv v None) (((c, kk), i) :: ch') tr [EComp v] _ _ HB Hn HTl).
    + intros g [<-|[]]. exact I.
    + apply HN. intros m. assert (E := th_kc m ths t (KLeaf c) st [KRecv c v; KDone] Hn). simpl in E |- *. unfold kc in E at 3. simpl in E. lia.
    + exact (th_start ths t _ st [KRecv c v; KDone] _ HTl Hn HM eq_refl).
    + split; [discriminate|exact I].
    + exact HS2.
    + unfold bud. simpl. rewrite map_length. lia.
  - right. eexists; eexists; split; [reflexivity|]. exists (XRecv v None), (((c, kk), i) :: ch'). cbn [k_cs k_ths].
    assert (E : concat (ths ++ [[KRecv c v]]) = concat ths ++ [KRecv c v]) by (rewrite concat_app; simpl; reflexivity).
    split; [apply HN; intros m; rewrite E, kc_app; unfold kc at 2; simpl; lia|].
    split; [rewrite E, mains_app, HM; reflexivity|].
    split; [intros st Hst; apply in_app_or in Hst; destruct Hst as [Hst|[<-|[]]]; [exact (HTl _ Hst)|intros f []]|].
    split; [split; [discriminate|exact I]|]. rewrite obs_app, dones_app, E, app_length, awaits_app. split; [exact HS2|].
    unfold bud in *. simpl in *. lia.
Qed.

Lemma step_inv p0 s tr l : Inv p0 s tr -> k_step s l = Disabled \/ go p0 s tr (k_step s l).
Proof.
  intros HI. destruct l as [t|c o v]; [|apply comp_inv, HI]. unfold k_step. destruct (nth_error (k_ths s) t) as [[|f st]|] eqn:Hn; auto.
  right. exact (exec_inv p0 s tr t f st HI Hn).
Qed.
Lemma init_inv p : Inv p (k_init p) [].
Proof.
  exists (XBody 0 p false), []. simpl. split; [|split; [reflexivity|split; [|split; [exact I|split; [split; [reflexivity|exact (good_init p)]|unfold bud; simpl; lia]]]]].
  - split; [repeat constructor; auto|]. split; [|split].
    + intros n x k [H|[]]. injection H as <- <- <-. auto.
    + intros n H. split; [reflexivity|]. intros x Hx. destruct n as [|[|n]]; simpl in Hx; try discriminate. exfalso. apply H. now left.
    + intros n x k [H|[]] _. now injection H as _ _ <-.
  - intros st [<-|[]] f [].
Qed.
Lemma coro_inv p ls s tr : run k_step (k_init p) ls = Running s tr -> Inv p s tr.
Proof.
  revert ls s tr. apply run_inv; [exact (init_inv p)|]. intros s tr l s' es HI Hs.
  destruct (step_inv p s tr l HI) as [H|(s2 & es2 & H & H2)]; rewrite Hs in H; [discriminate|]. now injection H as <- <-.
Qed.
Lemma coro_safe p ls f tr : run k_step (k_init p) ls <> Failed f tr.
Proof.
  revert ls f tr. apply (run_safe k_step (Inv p)); [exact (init_inv p)| |].
  - intros s tr l s' es HI Hs. destruct (step_inv p s tr l HI) as [H|(s2 & es2 & H & H2)]; rewrite Hs in H; [discriminate|]. now injection H as <- <-.
  - intros s tr l f es HI Hs. destruct (step_inv p s tr l HI) as [H|(s2 & es2 & H & H2)]; rewrite Hs in H; discriminate.
Qed.
Lemma coro_pre p ls s tr : run k_step (k_init p) ls = Running s tr -> pre p (obs tr).
Proof.
  intros H. destruct (coro_inv _ _ _ _ H) as (a & ch & HT & HM & HTl & HW & HS & HB).
  destruct a; simpl in HS; try (exact (good_pre _ _ _ _ (proj2 HS))); [|exact (ret_pre _ _ _ (proj2 HS))].
  destruct (map fst ch) as [|(c & k) lc]; [destruct HS|]. tauto.
Qed.
Lemma coro_value p ls s tr : run k_step (k_init p) ls = Running s tr -> dones tr = [] \/ exists v, dones tr = [v] /\ ret p (obs tr) v.
Proof.
  intros H. destruct (coro_inv _ _ _ _ H) as (a & ch & HT & HM & HTl & HW & HS & HB).
  destruct a; simpl in HS; try (left; exact (proj1 HS)); [|right; eauto].
  destruct (map fst ch) as [|(c & k) lc]; [destruct HS|]. tauto.
Qed.
Lemma coro_quiet p ls s tr : run k_step (k_init p) ls = Running s tr -> k_quiet s ->
  (exists v, dones tr = [v]) \/
  (exists l t c, obs tr = t ++ [EStart l] /\ forall v, exists s', k_step s (LComp c None v) = Next s' [EComp v]).
Proof.
  intros H Hq. destruct (coro_inv _ _ _ _ H) as (a & ch & HT & HM & HTl & HW & HS & HB).
  assert (E : concat (k_ths s) = []).
  { revert Hq. unfold k_quiet. clear. induction (k_ths s) as [|st l IH]; intros Hq; [reflexivity|]. simpl.
    rewrite (Hq st) by now left. apply IH. intros st' H'. apply Hq. now right. }
  destruct a as [| | | |n v| | |v o|v o| |v]; simpl in *; rewrite E in HM; try discriminate HM.
  - assert (Hk := Tab_kc _ _ _ n _ 1 HT (or_introl eq_refl)). rewrite E in Hk. discriminate.
  - right. destruct ch as [|((c & k) & i) ch]; [destruct HS|]. destruct HS as (_ & _ & (l & t & E2) & _). exists l, t, c. split; [exact E2|].
    intros v. destruct HT as (_ & H2 & _). destruct (H2 c _ _ (or_introl eq_refl)) as [-> _]. simpl. eexists. reflexivity.
  - destruct (map fst ch) as [|(c & k) lc]; [destruct HW; congruence|discriminate].
  - destruct (map fst ch) as [|(c & k) lc]; [destruct HW; congruence|discriminate].
  - left. exists v. tauto.
Qed.
Lemma coro_moves p ls s tr t f st : run k_step (k_init p) ls = Running s tr -> nth_error (k_ths s) t = Some (f :: st) ->
  exists s' es, k_step s (LStep t) = Next s' es.
Proof.
  intros H Hn. destruct (exec_inv p s tr t f st (coro_inv _ _ _ _ H) Hn) as (s' & es & E & _). exists s', es. unfold k_step. now rewrite Hn.
Qed.
Lemma coro_one p ls s tr t1 t2 : run k_step (k_init p) ls = Running s tr -> runs s t1 -> runs s t2 -> t1 = t2.
Proof.
  intros H (c1 & p1 & st1 & H1) (c2 & p2 & st2 & H2). destruct (Nat.eq_dec t1 t2) as [|Hne]; [assumption|exfalso].
  destruct (coro_inv _ _ _ _ H) as (a & ch & HT & HM & HTl & HW & HS & HB).
  assert (Hg : exists g, mains (concat (k_ths s)) = [g]).
  { assert (Hi := main_in _ _ _ _ H1 eq_refl). rewrite HM in Hi |- *. destruct a; simpl in Hi |- *; try (destruct (map fst ch) as [|(c & k) lc]);
      try contradiction; eauto. }
  destruct Hg as [g Hg].
  assert (E := proj2 (th_main _ t1 _ st1 [] g HTl H1 Hg eq_refl)). simpl in E.
  assert (Hi : In (KBody c2 p2) (mains (concat (set_nth (k_ths s) t1 st1)))).
  { apply (main_in _ t2 _ st2); [|reflexivity]. rewrite nth_error_set_nth_other; auto. }
  rewrite E in Hi. destruct Hi.
Qed.

(** ** Lifetimes of coroutine frames *)
Definition FI (cs : list coro) (tr : list kevent) : Prop :=
  cs <> [] /\ allocs tr = seq 1 (length cs - 1) /\
  (forall n x, nth_error cs n = Some x -> cnt n (frees tr) = if is_dead x then 1 else 0) /\
  (forall n, length cs <= n -> cnt n (frees tr) = 0).
Lemma allocs_app a b : allocs (a ++ b) = allocs a ++ allocs b.
Proof. unfold allocs. now rewrite flat_map_app. Qed.
Lemma frees_app a b : frees (a ++ b) = frees a ++ frees b.
Proof. unfold frees. now rewrite flat_map_app. Qed.
Lemma get_nth cs n x : get cs n = Some x -> nth_error cs n = Some x /\ is_dead x = false.
Proof. unfold get. destruct (nth_error cs n) as [y|]; [|discriminate]. destruct (is_dead y) eqn:E; [discriminate|]. intros [= ->]. auto. Qed.
Lemma set_nth_nil {A} (l : list A) i x : l <> [] -> set_nth l i x <> [].
Proof. destruct l, i; simpl; congruence. Qed.
Lemma FI_upd cs tr es n x x' : FI cs tr -> get cs n = Some x -> is_dead x' = false -> allocs es = [] -> frees es = [] -> FI (set_nth cs n x') (tr ++ es).
Proof.
  intros (H0 & H1 & H2 & H3) Hg Hd Ea Ef. destruct (get_nth _ _ _ Hg) as [Hn Hx]. split; [now apply set_nth_nil|].
  rewrite allocs_app, frees_app, Ea, Ef, !app_nil_r, set_nth_length. split; [exact H1|]. split; [|exact H3].
  intros m y Hy. destruct (Nat.eq_dec m n) as [->|Hm].
  - rewrite (nth_error_set_nth_same _ _ _ _ Hn) in Hy. injection Hy as <-. rewrite (H2 _ _ Hn), Hx, Hd. reflexivity.
  - rewrite nth_error_set_nth_other in Hy by auto. exact (H2 _ _ Hy).
Qed.
Lemma FI_kill cs tr es n x x' : FI cs tr -> get cs n = Some x -> is_dead x' = true -> allocs es = [] -> frees es = [n] -> FI (set_nth cs n x') (tr ++ es).
Proof.
  intros (H0 & H1 & H2 & H3) Hg Hd Ea Ef. destruct (get_nth _ _ _ Hg) as [Hn Hx]. split; [now apply set_nth_nil|].
  rewrite allocs_app, frees_app, Ea, Ef, !app_nil_r, set_nth_length. split; [exact H1|].
  assert (Ho : forall m, m <> n -> cnt m (frees tr ++ [n]) = cnt m (frees tr)).
  { intros m Hm. rewrite cnt_app, cnt_cons, cnt_nil. destruct (Nat.eq_dec n m); [congruence|lia]. }
  split.
  - intros m y Hy. destruct (Nat.eq_dec m n) as [->|Hm].
    + rewrite (nth_error_set_nth_same _ _ _ _ Hn) in Hy. injection Hy as <-. rewrite Hd, cnt_app, (H2 _ _ Hn), Hx, cnt_cons, cnt_nil.
      destruct (Nat.eq_dec n n); [reflexivity|congruence].
    + rewrite nth_error_set_nth_other in Hy by auto. rewrite Ho by auto. exact (H2 _ _ Hy).
  - intros m Hm. assert (n < length cs) by (apply nth_error_Some; congruence). rewrite Ho by lia. exact (H3 _ Hm).
Qed.
Lemma FI_new cs tr es x : FI cs tr -> allocs es = [length cs] -> frees es = (if is_dead x then [length cs] else []) -> FI (cs ++ [x]) (tr ++ es).
Proof.
  intros (H0 & H1 & H2 & H3) Ea Ef. split; [destruct cs; discriminate|].
  rewrite allocs_app, frees_app, Ea, Ef, H1, app_length. cbn [length]. split.
  { destruct cs as [|y cs]; [contradiction|]. cbn [length].
    replace (S (length cs) + 1 - 1) with (S (length cs)) by lia. replace (S (length cs) - 1) with (length cs) by lia. now rewrite seq_S. }
  assert (Ho : forall m, m <> length cs -> cnt m (frees tr ++ (if is_dead x then [length cs] else [])) = cnt m (frees tr)).
  { intros m Hm. destruct (is_dead x); [|now rewrite app_nil_r]. rewrite cnt_app, cnt_cons, cnt_nil. destruct (Nat.eq_dec (length cs) m); [congruence|lia]. }
  split.
  - intros m y Hy. destruct (Nat.eq_dec m (length cs)) as [->|Hm].
    + rewrite nth_error_app2, Nat.sub_diag in Hy by lia. injection Hy as <-. rewrite cnt_app, H3 by lia.
      destruct (is_dead x); [|reflexivity]. rewrite cnt_cons, cnt_nil. destruct (Nat.eq_dec (length cs) (length cs)); [reflexivity|congruence].
    + assert (m < length (cs ++ [x])) by (apply nth_error_Some; congruence). rewrite app_length in *. simpl in *.
      rewrite nth_error_app1 in Hy by lia. rewrite Ho by auto. exact (H2 _ _ Hy).
  - intros m Hm. rewrite Ho by lia. apply H3. lia.
Qed.
Lemma FI_same cs tr es : FI cs tr -> allocs es = [] -> frees es = [] -> FI cs (tr ++ es).
Proof. intros (H0 & H1 & H2 & H3) Ea Ef. unfold FI. rewrite allocs_app, frees_app, Ea, Ef, !app_nil_r. auto. Qed.
Lemma is_dead_st x st : is_dead (set_st x st) = match st with CDead => true | _ => false end.
Proof. reflexivity. Qed.

Lemma FI_run p ls s tr : run k_step (k_init p) ls = Running s tr -> FI (k_cs s) tr.
Proof.
  revert ls s tr. apply (run_inv k_step (fun s tr => FI (k_cs s) tr)).
  { split; [discriminate|]. split; [reflexivity|]. split; intros n; [|reflexivity]. intros x H. destruct n as [|[|n]]; simpl in H; try discriminate. now injection H as <-. }
  intros [cs ths] tr l s' es HF Hs. simpl in HF. destruct l as [t|c o v]; simpl in Hs.
  2:{ destruct (nth_error cs c) as [x|] eqn:Hx; [|discriminate]. destruct (c_aw x) as [|[]|] eqn:Ha; try discriminate.
      destruct (is_dead x) eqn:Hd; [discriminate|].
      assert (Hg : get cs c = Some x) by (unfold get; now rewrite Hx, Hd).
      assert (HF2 := FI_upd cs tr [EComp v] c x (set_aw x (ALeaf true) (c_res x)) HF Hg Hd eq_refl eq_refl).
      destruct o as [t|]; [|injection Hs as <- <-; exact HF2].
      destruct (nth_error ths t) as [[|[] st]|]; try discriminate. destruct (Nat.eqb _ _); [|discriminate]. injection Hs as <- <-. exact HF2. }
  destruct (nth_error ths t) as [[|f st]|] eqn:Hn; try discriminate. unfold k_exec in Hs.
  destruct f as [c p0|c|n|n|n|n|n|c v|c|c p0|].
  - destruct (get cs c) as [x|] eqn:Hg; [|discriminate]. destruct (get_nth _ _ _ Hg) as [_ Hd]. destruct p0 as [v|l k|p1 k|p1 k].
    + destruct (c_par x).
      * destruct (c_cont x); [|discriminate]. destruct (owner cs x c); [|discriminate]. injection Hs as <- <-.
        apply (FI_upd _ _ _ _ _ _ HF Hg); reflexivity.
      * injection Hs as <- <-. apply (FI_kill _ _ _ _ _ _ HF Hg); reflexivity.
    + injection Hs as <- <-. apply (FI_upd _ _ _ _ _ _ HF Hg); reflexivity.
    + injection Hs as <- <-. simpl.
      assert (HF2 := FI_upd cs tr [] c x (set_st (set_aw x (ACall (length cs)) None) (CSusp k)) HF Hg eq_refl eq_refl eq_refl).
      rewrite app_nil_r in HF2. apply FI_new; [exact HF2|simpl; now rewrite set_nth_length|reflexivity].
    + injection Hs as <- <-. apply FI_new; [exact HF|reflexivity|reflexivity].
  - injection Hs as <- <-. apply FI_same; auto.
  - destruct (get cs n) as [x|] eqn:Hg; [|discriminate]. destruct (get_nth _ _ _ Hg) as [_ Hd]. destruct (owner cs x n); [|discriminate].
    injection Hs as <- <-. apply (FI_upd _ _ _ _ _ _ HF Hg); auto.
  - destruct (get cs n) as [x|] eqn:Hg; [|discriminate]. destruct (c_st x); try discriminate. destruct (c_cont x); [|discriminate].
    injection Hs as <- <-. apply (FI_upd _ _ _ _ _ _ HF Hg); auto.
  - destruct (get cs n) as [x|] eqn:Hg; [|discriminate]. destruct (get_nth _ _ _ Hg) as [_ Hd]. injection Hs as <- <-. apply (FI_upd _ _ _ _ _ _ HF Hg); auto.
  - destruct (get cs n) as [x|] eqn:Hg; [|discriminate]. injection Hs as <- <-. apply (FI_upd _ _ _ _ _ _ HF Hg); auto.
  - destruct (get cs n) as [x|] eqn:Hg; [|discriminate]. destruct (owner cs x n); [|discriminate]. destruct (c_val x); [|discriminate].
    injection Hs as <- <-. apply FI_same; auto.
  - destruct (get cs c) as [x|] eqn:Hg; [|discriminate]. destruct (get_nth _ _ _ Hg) as [_ Hd].
    destruct (c_aw x) eqn:Ha; try discriminate; injection Hs as <- <-; apply (FI_upd _ _ _ _ _ _ HF Hg); auto.
  - destruct (get cs c) as [x|] eqn:Hg; [|discriminate].
    destruct (c_st x) eqn:E1, (c_aw x) eqn:E2, (c_res x) eqn:E3; try discriminate; injection Hs as <- <-; apply (FI_upd _ _ _ _ _ _ HF Hg); auto.
  - destruct (get cs c) as [x|] eqn:Hg; [|discriminate]. destruct (get_nth _ _ _ Hg) as [_ Hd].
    assert (HF2 := FI_upd cs tr [] c x (set_aw x ANone None) HF Hg Hd eq_refl eq_refl). rewrite app_nil_r in HF2.
    destruct (c_aw x) as [|[]|m]; simpl in Hs; try discriminate.
    + injection Hs as <- <-. apply FI_same; auto.
    + destruct (get (set_nth cs c (set_aw x ANone None)) m) as [y|] eqn:Hgm; [|discriminate]. destruct (c_st y); try discriminate.
      injection Hs as <- <-. apply (FI_kill _ _ _ _ _ _ HF2 Hgm); reflexivity.
  - injection Hs as <- <-. apply FI_same; auto.
Qed.
Lemma coro_frees p ls s tr : run k_step (k_init p) ls = Running s tr ->
  NoDup (0 :: allocs tr) /\ NoDup (frees tr) /\ incl (frees tr) (0 :: allocs tr).
Proof.
  intros H. destruct (FI_run _ _ _ _ H) as (H0 & H1 & H2 & H3). rewrite H1.
  assert (E : 0 :: seq 1 (length (k_cs s) - 1) = seq 0 (length (k_cs s))).
  { destruct (k_cs s); [contradiction|]. simpl. now rewrite Nat.sub_0_r. }
  rewrite E. split; [apply seq_NoDup|]. split.
  - apply (NoDup_count_occ Nat.eq_dec). intros n. change (cnt n (frees tr) <= 1). destruct (nth_error (k_cs s) n) as [x|] eqn:Hx.
    + rewrite (H2 _ _ Hx). destruct (is_dead x); lia.
    + rewrite H3; [lia|]. now apply nth_error_None.
  - intros n Hn. apply in_seq. apply cnt_pos in Hn. destruct (le_lt_dec (length (k_cs s)) n) as [Hl|Hl]; [rewrite H3 in Hn; lia|lia].
Qed.
Lemma coro_leak p ls s tr v : run k_step (k_init p) ls = Running s tr -> In v (dones tr) -> incl (0 :: allocs tr) (frees tr).
Proof.
  intros H Hv. destruct (FI_run _ _ _ _ H) as (H0 & H1 & H2 & H3). rewrite H1.
  destruct (coro_inv _ _ _ _ H) as (a & ch & HT & HM & HTl & HW & HS & HB).
  assert (Ha : live a ch = []).
  { destruct a; simpl in HS; try solve [rewrite (proj1 HS) in Hv; destruct Hv]; [|reflexivity].
    destruct (map fst ch) as [|(c & k) lc]; [destruct HS|]. destruct HS as [E _]. rewrite E in Hv. destruct Hv. }
  rewrite Ha in HT. destruct HT as (_ & _ & HT & _).
  assert (E : 0 :: seq 1 (length (k_cs s) - 1) = seq 0 (length (k_cs s))).
  { destruct (k_cs s); [contradiction|]. simpl. now rewrite Nat.sub_0_r. }
  rewrite E. intros n Hn. apply in_seq in Hn. apply cnt_pos.
  destruct (nth_error (k_cs s) n) as [x|] eqn:Hx; [|apply nth_error_None in Hx; lia].
  destruct (HT n (fun f => f)) as [_ Hd]. destruct (Hd _ Hx) as [Hd' _]. rewrite (H2 _ _ Hx). unfold is_dead. rewrite Hd'. lia.
Qed.

(** ** The height of the call stacks *)
Lemma list_max_concat {A} (l : list (list A)) : list_max (map (@length A) l) <= length (concat l).
Proof. induction l as [|x l IH]; simpl; [lia|]. rewrite app_length. unfold list_max in *. lia. Qed.
Lemma coro_height p ls s tr : run k_step (k_init p) ls = Running s tr -> height s <= 1 + 5 * awaits tr.
Proof.
  intros H. destruct (coro_inv _ _ _ _ H) as (a & ch & HT & HM & HTl & HW & HS & HB).
  assert (E := list_max_concat (k_ths s)). unfold height.
  assert (minus a <= bud a (map fst ch)); [|lia].
  unfold bud. destruct a; simpl in *; try lia; destruct (map fst ch); simpl in *; try lia; try (now contradiction HW); destruct HW; congruence.
Qed.

(** A coroutine that awaits in an endless loop another coroutine, which returns at once; or a leaf *)
CoFixpoint calls : prog := Call (Ret 0) (fun _ => calls).
CoFixpoint leaves : prog := Leaf 0 (fun _ => leaves).
Definition frob (p : prog) : prog := match p with Ret v => Ret v | Leaf l k => Leaf l k | Call p k => Call p k | Drop p k => Drop p k end.
Lemma frob_eq p : p = frob p.
Proof. now destruct p. Qed.
Lemma calls_eq : calls = Call (Ret 0) (fun _ => calls).
Proof. rewrite (frob_eq calls) at 1. reflexivity. Qed.
Lemma leaves_eq : leaves = Leaf 0 (fun _ => leaves).
Proof. rewrite (frob_eq leaves) at 1. reflexivity. Qed.

Definition root : coro := CO CRun None false PastStart None ANone None.
Lemma nth_last {A} (l : list A) x : nth_error (l ++ [x]) (length l) = Some x.
Proof. rewrite nth_error_app2, Nat.sub_diag by lia. reflexivity. Qed.
Lemma set_last {A} (l : list A) x y : set_nth (l ++ [x]) (length l) y = l ++ [y].
Proof. induction l as [|z l IH]; simpl; [reflexivity|]. now rewrite IH. Qed.
Lemma get_last r D x : is_dead x = false -> get (r :: D ++ [x]) (S (length D)) = Some x.
Proof. intros H. unfold get. simpl. now rewrite nth_last, H. Qed.

Lemma run_cons s tr l ls s' es : k_step s l = Next s' es -> run_from k_step s tr (l :: ls) = run_from k_step s' (tr ++ es) ls.
Proof. intros H. simpl. now rewrite H. Qed.

Lemma calls_iter D st tr : exists D' tr', run_from k_step (KS (root :: D) [KBody 0 calls :: st]) tr (repeat (LStep 0) 11) =
  Running (KS (root :: D') [KBody 0 calls :: KDone :: KDone :: KDone :: st]) tr'.
Proof.
  eexists; eexists. cbn [repeat].
  rewrite calls_eq at 1.
  erewrite run_cons by reflexivity. cbn [set_nth app].
  do 10 (erewrite run_cons by (simpl; unfold owner, get; simpl; rewrite ?nth_last; simpl; rewrite ?nth_last, ?Nat.eqb_refl; reflexivity); cbn [set_nth app set_st set_cont set_val set_cfp c_st c_par c_cont c_cfp c_val c_aw c_res length]; rewrite ?set_last).
  reflexivity.
Qed.
Lemma leaves_iter st tr : exists tr', run_from k_step (KS [root] [KBody 0 leaves :: st]) tr [LStep 0; LComp 0 (Some 0) 0; LStep 0; LStep 0; LStep 0] =
  Running (KS [root] [KBody 0 leaves :: KDone :: KDone :: KDone :: st]) tr'.
Proof. eexists. rewrite leaves_eq at 1. do 5 (erewrite run_cons by reflexivity; cbn [set_nth app]). reflexivity. Qed.
Lemma tall_from (p : prog) (it : list klabel) :
  (forall D st tr, exists D' tr', run_from k_step (KS (root :: D) [KBody 0 p :: st]) tr it = Running (KS (root :: D') [KBody 0 p :: KDone :: KDone :: KDone :: st]) tr') ->
  forall b, exists ls D st tr, run k_step (k_init p) ls = Running (KS (root :: D) [KBody 0 p :: st]) tr /\ b <= length st.
Proof.
  intros H. induction b as [|b (ls & D & st & tr & E & Hb)].
  - exists [], [], [], []. split; [reflexivity|]. simpl. lia.
  - destruct (H D st tr) as (D' & tr' & E'). exists (ls ++ it), D', (KDone :: KDone :: KDone :: st), tr'. split; [|simpl; lia].
    unfold run in *. rewrite run_from_app, E. exact E'.
Qed.
Lemma calls_tall b : exists ls s tr, run k_step (k_init calls) ls = Running s tr /\ b < height s /\ length (k_ths s) = 1.
Proof.
  destruct (tall_from calls _ calls_iter b) as (ls & D & st & tr & E & Hb). do 3 eexists. split; [exact E|]. split; [|reflexivity].
  unfold height. simpl. lia.
Qed.
Lemma leaves_tall b : exists ls s tr, run k_step (k_init leaves) ls = Running s tr /\ b < height s /\ length (k_ths s) = 1 /\ allocs tr = [].
Proof.
  assert (H : forall b, exists ls st tr, run k_step (k_init leaves) ls = Running (KS [root] [KBody 0 leaves :: st]) tr /\ b <= length st).
  { clear. induction b as [|b (ls & st & tr & E & Hb)].
    - exists [], [], []. split; [reflexivity|]. simpl. lia.
    - destruct (leaves_iter st tr) as (tr' & E'). do 3 eexists. split; [unfold run in *; rewrite run_from_app, E; exact E'|simpl; lia]. }
  destruct (H b) as (ls & st & tr & E & Hb). do 3 eexists. split; [exact E|]. split; [unfold height; simpl; lia|]. split; [reflexivity|].
  destruct (FI_run _ _ _ _ E) as (_ & H1 & _). exact H1.
Qed.
