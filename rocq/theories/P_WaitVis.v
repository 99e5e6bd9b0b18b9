(** The happens-before model of waits (M_WaitHB): what the code that runs after a notification sees. *)
From Coq Require Import List Arith Bool Lia.
From Verif Require Import Lts M_Wait S_Wait ListFacts P_WaitView P_Wait M_WaitHB S_WaitHB P_WaitKnow P_WaitHB.
Import ListNotations.

(** ** Happens-before is transitive *)
Definition closed (g : log) (v : hb) : Prop := forall i, In i v -> i < length g /\ incl (before g i) v.
Definition log_ok (g : log) : Prop := forall i a p, nth_error g i = Some (a, p) -> closed g p.
Definition mem_ok (m : mem) : Prop :=
  log_ok (m_log m) /\ closed (m_log m) (m_mu m) /\ (forall e, closed (m_log m) (m_ev m e)) /\ (forall o, closed (m_log m) (m_st m o)).

Lemma closed_nil g : closed g [].
Proof. intros i []. Qed.
Lemma closed_app g v w : closed g v -> closed g w -> closed g (v ++ w).
Proof. intros Hv Hw i Hi. apply in_app_or in Hi. destruct Hi as [Hi|Hi]; [destruct (Hv i Hi)|destruct (Hw i Hi)]; split; auto; [apply incl_appl|apply incl_appr]; auto. Qed.
Lemma closed_snoc g a v : closed g v -> closed (g ++ [a]) v.
Proof.
  intros Hv i Hi. destruct (Hv i Hi) as [Hl Hb]. split; [rewrite app_length; lia|]. unfold before in *. now rewrite nth_error_app1.
Qed.
Lemma closed_last g a v : closed g v -> closed (g ++ [(a, v)]) (length g :: v).
Proof.
  intros Hv i [<-|Hi].
  - split; [rewrite app_length; simpl; lia|]. unfold before. rewrite nth_error_snoc_last. apply incl_tl, incl_refl.
  - destruct (closed_snoc g (a, v) v Hv i Hi). split; auto. now apply incl_tl.
Qed.
Lemma log_ok_snoc g a v : log_ok g -> closed g v -> log_ok (g ++ [(a, v)]).
Proof.
  intros Hg Hv i b p Hi. apply nth_error_snoc in Hi. destruct Hi as [Hi|[-> [= -> ->]]]; apply closed_snoc; eauto.
Qed.
Lemma closed_closure g v : log_ok g -> closed g (closure g v).
Proof.
  intros Hg i Hi. unfold closure in *. set (w := filter (fun i => i <? length g) v) in *. apply in_app_or in Hi. destruct Hi as [Hi|Hi].
  - split; [apply filter_In in Hi; destruct Hi as [_ Hi]; now apply Nat.ltb_lt|].
    intros j Hj. apply in_or_app. right. apply in_flat_map. eauto.
  - apply in_flat_map in Hi. destruct Hi as (j & Hj & Hi).
    assert (Hc : closed g (before g j)) by (unfold before; destruct (nth_error g j) as [[a p]|] eqn:E; [eapply Hg; eauto|apply closed_nil]).
    destruct (Hc i Hi) as [Hl Hb]. split; auto. intros x Hx. apply in_or_app. right. apply in_flat_map. exists j. split; auto.
Qed.

Lemma exec1_ok acq rel m v a m' v' : mem_ok m -> closed (m_log m) v -> exec1 acq rel m v a = Some (m', v') -> mem_ok m' /\ closed (m_log m') v'.
Proof.
  intros (Hg & Hm & He & Hs) Hv Hx. destruct a as [| |e|e|o|o f|c os]; simpl in Hx.
  - injection Hx as <- <-. split; [split; auto|]. now apply closed_app.
  - injection Hx as <- <-. split; [split; simpl; auto|exact Hv].
  - injection Hx as <- <-. split; [split; auto|]. now apply closed_app.
  - injection Hx as <- <-. split; [|exact Hv]. split; [exact Hg|]. split; [exact Hm|]. split; [|exact Hs]. intros e'. simpl. unfold upd. destruct (e' =? e); auto.
  - injection Hx as <- <-. assert (Hv' : closed (m_log m) (if acq then v ++ m_st m o else v)) by (destruct acq; auto using closed_app).
    split; [|exact Hv']. split; [exact Hg|]. split; [exact Hm|]. split; [exact He|]. intros o'. simpl. destruct rel; auto. unfold upd. destruct (o' =? o); auto using closed_app.
  - destruct (ordered (m_log m) v o f); try discriminate. injection Hx as <- <-. simpl. split; [|now apply closed_last].
    split; [now apply log_ok_snoc|]. simpl. auto using closed_snoc.
  - injection Hx as <- <-. simpl. split; [|now apply closed_last]. split; [now apply log_ok_snoc|]. simpl. auto using closed_snoc.
Qed.

(** ** What a sequence of accesses does *)
Definition grows (m m' : mem) : Prop := forall i a, nth_error (m_log m) i = Some a -> nth_error (m_log m') i = Some a.
Lemma grows_closed m m' w : grows m m' -> closed (m_log m) w -> closed (m_log m') w.
Proof.
  intros Hg Hw i Hi. destruct (Hw i Hi) as [Hl Hb]. apply nth_error_Some in Hl. destruct (nth_error (m_log m) i) as [a|] eqn:E; [|congruence].
  pose proof (Hg _ _ E) as E'. split; [apply nth_error_Some; congruence|]. unfold before in *. now rewrite E', E in *.
Qed.

Lemma exec1_grows acq rel m v a m' v' : exec1 acq rel m v a = Some (m', v') -> grows m m' /\ incl v v'.
Proof.
  intros Hx. destruct a as [| |e|e|o|o f|c os]; simpl in Hx; try (destruct (ordered (m_log m) v o f); try discriminate); injection Hx as <- <-;
    try (split; [intros i b Hi; exact Hi|]); try apply incl_refl; try (now apply incl_appl, incl_refl);
    try (split; [intros i b Hi; now apply nth_error_snoc_old|apply incl_tl, incl_refl]).
  destruct acq; [apply incl_appl|]; apply incl_refl.
Qed.

(** the mutex of the primitive is unlocked only by a thread that locked it: *)
Fixpoint lockok (b : bool) (A : list act) : bool :=
  match A with
  | [] => negb b
  | ALock :: A' => negb b && lockok true A'
  | AUnlock :: A' => b && lockok false A'
  | _ :: A' => lockok b A'
  end.

Section Exec.
Variables acq rel : bool.
Notation exec := (exec acq rel).

Lemma exec_ok A : forall m v m' v', mem_ok m -> closed (m_log m) v -> exec m v A = Some (m', v') -> mem_ok m' /\ closed (m_log m') v'.
Proof.
  induction A as [|a A IH]; intros m v m' v' Hm Hv Hx; simpl in Hx; [injection Hx as <- <-; auto|].
  destruct (exec1 acq rel m v a) as [[m1 v1]|] eqn:E; try discriminate. destruct (exec1_ok _ _ _ _ _ _ _ Hm Hv E). eapply IH; eauto.
Qed.
Lemma exec_grows A : forall m v m' v', exec m v A = Some (m', v') -> grows m m' /\ incl v v'.
Proof.
  induction A as [|a A IH]; intros m v m' v' Hx; simpl in Hx; [injection Hx as <- <-; split; [intros i b Hi; exact Hi|apply incl_refl]|].
  destruct (exec1 acq rel m v a) as [[m1 v1]|] eqn:E; try discriminate. destruct (exec1_grows _ _ _ _ _ _ _ E) as [H1 H2].
  destruct (IH _ _ _ _ Hx) as [H3 H4]. split; [intros i b Hi; auto|]. eapply incl_tran; eauto.
Qed.
Lemma exec_mu A : forall b m v m' v', lockok b A = true -> (b = true -> incl (m_mu m) v) -> exec m v A = Some (m', v') ->
  incl (m_mu m) (m_mu m') /\ (b = true -> incl v (m_mu m')).
Proof.
  induction A as [|a A IH]; intros b m v m' v' Hl Hb Hx; simpl in Hx.
  - injection Hx as <- <-. simpl in Hl. destruct b; try discriminate. split; [apply incl_refl|discriminate].
  - destruct (exec1 acq rel m v a) as [[m1 v1]|] eqn:E; try discriminate.
    assert (Hsame : m_mu m1 = m_mu m -> lockok b A = true -> incl (m_mu m) (m_mu m') /\ (b = true -> incl v (m_mu m'))).
    { intros Hmu Hl'. destruct (exec1_grows _ _ _ _ _ _ _ E) as [_ Hv]. destruct (IH b m1 v1 m' v' Hl') as [H1 H2]; auto.
      - intros Hb'. rewrite Hmu. eapply incl_tran; eauto.
      - rewrite Hmu in H1. split; auto. intros Hb'. eapply incl_tran; eauto. }
    destruct a as [| |e|e|o|o f|c os]; simpl in E, Hl; try (destruct (ordered (m_log m) v o f); try discriminate); try injection E as <- <-; try (apply Hsame; auto; fail).
    + apply andb_prop in Hl. destruct Hl as [Hb' Hl]. destruct b; try discriminate. destruct (IH true m (v ++ m_mu m) m' v' Hl) as [H1 H2]; auto.
      { intros _. now apply incl_appr, incl_refl. } split; [exact H1|discriminate].
    + apply andb_prop in Hl. destruct Hl as [-> Hl]. specialize (Hb eq_refl).
      match type of Hx with exec ?m1 _ _ = _ => destruct (IH false m1 v m' v' Hl) as [H1 _]; auto; try discriminate end. simpl in H1.
      split; [eapply incl_tran; eauto|auto].
Qed.
Lemma exec_app A B m v : exec m v (A ++ B) = match exec m v A with Some (m1, v1) => exec m1 v1 B | None => None end.
Proof. revert m v. induction A as [|a A IH]; intros m v; simpl; auto. destruct (exec1 acq rel m v a) as [[m1 v1]|]; auto. Qed.
(** a touch leaves an entry in the log that knows what the thread knew *)
Lemma exec_touch A m v m' v' o f : exec m v A = Some (m', v') -> In (ATouch o f) A -> exists i p, nth_error (m_log m') i = Some (AObj o f, p) /\ incl v p.
Proof.
  intros Hx Hin. apply in_split in Hin. destruct Hin as (A1 & A2 & ->). rewrite exec_app in Hx.
  destruct (exec m v A1) as [[m1 v1]|] eqn:E; try discriminate. destruct (exec_grows _ _ _ _ _ E) as [_ Hv].
  cbn [M_WaitHB.exec exec1] in Hx. destruct (ordered (m_log m1) v1 o f); try discriminate. destruct (exec_grows _ _ _ _ _ Hx) as [Hg _].
  exists (length (m_log m1)), v1. split; [|exact Hv]. apply Hg. simpl. apply nth_error_snoc_last.
Qed.
End Exec.

Lemma lockok_map b (A : nat -> act) l B : (forall o, exists f, A o = ATouch o f) -> lockok b (map A l ++ B) = lockok b B.
Proof. intros HA. induction l as [|o l IH]; simpl; auto. destruct (HA o) as [f ->]. exact IH. Qed.

(** ** Runs *)
Section Runs.
Variable P : prim.
Variable W : laws P.
Variable eager : bool.
Variable T : tlaws P W.
Variable lk : PS P -> PL P -> bool.
Hypothesis lk_taken : forall ps l ps' tk es, lk ps l = false -> p_step P ps l = POk ps' tk es -> tk = [].

Notation hst := (hst P).
Notation hevent := (hevent P).
Notation hrun ls := (run (hstep P eager lk true true) (h_init P) ls).
Notation step := (step P eager).

Lemma acts_lockok (h : hst) l : lockok false (acts P lk h l) = true.
Proof.
  destruct l as [o t a v|o x|e v|k|k|pl v|o]; cbn [acts].
  - destruct (queued (h_s h) o a); cbn [app lockok negb andb]; [rewrite lockok_map by (intros; eexists; reflexivity)|]; reflexivity.
  - unfold path_acts. cbn [lockok]. destruct (get_pc x (c_op (h_s h) o)); try reflexivity; cbn [lockok]; try (destruct (o_tok (c_op (h_s h) o)) as [e|]; [|reflexivity]; cbn [lockok];
      destruct (e_req (c_ev (h_s h) e)); [reflexivity|]; rewrite lockok_map by (intros; eexists; reflexivity); reflexivity).
    destruct (p_try P (c_prim (h_s h)) o) as [ps [|]|f]; try reflexivity. cbn [negb andb]. rewrite lockok_map by (intros; eexists; reflexivity). reflexivity.
  - cbn [lockok]. rewrite lockok_map by (intros; eexists; reflexivity). reflexivity.
  - rewrite lockok_map by (intros; eexists; reflexivity). destruct (rest_of (c_cn (h_s h)) k); reflexivity.
  - rewrite lockok_map by (intros; eexists; reflexivity). destruct (rest_of (c_wk (h_s h)) k); reflexivity.
  - cbn [lockok]. destruct (lk (c_prim (h_s h)) pl); [|reflexivity]. cbn [lockok negb andb]. rewrite !lockok_map by (intros; eexists; reflexivity). reflexivity.
  - reflexivity.
Qed.

Definition views_ok (h : hst) : Prop :=
  (forall x o, closed (m_log (h_m h)) (h_v h x o)) /\ (forall w, In w (h_wk h) \/ In w (h_cn h) -> closed (m_log (h_m h)) w) /\
  (forall o, closed (m_log (h_m h)) (h_fin h o)).

Lemma tview_ok (h : hst) l : mem_ok (h_m h) -> views_ok h -> closed (m_log (h_m h)) (tview eager h l).
Proof.
  intros (Hg & _) (Hv & Hw & Hf). destruct l as [o t a v|o x|e v|k|k|pl v|o]; cbn [tview]; auto using closed_closure.
  - destruct (nth_in_or_default k (h_cn h) []) as [H| ->]; [auto|apply closed_nil].
  - destruct (nth_in_or_default k (h_wk h) []) as [H| ->]; [auto|apply closed_nil].
  - destruct eager; auto using closed_app.
Qed.

Lemma In_set_nth {A} (l : list A) k x y : In y (set_nth l k x) -> y = x \/ In y l.
Proof.
  revert k. induction l as [|z l IH]; intros [|k]; simpl; auto.
  - intros [<-|H]; auto.
  - intros [<-|H]; auto. destruct (IH _ H); auto.
Qed.

Lemma store_ok (h : hst) l s' b m' v : views_ok h -> grows (h_m h) m' -> closed (m_log m') v -> views_ok (store h l s' b m' v).
Proof.
  intros (Hv & Hw & Hf) Hg Hc. unfold views_ok. rewrite store_m.
  assert (Hv' : forall x o, closed (m_log m') (h_v h x o)) by eauto using grows_closed.
  assert (Hw' : forall w, In w (h_wk h) \/ In w (h_cn h) -> closed (m_log m') w) by eauto using grows_closed.
  assert (Hf' : forall o, closed (m_log m') (h_fin h o)) by eauto using grows_closed.
  assert (Hup : forall x o y o', closed (m_log m') (updp (h_v h) x o v y o')).
  { intros x o y o'. unfold updp. destruct (path_eqb y x); auto. unfold upd. destruct (o' =? o); auto. }
  destruct l as [o t a w|o x|e w|k|k|pl w|o]; cbn [store h_v h_wk h_cn h_fin]; (split; [|split]); auto.
  - intros o'. destruct b; auto. unfold upd. destruct (o' =? o); auto.
  - intros w' [H|H]; auto. apply in_app_or in H. destruct H as [H|[<-|[]]]; auto.
  - intros x o. destruct (rest_of (c_cn (h_s h)) k); auto.
  - intros w' [H|H]; auto. apply In_set_nth in H. destruct H as [->|H]; auto.
  - intros x o. destruct (rest_of (c_wk (h_s h)) k); auto.
  - intros w' [H|H]; auto. apply In_set_nth in H. destruct H as [->|H]; auto.
  - intros w' [H|H]; auto. apply in_app_or in H. destruct H as [H|[<-|[]]]; auto.
Qed.

(** An access of field f of operation o is recorded that knows d *)
Definition mark (m : mem) (o : nat) (f : fld) (d : nat) : Prop := exists i p, nth_error (m_log m) i = Some (AObj o f, p) /\ In d p.
Lemma mark_grows m m' o f d : grows m m' -> mark m o f d -> mark m' o f d.
Proof. intros Hg (i & p & Hi & Hd). exists i, p. auto. Qed.

(** The events at which operation o is accessed with the mutex locked *)
Definition locks (o : nat) (e : hevent) : Prop :=
  match e with HCall KLocked _ os => In o os | HE (EStart o' _ _) _ => o' = o | _ => False end.

Record VI (h : hst) (tr : list hevent) : Prop := {
  vi_m : mem_ok (h_m h);
  vi_v : views_ok h;
  vi_mu : forall d, locking_call d tr -> In d (m_mu (h_m h));
  vi_st : forall t1 e t2 o d, tr = t1 ++ e :: t2 -> locks o e -> locking_call d (t1 ++ [e]) -> mark (h_m h) o FSt d;
  vi_ev : forall d os o, In (HCall KCancel d os) tr -> In o os -> mark (h_m h) o FEvH d;
  vi_free : forall d os, In (HCall KFree d os) tr -> os = [] }.

Lemma app_cons_split {A} (t es t1 : list A) e t2 : t ++ es = t1 ++ e :: t2 ->
  (exists t2', t = t1 ++ e :: t2') \/ (exists t1', t1 = t ++ t1' /\ es = t1' ++ e :: t2).
Proof.
  revert t1. induction t as [|a t IH]; intros t1 H; simpl in H.
  - right. exists t1. auto.
  - destruct t1 as [|b t1]; simpl in H; injection H as -> H.
    + left. exists t. reflexivity.
    + destruct (IH _ H) as [(t2' & ->)|(t1' & -> & ->)]; [left; exists t2'|right; exists t1']; auto.
Qed.

Lemma new_call h l v bes c d os : In (HCall c d os) (call_event P lk h l ++ map (fun e => HE e v) bes) -> d = length (m_log (h_m h)) /\
  ((exists pl w, l = HPrim pl w /\ c = call_kind P lk (h_s h) pl /\ os = taken (h_s h) pl) \/ (exists e w, l = HCancel e w /\ c = KCancel /\ os = e_cbs (c_ev (h_s h) e))).
Proof.
  intros Hin. apply in_app_or in Hin. destruct Hin as [Hin|Hin]; [|apply in_map_iff in Hin; destruct Hin as (e & He & _); discriminate].
  destruct l as [o t a w|o x|e w|k|k|pl w|o]; try (destruct Hin; fail); destruct Hin as [[= <- <- <-]|[]]; split; eauto 10.
Qed.

Lemma start_event s l s' bes o t a : step s l = Next s' bes -> In (EStart o t a) bes -> l = LStart o t a.
Proof.
  intros Hs Hin. destruct l as [o' tok a'|o' x|e|k|k|pl|o']; simpl in Hs; unfold path_step in Hs;
  repeat match type of Hs with
  | context [match ?x with _ => _ end] => destruct x eqn:?; try discriminate
  end; injection Hs as <- <-; simpl in Hin; try tauto; try (destruct Hin as [[= ->]|[]]; fail); try (destruct Hin; discriminate);
  try (destruct Hin as [[= -> -> ->]|Hin]; [reflexivity|]); try (apply in_map_iff in Hin; destruct Hin as (? & ? & _); discriminate);
  destruct Hin as [Hin|[]]; discriminate.
Qed.

Lemma new_lock h l s' v bes e o : step (h_s h) (base l) = Next s' bes -> In e (call_event P lk h l ++ map (fun e => HE e v) bes) -> locks o e ->
  (exists t a w, l = HStart o t a w) \/ (exists pl w, l = HPrim pl w /\ lk (c_prim (h_s h)) pl = true /\ In o (taken (h_s h) pl)).
Proof.
  intros Hs Hin Hl. destruct e as [e w|c d os].
  - apply in_app_or in Hin. destruct Hin as [Hin|Hin]; [destruct l; simpl in Hin; try tauto; destruct Hin as [Hin|[]]; discriminate|].
    apply in_map_iff in Hin. destruct Hin as (e' & [= -> _] & Hin). destruct e as [o' t a| | | |]; try (destruct Hl; fail). simpl in Hl. subst o'.
    pose proof (start_event _ _ _ _ _ _ _ Hs Hin) as E. destruct l as [o' t' a' w'| | | | | |]; try discriminate. injection E as -> -> ->. left. eauto.
  - destruct (new_call _ _ _ _ _ _ _ Hin) as [_ [(pl & w & -> & -> & ->)|(e & w & -> & -> & ->)]]; [|destruct Hl].
    right. exists pl, w. unfold call_kind, locks in Hl. destruct (lk (c_prim (h_s h)) pl); [auto|destruct Hl].
Qed.

Lemma vi_step h tr l h' es : VI h tr -> hstep P eager lk true true h l = Next h' es -> VI h' (tr ++ es).
Proof.
  intros [Vm Vv Vmu Vst Vev Vfr] Hs. destruct (hstep_next _ _ _ _ _ _ _ _ _ Hs) as (s' & bes & m' & v & Hb & Hx & -> & ->).
  destruct (exec_ok _ _ _ _ _ _ _ Vm (tview_ok h l Vm Vv) Hx) as [Hm' Hv'].
  destruct (exec_grows _ _ _ _ _ _ _ Hx) as [Hg Hinc].
  destruct (exec_mu _ _ _ false _ _ _ _ (acts_lockok h l) ltac:(discriminate) Hx) as [Hmu _].
  assert (HD : forall d os, In (HCall KLocked d os) (call_event P lk h l ++ map (fun e => HE e v) bes) -> In d (m_mu m')).
  { intros d os Hin. destruct (new_call _ _ _ _ _ _ _ Hin) as [-> [(pl & w & -> & Hk & _)|(e & w & _ & Hk & _)]]; [|discriminate].
    unfold call_kind in Hk. destruct (lk (c_prim (h_s h)) pl) eqn:Hlk; try discriminate.
    cbn [acts] in Hx. rewrite Hlk in Hx. cbn [exec exec1] in Hx.
    match type of Hx with exec _ _ ?m1 ?v1 ?A = _ => destruct (exec_mu true true A true m1 v1 m' v) as [_ H2]; auto end.
    - rewrite !lockok_map by (intros; eexists; reflexivity). reflexivity.
    - intros _. cbn [m_mu]. apply incl_appr, incl_refl.
    - apply H2; [reflexivity|]. now left. }
  split; try rewrite store_m; auto.
  - now apply store_ok.
  - intros d (os & Hin). apply in_app_or in Hin. destruct Hin as [Hin|Hin]; [|eauto]. apply Hmu, Vmu. now exists os.
  - intros t1 e t2 o d Ht Hlo Hd. apply app_cons_split in Ht. destruct Ht as [(t2' & ->)|(t1' & -> & Hes)].
    + apply mark_grows with (1 := Hg). eapply Vst; eauto.
    + assert (Hd' : In d (m_mu (h_m h)) \/ exists os, In (HCall KLocked d os) (call_event P lk h l ++ map (fun e => HE e v) bes)).
      { destruct Hd as (os & Hd). rewrite <- app_assoc in Hd. apply in_app_or in Hd. destruct Hd as [Hd|Hd]; [left; apply Vmu; now exists os|].
        right. exists os. rewrite Hes. apply in_app_or in Hd. apply in_or_app. destruct Hd as [Hd|[->|[]]]; [auto|right; now left]. }
      assert (Hin : In e (call_event P lk h l ++ map (fun e => HE e v) bes)) by (rewrite Hes; apply in_or_app; right; now left).
      destruct (new_lock _ _ _ _ _ _ _ Hb Hin Hlo) as [(t & a & w & ->)|(pl & w & -> & Hlk & Ho)].
      * assert (Hdm : In d (m_mu (h_m h))).
        { destruct Hd' as [Hd'|(os & Hd')]; auto. destruct (new_call _ _ _ _ _ _ _ Hd') as [_ [(pl & w' & E & _)|(e' & w' & E & _)]]; discriminate. }
        cbn [acts] in Hx. change (exec true true (h_m h) (tview eager h (HStart o t a w)) ([ATouch o FNew; ATouch o (FUse PathL)] ++
          ALock :: [ATouch o FSt] ++ (if queued (h_s h) o a then map hook (h_q h ++ [o]) else []) ++ [AUnlock]) = Some (m', v)) in Hx.
        rewrite exec_app in Hx. destruct (exec true true (h_m h) (tview eager h (HStart o t a w)) [ATouch o FNew; ATouch o (FUse PathL)]) as [[m1 w1]|] eqn:E; try discriminate.
        assert (E' : m_mu m1 = m_mu (h_m h)).
        { cbn [exec exec1] in E. destruct (ordered _ _ o FNew); try discriminate. destruct (ordered _ _ o (FUse PathL)); try discriminate. now injection E as <- _. }
        cbn [exec exec1] in Hx. change (exec true true m1 (w1 ++ m_mu m1) ([ATouch o FSt] ++ (if queued (h_s h) o a then map hook (h_q h ++ [o]) else []) ++ [AUnlock]) = Some (m', v)) in Hx.
        destruct (exec_touch _ _ _ _ _ _ _ o FSt Hx) as (i & p & Hi & Hp); [now left|]. exists i, p. split; auto. apply Hp, in_or_app. right. now rewrite E'.
      * cbn [acts] in Hx. rewrite Hlk in Hx. cbn [exec exec1] in Hx.
        destruct (exec_touch _ _ _ _ _ _ _ o FSt Hx) as (i & p & Hi & Hp).
        { apply in_or_app. right. apply in_or_app. left. apply in_map_iff. eauto. }
        exists i, p. split; auto. apply Hp. apply in_or_app. destruct Hd' as [Hd'|(os & Hd')]; [right; exact Hd'|left].
        destruct (new_call _ _ _ _ _ _ _ Hd') as [-> _]. now left.
  - intros d os o Hin Ho. apply in_app_or in Hin. destruct Hin as [Hin|Hin]; [apply mark_grows with (1 := Hg); eauto|].
    destruct (new_call _ _ _ _ _ _ _ Hin) as [-> [(pl & w & -> & Hk & _)|(e & w & -> & _ & ->)]].
    { unfold call_kind in Hk. destruct (lk (c_prim (h_s h)) pl); discriminate. }
    cbn [acts] in Hx. cbn [exec exec1] in Hx. destruct (exec_touch _ _ _ _ _ _ _ o FEvH Hx) as (i & p & Hi & Hp).
    { apply in_or_app. left. apply in_map_iff. exists o. auto. }
    exists i, p. split; auto. apply Hp. apply in_or_app. left. now left.
  - intros d os Hin. apply in_app_or in Hin. destruct Hin as [Hin|Hin]; [eauto|].
    destruct (new_call _ _ _ _ _ _ _ Hin) as [-> [(pl & w & -> & Hk & ->)|(e & w & _ & Hk & _)]]; [|discriminate].
    unfold call_kind in Hk. destruct (lk (c_prim (h_s h)) pl) eqn:Hlk; try discriminate. unfold taken.
    destruct (p_step P (c_prim (h_s h)) pl) as [ps tk es'| |] eqn:Hp; auto. eapply lk_taken; eauto.
Qed.

Lemma vi_init : VI (h_init P) [].
Proof.
  split.
  - split; [intros i a p H; destruct i; discriminate|]. simpl. auto using closed_nil.
  - repeat split; try (intros; apply closed_nil); try (destruct H as [[]|[]]); destruct H.
  - intros d (os & []).
  - intros t1 e t2 o d H. destruct t1; discriminate.
  - intros d os o [].
  - intros d os [].
Qed.

(** Everything of o that was recorded before its receiver is notified is known then *)
Lemma notify_know h tr o x s' bes : HJ P W eager T h tr -> step (h_s h) (LPath o x) = Next s' bes -> notifies bes = true ->
  forall r, r = FSt \/ r = FEvH -> know (m_log (h_m h)) (h_v h x o) o r.
Proof.
  intros [HT HH] Hs Hn r Hr. destruct (hi_k P eager h HH o r) as (k & Hin & Hk).
  assert (Hpc : get_pc x (c_op (h_s h) o) = PResume \/ get_pc x (c_op (h_s h) o) = PFast).
  { simpl in Hs. unfold path_step in Hs. destruct (get_pc x (c_op (h_s h) o)) eqn:E; auto; exfalso; try discriminate Hs;
    repeat match type of Hs with context [match ?x with _ => _ end] => destruct x eqn:?; try discriminate end; injection Hs as <- <-; discriminate. }
  assert (Hkk : k_of x k = true) by (apply (RK_notify r x eager _ k Hr Hin); destruct x; exact Hpc).
  destruct x; simpl in Hkk, Hpc.
  - apply (Hk SL); auto. reflexivity.
  - apply (Hk SP); auto. left. split; [destruct Hpc as [-> | ->]; discriminate|reflexivity].
  - apply (Hk SC); auto. left. split; [destruct Hpc as [-> | ->]; discriminate|reflexivity].
Qed.

Lemma done_path s l s' bes o x : step s l = Next s' bes -> In (EDone o x) bes -> notifies bes = true /\ exists y, l = LPath o y.
Proof.
  intros Hs Hin. split.
  - unfold notifies. apply existsb_exists. exists (EDone o x). auto.
  - destruct l as [o' tok a'|o' y|e|k|k|pl|o']; simpl in Hs; unfold path_step in Hs;
    repeat match type of Hs with
    | context [match ?x with _ => _ end] => destruct x eqn:?; try discriminate
    end; injection Hs as <- <-; simpl in Hin; try tauto;
    try (destruct Hin as [[= -> _]|[]]; eauto; fail);
    try (destruct Hin as [Hin|Hin]; [discriminate|]); try tauto; try (apply in_map_iff in Hin; destruct Hin as (? & ? & _); discriminate).
Qed.

Lemma run_cut ls h tr t1 e t2 : hrun ls = Running h tr -> tr = t1 ++ e :: t2 ->
  exists ls1 l ls2 h1 t0 h2 es es1 es2, ls = ls1 ++ l :: ls2 /\ hrun ls1 = Running h1 t0 /\ hstep P eager lk true true h1 l = Next h2 es /\ es = es1 ++ e :: es2 /\ t1 = t0 ++ es1.
Proof.
  unfold run. assert (Hgen : forall ls h0 tr0, run_from (hstep P eager lk true true) h0 tr0 ls = Running h tr -> tr = t1 ++ e :: t2 -> (exists t2', tr0 = t1 ++ e :: t2') \/
    exists ls1 l ls2 h1 t0 h2 es es1 es2, ls = ls1 ++ l :: ls2 /\ run_from (hstep P eager lk true true) h0 tr0 ls1 = Running h1 t0 /\ hstep P eager lk true true h1 l = Next h2 es /\ es = es1 ++ e :: es2 /\ t1 = t0 ++ es1).
  { clear ls. induction ls as [|l ls IH]; intros h0 tr0 Hr He; simpl in Hr.
    - injection Hr as <- <-. left. eauto.
    - destruct (hstep P eager lk true true h0 l) as [h' es| |f es] eqn:Hs; try discriminate.
      destruct (IH _ _ Hr He) as [(t2' & Ht)|(ls1 & l1 & ls2 & h1 & t0 & h2 & es' & es1 & es2 & -> & H1 & H2 & H3 & H4)].
      + apply app_cons_split in Ht. destruct Ht as [Ht|(t1' & -> & ->)]; [left; exact Ht|]. right.
        exists [], l, ls, h0, tr0, h', (t1' ++ e :: t2'), t1', t2'. simpl. auto.
      + right. exists (l :: ls1), l1, ls2, h1, t0, h2, es', es1, es2. simpl. rewrite Hs. auto. }
  intros Hr He. destruct (Hgen ls _ _ Hr He) as [(t2' & H)|H]; [destruct t1; discriminate|exact H].
Qed.

Lemma done_cut ls h t1 o x v t2 : hrun ls = Running h (t1 ++ HE (EDone o x) v :: t2) -> exists ls1 h1 y s' m',
  hrun ls1 = Running h1 t1 /\ step (h_s h1) (LPath o y) = Next s' [EDone o x] /\ exec true true (h_m h1) (h_v h1 y o) (path_acts h1 o y) = Some (m', v).
Proof.
  intros Hr. destruct (run_cut _ _ _ _ _ _ Hr eq_refl) as (ls1 & l & ls2 & h1 & t0 & h2 & es & es1 & es2 & _ & H1 & Hs & Hes & ->).
  destruct (hstep_next _ _ _ _ _ _ _ _ _ Hs) as (s' & bes & m' & v' & Hb & Hx & -> & E).
  assert (Hin : In (EDone o x) bes /\ v' = v).
  { assert (Hi : In (HE (EDone o x) v) (call_event P lk h1 l ++ map (fun e => HE e v') bes)) by (rewrite <- E, Hes; apply in_or_app; right; now left).
    apply in_app_or in Hi. destruct Hi as [Hi|Hi]; [destruct l; simpl in Hi; try tauto; destruct Hi as [Hi|[]]; discriminate|].
    apply in_map_iff in Hi. destruct Hi as (e & [= -> ->] & Hi). auto. }
  destruct Hin as [Hin ->]. pose proof (step_done_only _ _ _ _ _ _ _ _ Hb Hin) as Hbes. destruct (done_path _ _ _ _ _ _ Hb Hin) as [Hn (y & Hl)].
  destruct l as [| o' y' | | | | |]; try discriminate. injection Hl as -> ->. cbn [call_event app] in E. subst bes. simpl in E. rewrite Hes in E.
  destruct es1 as [|e1 es1]; [|destruct es1; discriminate]. rewrite app_nil_r. exists ls1, h1, y, s', m'. auto.
Qed.

(** The three kinds of calls that happen before the notification of o *)
Lemma h_visible ls h t1 o x v t2 : hrun ls = Running h (t1 ++ HE (EDone o x) v :: t2) ->
  (forall c d os, In (HCall c d os) t1 -> In o os -> In d v) /\
  (forall d ta d' os tb, t1 = ta ++ HCall KLocked d' os :: tb -> In o os -> locking_call d ta -> In d v) /\
  (forall d ta t a w tb, t1 = ta ++ HE (EStart o t a) w :: tb -> locking_call d ta -> In d v).
Proof.
  intros Hr. destruct (done_cut _ _ _ _ _ _ _ Hr) as (ls1 & h1 & y & s' & m' & H1 & Hb & Hx).
  pose proof (hj_run P W eager T lk lk_taken _ _ _ H1) as HJ1.
  pose proof (run_inv _ VI _ vi_init vi_step _ _ _ H1) as VI1.
  assert (Hnone : forall c d os, In (HCall c d os) t1 -> In o os -> c = KLocked \/ c = KCancel).
  { intros [] d os Hc Ho; auto. rewrite (vi_free _ _ VI1 _ _ Hc) in Ho. destruct Ho. }
  assert (Hn : notifies [EDone (P := P) o x] = true) by reflexivity.
  pose proof (notify_know _ _ _ _ _ _ HJ1 Hb Hn) as HK.
  destruct (exec_grows _ _ _ _ _ _ _ Hx) as [Hg Hinc].
  assert (Hmark : forall r d, r = FSt \/ r = FEvH -> mark (h_m h1) o r d -> In d v).
  { intros r d Hr' (i & p & Hi & Hd). apply Hinc. pose proof (HK r Hr' i p Hi) as Hiv. destruct (vi_v _ _ VI1) as (Hv & _).
    destruct (Hv y o i Hiv) as [_ Hbef]. apply Hbef. unfold before. now rewrite Hi. }
  split; [|split].
  - intros c d os Hc Ho. destruct (Hnone _ _ _ Hc Ho) as [-> | ->].
    + apply (Hmark FSt); auto. apply in_split in Hc. destruct Hc as (ta & tb & ->). eapply (vi_st _ _ VI1); [reflexivity|exact Ho|].
      exists os. apply in_or_app. right. now left.
    + apply (Hmark FEvH); auto. eapply (vi_ev _ _ VI1); eauto.
  - intros d ta d' os tb -> Ho (os0 & Hd).
    apply (Hmark FSt); auto. eapply (vi_st _ _ VI1); [reflexivity|exact Ho|]. exists os0. apply in_or_app. auto.
  - intros d ta t a w tb -> (os0 & Hd). apply (Hmark FSt); auto. eapply (vi_st _ _ VI1); [reflexivity|reflexivity|]. exists os0. apply in_or_app. auto.
Qed.

(** ** A call that locks the mutex, and an operation that was not taken over or finished before *)
Definition live (s : cst P) (o : nat) : Prop := o_l (c_op s o) = PIdle \/ o_node (c_op s o) = NQueued.

Lemma idle_step s l s' es o : step s l = Next s' es -> o_l (c_op s o) = PIdle -> o_l (c_op s' o) = PIdle \/ exists t a, In (EStart o t a) es.
Proof.
  intros Hs Hl. destruct l as [o' t a|o' x|e|k|k|pl|o']; cbn [M_Wait.step] in Hs.
  - destruct (o_l (c_op s o')) eqn:Hl'; try discriminate. destruct (Nat.eq_dec o o') as [->|Hne].
    + right. exists t, a. destruct (p_start P (c_prim s) o' a); try discriminate; injection Hs as _ <-; now left.
    + left. destruct (p_start P (c_prim s) o' a); try discriminate; injection Hs as <- _; cbn [c_op]; now rewrite upd_other.
  - left. destruct (path_tok P _ _ _ _ _ Hs) as (_ & _ & _ & _ & Hop). destruct (Nat.eq_dec o o') as [->|Hne]; [|now rewrite Hop].
    destruct x; [unfold path_step in Hs; cbn [get_pc] in Hs; rewrite Hl in Hs; discriminate| |]; unfold path_step in Hs;
    (repeat match type of Hs with context [match ?x with _ => _ end] => destruct x eqn:?; try discriminate end; injection Hs as <- <-;
     try match goal with H : do_trans _ _ _ _ = Some _ |- _ => destruct (do_trans_spec _ _ _ _ _ H) as (?p & ? & ->) end;
     cbn [c_op with_op]; rewrite upd_same; exact Hl).
  - left. injection Hs as <- <-. exact Hl.
  - left. destruct (nth_error (c_cn s) k) as [lp|]; try discriminate. destruct (loop_ready o_c s lp); try discriminate.
    destruct (lp_rest lp) as [|o' rest]; try discriminate. destruct (negb (o_alive (c_op s o'))); try discriminate.
    destruct (o_c (c_op s o')); try discriminate. injection Hs as <- <-. cbn [c_op]. unfold upd. destruct (Nat.eqb_spec o o') as [->|]; exact Hl.
  - left. destruct (nth_error (c_wk s) k) as [lp|]; try discriminate. destruct (loop_ready o_p s lp); try discriminate.
    destruct (lp_rest lp) as [|o' rest]; try discriminate. destruct (negb (o_alive (c_op s o'))); try discriminate.
    destruct (o_p (c_op s o')); try discriminate. injection Hs as <- <-. cbn [c_op]. unfold upd. destruct (Nat.eqb_spec o o') as [->|]; exact Hl.
  - left. destruct (p_step P (c_prim s) pl) as [ps tk es'| |f es'] eqn:Hp; try discriminate. injection Hs as <- <-. cbn [c_op].
    destruct (memb o tk); exact Hl.
  - left. destruct (o_done (c_op s o') && o_alive (c_op s o') && (eager || all_ended (c_op s o'))); try discriminate. injection Hs as <- <-.
    cbn [c_op with_op]. unfold upd. destruct (Nat.eqb_spec o o') as [->|]; exact Hl.
Qed.

Lemma queued_step s l s' es o : step s l = Next s' es -> o_l (c_op s o) <> PIdle -> o_node (c_op s o) = NQueued ->
  o_node (c_op s' o) = NQueued \/ o_node (c_op s' o) = NCancelled \/ exists pl, l = LPrim pl /\ In o (taken s pl).
Proof.
  intros Hs Hl Hq. destruct l as [o' t a|o' x|e|k|k|pl|o']; cbn [M_Wait.step] in Hs.
  - destruct (o_l (c_op s o')) eqn:Hl'; try discriminate. destruct (Nat.eq_dec o o') as [->|Hne]; [congruence|].
    left. destruct (p_start P (c_prim s) o' a); try discriminate; injection Hs as <- _; cbn [c_op]; now rewrite upd_other.
  - destruct (path_tok P _ _ _ _ _ Hs) as (_ & _ & _ & _ & Hop). destruct (Nat.eq_dec o o') as [->|Hne]; [|left; now rewrite Hop].
    unfold path_step in Hs;
    repeat match type of Hs with context [match ?x with _ => _ end] => destruct x eqn:?; try discriminate end; injection Hs as <- <-;
    try match goal with H : do_trans _ _ _ _ = Some _ |- _ => destruct (do_trans_spec _ _ _ _ _ H) as (?p & ? & ->) end;
    cbn [c_op with_op]; rewrite upd_same, ?set_pc_node; cbn [set_done o_node]; auto; try (destruct b; auto).
  - left. injection Hs as <- <-. exact Hq.
  - left. destruct (nth_error (c_cn s) k) as [lp|]; try discriminate. destruct (loop_ready o_c s lp); try discriminate.
    destruct (lp_rest lp) as [|o' rest]; try discriminate. destruct (negb (o_alive (c_op s o'))); try discriminate.
    destruct (o_c (c_op s o')); try discriminate. injection Hs as <- <-. cbn [c_op]. unfold upd. destruct (Nat.eqb_spec o o') as [->|]; exact Hq.
  - left. destruct (nth_error (c_wk s) k) as [lp|]; try discriminate. destruct (loop_ready o_p s lp); try discriminate.
    destruct (lp_rest lp) as [|o' rest]; try discriminate. destruct (negb (o_alive (c_op s o'))); try discriminate.
    destruct (o_p (c_op s o')); try discriminate. injection Hs as <- <-. cbn [c_op]. unfold upd. destruct (Nat.eqb_spec o o') as [->|]; exact Hq.
  - destruct (p_step P (c_prim s) pl) as [ps tk es'| |f es'] eqn:Hp; try discriminate. injection Hs as <- <-. cbn [c_op].
    destruct (memb o tk) eqn:Hm; [right; right|left; exact Hq]. exists pl. split; [reflexivity|]. unfold taken. rewrite Hp. now apply memb_In.
  - left. destruct (o_done (c_op s o') && o_alive (c_op s o') && (eager || all_ended (c_op s o'))); try discriminate. injection Hs as <- <-.
    cbn [c_op with_op]. unfold upd. destruct (Nat.eqb_spec o o') as [->|]; exact Hq.
Qed.

Lemma taken_locks s pl o s' es : p_step P (c_prim s) pl = POk s' (taken s pl) es -> In o (taken s pl) -> lk (c_prim s) pl = true.
Proof.
  intros Hp Ho. destruct (lk (c_prim s) pl) eqn:Hlk; auto. rewrite (lk_taken _ _ _ _ _ Hlk Hp) in Ho. destruct Ho.
Qed.

Definition KI (o : nat) (h : hst) (tr : list hevent) : Prop :=
  (exists ls, hrun ls = Running h tr) /\
  forall ta d os tb, tr = ta ++ HCall KLocked d os :: tb -> exists ls1 ls2 h1, hrun ls1 = Running h1 ta /\ hrun (ls1 ++ ls2) = Running h tr /\
    (~ live (h_s h1) o \/ (exists tc e td, HCall KLocked d os :: tb = tc ++ e :: td /\ locks o e) \/ o_l (c_op (h_s h) o) = PIdle \/
     (o_l (c_op (h_s h) o) <> PIdle /\ (o_node (c_op (h_s h) o) = NQueued \/ o_node (c_op (h_s h) o) = NCancelled))).

Lemma ki_init o : KI o (h_init P) [].
Proof. split; [exists []; reflexivity|]. intros [|? ?] d os tb H; discriminate. Qed.

Lemma taken_event h l s' bes o pl v : step (h_s h) (base l) = Next s' bes -> base l = LPrim pl -> In o (taken (h_s h) pl) ->
  exists d e tb, call_event P lk h l ++ map (fun e => HE e v) bes = HCall KLocked d e :: tb /\ In o e.
Proof.
  intros Hs Hl Ho. destruct l as [| | | | |pl' w|]; try discriminate. injection Hl as ->. cbn [base M_Wait.step] in Hs.
  cbn [call_event app]. unfold call_kind. pose proof Ho as Ho'. unfold taken in Ho'.
  destruct (p_step P (c_prim (h_s h)) pl) as [ps tk es'| |f es'] eqn:Hp; try discriminate.
  assert (Hlk : lk (c_prim (h_s h)) pl = true) by (apply (taken_locks (h_s h) pl o ps es'); auto; unfold taken; now rewrite Hp).
  rewrite Hlk. eauto.
Qed.

Lemma ki_step o h tr l h' es : KI o h tr -> hstep P eager lk true true h l = Next h' es -> KI o h' (tr ++ es).
Proof.
  intros [(ls & Hr) HK] Hs. split.
  { exists (ls ++ [l]). unfold run in *. rewrite run_from_app, Hr. simpl. now rewrite Hs. }
  pose proof (hj_run P W eager T lk lk_taken _ _ _ Hr) as [HT HH].
  destruct (hstep_next _ _ _ _ _ _ _ _ _ Hs) as (s' & bes & m' & v & Hb & _ & -> & ->). rewrite store_s.
  pose proof (step_effect _ _ _ _ _ _ _ (proj1 (proj1 HT)) (JT_reliable _ _ _ _ _ _ HT) Hb) as Heff.
  assert (Hcase : o_l (c_op (h_s h) o) = PIdle \/ (o_l (c_op (h_s h) o) <> PIdle /\ (o_node (c_op (h_s h) o) = NQueued \/ o_node (c_op (h_s h) o) = NCancelled)) ->
    (exists tc e td, call_event P lk h l ++ map (fun e => HE e v) bes = tc ++ e :: td /\ locks o e) \/ o_l (c_op s' o) = PIdle \/
    (o_l (c_op s' o) <> PIdle /\ (o_node (c_op s' o) = NQueued \/ o_node (c_op s' o) = NCancelled))).
  { intros [Hi|[Hi Hn]].
    - destruct (idle_step _ _ _ _ _ Hb Hi) as [Hi'|(t & a & Hin)]; auto. left.
      assert (Hin' : In (HE (EStart o t a) v) (call_event P lk h l ++ map (fun e => HE e v) bes)) by (apply in_or_app; right; apply in_map_iff; eauto).
      apply in_split in Hin'. destruct Hin' as (tc & td & E). exists tc, (HE (EStart o t a) v), td. split; [exact E|reflexivity].
    - assert (Hi' : o_l (c_op s' o) <> PIdle).
      { pose proof (JT_step _ _ _ _ _ _ _ _ _ HT Hb) as [[_ (_ & HS' & _)] _]. destruct HT as [[_ (_ & HS & _)] _].
        apply HS'. rewrite starts_app. apply in_or_app. left. now apply HS. }
      destruct Hn as [Hn|Hn].
      + destruct (queued_step _ _ _ _ _ Hb Hi Hn) as [Hn'|[Hn'|(pl & Hl & Ho)]]; auto. left.
        destruct (taken_event h l s' bes o pl v Hb Hl Ho) as (d & e & tb & E & Hin). exists [], (HCall KLocked d e), tb. split; [exact E|exact Hin].
      + right. right. split; auto. right. eapply node_stays; eauto. }
  intros ta d os tb Ht. pose proof Ht as Ht0. apply app_cons_split in Ht. destruct Ht as [(tb' & ->)|(t1' & -> & Hes)].
  - rewrite <- app_assoc in Ht0. apply app_inv_head in Ht0. injection Ht0 as <-.
    destruct (HK ta d os tb' eq_refl) as (ls1 & ls2 & h1 & Hr1 & Hr2 & Hor). exists ls1, (ls2 ++ [l]), h1. split; [exact Hr1|].
    split; [rewrite app_assoc; unfold run in *; rewrite run_from_app, Hr2; simpl; now rewrite Hs|].
    destruct Hor as [Hor|[(tc & e & td & E & Hlo)|Hor]]; [now left| |].
    + right; left. exists tc, e, (td ++ call_event P lk h l ++ map (fun e => HE e v) bes). split; [|exact Hlo].
      change (HCall KLocked d os :: tb' ++ call_event P lk h l ++ map (fun e => HE e v) bes) with ((HCall KLocked d os :: tb') ++ call_event P lk h l ++ map (fun e => HE e v) bes).
      rewrite E. now rewrite <- app_assoc.
    + right. destruct (Hcase Hor) as [(tc & e & td & E & Hlo)|H]; [left|right; exact H].
      exists (HCall KLocked d os :: tb' ++ tc), e, td. split; [|exact Hlo]. rewrite E. simpl. now rewrite <- app_assoc.
  - assert (Hc : t1' = []).
    { destruct l as [| |e w| | |pl w|]; cbn [call_event app] in Hes;
      try (exfalso; assert (Hin : In (HCall KLocked d os) (map (fun e => HE e v) bes)) by (rewrite Hes; apply in_or_app; right; now left); apply in_map_iff in Hin; destruct Hin as (? & ? & _); discriminate);
      (destruct t1' as [|e1 t1']; [reflexivity|]; simpl in Hes; injection Hes as _ Hes; exfalso;
       assert (Hin : In (HCall KLocked d os) (map (fun e => HE e v) bes)) by (rewrite Hes; apply in_or_app; right; now left); apply in_map_iff in Hin; destruct Hin as (? & ? & _); discriminate). }
    subst t1'. rewrite app_nil_r. exists ls, [l], h. split; [exact Hr|]. split; [unfold run in *; rewrite run_from_app, Hr; simpl; now rewrite Hs|]. simpl in Hes. rewrite <- Hes.
    destruct (pc_eq_dec (o_l (c_op (h_s h) o)) PIdle) as [Hi|Hi].
    + right. destruct (Hcase (or_introl Hi)) as [H|H]; auto.
    + destruct (o_node (c_op (h_s h) o)) eqn:Hn; try (left; intros [H|H]; congruence).
      right. destruct (Hcase (or_intror (conj Hi (or_introl eq_refl)))) as [H|H]; auto.
Qed.

(** The receiver of o sees what happened before a call that locks the mutex, unless o was cancelled or finished before that call. *)
Lemma h_visible_call ls h ta d os tb o x v t2 : hrun ls = Running h (ta ++ HCall KLocked d os :: tb ++ HE (EDone o x) v :: t2) ->
  exists ls1 ls2 h1 h3 tc, hrun ls1 = Running h1 ta /\ hrun (ls1 ++ ls2) = Running h3 tc /\ tc = ta ++ HCall KLocked d os :: tb /\
    (exists y s', step (h_s h3) (LPath o y) = Next s' [EDone o x]) /\
    (In d v \/ ~ live (h_s h1) o \/ o_node (c_op (h_s h3) o) = NCancelled).
Proof.
  intros Hr. pose proof Hr as Hr'. rewrite app_comm_cons, app_assoc in Hr.
  destruct (h_visible _ _ _ _ _ _ _ Hr) as (H1 & H2 & H3).
  destruct (done_cut _ _ _ _ _ _ _ Hr) as (ls3 & h3 & y & s' & m' & Hr3 & Hb & _).
  pose proof (run_inv _ (KI o) _ (ki_init o) (ki_step o) _ _ _ Hr3) as [_ HK].
  destruct (HK ta d os tb eq_refl) as (ls1 & ls2 & h1 & Hr1 & Hr2 & Hor). exists ls1, ls2, h1, h3, (ta ++ HCall KLocked d os :: tb). split; [exact Hr1|]. split; [exact Hr2|]. split; [reflexivity|].
  split; [eauto|].
  destruct Hor as [Hor|[(tc & e & td & E & Hlo)|Hor]]; auto.
  - left. destruct e as [[o' t a|o' y0|e|o'|y0] w|[] d' os']; try (destruct Hlo; fail); simpl in Hlo.
    + subst o'. destruct tc as [|e0 tc]; [discriminate|]. simpl in E. injection E as <- ->.
      apply (H3 d (ta ++ HCall KLocked d os :: tc) t a w td); [now rewrite <- app_assoc|]. exists os. apply in_or_app. right. now left.
    + destruct tc as [|e0 tc].
      * simpl in E. injection E as <- <- _. apply (H1 KLocked d os); auto. apply in_or_app. right. now left.
      * simpl in E. injection E as <- ->. apply (H2 d (ta ++ HCall KLocked d os :: tc) d' os' td); auto; [now rewrite <- app_assoc|].
        exists os. apply in_or_app. right. now left.
  - pose proof (hj_run P W eager T lk lk_taken _ _ _ Hr3) as [HT _]. pose proof (proj1 (proj1 HT)) as HG.
    assert (Hnl : o_l (c_op (h_s h3) o) <> PIdle /\ o_node (c_op (h_s h3) o) <> NQueued).
    { pose proof (step_effect _ _ _ _ _ _ _ HG (JT_reliable _ _ _ _ _ _ HT) Hb) as He. split.
      - intros Hl. destruct (fresh_facts _ _ _ _ _ HG Hl) as (_ & _ & Hp & Hc & _). cbn [M_Wait.step] in Hb. unfold path_step in Hb.
        destruct y; cbn [get_pc] in Hb; rewrite ?Hl, ?Hp, ?Hc in Hb; discriminate.
      - remember [EDone o x] as es eqn:Hes.
        destruct He as [s' o' tok a pes Hl Hn Hd Hst Hss|s' o' tok a v' pes Hl Hn Hd Hst Hss|s' o' es Hp|s' es Hcp Hss Hes'|s' pl taken pes Hp Htk Hss]; try discriminate.
        + destruct Hp as [s' Hcp Hss|s' e Hn Ht Hr1' Htry Hss|s' v' Hf Hn Hd Hcp Hss|s' v' Hn Hd Hr0 Hss]; try discriminate; injection Hes as -> <-; [congruence|destruct Hn; congruence].
        + exfalso. destruct Hes' as [->|[[o' ->]|[e ->]]]; discriminate.
        + destruct pes as [|? [|? ?]]; discriminate. }
    destruct Hor as [Hor|[_ [Hor|Hor]]]; auto; tauto.
Qed.

(** Operations that the primitive handed a result *)
Definition settled (s : cst P) (o : nat) : Prop := o_node (c_op s o) = NTaken \/ exists w, o_fast (c_op s o) = Some w.

Lemma started_fresh s o : GInv P W eager s -> o_l (c_op s o) <> PIdle -> o_node (c_op s o) = NFresh -> exists w, o_fast (c_op s o) = Some w.
Proof.
  intros (HV & _) Hl Hn. pose (Q := fun v => match v_l v, v_node v with PIdle, _ => true | _, NFresh => v_fast v | _, _ => true end).
  assert (HQ : forallb Q (R eager) = true) by (destruct eager; vm_compute; reflexivity).
  pose proof (R_check Q eager HQ _ (HV o)) as H. unfold Q, view_of in H. cbn [v_l v_node v_fast] in H. rewrite Hn in H.
  destruct (o_fast (c_op s o)) as [w|]; [eauto|]. cbn in H. destruct (o_l (c_op s o)); congruence.
Qed.

Lemma fast_idle s o : GInv P W eager s -> o_l (c_op s o) = PIdle -> o_fast (c_op s o) = None.
Proof.
  intros (HV & _) Hl. pose (Q := fun v => match v_l v with PIdle => negb (v_fast v) | _ => true end).
  assert (HQ : forallb Q (R eager) = true) by (destruct eager; vm_compute; reflexivity).
  pose proof (R_check Q eager HQ _ (HV o)) as H. unfold Q, view_of in H. cbn [v_l v_node v_fast] in H. rewrite Hl in H.
  destruct (o_fast (c_op s o)); [discriminate|reflexivity].
Qed.

Lemma cancelled_stays ls : forall s tr s' tr' o, JT P W eager T s tr -> o_node (c_op s o) = NCancelled -> run_from step s tr ls = Running s' tr' -> o_node (c_op s' o) = NCancelled.
Proof.
  induction ls as [|l ls IH]; intros s tr s' tr' o HT Hn Hr; simpl in Hr; [now injection Hr as <- <-|].
  destruct (step s l) as [s1 es| |f es] eqn:Hs; try discriminate.
  eapply (IH s1 (tr ++ es)); eauto; [eapply JT_step; eauto|].
  eapply node_stays; eauto. exact (step_effect _ _ _ _ _ _ _ (proj1 (proj1 HT)) (JT_reliable _ _ _ _ _ _ HT) Hs).
Qed.

Lemma h_visible_settled ls h ta d os tb o x v t2 : hrun ls = Running h (ta ++ HCall KLocked d os :: tb ++ HE (EDone o x) v :: t2) ->
  In d v \/ exists bs1 bs2 s1 s3, run step (c_init P) bs1 = Running s1 (api ta) /\ run_from step s1 (api ta) bs2 = Running s3 (api (ta ++ tb)) /\
    (exists y s', step s3 (LPath o y) = Next s' [EDone o x]) /\
    (settled s1 o \/ (o_node (c_op s3 o) = NCancelled /\ exists ps, p_resume P (c_prim s3) o = ROk ps x)).
Proof.
  intros Hr. destruct (h_visible_call _ _ _ _ _ _ _ _ _ _ Hr) as (ls1 & ls2 & h1 & h3 & tc & Hr1 & Hr3 & -> & (y & s' & Hs) & Hor).
  pose proof (hj_run P W eager T lk lk_taken _ _ _ Hr1) as [HT1 _]. pose proof (hj_run P W eager T lk lk_taken _ _ _ Hr3) as [HT3 _].
  pose proof (hrun_base _ _ _ _ _ _ _ _ _ _ Hr1) as B1. pose proof (hrun_base _ _ _ _ _ _ _ _ _ _ Hr3) as B3.
  change (run step (c_init P) (map base ls1) = Running (h_s h1) (api ta)) in B1.
  change (run step (c_init P) (map base (ls1 ++ ls2)) = Running (h_s h3) (api (ta ++ HCall KLocked d os :: tb))) in B3.
  rewrite map_app in B3. unfold run in B3. rewrite run_from_app in B3. unfold run in B1. rewrite B1 in B3.
  assert (Eapi : api (ta ++ HCall KLocked d os :: tb) = api (ta ++ tb)) by (rewrite !api_app; reflexivity). rewrite Eapi in B3.
  assert (Hcan : o_node (c_op (h_s h3) o) = NCancelled -> exists ps, p_resume P (c_prim (h_s h3)) o = ROk ps x).
  { intros Hn. pose proof (step_effect _ _ _ _ _ _ _ (proj1 (proj1 HT3)) (JT_reliable _ _ _ _ _ _ HT3) Hs) as He. remember [EDone o x] as es eqn:Hes.
    destruct He as [s' o' tok a pes Hl Hn' Hd Hst Hss|s' o' tok a v' pes Hl Hn' Hd Hst Hss|s' o' es Hp|s' es Hcp Hss Hes'|s' pl taken pes Hp Htk Hss]; try discriminate.
    - destruct Hp as [s' Hcp Hss|s' e Hn' Ht Hr1' Htry Hss|s' v' Hf Hn' Hd Hcp Hss|s' v' Hn' Hd Hr0 Hss]; try discriminate; injection Hes as -> <-; [congruence|eauto].
    - exfalso. destruct Hes' as [->|[[o' ->]|[e ->]]]; discriminate.
    - destruct pes as [|? [|? ?]]; discriminate. }
  destruct Hor as [Hor|[Hor|Hor]]; [now left| |right; exists (map base ls1), (map base ls2), (h_s h1), (h_s h3); repeat split; eauto].
  right. exists (map base ls1), (map base ls2), (h_s h1), (h_s h3). split; [exact B1|]. split; [exact B3|]. split; [eauto|].
  destruct (pc_eq_dec (o_l (c_op (h_s h1) o)) PIdle) as [Hi|Hi]; [destruct Hor; now left|].
  destruct (o_node (c_op (h_s h1) o)) eqn:Hn.
  - left. right. exact (started_fresh _ _ (proj1 (proj1 HT1)) Hi Hn).
  - destruct Hor. now right.
  - left. now left.
  - right. assert (Hn3 : o_node (c_op (h_s h3) o) = NCancelled) by (exact (cancelled_stays _ _ _ _ _ _ HT1 Hn B3)). auto.
Qed.

Lemma settled_step s tr l s' es o : JT P W eager T s tr -> settled s o -> step s l = Next s' es ->
  settled s' o /\ (forall w, o_fast (c_op s o) = Some w -> o_fast (c_op s' o) = Some w).
Proof.
  intros HT Hset Hs. pose proof (proj1 (proj1 HT)) as HG. pose proof (step_effect _ _ _ _ _ _ _ HG (JT_reliable _ _ _ _ _ _ HT) Hs) as He.
  assert (Hf : forall w, o_fast (c_op s o) = Some w -> o_fast (c_op s' o) = Some w).
  { intros w Hf. pose proof (fast_node _ _ _ s o _ HG Hf) as Hnf.
    assert (Hl0 : o_l (c_op s o) <> PIdle) by (intros Hl; pose proof (fast_idle s o HG Hl); congruence).
    destruct He as [s' o1 tok a pes Hl Hn Hd Hst Hss|s' o1 tok a v pes Hl Hn Hd Hst Hss|s' o1 es Hp|s' es Hcp Hss Hes|s' pl tk pes Hp Htk Hss].
    - specialize (Hss o). destruct (Nat.eqb_spec o o1) as [E|E]; [congruence|]. apply stat_eq in Hss. destruct Hss as (_ & H & _). congruence.
    - specialize (Hss o). destruct (Nat.eqb_spec o o1) as [E|E]; [congruence|]. apply stat_eq in Hss. destruct Hss as (_ & H & _). congruence.
    - destruct Hp as [s' Hcp Hss|s' e Hn Ht Hr Htry Hss|s' v Hf' Hn Hd Hcp Hss|s' v Hn Hd Hr Hss]; specialize (Hss o).
      + apply stat_eq in Hss. destruct Hss as (_ & H & _). congruence.
      + destruct (Nat.eqb_spec o o1) as [E|E]; [congruence|]. apply stat_eq in Hss. destruct Hss as (_ & H & _). congruence.
      + destruct (Nat.eqb_spec o o1) as [E|E]; apply stat_eq in Hss; destruct Hss as (_ & H & _); simpl in H; congruence.
      + destruct (Nat.eqb_spec o o1) as [E|E]; apply stat_eq in Hss; destruct Hss as (_ & H & _); simpl in H; congruence.
    - specialize (Hss o). apply stat_eq in Hss. destruct Hss as (_ & H & _). congruence.
    - specialize (Hss o). destruct (memb o tk) eqn:Hm; [apply memb_In in Hm; specialize (Htk _ Hm); congruence|].
      apply stat_eq in Hss; destruct Hss as (_ & H & _); congruence. }
  split; [|exact Hf]. destruct Hset as [Hn|[w Hw]]; [left|right; eauto]. eapply node_stays; eauto.
Qed.

(** Whoever was taken over was taken over by a call that locks the mutex *)
Lemma h_taken_call ls h tr o : hrun ls = Running h tr -> o_node (c_op (h_s h) o) = NTaken -> exists d os, In (HCall KLocked d os) tr /\ In o os.
Proof.
  intros Hr. pose (Q := fun h tr => HJ P W eager T h tr /\ (o_node (c_op (h_s h) o) = NTaken -> exists d os, In (HCall KLocked d os) tr /\ In o os)).
  assert (HQ : Q h tr); [|exact (proj2 HQ)]. revert Hr. apply run_inv; unfold Q.
  - split; [apply hj_init|]. discriminate.
  - clear h tr. intros h tr l h2 es [HJ1 HQ] Hs. split; [eapply hj_step; eauto|]. destruct HJ1 as [HT _].
    destruct (hstep_next _ _ _ _ _ _ _ _ _ Hs) as (s' & bes & m' & v & Hb & _ & -> & ->). rewrite store_s. intros Hn.
    assert (Hold : o_node (c_op (h_s h) o) = NTaken -> exists d os, In (HCall KLocked d os) (tr ++ call_event P lk h l ++ map (fun e => HE e v) bes) /\ In o os).
    { intros H. destruct (HQ H) as (d & os & H1 & H2). exists d, os. split; auto. apply in_or_app. auto. }
    destruct (taken_new _ _ _ _ (step_effect _ _ _ _ _ _ _ (proj1 (proj1 HT)) (JT_reliable _ _ _ _ _ _ HT) Hb) Hn) as [H|(pl0 & tk0 & pes0 & _ & _ & _ & Hq)]; auto.
    assert (Hl : o_l (c_op (h_s h) o) <> PIdle) by (intros Hl; destruct (fresh_facts _ _ _ _ _ (proj1 (proj1 HT)) Hl); congruence).
    destruct (queued_step _ _ _ _ _ Hb Hl Hq) as [H|[H|(pl & Hl' & Ho)]]; try congruence.
    destruct (taken_event h l s' bes o pl v Hb Hl' Ho) as (d & e & tb & E & Hin). exists d, e. split; auto. rewrite E. apply in_or_app. right. now left.
Qed.
End Runs.
