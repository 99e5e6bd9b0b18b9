(** Proofs about wait_group with happens-before. *)
From Coq Require Import List Arith Bool Lia.
From Verif Require Import Lts ListFacts M_Wait S_Wait P_Wait M_WaitHB S_WaitHB P_WaitHB P_WaitVis P_WaitUse M_WaitGroupC S_WaitGroupC P_WaitGroupC M_WaitGroupHB S_WaitGroupHB.
Import ListNotations.

Section Proofs.
Variable n0 : nat. Variable pick : nat -> nat. Variable eager : bool. Variables acq rel : bool.
Notation P := (wait_group_c n0 pick).
Notation hstep := (hstep P eager y_lk true true).
Notation hrun := (run (M_WaitHB.hstep P eager y_lk true true) (h_init P)).
Notation step := (M_Wait.step P eager).
Notation xstep := (x_step n0 pick eager acq rel).
Notation xst := (xst n0 pick).
Notation trace := (list (hevent P)).
Notation W := (wait_group_c_laws n0 pick).
Notation TL := (wait_group_c_tlaws n0 pick).

Lemma y_lk_taken ps l ps' tk es : y_lk ps l = false -> p_step P ps l = POk ps' tk es -> tk = [].
Proof.
  cbn [p_step wait_group_c]. destruct l as [n|u p|k i]; cbn [y_step y_lk].
  - congruence.
  - destruct (nth_error (y_un ps) u) as [w|]; [|discriminate]. destruct (negb (u_called w) && (u_pos w <=? p) && (p <? length (y_h ps))); congruence.
  - intros Hl Hs. destruct (done_cases _ _ _ _ _ _ Hs) as [u pc p Hk Hpc Hp Hi|u pc p Hk Hpc Hv|u pc p Hk -> Hv]; auto. rewrite Hk in Hl. discriminate.
Qed.
Lemma y_norace e ls tr : run (M_Wait.step P e) (c_init P) ls <> Failed DataRace tr.
Proof. intros Hr. destruct (yc_fail _ _ _ _ _ _ Hr) as [[E _]|(_ & E & _)]; discriminate. Qed.

(** ** Runs of this model are runs of M_WaitHB *)
Lemma xstep_next (s : xst) l s' es : xstep s l = Next s' es -> hstep (x_h s) (x_label n0 pick acq s l) = Next (x_h s') es.
Proof.
  unfold x_step. destruct (M_WaitHB.hstep P eager y_lk true true (x_h s) (x_label n0 pick acq s l)) as [h es'| |f es'] eqn:E; try discriminate.
  destruct (x_label n0 pick acq s l); intros [= <- <-]; reflexivity.
Qed.
Lemma xrun_from ls : forall s tr, match run_from xstep s tr ls with
  | Running s' tr' => exists ls', run_from hstep (x_h s) tr ls' = Running (x_h s') tr'
  | Failed f tr' => exists ls', run_from hstep (x_h s) tr ls' = Failed f tr'
  | Stuck => True end.
Proof.
  induction ls as [|l ls IH]; intros s tr; cbn [run_from].
  - exists []. reflexivity.
  - destruct (xstep s l) as [s1 es| |f es] eqn:E; auto.
    + pose proof (xstep_next _ _ _ _ E) as E'. specialize (IH s1 (tr ++ es)).
      destruct (run_from xstep s1 (tr ++ es) ls) as [s2 tr2| |f tr2]; auto; destruct IH as (ls' & H); exists (x_label n0 pick acq s l :: ls'); cbn [run_from]; now rewrite E'.
    + exists [x_label n0 pick acq s l]. cbn [run_from]. unfold x_step in E.
      destruct (M_WaitHB.hstep P eager y_lk true true (x_h s) (x_label n0 pick acq s l)) as [h es'| |f' es']; try discriminate; [destruct (x_label n0 pick acq s l); discriminate|].
      now injection E as -> ->.
Qed.
Notation xrun ls := (run (x_step n0 pick eager acq rel) (x_init n0 pick) ls).
Lemma xrun_h ls s tr : xrun ls = Running s tr -> exists ls', hrun ls' = Running (x_h s) tr.
Proof. intros H. pose proof (xrun_from ls (x_init n0 pick) []) as Hx. unfold run in H. now rewrite H in Hx. Qed.
Lemma xrun_h_fail ls f tr : xrun ls = Failed f tr -> exists ls', hrun ls' = Failed f tr.
Proof. intros H. pose proof (xrun_from ls (x_init n0 pick) []) as Hx. unfold run in H. now rewrite H in Hx. Qed.

(** ** The base invariants *)
Record base_ok (h : hst P) (tr : trace) : Prop := BO { bo_vi : VI P h tr; bo_ti : TI n0 pick eager (h_s h) (api tr) }.
Lemma hrun_ok ls h tr : hrun ls = Running h tr -> base_ok h tr.
Proof.
  intros Hr. constructor.
  - exact (run_inv _ (VI P) _ (vi_init P) (vi_step P eager y_lk y_lk_taken) ls h tr Hr).
  - pose proof (hrun_base P eager y_lk true true ls _ _ _ _ Hr) as Hb. exact (ti_run n0 pick eager _ _ _ Hb).
Qed.

(** ** Calls of done() and add() in the trace *)
Notation pe e := (EPrim (P := P) (e : yevent)).
Lemma pair_app (t es t1 : trace) a b t2 : t ++ es = t1 ++ a :: b :: t2 -> (forall e r, es = e :: r -> e <> b) ->
  (exists t2', t = t1 ++ a :: b :: t2') \/ (exists t1', es = t1' ++ a :: b :: t2).
Proof.
  intros H Hh. pose proof (app_cons_split _ _ _ _ _ H) as Hs. destruct Hs as [(t2' & ->)|(t1' & -> & ->)]; [|right; now exists t1'].
  rewrite <- app_assoc in H. apply app_inv_head in H. cbn in H. injection H as H. destruct t2' as [|c t2']; cbn in H.
  - exfalso. exact (Hh b t2 H eq_refl).
  - injection H as -> H. left. now exists t2'.
Qed.

(** steps that are not steps of the primitive *)
Lemma try_same (s : yst) o ps b : y_try pick s o = TOk ps b -> y_h ps = y_h s /\ y_un ps = y_un s /\ y_dn ps = y_dn s.
Proof. intros H. destruct (try_cases pick s o) as [[_ E]|[(_ & _ & E)|(_ & _ & E)]]; rewrite E in H; try discriminate; injection H as <- _; auto. Qed.
Lemma nonprim s l s' bes : step s l = Next s' bes -> (forall pl, l <> LPrim pl) ->
  (y_h (c_prim s') = y_h (c_prim s) /\ y_un (c_prim s') = y_un (c_prim s) /\ y_dn (c_prim s') = y_dn (c_prim s)) /\
  (forall u, ~ In (pe (EYDone u)) bes) /\ (forall us, ~ In (pe (EYAdd us)) bes).
Proof.
  intros Hs Hl.
  assert (Hno : forall bes, existsb (fun e => match e with @EPrim _ _ => true | _ => false end) bes = false -> (forall u, ~ In (pe (EYDone u)) bes) /\ (forall us, ~ In (pe (EYAdd us)) bes)).
  { clear. intros bes H. split; intros u Hi; (enough (existsb (fun e => match e with @EPrim _ _ => true | _ => false end) bes = true) by congruence);
      apply existsb_exists; eexists; (split; [exact Hi|reflexivity]). }
  destruct l as [o tok a|o x|e|k|k|pl|o]; [| | | | |now exfalso; apply (Hl pl)|].
  - cbn [M_Wait.step] in Hs. destruct (o_l (c_op s o)); try discriminate. cbn [p_start wait_group_c] in Hs.
    destruct (start_cases (c_prim s) o a) as [[_ E]|[_ E]]; rewrite E in Hs; injection Hs as <- <-; cbn; (split; [auto|split]); intros u [[=]|[[=]|[]]].
  - cbn [M_Wait.step] in Hs. unfold path_step in Hs. cbn [p_try p_resume wait_group_c] in Hs. unfold y_resume in Hs.
    repeat match type of Hs with
    | context [match y_try pick ?x ?y with _ => _ end] => destruct (y_try pick x y) eqn:?; try discriminate
    | context [match ?x with _ => _ end] => destruct x eqn:?; try discriminate
    end; injection Hs as <- <-; cbn [c_prim with_op]; (split; [eauto using try_same|apply Hno; reflexivity]).
  - cbn in Hs. injection Hs as <- <-. cbn [c_prim]. split; auto.
  - cbn [M_Wait.step] in Hs. repeat match type of Hs with context [match ?x with _ => _ end] => destruct x eqn:?; try discriminate end; injection Hs as <- <-; cbn [c_prim]; split; auto.
  - cbn [M_Wait.step] in Hs. repeat match type of Hs with context [match ?x with _ => _ end] => destruct x eqn:?; try discriminate end; injection Hs as <- <-; cbn [c_prim]; split; auto.
  - cbn [M_Wait.step] in Hs. repeat match type of Hs with context [match ?x with _ => _ end] => destruct x eqn:?; try discriminate end; injection Hs as <- <-; cbn [c_prim with_op]; split; auto.
Qed.

Lemma x_other (s : xst) l s' es : xstep s l = Next s' es -> (forall pl v, l <> HPrim pl v) ->
  x_ctr s' = x_ctr s /\ x_dv s' = x_dv s /\ x_msg s' = x_msg s /\
  (y_h (x_prim s') = y_h (x_prim s) /\ y_un (x_prim s') = y_un (x_prim s) /\ y_dn (x_prim s') = y_dn (x_prim s)) /\ grows (h_m (x_h s)) (h_m (x_h s')) /\
  (forall tr u d, done_access (tr ++ es) u d -> done_access tr u d) /\ (forall tr u d, add_access (tr ++ es) u d -> add_access tr u d) /\
  (forall c d os, In (HCall c d os) es -> c = KCancel /\ d < length (x_log s')).
Proof.
  intros Hx Hl. pose proof (xstep_next _ _ _ _ Hx) as Hh.
  assert (Hl2 : forall pl v, x_label n0 pick acq s l <> HPrim pl v).
  { intros pl v E. destruct l as [o t a w|o x|e w|k|k|pl' w|o]; try discriminate E. exact (Hl pl' w eq_refl). }
  unfold x_step in Hx. rewrite Hh in Hx.
  assert (E : s' = XS (x_h s') (x_ctr s) (x_dv s) (x_msg s)).
  { destruct (x_label n0 pick acq s l) as [o t a w|o x|e w|k|k|pl' w|o]; try (now injection Hx as Hx; rewrite <- Hx). now exfalso; apply (Hl2 pl' w). }
  rewrite E. cbn [x_ctr x_dv x_msg]. clear Hx. split; [reflexivity|]. split; [reflexivity|]. split; [reflexivity|].
  destruct (hstep_next _ _ _ _ _ _ _ _ _ Hh) as (b' & bes & m' & v & Hb & He & Hst & Hes).
  unfold x_prim, x_log. cbn [x_h]. rewrite Hst, store_s, store_m. destruct (exec_grows _ _ _ _ _ _ _ He) as [Hg _].
  assert (Hlb : forall pl, base (x_label n0 pick acq s l) <> LPrim pl).
  { intros pl Eb. destruct (x_label n0 pick acq s l) as [o t a w|o x|e w|k|k|pl' w|o]; try discriminate Eb. now apply (Hl2 pl' w). }
  destruct (nonprim _ _ _ _ Hb Hlb) as (Hsame & Hd & Ha). split; [exact Hsame|]. split; [exact Hg|].
  assert (Hhd : forall b, (exists u w, b = HE (pe (EYDone u)) w) \/ (exists us w, b = HE (pe (EYAdd us)) w) -> ~ In b es).
  { intros b Hbb Hi. rewrite Hes in Hi. apply in_app_or in Hi. destruct Hi as [Hi|Hi].
    - destruct (x_label n0 pick acq s l); cbn in Hi; try tauto; destruct Hi as [Hi|[]]; destruct Hbb as [(u & w & ->)|(us & w & ->)]; discriminate.
    - apply in_map_iff in Hi as (e & Ee & Hi). destruct Hbb as [(u & w & ->)|(us & w & ->)]; injection Ee as -> _; [exact (Hd u Hi)|exact (Ha us Hi)]. }
  assert (Hpair : forall tr t1 a b t2, (exists u w, b = HE (pe (EYDone u)) w) \/ (exists us w, b = HE (pe (EYAdd us)) w) -> tr ++ es = t1 ++ a :: b :: t2 -> exists t2', tr = t1 ++ a :: b :: t2').
  { intros tr t1 a b t2 Hbb Ht. specialize (Hhd b Hbb). destruct (pair_app _ _ _ _ _ _ Ht) as [H|(t1' & H)]; [|exact H|].
    - intros e r -> ->. apply Hhd. now left.
    - exfalso. apply Hhd. rewrite H. apply in_or_app. right. right. now left. }
  split; [|split].
  - intros tr u d (t1 & c & os & w & t2 & Ht). apply Hpair in Ht; eauto. destruct Ht as (t2' & ->). exists t1, c, os, w, t2'. reflexivity.
  - intros tr u d (t1 & c & os & us & w & t2 & Ht & Hu). apply Hpair in Ht; eauto. destruct Ht as (t2' & ->). exists t1, c, os, us, w, t2'. auto.
  - intros c d os Hi. rewrite Hes in Hi. destruct (new_call _ _ _ _ _ _ _ _ _ Hi) as [Ed [(pl & w & Ep & _)|(e & w & El & -> & _)]]; [now apply Hl2 in Ep|].
    split; [reflexivity|]. subst d. rewrite El in He. cbn [acts exec exec1] in He. destruct (exec_grows _ _ _ _ _ _ _ He) as [Hg2 _].
    apply nth_error_Some. erewrite Hg2; [discriminate|]. cbn [m_log]. apply nth_error_snoc_last.
Qed.

Lemma x_prim_step (s : xst) pl v s' es : xstep s (HPrim (P := P) pl v) = Next s' es -> exists (pl' : ylabel) v' ps' tk pes w,
  x_label n0 pick acq s (HPrim (P := P) pl v) = HPrim (P := P) pl' v' /\ y_step (x_prim s) pl' = POk ps' tk pes /\ x_prim s' = ps' /\
  es = HCall (if y_lk (x_prim s) pl' then KLocked else KFree) (length (x_log s)) tk :: map (fun e => HE (pe e) w) pes /\
  In (length (x_log s)) w /\ incl (closure (x_log s) v') w /\ before (x_log s') (length (x_log s)) = closure (x_log s) v' /\ length (x_log s) < length (x_log s') /\
  grows (h_m (x_h s)) (h_m (x_h s')) /\ (forall o, c_op (h_s (x_h s')) o = if memb o tk then set_node NTaken (c_op (h_s (x_h s)) o) else c_op (h_s (x_h s)) o) /\
  x_ctr s' = (if x_rmw s pl' && match pl' with YAdd _ => true | _ => rel end then w ++ x_ctr s else x_ctr s) /\
  x_dv s' = match pl' with YAdd _ => x_dv s | YDone _ _ => x_dv s ++ [w] | YStep k _ => set_nth (x_dv s) k w end /\
  x_msg s' = (if x_rmw s pl' then (length (x_log s), length (y_h (x_prim s))) :: x_msg s else x_msg s).
Proof.
  intros Hx. pose proof (xstep_next _ _ _ _ Hx) as Hh.
  assert (Hlab : exists (pl' : ylabel) v', x_label n0 pick acq s (HPrim (P := P) pl v) = HPrim (P := P) pl' v').
  { cbn [x_label]. destruct pl; eauto. }
  destruct Hlab as (pl' & v' & Hlab). unfold x_step in Hx. rewrite Hlab in *. rewrite Hh in Hx.
  destruct (hstep_next _ _ _ _ _ _ _ _ _ Hh) as (b' & bes & m' & w & Hb & He & Hst & Hes).
  cbn [base M_Wait.step p_step wait_group_c] in Hb. change (c_prim (h_s (x_h s))) with (x_prim s) in Hb.
  destruct (y_step (x_prim s) pl') as [ps' tk pes| |] eqn:Hp; try discriminate. injection Hb as Hb Hbes.
  assert (Hw : last (h_wk (x_h s')) [] = w) by (rewrite Hst; cbn [store h_wk]; apply last_last). rewrite Hw in Hx.
  exists pl', v', ps', tk, pes, w. split; [reflexivity|]. split; [exact Hp|].
  split; [unfold x_prim; rewrite Hst, store_s, <- Hb; reflexivity|].
  split. { rewrite Hes. cbn [call_event app]. unfold call_kind, taken. cbn [p_step wait_group_c]. change (c_prim (h_s (x_h s))) with (x_prim s). rewrite Hp, <- Hbes, map_map. reflexivity. }
  cbn [acts exec exec1] in He. destruct (exec_grows _ _ _ _ _ _ _ He) as [Hg Hi].
  assert (Hlast : nth_error (m_log m') (length (x_log s)) = Some (ACall (call_kind P y_lk (h_s (x_h s)) pl') (taken (h_s (x_h s)) pl'), closure (x_log s) v')) by (apply Hg; cbn [m_log]; apply nth_error_snoc_last).
  assert (Em : x_log s' = m_log m') by (unfold x_log; now rewrite Hst, store_m).
  split; [apply Hi; now left|]. split; [intros j Hj; apply Hi; now right|].
  split; [unfold before; rewrite Em, Hlast; reflexivity|]. split; [apply nth_error_Some; rewrite Em, Hlast; discriminate|].
  split. { rewrite Hst, store_m. intros j a Hj. apply Hg. cbn [m_log]. now apply nth_error_snoc_old. }
  split; [intros o; rewrite Hst, store_s, <- Hb; reflexivity|].
  injection Hx as Hx. rewrite <- Hx. cbn [x_ctr x_dv x_msg]. auto.
Qed.

(** ** What each call of done() and each notification knows *)
Definition covers (g : log) (tr : trace) (d : nat) (Q : nat -> Prop) : Prop := d < length g /\ forall u du, Q u -> done_access tr u du -> In du (before g d).
Definition Kn (tr : trace) (o u : nat) : Prop := exists kn, In (pe (EYWait o kn)) (api tr) /\ In u kn.
Definition pos_le (s : yst) (j u : nat) : Prop := exists w, nth_error (y_un s) u = Some w /\ u_pos w <= j.

Record XI (s : xst) (tr : trace) : Prop := mkXI {
  xi_run : exists ls, hrun ls = Running (x_h s) tr;
  xi_len : forall c d os, In (HCall c d os) tr -> d < length (x_log s);
  xi_dvl : length (x_dv s) = length (y_dn (x_prim s));
  xi_dv : forall k u pc p w d, nth_error (y_dn (x_prim s)) k = Some (u, pc, p) -> nth_error (x_dv s) k = Some w -> done_access tr u d -> In d w;
  xi_ex : forall u, calledu (x_prim s) u -> exists d, done_access tr u d;
  xi_ctr : forall u d, finu (x_prim s) u -> done_access tr u d -> In d (x_ctr s);
  xi_zero : forall j, j < length (y_h (x_prim s)) -> y_val (x_prim s) j = 0 ->
              (forall u, ~ pos_le (x_prim s) j u) \/ exists d, locking_call d tr /\ covers (x_log s) tr d (pos_le (x_prim s) j);
  xi_taken : forall o, o_node (c_op (h_s (x_h s)) o) = NTaken -> exists c d os, In (HCall c d os) tr /\ In o os /\ covers (x_log s) tr d (Kn tr o);
  xi_fast : forall o v, o_fast (c_op (h_s (x_h s)) o) = Some v -> In o (starts (api tr)) /\ ((forall u, ~ Kn tr o u) \/
              exists d ta t a w tb, tr = ta ++ HE (EStart (P := P) o t a) w :: tb /\ locking_call d ta /\ covers (x_log s) tr d (Kn tr o));
  xi_msg : forall u d, add_access tr u d -> exists w, nth_error (y_un (x_prim s)) u = Some w /\ In (d, u_pos w) (x_msg s);
  xi_first : forall u, u < n0 -> exists w, nth_error (y_un (x_prim s)) u = Some w /\ u_pos w = 0
}.

Lemma covers_step (g : log) (m m' : mem) tr es d (Q Q' : nat -> Prop) (C : nat -> Prop) : g = m_log m -> grows m m' -> (forall u du, C u -> done_access (tr ++ es) u du -> done_access tr u du) ->
  (forall u, Q' u -> Q u /\ C u) -> covers g tr d Q -> covers (m_log m') (tr ++ es) d Q'.
Proof.
  intros -> Hg Hd HQ [Hl Hc]. pose proof Hl as Hl'. apply nth_error_Some in Hl'. destruct (nth_error (m_log m) d) as [a|] eqn:E; [|congruence]. pose proof (Hg _ _ E) as E'. split.
  - apply nth_error_Some. congruence.
  - intros u du Hq Ha. destruct (HQ u Hq) as [H1 H2]. specialize (Hc u du H1 (Hd _ _ H2 Ha)). unfold before in *. now rewrite E', E in *.
Qed.

Lemma da_app tr es u d : done_access tr u d -> done_access (n0 := n0) (pick := pick) (tr ++ es) u d.
Proof. intros (t1 & c & os & w & t2 & ->). exists t1, c, os, w, (t2 ++ es). now rewrite <- app_assoc. Qed.
Lemma aa_app tr es u d : add_access tr u d -> add_access (n0 := n0) (pick := pick) (tr ++ es) u d.
Proof. intros (t1 & c & os & us & w & t2 & -> & H). exists t1, c, os, us, w, (t2 ++ es). now rewrite <- app_assoc. Qed.

(** the calls in the events of a step of the primitive *)
Lemma call_pairs (tr : trace) c0 d0 tk (pes : list yevent) w t1 a b t2 : (exists e v, b = HE e v) -> (exists c d os, a = HCall c d os) ->
  tr ++ HCall c0 d0 tk :: map (fun e => HE (pe e) w) pes = t1 ++ a :: b :: t2 ->
  (exists t2', tr = t1 ++ a :: b :: t2') \/ (a = HCall c0 d0 tk /\ exists e r, pes = e :: r /\ b = HE (pe e) w).
Proof.
  intros (e & v & Hb) (c & d & os & Ha) H. apply pair_app in H; [|intros e' r [= <- _]; rewrite Hb; discriminate].
  destruct H as [H|(t1' & H)]; [auto|right]. destruct t1' as [|x t1']; cbn in H.
  - injection H as <- H. split; [reflexivity|]. destruct pes as [|e' r]; [discriminate|]. cbn in H. injection H as <- _. eauto.
  - injection H as _ H. exfalso. assert (Hi : In a (map (fun e => HE (pe e) w) pes)) by (rewrite H; apply in_or_app; right; now left).
    apply in_map_iff in Hi as (e' & E & _). rewrite Ha in E. discriminate.
Qed.
Lemma da_prim tr c0 d0 tk (pes : list yevent) w u d : done_access (tr ++ HCall c0 d0 tk :: map (fun e => HE (pe e) w) pes) u d ->
  done_access tr u d \/ (d = d0 /\ exists r, pes = EYDone u :: r).
Proof.
  intros (t1 & c & os & v & t2 & H). apply call_pairs in H; eauto. destruct H as [(t2' & ->)|([= -> -> ->] & e & r & -> & [= <- <-])].
  - left. exists t1, c, os, v, t2'. reflexivity.
  - right. eauto.
Qed.
Lemma aa_prim tr c0 d0 tk (pes : list yevent) w u d : add_access (tr ++ HCall c0 d0 tk :: map (fun e => HE (pe e) w) pes) u d ->
  add_access tr u d \/ (d = d0 /\ exists us r, pes = EYAdd us :: r /\ In u us).
Proof.
  intros (t1 & c & os & us & v & t2 & H & Hu). apply call_pairs in H; eauto. destruct H as [(t2' & ->)|([= -> -> ->] & e & r & -> & [= <- <-])].
  - left. exists t1, c, os, us, v, t2'. auto.
  - right. eauto 10.
Qed.

(** the units after a step *)
Lemma pos_step s l s' tk es u w' : y_step s l = POk s' tk es -> nth_error (y_un s') u = Some w' ->
  (exists w, nth_error (y_un s) u = Some w /\ u_pos w = u_pos w') \/ (u_pos w' = length (y_h s) /\ length (y_un s) <= u).
Proof.
  intros Hs. destruct l as [n|v p|k i]; cbn [y_step] in Hs.
  - injection Hs as <- <- <-. cbn. intros Hu. destruct (Nat.lt_ge_cases u (length (y_un s))) as [Hl|Hl].
    + rewrite nth_error_app1 in Hu by auto. eauto.
    + rewrite nth_error_app2 in Hu by auto. apply nth_error_In, repeat_spec in Hu. subst w'. auto.
  - destruct (nth_error (y_un s) v) as [w|] eqn:Hv; [|discriminate]. destruct (negb (u_called w) && (u_pos w <=? p) && (p <? length (y_h s))); [|discriminate].
    injection Hs as <- <- <-. cbn. rewrite nth_call. destruct (Nat.eqb_spec u v) as [->|E]; [rewrite Hv; intros [= <-]; cbn; eauto|eauto].
  - destruct (done_cases _ _ _ _ _ _ Hs) as [v pc p Hk Hpc Hp Hi|v pc p Hk Hpc Hv|v pc p Hk -> Hv]; cbn; [eauto| |]; rewrite nth_end;
      (destruct (Nat.eqb_spec u v) as [->|E]; [destruct (nth_error (y_un s) v) eqn:Hu; [intros [= <-]; cbn; eauto|discriminate]|eauto]).
Qed.
Lemma pos_step2 s l s' tk es u w : y_step s l = POk s' tk es -> nth_error (y_un s) u = Some w -> exists w', nth_error (y_un s') u = Some w' /\ u_pos w' = u_pos w.
Proof.
  intros Hs Hu. destruct (un_step _ _ _ _ _ Hs) as (_ & _ & Hl & _). assert (H : u < length (y_un s')) by (apply Hl; left; apply nth_error_Some; congruence).
  apply nth_error_Some in H. destruct (nth_error (y_un s') u) as [w'|] eqn:E; [|congruence]. exists w'. split; [reflexivity|].
  destruct (pos_step _ _ _ _ _ _ _ Hs E) as [(w0 & H0 & E0)|[_ Hge]]; [congruence|]. assert (u < length (y_un s)) by (apply nth_error_Some; congruence). lia.
Qed.

Lemma zero_called s j u : yinv s -> j < length (y_h s) -> y_val s j = 0 -> pos_le s j u -> finu s u.
Proof.
  intros H Hj Hz (w & Hu & Hp). exists w. split; [exact Hu|]. destruct (u_fin w) eqn:Hf; [reflexivity|]. exfalso.
  pose proof (left_In j _ _ (nth_error_In _ _ Hu) Hf Hp). pose proof (yi_left _ H _ Hj). lia.
Qed.
Lemma fin_called s u : yinv s -> finu s u -> calledu s u.
Proof. intros H (w & Hu & Hf). exists w. split; [exact Hu|]. eapply yi_fin; eauto. Qed.

Lemma XI_init : XI (x_init n0 pick) [].
Proof.
  constructor; cbn.
  - exists []. reflexivity.
  - intros c d os [].
  - reflexivity.
  - intros k u pc p w d H. destruct k; discriminate.
  - intros u (w & Hw & Hc). apply nth_error_In, repeat_spec in Hw. subst w. discriminate.
  - intros u d (w & Hw & Hc). apply nth_error_In, repeat_spec in Hw. subst w. discriminate.
  - intros [|j] Hj; [|lia]. unfold y_val. cbn. intros E. left. intros u (w & Hw & _). cbn in Hw. apply nth_error_In in Hw. rewrite E in Hw. destruct Hw.
  - discriminate.
  - discriminate.
  - intros u d (t1 & c & os & us & w & t2 & H & _). destruct t1; discriminate.
  - intros u Hu. exists (YU 0 false false). split; [|reflexivity]. now apply nth_error_repeat.
Qed.

Lemma grows_len (m m' : mem) i : grows m m' -> i < length (m_log m) -> i < length (m_log m').
Proof. intros Hg Hi. apply nth_error_Some in Hi. destruct (nth_error (m_log m) i) as [a|] eqn:E; [|congruence]. apply nth_error_Some. rewrite (Hg _ _ E). discriminate. Qed.
Lemma in_closure (g : log) v d : In d v -> d < length g -> In d (closure g v).
Proof. intros H Hl. unfold closure. apply in_or_app. left. apply filter_In. split; [exact H|]. now apply Nat.ltb_lt. Qed.
Lemma da_in (tr : trace) u d : done_access tr u d -> In (pe (EYDone u)) (api tr) /\ exists c os, In (HCall c d os) tr.
Proof.
  intros (t1 & c & os & w & t2 & ->). rewrite api_app. cbn [api]. split.
  - apply in_or_app. right. now left.
  - exists c, os. apply in_or_app. right. now left.
Qed.
Lemma aa_in (tr : trace) u d : add_access tr u d -> exists c os, In (HCall c d os) tr.
Proof. intros (t1 & c & os & us & w & t2 & -> & _). exists c, os. apply in_or_app. right. now left. Qed.

(** a step of done() *)
Lemma ystep_eff (s : yst) k i s' tk es : y_step s (YStep k i) = POk s' tk es -> exists u pc p q, nth_error (y_dn s) k = Some (u, pc, p) /\ y_dn s' = set_nth (y_dn s) k (u, fst q, snd q) /\ es = [] /\
  ((y_h s' = y_h s /\ y_un s' = y_un s /\ tk = []) \/
   exists c, y_h s' = y_h s ++ [c] /\ y_un s' = y_end (y_un s) u /\ (c = 0 \/ tk <> [] -> y_lk s (YStep k i) = true)).
Proof.
  cbn [y_step]. intros Hs. destruct (done_cases _ _ _ _ _ _ Hs) as [v pc p Hk Hpc Hp Hi|v pc p Hk Hpc Hv|v pc p Hk -> Hv].
  - exists v, pc, p, (YLoop (y_val s i), i). cbn. split; [exact Hk|]. split; [reflexivity|]. auto.
  - exists v, pc, p, (YEnd, length (y_h s)). cbn [fst snd y_dn y_h y_un]. split; [exact Hk|]. split; [reflexivity|]. split; [reflexivity|].
    right. eexists. split; [reflexivity|]. split; [reflexivity|]. intros [E|E]; [lia|congruence].
  - exists v, (YLoop 1), p, (YEnd, length (y_h s)). cbn [fst snd y_dn y_h y_un]. split; [exact Hk|]. split; [reflexivity|]. split; [reflexivity|].
    right. eexists. split; [reflexivity|]. split; [reflexivity|]. intros _. cbn. now rewrite Hk.
Qed.
Lemma taken_grows (s : yst) l s' tk es o : y_step s l = POk s' tk es -> In o tk -> exists c, y_h s' = y_h s ++ [c].
Proof.
  intros Hs Ho. destruct l as [n|u p|k i].
  - cbn in Hs. injection Hs as <- <- <-. destruct Ho.
  - cbn [y_step] in Hs. destruct (nth_error (y_un s) u) as [w|]; [|discriminate]. destruct (negb (u_called w) && (u_pos w <=? p) && (p <? length (y_h s))); [|discriminate].
    injection Hs as <- <- <-. destruct Ho.
  - destruct (ystep_eff _ _ _ _ _ _ Hs) as (u & pc & p & q & _ & _ & _ & [(_ & _ & ->)|(c & H & _)]); [destruct Ho|eauto].
Qed.
Lemma known_pos (s : yst) p i u : yinv s -> In u (y_known s p) -> pos_le s (y_read s p i) u.
Proof.
  intros H Hu. destruct (known_lt _ _ _ Hu) as (w & Hw & Hp). exists w. split; [exact Hw|]. pose proof (yi_pos _ H _ _ Hw) as Hpw.
  destruct (Nat.lt_ge_cases p (length (y_h s))) as [Hl|Hl]; [pose proof (read_known s p i H Hl); lia|].
  unfold y_read. destruct (Nat.leb_spec p i), (Nat.ltb_spec i (length (y_h s))); try lia; rewrite ?andb_false_r; cbn; destruct (newest_lt s H); lia.
Qed.
Lemma done_new (s : yst) l s' tk es u : y_step s l = POk s' tk es -> (exists r, es = EYDone u :: r) -> ~ calledu s u /\ (exists p, l = YDone u p) /\ es = [EYDone u].
Proof.
  intros Hs (r & He). destruct l as [n|v p|k i].
  - cbn in Hs. injection Hs as _ _ <-. discriminate.
  - cbn [y_step] in Hs. destruct (nth_error (y_un s) v) as [w|] eqn:Hv; [|discriminate]. destruct (u_called w) eqn:Hc; [discriminate|]. cbn [negb andb] in Hs.
    destruct ((u_pos w <=? p) && (p <? length (y_h s))); [|discriminate]. injection Hs as _ _ Hs. rewrite He in Hs. injection Hs as -> ->.
    split; [|split; [eauto|exact He]]. intros (w' & Hw & Hcw). congruence.
  - destruct (ystep_eff _ _ _ _ _ _ Hs) as (v & pc & p & q & _ & _ & E & _). congruence.
Qed.
Lemma fast_new (s s' : cst P) es o v : step_eff P s s' es -> o_fast (c_op s' o) = Some v -> o_fast (c_op s o) = Some v \/
  exists tok a pes, es = EStart o tok a :: map EPrim pes /\ p_start P (c_prim s) o a = SFast (c_prim s') v pes /\ o_l (c_op s o) = PIdle.
Proof.
  intros He Hf. destruct He as [s' o1 tok a pes Hl Hn Hd Hst Hss|s' o1 tok a w pes Hl Hn Hd Hst Hss|s' o1 es Hp|s' es Hcp Hss Hes|s' pl taken pes Hp Htk Hss].
  - left. specialize (Hss o). destruct (Nat.eqb_spec o o1) as [E|E]; [apply stat_inv in Hss|apply stat_eq in Hss]; destruct Hss as (_ & H & _); congruence.
  - specialize (Hss o). destruct (Nat.eqb_spec o o1) as [E|E]; [subst o1; right|left; apply stat_eq in Hss; destruct Hss as (_ & H & _); congruence].
    apply stat_inv in Hss. destruct Hss as (_ & H & _). rewrite Hf in H. injection H as <-. eauto 10.
  - left. destruct Hp as [s' Hcp Hss|s' e Hn Ht Hr Htry Hss|s' w Hf0 Hn Hd Hcp Hss|s' w Hn Hd Hr Hss]; specialize (Hss o);
      try (destruct (Nat.eqb_spec o o1) as [E|E]; [subst o1|]); apply stat_eq in Hss; destruct Hss as (_ & H & _); cbn in H; congruence.
  - left. specialize (Hss o). apply stat_eq in Hss. destruct Hss as (_ & H & _). congruence.
  - left. specialize (Hss o). destruct (memb o taken); apply stat_eq in Hss; destruct Hss as (_ & H & _); cbn in H; congruence.
Qed.

(** facts about one step *)
Record xfacts (s s' : xst) (tr es : trace) : Prop := XF {
  xf_run : exists ls, hrun ls = Running (x_h s') (tr ++ es);
  xf_ti : TI n0 pick eager (h_s (x_h s)) (api tr);
  xf_ti' : TI n0 pick eager (h_s (x_h s')) (api (tr ++ es));
  xf_eff : eff n0 pick (h_s (x_h s)) (h_s (x_h s')) (api es);
  xf_step : step_eff P (h_s (x_h s)) (h_s (x_h s')) (api es);
  xf_kn : forall o, In o (starts (api tr)) -> forall u, Kn (tr ++ es) o u -> Kn tr o u
}.
Lemma x_facts (s : xst) tr l s' es : XI s tr -> xstep s l = Next s' es -> xfacts s s' tr es.
Proof.
  intros HX Hs. destruct (xi_run _ _ HX) as (ls & Hr). pose proof (xstep_next _ _ _ _ Hs) as Hh.
  assert (Hr' : hrun (ls ++ [x_label n0 pick acq s l]) = Running (x_h s') (tr ++ es)).
  { unfold run in *. rewrite run_from_app, Hr. cbn [run_from]. now rewrite Hh. }
  pose proof (bo_ti _ _ (hrun_ok _ _ _ Hr)) as HT. pose proof (bo_ti _ _ (hrun_ok _ _ _ Hr')) as HT'.
  destruct (hstep_next _ _ _ _ _ _ _ _ _ Hh) as (b' & bes & m' & v & Hb & He & Hst & Hes).
  assert (Ea : api es = bes) by (rewrite Hes, api_app, api_call, api_map; reflexivity).
  assert (Eb : h_s (x_h s') = b') by (rewrite Hst; apply store_s).
  pose proof (ti_jt _ _ _ _ _ HT) as HJT. pose proof (JT_reliable _ _ _ _ _ _ HJT) as HR. pose proof HJT as [[HG (_ & HS & _)] _].
  assert (Hef : eff n0 pick (h_s (x_h s)) (h_s (x_h s')) (api es)) by (rewrite Ea, Eb; exact (step_eff' _ _ _ _ _ _ _ _ HJT Hb)).
  constructor; eauto.
  - rewrite Ea, Eb. exact (step_effect _ _ _ _ _ _ _ HG HR Hb).
  - intros o Ho u (kn & Hk & Hu). rewrite api_app in Hk. apply in_app_or in Hk. destruct Hk as [Hk|Hk]; [exists kn; auto|]. exfalso.
    destruct (e_waits _ _ _ _ _ Hef _ _ Hk) as [Hst' _]. apply (e_starts _ _ _ _ _ Hef) in Hst' as [Hl _]. apply HS in Ho. contradiction.
Qed.

Hypothesis Hacq : acq = true.
Hypothesis Hrel : rel = true.

Lemma covers_ext g tr d (Q Q' : nat -> Prop) : (forall u, Q' u -> Q u) -> covers g tr d Q -> covers g tr d Q'.
Proof. intros H [Hl Hc]. split; [exact Hl|]. eauto. Qed.
Lemma locking_app d (tr es : trace) : locking_call d tr -> locking_call d (tr ++ es).
Proof. intros (os & H). exists os. apply in_or_app. auto. Qed.

Lemma XI_other (s : xst) tr l s' es : XI s tr -> xstep s l = Next s' es -> (forall pl v, l <> HPrim pl v) -> XI s' (tr ++ es).
Proof.
  intros HX Hs Hl. destruct (x_facts _ _ _ _ _ HX Hs) as [Fr Ft Ft' Fe Fs Fk]. destruct (x_other _ _ _ _ Hs Hl) as (Ec & Ed & Em & (Eh & Eu & En) & Hg & Hda & Haa & Hca).
  pose proof (yinv_of _ _ _ _ _ (ti_jt _ _ _ _ _ Ft)) as HY. change (c_prim (h_s (x_h s))) with (x_prim s) in HY.
  assert (Epos : forall j u, pos_le (x_prim s') j u <-> pos_le (x_prim s) j u) by (intros j u; unfold pos_le; now rewrite Eu).
  assert (Hcov : forall d (Q Q' : nat -> Prop), (forall u, Q' u -> Q u) -> covers (x_log s) tr d Q -> covers (x_log s') (tr ++ es) d Q').
  { intros d Q Q' HQ Hc. refine (covers_step _ _ _ _ _ _ Q Q' (fun _ => True) eq_refl Hg _ _ Hc); auto. }
  destruct HX as [X1 X2 X3 X4 X5 X6 X7 X8 X9 X10 X11]. constructor; auto.
  - intros c d os Hi. apply in_app_or in Hi. destruct Hi as [Hi|Hi]; [apply (grows_len _ _ _ Hg); eapply X2; eauto|]. eapply Hca; eauto.
  - rewrite Ed, En. exact X3.
  - intros k u pc p w d. rewrite Ed, En. intros H1 H2 H3. apply Hda in H3. eauto.
  - intros u Hc. unfold calledu in *. rewrite Eu in Hc. destruct (X5 u Hc) as (d & H). exists d. now apply da_app.
  - intros u d Hf H. apply Hda in H. rewrite Ec. unfold finu in *. rewrite Eu in Hf. eauto.
  - intros j Hj Hz. unfold y_val in Hz. rewrite Eh in Hj, Hz. destruct (X7 j Hj Hz) as [H|(d & H1 & H2)].
    + left. intros u Hu. apply Epos in Hu. exact (H u Hu).
    + right. exists d. split; [now apply locking_app|]. refine (Hcov d _ _ _ H2). intros u. apply Epos.
  - intros o Hn. destruct (taken_new _ _ _ _ Fs Hn) as [Hn0|(pl & tk & pes & Hp & _ & Ho & _)].
    + destruct (X8 o Hn0) as (c & d & os & H1 & H2 & H3). exists c, d, os. split; [apply in_or_app; auto|]. split; [exact H2|].
      refine (Hcov d _ _ _ H3). apply Fk. apply (t_node_started _ _ _ _ _ _ (ti_jt _ _ _ _ _ Ft)). congruence.
    + exfalso. destruct (taken_grows _ _ _ _ _ _ Hp Ho) as (c & E). change (c_prim (h_s (x_h s'))) with (x_prim s') in E. change (c_prim (h_s (x_h s))) with (x_prim s) in E.
      rewrite Eh in E. apply (f_equal (@length nat)) in E. rewrite app_length in E. cbn in E. lia.
  - intros o v Hf. destruct (fast_new _ _ _ _ _ Fs Hf) as [Hf0|(tok & a & pes & Hes & Hst & Hid)].
    + destruct (X9 o v Hf0) as [Hstd H9]. split; [rewrite api_app, starts_app; apply in_or_app; auto|].
      destruct H9 as [H|(d & ta & t & a & w & tb & -> & H1 & H2)].
      * left. intros u Hu. apply (H u). exact (Fk o Hstd u Hu).
      * right. exists d, ta, t, a, w, (tb ++ es). split; [now rewrite <- app_assoc|]. split; [exact H1|]. refine (Hcov d _ _ _ H2). exact (Fk o Hstd).
    + split; [rewrite api_app, starts_app, Hes; apply in_or_app; right; now left|].
      cbn [p_start wait_group_c] in Hst. change (c_prim (h_s (x_h s))) with (x_prim s) in Hst.
      destruct (start_cases (x_prim s) o a) as [[Hz E]|[_ E]]; rewrite E in Hst; [|discriminate]. injection Hst as _ _ <-.
      pose proof (read_range (x_prim s) (fst a) (snd a) HY) as [_ Hj].
      assert (Hk : forall u, Kn (tr ++ es) o u -> pos_le (x_prim s) (y_read (x_prim s) (fst a) (snd a)) u).
      { intros u (kn & Hk & Hu). rewrite api_app in Hk. apply in_app_or in Hk. destruct Hk as [Hk|Hk].
        - exfalso. destruct (ti_wait _ _ _ _ _ Ft _ _ Hk) as [Hi _]. pose proof (ti_jt _ _ _ _ _ Ft) as [[_ (_ & HS & _)] _]. apply HS in Hi. contradiction.
        - rewrite Hes in Hk. cbn in Hk. destruct Hk as [[=]|[[= <-]|[]]]. apply known_pos; auto. }
      destruct (X7 _ Hj Hz) as [H|(d & H1 & H2)].
      * left. intros u Hu. exact (H u (Hk u Hu)).
      * right. assert (Hx : exists e2 w, es = HE (EStart (P := P) o tok a) w :: e2).
        { pose proof (xstep_next _ _ _ _ Hs) as Hh. destruct (hstep_next _ _ _ _ _ _ _ _ _ Hh) as (b' & bes & m' & w & Hb & _ & _ & Hes2).
          rewrite Hes2, api_app, api_call, api_map in Hes. cbn in Hes. subst bes. rewrite Hes2.
          assert (Hce : call_event P y_lk (x_h s) (x_label n0 pick acq s l) = []).
          { destruct (x_label n0 pick acq s l) as [o1 t1 a1 v1|o1 x|e v1|k|k|pl v1|o1]; try reflexivity; cbn [base M_Wait.step] in Hb.
            - injection Hb as _ Hb. discriminate.
            - destruct (p_step P (c_prim (h_s (x_h s))) pl); try discriminate. injection Hb as _ Hb. destruct es0; discriminate. }
          rewrite Hce. cbn. eauto. }
        destruct Hx as (e2 & w & Ees). exists d, tr, tok, a, w, e2. split; [now rewrite Ees|]. split; [exact H1|]. exact (Hcov d _ _ Hk H2).
  - intros u d Ha. apply Haa in Ha. rewrite Eu, Em. auto.
  - intros u Hu. rewrite Eu. auto.
Qed.

Lemma XI_prim (s : xst) tr pl v s' es : XI s tr -> xstep s (HPrim (P := P) pl v) = Next s' es -> XI s' (tr ++ es).
Proof.
  intros HX Hs. destruct (x_facts _ _ _ _ _ HX Hs) as [Fr Ft Ft' Fe Fs Fk].
  destruct (x_prim_step _ _ _ _ _ Hs) as (pl' & v' & ps' & tk & pes & w & Hlab & Hp & Eps & Hes & Hw1 & Hw2 & Hbef & Hlen & Hg & Hop & Ec & Ed & Em).
  clear Hs. subst ps'. pose proof (yinv_of _ _ _ _ _ (ti_jt _ _ _ _ _ Ft)) as HY. change (c_prim (h_s (x_h s))) with (x_prim s) in HY.
  pose proof (yinv_of _ _ _ _ _ (ti_jt _ _ _ _ _ Ft')) as HY'. change (c_prim (h_s (x_h s'))) with (x_prim s') in HY'.
  destruct (un_step _ _ _ _ _ Hp) as (_ & Hfm & Hul & Hcalled & _).
  assert (Hda : forall u d, done_access (tr ++ es) u d -> done_access tr u d \/ (d = length (x_log s) /\ exists r, pes = EYDone u :: r)) by (intros u d; rewrite Hes; apply da_prim).
  assert (Hold : forall u d, calledu (x_prim s) u -> done_access (tr ++ es) u d -> done_access tr u d).
  { intros u d Hcu H. destruct (Hda u d H) as [H1|[_ H1]]; [exact H1|]. destruct (done_new _ _ _ _ _ _ Hp H1) as [Hn _]. contradiction. }
  assert (Hcov : forall d (Q Q' : nat -> Prop), (forall u, Q' u -> Q u /\ calledu (x_prim s) u) -> covers (x_log s) tr d Q -> covers (x_log s') (tr ++ es) d Q').
  { intros d Q Q' HQ Hc. exact (covers_step _ _ _ _ _ _ Q Q' (calledu (x_prim s)) eq_refl Hg Hold HQ Hc). }
  assert (Hpos : forall j u, j < length (y_h (x_prim s)) -> pos_le (x_prim s') j u -> pos_le (x_prim s) j u).
  { intros j u Hj (w' & Hu & Hle). destruct (pos_step _ _ _ _ _ _ _ Hp Hu) as [(w0 & H0 & E)|[E _]]; [exists w0; split; [exact H0|lia]|lia]. }
  destruct HX as [X1 X2 X3 X4 X5 X6 X7 X8 X9 X10 X11].
  assert (Hlt : forall u d, done_access tr u d -> d < length (x_log s)) by (intros u d H; apply da_in in H as (_ & c & os & H); eapply X2; eauto).
  assert (Hinc : incl (x_ctr s) (x_ctr s')) by (rewrite Ec; destruct (x_rmw s pl' && _); [apply incl_appr|]; apply incl_refl).
  (* what a step of done() knows *)
  assert (Hstep : forall k i, pl' = YStep k i -> exists u pc p q, nth_error (y_dn (x_prim s)) k = Some (u, pc, p) /\ y_dn (x_prim s') = set_nth (y_dn (x_prim s)) k (u, fst q, snd q) /\ pes = [] /\
    (forall d, done_access tr u d -> In d (closure (x_log s) v')) /\
    (forall x, finu (x_prim s') x -> finu (x_prim s) x \/ x = u) /\
    ((y_h (x_prim s') = y_h (x_prim s) /\ y_un (x_prim s') = y_un (x_prim s) /\ tk = []) \/
     exists c, y_h (x_prim s') = y_h (x_prim s) ++ [c] /\ y_un (x_prim s') = y_end (y_un (x_prim s)) u /\ x_rmw s pl' = true /\
       (c = 0 \/ tk <> [] -> y_lk (x_prim s) pl' = true) /\ (forall d x, finu (x_prim s') x -> done_access tr x d -> In d (closure (x_log s) v')))).
  { intros k i E. subst pl'. destruct (ystep_eff _ _ _ _ _ _ Hp) as (u & pc & p & q & Hk & Edn & Epes & Hc). exists u, pc, p, q. split; [exact Hk|]. split; [exact Edn|]. split; [exact Epes|].
    assert (Ev : v' = nth k (x_dv s) [] ++ (if x_rmw s (YStep k i) && acq then x_ctr s else [])).
    { cbn [x_label] in Hlab. destruct pl as [n|u0 p0|k0 i0]; try discriminate. injection Hlab as <- <- <-. reflexivity. }
    assert (Hkd : exists dv, nth_error (x_dv s) k = Some dv).
    { assert (k < length (x_dv s)) by (rewrite X3; apply nth_error_Some; congruence). apply nth_error_Some in H. destruct (nth_error (x_dv s) k); [eauto|congruence]. }
    destruct Hkd as (dv & Hdv).
    assert (Hu : forall d, done_access tr u d -> In d (closure (x_log s) v')).
    { intros d Hd. apply in_closure; [|eauto]. rewrite Ev. apply in_or_app. left. rewrite (nth_error_nth _ _ _ Hdv). eapply X4; eauto. }
    split; [exact Hu|].
    assert (Hfin : forall x, finu (x_prim s') x -> finu (x_prim s) x \/ x = u).
    { intros x (wx & Hx & Hfx). destruct Hc as [(_ & Eu & _)|(c & _ & Eu & _)]; rewrite Eu in Hx; [left; exists wx; auto|]. rewrite nth_end in Hx.
      destruct (Nat.eqb_spec x u) as [Ex|Ex]; [auto|left; exists wx; auto]. }
    split; [exact Hfin|].
    destruct Hc as [Hc|(c & Eh & Eu & Hlk)]; [left; exact Hc|right]. exists c. split; [exact Eh|]. split; [exact Eu|].
    assert (Er : x_rmw s (YStep k i) = true) by (unfold x_rmw; rewrite Hp, Eh, app_length; cbn; apply Nat.ltb_lt; lia).
    split; [exact Er|]. split; [exact Hlk|]. intros d x Hx Hd. destruct (Hfin x Hx) as [Hf|Hf]; [|subst x; auto].
    apply in_closure; [|eauto]. rewrite Ev, Er, Hacq. apply in_or_app. right. cbn. eauto. }
  (* a step that makes the count zero *)
  assert (Hzero : forall k i c, pl' = YStep k i -> y_h (x_prim s') = y_h (x_prim s) ++ [c] -> c = 0 \/ tk <> [] ->
    locking_call (length (x_log s)) (tr ++ es) /\ In (HCall KLocked (length (x_log s)) tk) (tr ++ es) /\ covers (x_log s') (tr ++ es) (length (x_log s)) (finu (x_prim s'))).
  { intros k i c E Eh Hc. destruct (Hstep k i E) as (u & pc & p & q & _ & _ & Epes & _ & _ & Hcase).
    destruct Hcase as [(E2 & _)|(c2 & E2 & _ & _ & Hlk & Hall)]; [rewrite Eh in E2; apply (f_equal (@length nat)) in E2; rewrite app_length in E2; cbn in E2; lia|].
    assert (c2 = c) by (rewrite Eh in E2; apply app_inj_tail in E2 as [_ E2]; congruence). subst c2. rewrite (Hlk Hc) in Hes.
    assert (Hi : In (HCall KLocked (length (x_log s)) tk) (tr ++ es)) by (rewrite Hes; apply in_or_app; right; now left).
    split; [exists tk; exact Hi|]. split; [exact Hi|]. split; [exact Hlen|]. intros x d Hx Hd. rewrite Hbef.
    destruct (Hda x d Hd) as [H|[_ (r & H)]]; [eauto|congruence]. }
  constructor; auto.
  - intros c d os Hi. apply in_app_or in Hi. destruct Hi as [Hi|Hi]; [apply (grows_len _ _ _ Hg); eapply X2; eauto|].
    rewrite Hes in Hi. destruct Hi as [[= _ <- _]|Hi]; [exact Hlen|]. apply in_map_iff in Hi as (e & [=] & _).
  - rewrite Ed. destruct pl' as [n|u p|k i].
    + cbn in Hp. injection Hp as Hp _ _. rewrite <- Hp. exact X3.
    + cbn [y_step] in Hp. destruct (nth_error (y_un (x_prim s)) u) as [w0|]; [|discriminate]. destruct (negb (u_called w0) && (u_pos w0 <=? p) && (p <? length (y_h (x_prim s)))); [|discriminate].
      injection Hp as Hp _ _. rewrite <- Hp. cbn. rewrite !app_length. cbn. now rewrite X3.
    + destruct (Hstep k i eq_refl) as (u & pc & p & q & _ & -> & _). now rewrite !set_nth_length.
  - intros k u pc p w0 d Hk Hdv Hd. rewrite Ed in Hdv. destruct pl' as [n|u1 p1|k1 i1].
    + cbn in Hp. injection Hp as Hp _ Epes. rewrite <- Hp in Hk. destruct (Hda u d Hd) as [H|[_ (r & H)]]; [eauto|congruence].
    + cbn [y_step] in Hp. destruct (nth_error (y_un (x_prim s)) u1) as [w1|] eqn:Hu1; [|discriminate]. destruct (u_called w1) eqn:Hcw; [discriminate|]. cbn [negb andb] in Hp.
      destruct ((u_pos w1 <=? p1) && (p1 <? length (y_h (x_prim s)))); [|discriminate].
      injection Hp as Hp _ Epes. rewrite <- Hp in Hk. cbn [y_dn] in Hk. destruct (Nat.lt_ge_cases k (length (y_dn (x_prim s)))) as [Hlk|Hlk].
      * rewrite nth_error_app1 in Hk by auto. rewrite nth_error_app1 in Hdv by (now rewrite X3). apply (X4 _ _ _ _ _ _ Hk Hdv). apply Hold; auto.
        destruct (yi_dn _ HY _ _ _ _ Hk) as (_ & (w2 & H1 & _ & H2 & _) & _). exists w2. auto.
      * rewrite nth_error_app2 in Hk by auto. rewrite nth_error_app2 in Hdv by (now rewrite X3). rewrite X3 in Hdv. destruct (k - length (y_dn (x_prim s))) as [|x]; [|destruct x; discriminate].
        cbn in Hk, Hdv. injection Hk as <- _ _. injection Hdv as <-. destruct (Hda u1 d Hd) as [H|[-> _]]; [|exact Hw1]. exfalso.
        apply da_in in H as [H _]. destruct (proj2 (ti_done _ _ _ _ _ Ft u1) H) as (w2 & H1 & H2). change (c_prim (h_s (x_h s))) with (x_prim s) in H1. congruence.
    + destruct (Hstep k1 i1 eq_refl) as (u1 & pc1 & p1 & q & Hk1 & Edn & Epes & Hcl & _). rewrite Edn in Hk.
      destruct (Hda u d Hd) as [H|[_ (r & H)]]; [|congruence]. destruct (Nat.eq_dec k k1) as [E|E].
      * subst k1. rewrite (nth_error_set_nth_same _ _ _ _ Hk1) in Hk. injection Hk as <- _ _.
        assert (Hkd : exists dv, nth_error (x_dv s) k = Some dv).
        { assert (k < length (x_dv s)) by (rewrite X3; apply nth_error_Some; congruence). apply nth_error_Some in H0. destruct (nth_error (x_dv s) k); [eauto|congruence]. }
        destruct Hkd as (dv & Hkd). rewrite (nth_error_set_nth_same _ _ _ _ Hkd) in Hdv. injection Hdv as <-. apply Hw2. auto.
      * rewrite nth_error_set_nth_other in Hk by auto. rewrite nth_error_set_nth_other in Hdv by auto. eauto.
  - intros u Hu. apply Hcalled in Hu. destruct Hu as [Hu|Hu].
    + destruct (X5 u Hu) as (d & H). exists d. now apply da_app.
    + assert (He : pes = [EYDone u]).
      { destruct pl' as [n|u1 p1|k1 i1].
        - cbn in Hp. injection Hp as _ _ <-. destruct Hu as [[=]|[]].
        - cbn [y_step] in Hp. destruct (nth_error (y_un (x_prim s)) u1) as [w1|]; [|discriminate]. destruct (negb (u_called w1) && (u_pos w1 <=? p1) && (p1 <? length (y_h (x_prim s)))); [|discriminate].
          injection Hp as _ _ <-. destruct Hu as [[= ->]|[]]. reflexivity.
        - destruct (Hstep k1 i1 eq_refl) as (u1 & pc1 & p1 & q & _ & _ & -> & _). destruct Hu. }
      exists (length (x_log s)). rewrite Hes, He. exists tr. do 4 eexists. reflexivity.
  - intros u d Hf Hd. destruct pl' as [n|u1 p1|k1 i1].
    + apply Hinc. cbn in Hp. injection Hp as Hp _ Epes. apply (X6 u).
      * destruct Hf as (w0 & H1 & H2). rewrite <- Hp in H1. cbn in H1. destruct (Nat.lt_ge_cases u (length (y_un (x_prim s)))) as [Hl|Hl].
        -- rewrite nth_error_app1 in H1 by auto. exists w0. auto.
        -- rewrite nth_error_app2 in H1 by auto. apply nth_error_In, repeat_spec in H1. subst w0. discriminate.
      * destruct (Hda u d Hd) as [H|[_ (r & H)]]; [exact H|congruence].
    + apply Hinc. assert (Hfo : finu (x_prim s) u).
      { cbn [y_step] in Hp. destruct (nth_error (y_un (x_prim s)) u1) as [w1|] eqn:Hu1; [|discriminate]. destruct (negb (u_called w1) && (u_pos w1 <=? p1) && (p1 <? length (y_h (x_prim s)))); [|discriminate].
        injection Hp as Hp _ _. destruct Hf as (w0 & H1 & H2). rewrite <- Hp in H1. cbn in H1. rewrite nth_call, Hu1 in H1.
        destruct (Nat.eqb_spec u u1) as [E|E]; [subst u1; injection H1 as <-; cbn in H2; exists w1; auto|exists w0; auto]. }
      apply (X6 u d Hfo). apply Hold; auto. now apply fin_called.
    + destruct (Hstep k1 i1 eq_refl) as (u1 & pc1 & p1 & q & _ & _ & Epes & Hcl & _ & Hcase).
      assert (Hd0 : done_access tr u d) by (destruct (Hda u d Hd) as [H|[_ (r & H)]]; [exact H|congruence]).
      destruct Hcase as [(_ & Eu & _)|(c & _ & _ & Er & _ & Hall)].
      * apply Hinc. apply (X6 u d); auto. unfold finu in *. now rewrite Eu in Hf.
      * rewrite Ec, Er, Hrel. cbn. apply in_or_app. left. apply Hw2. eauto.
  - intros j Hj Hz. destruct (Nat.lt_ge_cases j (length (y_h (x_prim s)))) as [Hlj|Hlj].
    + assert (Hzo : y_val (x_prim s) j = 0).
      { rewrite <- Hz. unfold y_val. destruct pl' as [n|u1 p1|k1 i1].
        - cbn in Hp. injection Hp as Hp _ _. rewrite <- Hp. cbn. now rewrite app_nth1.
        - cbn [y_step] in Hp. destruct (nth_error (y_un (x_prim s)) u1) as [w1|]; [|discriminate]. destruct (negb (u_called w1) && (u_pos w1 <=? p1) && (p1 <? length (y_h (x_prim s)))); [|discriminate].
          injection Hp as Hp _ _. now rewrite <- Hp.
        - destruct (Hstep k1 i1 eq_refl) as (u1 & pc1 & p1 & q & _ & _ & _ & _ & _ & [(-> & _)|(c & -> & _)]); [reflexivity|now rewrite app_nth1]. }
      destruct (X7 j Hlj Hzo) as [H|(d & H1 & H2)].
      * left. intros u Hu. exact (H u (Hpos j u Hlj Hu)).
      * right. exists d. split; [now apply locking_app|]. refine (Hcov d _ _ _ H2). intros u Hu. apply Hpos in Hu; [|exact Hlj]. split; [exact Hu|].
        apply fin_called; auto. eapply zero_called; eauto.
    + destruct pl' as [n|u1 p1|k1 i1].
      * pose proof Hp as Hp2. cbn in Hp2. injection Hp2 as Hp2 _ _. rewrite <- Hp2 in Hj, Hz. unfold y_val in Hz. cbn [y_h] in Hj, Hz. rewrite app_length in Hj. cbn in Hj.
        rewrite val_app in Hz. replace (j =? length (y_h (x_prim s))) with true in Hz by (symmetry; apply Nat.eqb_eq; lia).
        destruct (newest_lt _ HY) as [Hn1 Hn2]. assert (Hzn : y_val (x_prim s) (y_newest (x_prim s)) = 0) by (unfold y_val; lia). assert (n = 0) by lia. subst n.
        assert (Hpn : forall u, pos_le (x_prim s') j u -> pos_le (x_prim s) (y_newest (x_prim s)) u).
        { intros u (w0 & H1 & _). rewrite <- Hp2 in H1. cbn in H1. rewrite app_nil_r in H1. exists w0. split; [exact H1|]. pose proof (yi_pos _ HY _ _ H1). lia. }
        destruct (X7 _ Hn1 Hzn) as [H|(d & H1 & H2)].
        -- left. intros u Hu. exact (H u (Hpn u Hu)).
        -- right. exists d. split; [now apply locking_app|]. refine (Hcov d _ _ _ H2). intros u Hu. apply Hpn in Hu. split; [exact Hu|].
           apply fin_called; auto. eapply zero_called; eauto.
      * exfalso. cbn [y_step] in Hp. destruct (nth_error (y_un (x_prim s)) u1) as [w1|]; [|discriminate]. destruct (negb (u_called w1) && (u_pos w1 <=? p1) && (p1 <? length (y_h (x_prim s)))); [|discriminate].
        injection Hp as Hp _ _. rewrite <- Hp in Hj. cbn in Hj. lia.
      * destruct (Hstep k1 i1 eq_refl) as (u1 & pc1 & p1 & q & _ & _ & _ & _ & _ & [(E & _)|(c & Eh & _)]); [exfalso; rewrite E in Hj; lia|].
        rewrite Eh, app_length in Hj. cbn in Hj. assert (Ec0 : c = 0).
        { unfold y_val in Hz. rewrite Eh, val_app in Hz. replace (j =? length (y_h (x_prim s))) with true in Hz by (symmetry; apply Nat.eqb_eq; lia). exact Hz. }
        destruct (Hzero k1 i1 c eq_refl Eh (or_introl Ec0)) as (H1 & _ & H2). right. exists (length (x_log s)). split; [exact H1|].
        refine (covers_ext _ _ _ _ _ _ H2). intros u Hu. assert (Hj' : j < length (y_h (x_prim s'))) by (rewrite Eh, app_length; cbn; lia). exact (zero_called _ _ _ HY' Hj' Hz Hu).
  - intros o Hn. destruct (memb o tk) eqn:Ho.
    + apply memb_In in Ho. destruct pl' as [n|u1 p1|k1 i1].
      * cbn in Hp. injection Hp as _ <- _. destruct Ho.
      * cbn [y_step] in Hp. destruct (nth_error (y_un (x_prim s)) u1) as [w1|]; [|discriminate]. destruct (negb (u_called w1) && (u_pos w1 <=? p1) && (p1 <? length (y_h (x_prim s)))); [|discriminate].
        injection Hp as _ <- _. destruct Ho.
      * destruct (taken_grows _ _ _ _ _ _ Hp Ho) as (c & Eh). assert (Hne : tk <> []) by (intros E; rewrite E in Ho; destruct Ho).
        destruct (Hzero k1 i1 c eq_refl Eh (or_intror Hne)) as (_ & H1 & H2). exists KLocked, (length (x_log s)), tk. split; [exact H1|]. split; [exact Ho|].
        refine (covers_ext _ _ _ _ _ _ H2). intros u (kn & Hk & Hu). exact (ti_taken _ _ _ _ _ Ft' _ _ _ Hn Hk Hu).
    + rewrite Hop, Ho in Hn. destruct (X8 o Hn) as (c & d & os & H1 & H2 & H3). exists c, d, os. split; [apply in_or_app; auto|]. split; [exact H2|].
      refine (Hcov d _ _ _ H3). intros u Hu. apply Fk in Hu; [|apply (t_node_started _ _ _ _ _ _ (ti_jt _ _ _ _ _ Ft)); congruence].
      split; [exact Hu|]. destruct Hu as (kn & Hk & Hu). apply fin_called; auto. exact (ti_taken _ _ _ _ _ Ft _ _ _ Hn Hk Hu).
  - intros o x Hf. rewrite Hop in Hf. assert (Hf0 : o_fast (c_op (h_s (x_h s)) o) = Some x) by (destruct (memb o tk); exact Hf).
    destruct (X9 o x Hf0) as [Hstd H9]. split; [rewrite api_app, starts_app; apply in_or_app; auto|].
    destruct H9 as [H|(d & ta & t & a & w0 & tb & Et & H1 & H2)].
    + left. intros u Hu. exact (H u (Fk o Hstd u Hu)).
    + right. exists d, ta, t, a, w0, (tb ++ es). split; [rewrite Et, <- app_assoc; reflexivity|]. split; [exact H1|]. refine (Hcov d _ _ _ H2).
      intros u Hu. apply (Fk o Hstd) in Hu. split; [exact Hu|]. destruct Hu as (kn & Hk & Hu). apply fin_called; auto. destruct (ti_fast _ _ _ _ _ Ft _ _ Hf0) as [_ H]. eauto.
  - intros u d Ha. rewrite Hes in Ha. apply aa_prim in Ha. destruct Ha as [Ha|(-> & us & r & E & Hu)].
    + destruct (X10 u d Ha) as (w0 & H1 & H2). destruct (pos_step2 _ _ _ _ _ _ _ Hp H1) as (w1 & H3 & H4). exists w1. split; [exact H3|]. rewrite H4, Em. destruct (x_rmw s pl'); [now right|exact H2].
    + destruct pl' as [n|u1 p1|k1 i1].
      * assert (Er : x_rmw s (YAdd n) = true) by (unfold x_rmw; rewrite Hp; cbn in Hp; injection Hp as Hp _ _; rewrite <- Hp; cbn; rewrite app_length; cbn; apply Nat.ltb_lt; lia).
        cbn in Hp. injection Hp as Hp _ Epes. rewrite E in Epes. injection Epes as <- _. apply in_seq in Hu. exists (YU (length (y_h (x_prim s))) false false). rewrite <- Hp, Em, Er. cbn [y_un u_pos].
        split; [|now left]. rewrite nth_error_app2 by lia. apply nth_error_repeat. lia.
      * exfalso. cbn [y_step] in Hp. destruct (nth_error (y_un (x_prim s)) u1) as [w1|]; [|discriminate]. destruct (negb (u_called w1) && (u_pos w1 <=? p1) && (p1 <? length (y_h (x_prim s)))); [|discriminate].
        injection Hp as _ _ Hp. congruence.
      * exfalso. destruct (Hstep k1 i1 eq_refl) as (u1 & pc1 & p1 & q & _ & _ & E2 & _). congruence.
  - intros u Hu. destruct (X11 u Hu) as (w0 & H1 & H2). destruct (pos_step2 _ _ _ _ _ _ _ Hp H1) as (w1 & H3 & H4). exists w1. split; [exact H3|]. congruence.
Qed.

Lemma XI_step (s : xst) tr l s' es : XI s tr -> xstep s l = Next s' es -> XI s' (tr ++ es).
Proof.
  intros HX Hs. destruct l as [o t a v|o x|e v|k|k|pl v|o]; [| | | | |eapply XI_prim; eauto|]; (eapply XI_other; [exact HX|exact Hs|discriminate]).
Qed.
Lemma XI_run ls s tr : xrun ls = Running s tr -> XI s tr.
Proof. exact (run_inv _ XI _ XI_init XI_step ls s tr). Qed.

(** ** What a notification sees *)
Lemma sees_step (s : xst) tr l s' es : XI s tr /\ sees_units tr -> xstep s l = Next s' es -> XI s' (tr ++ es) /\ sees_units (tr ++ es).
Proof.
  intros [HX HS] Hs. split; [eapply XI_step; eauto|]. intros t1 o w t2 Ht kn v u Hk Hu.
  destruct (app_cons_split _ _ _ _ _ Ht) as [(t2' & Et)|(t1' & Et & Ees)]; [exact (HS _ _ _ _ Et _ _ _ Hk Hu)|].
  destruct (x_facts _ _ _ _ _ HX Hs) as [(ls & Hr) Ft Ft' Fe Fs Fk]. destruct (xi_run _ _ HX) as (ls0 & Hr0). pose proof (hrun_ok _ _ _ Hr0) as [HV _].
  pose proof (xstep_next _ _ _ _ Hs) as Hh. destruct (hstep_next _ _ _ _ _ _ _ _ _ Hh) as (b' & bes & m' & w' & Hb & Hx & Hst & Hes).
  assert (Hin : In (EDone (P := P) o true) bes /\ w' = w).
  { assert (Hi : In (HE (EDone (P := P) o true) w) es) by (rewrite Ees; apply in_or_app; right; now left).
    rewrite Hes in Hi. apply in_app_or in Hi. destruct Hi as [Hi|Hi]; [destruct (x_label n0 pick acq s l); cbn in Hi; try tauto; destruct Hi as [Hi|[]]; discriminate|].
    apply in_map_iff in Hi. destruct Hi as (e & [= -> ->] & Hi). auto. }
  destruct Hin as [Hin ->]. pose proof (step_done_only _ _ _ _ _ _ _ _ Hb Hin) as Hbes. destruct (done_path _ _ _ _ _ _ _ _ Hb Hin) as [_ (y & Hl)].
  assert (Ece : call_event P y_lk (x_h s) (x_label n0 pick acq s l) = []) by (destruct (x_label n0 pick acq s l); try discriminate; reflexivity).
  rewrite Ece, Hbes in Hes. cbn in Hes. rewrite Hes in Ees. destruct t1' as [|e1 t1']; [|destruct t1'; discriminate]. injection Ees as <-. rewrite app_nil_r in Et. subst t1.
  destruct (h_visible P W eager TL y_lk y_lk_taken _ _ _ _ _ _ _ (eq_trans Hr (f_equal _ Ht))) as (V1 & _ & V3).
  destruct (exec_ok _ _ _ _ _ _ _ (vi_m _ _ _ HV) (tview_ok P eager _ _ (vi_m _ _ _ HV) (vi_v _ _ _ HV)) Hx) as [_ Hcl]. destruct (exec_grows _ _ _ _ _ _ _ Hx) as [Hg _].
  assert (HK : Kn tr o u). { exists kn. split; [|exact Hu]. apply in_split in Hk as (a & b & ->). rewrite api_app. cbn. apply in_or_app. right. now left. }
  assert (Hgo : forall d, In d w -> covers (x_log s) tr d (Kn tr o) -> calledu (x_prim s) u -> exists d', done_access tr u d' /\ In d' w).
  { intros d Hd [Hl1 Hc] Hcu. destruct (xi_ex _ _ HX u Hcu) as (d' & Hd'). exists d'. split; [exact Hd'|]. specialize (Hc u d' HK Hd').
    apply nth_error_Some in Hl1. destruct (nth_error (x_log s) d) as [a|] eqn:E; [|congruence]. pose proof (Hg _ _ E) as E'.
    destruct (Hcl d Hd) as [_ Hi]. apply Hi. unfold before in *. now rewrite E', E in *. }
  pose proof (yinv_of _ _ _ _ _ (ti_jt _ _ _ _ _ Ft)) as HY. destruct HK as (kn' & Hk' & Hu').
  pose proof (JT_reliable _ _ _ _ _ _ (ti_jt _ _ _ _ _ Ft)) as HR. pose proof (ti_jt _ _ _ _ _ Ft) as [[HG _] _].
  rewrite Hl in Hb. cbn [M_Wait.step] in Hb. rewrite Hbes in Hb. pose proof (path_effect _ _ _ _ _ _ _ _ HG HR Hb) as Hp.
  remember [EDone (P := P) o true] as es1 eqn:Hes1. destruct Hp as [s1 Hcp Hss|s1 e Hn Ht' Hr' Htry Hss|s1 v' Hf Hn Hd Hcp Hss|s1 v' Hn Hd Hr' Hss]; try discriminate.
  - destruct (xi_fast _ _ HX _ _ Hf) as [_ [H|(d & ta & t & a & w1 & tb & E & H1 & H2)]]; [exfalso; apply (H u); exists kn'; auto|].
    apply (Hgo d); [exact (V3 _ _ _ _ _ _ E H1)|exact H2|]. apply fin_called; auto. destruct (ti_fast _ _ _ _ _ Ft _ _ Hf) as [_ H]. eauto.
  - destruct Hn as [Hn|Hn].
    + destruct (xi_taken _ _ HX _ Hn) as (c & d & os & H1 & H2 & H3). apply (Hgo d); [exact (V1 _ _ _ H1 H2)|exact H3|]. apply fin_called; auto. exact (ti_taken _ _ _ _ _ Ft _ _ _ Hn Hk' Hu').
    + exfalso. cbn in Hr'. unfold y_resume in Hr'. injection Hr' as _ Hv. apply (ti_can _ _ _ _ _ Ft) in Hn. rewrite Hn in Hv. injection Hes1 as E. rewrite <- Hv in E. discriminate.
Qed.
Lemma sees_run ls s tr : xrun ls = Running s tr -> sees_units tr.
Proof.
  intros Hr. apply (run_inv _ (fun s tr => XI s tr /\ sees_units tr) _) with (2 := sees_step) in Hr; [exact (proj2 Hr)|].
  split; [exact XI_init|]. intros t1 o w t2 H. destruct t1; discriminate.
Qed.

(** ** What a thread knows about ctr_ *)
Lemma x_knows (s : xst) tr v u : XI s tr -> u < length (y_un (x_prim s)) -> knows_unit (x_log s) tr v u -> exists w, nth_error (y_un (x_prim s)) u = Some w /\ u_pos w <= x_known s v.
Proof.
  intros HX Hlt [Hu|(d & Ha & Hd)].
  - destruct (xi_first _ _ HX u Hu) as (w & H1 & H2). exists w. split; [exact H1|lia].
  - destruct (xi_msg _ _ HX u d Ha) as (w & H1 & H2). exists w. split; [exact H1|].
    assert (Hl : d < length (x_log s)) by (apply aa_in in Ha as (c & os & H); eapply (xi_len _ _ HX); eauto).
    assert (Hi : In d (closure (x_log s) v)).
    { destruct Hd as [Hd|(i & Hi & Hd)]; [now apply in_closure|]. unfold closure. apply in_or_app. right. apply in_flat_map. exists i. split; [|exact Hd].
      apply filter_In. split; [exact Hi|]. apply Nat.ltb_lt. unfold before in Hd. apply nth_error_Some. destruct (nth_error (x_log s) i); [discriminate|destruct Hd]. }
    unfold x_known. pose proof (proj1 (list_max_le (map snd (filter (fun m => memb (fst m) (closure (x_log s) v)) (x_msg s))) _) (le_n _)) as Hm. rewrite Forall_forall in Hm.
    apply Hm. apply in_map_iff. exists (d, u_pos w). split; [reflexivity|]. apply filter_In. split; [exact H2|]. apply memb_In. exact Hi.
Qed.
Lemma x_known_lt (s : xst) v : (forall m, In m (x_msg s) -> snd m < length (y_h (x_prim s))) -> 0 < length (y_h (x_prim s)) -> x_known s v < length (y_h (x_prim s)).
Proof.
  intros H H0. unfold x_known. assert (Hle : list_max (map snd (filter (fun m => memb (fst m) (closure (x_log s) v)) (x_msg s))) <= length (y_h (x_prim s)) - 1); [|lia].
  apply list_max_le. apply Forall_forall. intros x Hx. apply in_map_iff in Hx as (m & <- & Hm). apply filter_In in Hm as [Hm _]. specialize (H m Hm). lia.
Qed.
End Proofs.

(** ** Results *)
Notation xrun n0 pick eager acq rel ls := (run (x_step n0 pick eager acq rel) (x_init n0 pick) ls).

Lemma x_base n0 pick eager acq rel ls s tr : xrun n0 pick eager acq rel ls = Running s tr ->
  exists ls', run (step (wait_group_c n0 pick) eager) (c_init (wait_group_c n0 pick)) ls' = Running (h_s (x_h s)) (api tr).
Proof. intros Hr. destruct (xrun_h _ _ _ _ _ _ _ _ Hr) as (ls' & H). exact (ex_intro _ _ (hrun_base _ _ _ _ _ ls' _ _ _ _ H)). Qed.

Lemma x_race n0 pick eager acq rel ls tr : xrun n0 pick eager acq rel ls = Failed DataRace tr -> eager = true /\ exists o, destroyed_early o tr.
Proof.
  intros Hr. destruct (xrun_h_fail _ _ _ _ _ _ _ _ Hr) as (ls' & H).
  destruct (h_race _ (wait_group_c_laws n0 pick) eager (wait_group_c_tlaws n0 pick) y_lk (y_lk_taken n0 pick) _ _ H (y_norace n0 pick eager)) as (E & _ & o & _ & _ & _ & _ & H1 & H2).
  split; [exact E|]. exists o. split; assumption.
Qed.

Lemma x_calls n0 pick eager acq rel ls s tr : xrun n0 pick eager acq rel ls = Running s tr -> calls_visible tr /\ earlier_visible tr.
Proof.
  intros Hr. destruct (xrun_h _ _ _ _ _ _ _ _ Hr) as (ls' & H). split.
  - exact (h_vis_calls _ (wait_group_c_laws n0 pick) eager (wait_group_c_tlaws n0 pick) y_lk (y_lk_taken n0 pick) _ _ _ H).
  - exact (h_vis_earlier _ (wait_group_c_laws n0 pick) eager (wait_group_c_tlaws n0 pick) y_lk (y_lk_taken n0 pick) _ _ _ H).
Qed.

Lemma x_sees n0 pick eager ls s tr : xrun n0 pick eager true true ls = Running s tr -> sees_units tr.
Proof. exact (sees_run n0 pick eager true true eq_refl eq_refl ls s tr). Qed.

Lemma notified_In_pos {Q : prim} o x (t1 t2 : list (event Q)) : notified o (t1 ++ EDone o x :: t2) > 0.
Proof. induction t1 as [|e t1 IH]; cbn; [rewrite Nat.eqb_refl; lia|]. destruct e; auto. destruct (o0 =? o); lia. Qed.

Lemma x_start_known n0 pick eager l1 s1 tr1 o tok a v s2 es u : xrun n0 pick eager true true l1 = Running s1 tr1 ->
  x_step n0 pick eager true true s1 (HStart (P := wait_group_c n0 pick) o tok a v) = Next s2 es -> knows_unit (x_log s1) tr1 v u ->
  ~ In o (starts (api tr1)) /\ exists a' kn w, es = [HE (EStart (P := wait_group_c n0 pick) o tok a') w; HE (EPrim (P := wait_group_c n0 pick) (EYWait o kn)) w] /\ In u kn.
Proof.
  intros Hr Hs Hk. pose proof (XI_run n0 pick eager true true eq_refl eq_refl _ _ _ Hr) as HX. destruct (x_facts _ _ _ _ _ _ _ _ _ _ HX Hs) as [_ Ft _ _ _ _].
  pose proof (xstep_next _ _ _ _ _ _ _ _ _ Hs) as Hh. destruct (hstep_next _ _ _ _ _ _ _ _ _ Hh) as (b' & bes & m' & w & Hb & _ & _ & Hes).
  cbn [x_label base M_Wait.step p_start wait_group_c] in Hb. change (c_prim (h_s (x_h s1))) with (x_prim s1) in Hb.
  destruct (o_l (c_op (h_s (x_h s1)) o)) eqn:Hid; try discriminate. split.
  { intros Hi. pose proof (ti_jt _ _ _ _ _ Ft) as [[_ (_ & HS & _)] _]. apply HS in Hi. contradiction. }
  set (a' := (x_known s1 v, snd a)) in *.
  assert (Eb : bes = [EStart (P := wait_group_c n0 pick) o tok a'; EPrim (P := wait_group_c n0 pick) (EYWait o (y_known (x_prim s1) (x_known s1 v)))]).
  { destruct (start_cases (x_prim s1) o a') as [[_ E]|[_ E]]; rewrite E in Hb; injection Hb as _ <-; reflexivity. }
  exists a', (y_known (x_prim s1) (x_known s1 v)), w. split; [rewrite Hes, Eb; reflexivity|].
  assert (Hlt : u < length (y_un (x_prim s1))).
  { destruct Hk as [Hu|(d & Ha & _)]; [destruct (xi_first _ _ _ _ _ HX u Hu) as (x & H1 & _)|destruct (xi_msg _ _ _ _ _ HX u d Ha) as (x & H1 & _)]; apply nth_error_Some; congruence. }
  destruct (x_knows _ _ _ _ _ _ _ HX Hlt Hk) as (x & H1 & H2). unfold y_known. apply filter_In. split; [apply in_seq; lia|]. rewrite H1. now apply Nat.leb_le.
Qed.

Lemma x_visible n0 pick eager l1 s1 tr1 o tok a v l2 s u t1 w t2 : xrun n0 pick eager true true l1 = Running s1 tr1 -> knows_unit (x_log s1) tr1 v u ->
  xrun n0 pick eager true true (l1 ++ HStart (P := wait_group_c n0 pick) o tok a v :: l2) = Running s (t1 ++ HE (EDone (P := wait_group_c n0 pick) o true) w :: t2) ->
  exists d, done_access t1 u d /\ In d w.
Proof.
  intros Hr1 Hk Hr. pose proof Hr as Hr0. unfold run in Hr1, Hr. rewrite run_from_app, Hr1 in Hr. cbn [run_from] in Hr.
  destruct (x_step n0 pick eager true true s1 (HStart (P := wait_group_c n0 pick) o tok a v)) as [s2 es| |] eqn:Hs; try discriminate.
  destruct (x_start_known _ _ _ _ _ _ _ _ _ _ _ _ _ Hr1 Hs Hk) as (Hno & a' & kn & w0 & Ees & Hu).
  destruct (run_from_trace_prefix _ _ _ _ _ _ Hr) as (es' & Et). symmetry in Et.
  apply (x_sees _ _ _ _ _ _ Hr0 _ _ _ _ eq_refl kn w0 u); [|exact Hu].
  destruct (app_cons_split _ _ _ _ _ Et) as [(t2' & E)|(t1' & -> & _)].
  - exfalso. rewrite Ees in E. change (tr1 ++ [HE (EStart (P := wait_group_c n0 pick) o tok a') w0; HE (EPrim (P := wait_group_c n0 pick) (EYWait o kn)) w0])
      with (tr1 ++ [HE (EStart (P := wait_group_c n0 pick) o tok a') w0] ++ [HE (EPrim (P := wait_group_c n0 pick) (EYWait o kn)) w0]) in E.
    destruct (app_cons_split _ _ _ _ _ E) as [(t3 & E2)|(t3 & _ & E2)].
    + apply Hno. destruct (x_base _ _ _ _ _ _ _ _ Hr1) as (ls' & Hb).
      apply (t_started _ _ eager (wait_group_c_tlaws n0 pick) _ _ _ Hb o). rewrite E2, api_app. cbn [api]. apply notified_In_pos.
    + destruct t3 as [|e3 t3]; [discriminate|]. injection E2 as _ E2. destruct t3 as [|e4 t3]; [discriminate|]. injection E2 as _ E2. destruct t3; discriminate.
  - rewrite Ees. apply in_or_app. left. apply in_or_app. right. right. now left.
Qed.

(** done() can be called for each unit whose add() is known *)
Lemma msg_run n0 pick eager acq rel ls s tr : xrun n0 pick eager acq rel ls = Running s tr -> 0 < length (y_h (x_prim s)) /\ forall m, In m (x_msg s) -> snd m < length (y_h (x_prim s)).
Proof.
  apply (run_inv _ (fun s _ => 0 < length (y_h (x_prim s)) /\ forall m, In m (x_msg s) -> snd m < length (y_h (x_prim s)))).
  - cbn. split; [lia|]. intros m [].
  - clear. intros s _ l s' es [H0 Hm] Hs.
    assert (Hl : (exists pl v, l = HPrim (P := wait_group_c n0 pick) pl v) \/ forall pl v, l <> HPrim (P := wait_group_c n0 pick) pl v) by (destruct l; eauto; right; discriminate).
    destruct Hl as [(pl & v & ->)|Hl].
    + destruct (x_prim_step _ _ _ _ _ _ _ _ _ _ Hs) as (pl' & v' & ps' & tk & pes & w & _ & Hp & <- & _ & _ & _ & _ & _ & _ & _ & _ & _ & Em).
      assert (Hle : length (y_h (x_prim s)) <= length (y_h (x_prim s'))).
      { destruct pl' as [n|u p|k i]; cbn [y_step] in Hp.
        - injection Hp as Hp _ _. rewrite <- Hp. cbn. rewrite app_length. lia.
        - destruct (nth_error (y_un (x_prim s)) u) as [w0|]; [|discriminate]. destruct (negb (u_called w0) && (u_pos w0 <=? p) && (p <? length (y_h (x_prim s)))); [|discriminate]. injection Hp as Hp _ _. now rewrite <- Hp.
        - destruct (ystep_eff _ _ _ _ _ _ Hp) as (u & pc & p & q & _ & _ & _ & [(-> & _)|(c & -> & _)]); [auto|]. rewrite app_length. lia. }
      split; [lia|]. intros m Hi. rewrite Em in Hi. unfold x_rmw in Hi. rewrite Hp in Hi. destruct (Nat.ltb_spec (length (y_h (x_prim s))) (length (y_h (x_prim s')))) as [Hlt|Hlt].
      * destruct Hi as [<-|Hi]; [exact Hlt|]. specialize (Hm m Hi). lia.
      * specialize (Hm m Hi). lia.
    + destruct (x_other _ _ _ _ _ _ _ _ _ Hs Hl) as (_ & _ & -> & (-> & _) & _). auto.
Qed.
Lemma x_done_enabled n0 pick eager ls s tr u p v : xrun n0 pick eager true true ls = Running s tr -> knows_unit (x_log s) tr v u -> ~ unit_done (api tr) u ->
  exists s' es, x_step n0 pick eager true true s (HPrim (P := wait_group_c n0 pick) (YDone u p) v) = Next s' es.
Proof.
  intros Hr Hk Hd. pose proof (XI_run n0 pick eager true true eq_refl eq_refl _ _ _ Hr) as HX. destruct (xi_run _ _ _ _ _ HX) as (ls' & Hr'). pose proof (hrun_ok _ _ _ _ _ _ Hr') as [_ HT].
  destruct (msg_run _ _ _ _ _ _ _ _ Hr) as [H0 Hm].
  assert (Hlt : u < length (y_un (x_prim s))).
  { destruct Hk as [Hu|(d & Ha & _)]; [destruct (xi_first _ _ _ _ _ HX u Hu) as (x & H1 & _)|destruct (xi_msg _ _ _ _ _ HX u d Ha) as (x & H1 & _)]; apply nth_error_Some; congruence. }
  destruct (x_knows _ _ _ _ _ _ _ HX Hlt Hk) as (x & H1 & H2). pose proof (x_known_lt _ _ s v Hm H0) as H3.
  assert (Hc : u_called x = false).
  { destruct (u_called x) eqn:E; auto. exfalso. apply Hd. apply (ti_done _ _ _ _ _ HT). exists x. auto. }
  unfold x_step. cbn [x_label hstep]. unfold hstep. cbn [base M_Wait.step p_step wait_group_c]. change (c_prim (h_s (x_h s))) with (x_prim s). cbn [y_step]. rewrite H1, Hc. cbn [negb andb].
  apply Nat.leb_le in H2. apply Nat.ltb_lt in H3. rewrite H2, H3. cbn [andb acts y_lk exec exec1]. eauto.
Qed.
