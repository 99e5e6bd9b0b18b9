(** run(), detach() and spawn(): the invariants. *)
From Coq Require Import List Arith Bool Lia.
From Verif Require Import Lts ListFacts M_Run S_Run.
Import ListNotations.

Lemma snoc_cons_inv {A} (tr t1 t2 : list A) e x : tr ++ [e] = t1 ++ x :: t2 ->
  (t1 = tr /\ e = x /\ t2 = []) \/ exists t2', tr = t1 ++ x :: t2'.
Proof.
  destruct (exists_last (l := x :: t2)) as (t2' & y & Hy); [discriminate|]. rewrite Hy, app_assoc. intros H.
  apply app_inj_tail in H. destruct H as [-> ->]. destruct t2' as [|z t2']; simpl in Hy.
  - injection Hy as -> ->. left. rewrite app_nil_r. auto.
  - injection Hy as -> ->. right. eauto.
Qed.
Lemma rets_app a b : u_rets (a ++ b) = u_rets a ++ u_rets b. Proof. apply flat_map_app. Qed.
Lemma comps_app a b : u_comps (a ++ b) = u_comps a ++ u_comps b. Proof. apply flat_map_app. Qed.

Definition ovals (o : option nat) : list nat := match o with Some x => [x] | None => [] end.
Definition U (sep : bool) (s : ust) (tr : list uevent) : Prop :=
  let 'US p c d v al := s in
  u_rets tr = (match p with URet => ovals v | _ => [] end) /\
  u_comps tr = (match c with UNone => [] | UEmpl x => [x] | _ => ovals v end) /\
  (match c with USet | UFin => v <> None | _ => v = None end) /\
  d = (match c with UFin => true | _ => false end) /\
  al = (match p with URet => false | _ => true end) /\
  (p = URet -> c = UFin) /\ (p = UInit -> c = UNone) /\ (In UEStart tr <-> p <> UInit) /\
  (sep = false -> p = ULoop -> u_nocall c = true) /\
  (forall t1 t2 x, tr = t1 ++ UERet x :: t2 -> In x (u_comps t1)) /\
  (sep = false -> forall t1 t2, tr = t1 ++ UEWait :: t2 -> u_comps t1 = []).
Lemma U_init sep : U sep u_init [].
Proof.
  unfold U, u_init. repeat split; try discriminate; try tauto; auto.
  - intros t1 t2 x H. destruct t1; discriminate.
  - intros _ t1 t2 H. destruct t1; discriminate.
Qed.
Lemma U_step sep dm s tr l s' es : U sep s tr -> u_step sep dm s l = Next s' es -> U sep s' (tr ++ es).
Proof.
  destruct s as [p c d v al]. intros (Hr & Hc & Hv & Hd & Hal & Hf & Hi & Hst & Hs & Ho & Hw) H.
  assert (Ho' : forall e, (forall x, e = UERet x -> In x (u_comps tr)) -> forall t1 t2 x, tr ++ [e] = t1 ++ UERet x :: t2 -> In x (u_comps t1)).
  { intros e He t1 t2 x Ht. apply snoc_cons_inv in Ht. destruct Ht as [(-> & -> & _)|(t2' & ->)]; eauto. }
  assert (Hw' : forall e, (sep = false -> e = UEWait -> u_comps tr = []) -> sep = false -> forall t1 t2, tr ++ [e] = t1 ++ UEWait :: t2 -> u_comps t1 = []).
  { intros e He Hsep t1 t2 Ht. apply snoc_cons_inv in Ht. destruct Ht as [(-> & -> & _)|(t2' & ->)]; eauto. }
  subst d al. unfold u_step in H.
  destruct l; destruct p; try discriminate; destruct c; try discriminate; simpl in H;
  repeat match type of H with
  | (if ?b then _ else _) = _ => destruct b eqn:?; try discriminate
  | (match ?b with _ => _ end) = _ => destruct b eqn:?; try discriminate
  end;
  try (specialize (Hi eq_refl); discriminate); try (specialize (Hf eq_refl); discriminate);
  injection H as <- <-; unfold U; rewrite rets_app, comps_app, Hr, Hc, in_app_iff, Hst, ?app_nil_r; simpl; rewrite ?app_nil_r;
  subst; simpl; repeat split; auto; try congruence; try discriminate; try tauto;
  try (destruct sep; simpl in *; congruence);
  try (apply Ho'; intros y Hy; try discriminate; injection Hy as <-; rewrite Hc; simpl; auto);
  try (apply Hw'; intros Hsep Hy; try discriminate; subst; rewrite ?Hc; simpl; auto; try (specialize (Hs eq_refl eq_refl)); try discriminate);
  try (intros [?|[?|[]]]; discriminate); try (intros _; left; discriminate).
Qed.
Section run.
  Variables (sep dm : bool) (ls : list ulabel) (s : ust) (tr : list uevent).
  Hypothesis Hrun : run (u_step sep dm) u_init ls = Running s tr.
  Lemma U_run : U sep s tr.
  Proof. exact (run_inv (u_step sep dm) (U sep) u_init (U_init sep) (fun s0 tr0 l s' es => U_step sep dm s0 tr0 l s' es) ls s tr Hrun). Qed.
  Lemma run_value : u_rets tr = [] \/ exists v, u_rets tr = [v] /\ u_comps tr = [v].
  Proof.
    pose proof U_run as Hu. destruct s as [p c d v al]. destruct Hu as (Hr & Hc & Hv & Hd & Hal & Hf & _).
    rewrite Hr, Hc. destruct p; auto. right. rewrite (Hf eq_refl) in *. destruct v as [x|]; [|congruence]. exists x. auto.
  Qed.
  Lemma run_order t1 t2 v : tr = t1 ++ UERet v :: t2 -> In v (u_comps t1).
  Proof. pose proof U_run as Hu. destruct s as [p c d w al]. apply Hu. Qed.
  Lemma run_wait : sep = false -> forall t1 t2, tr = t1 ++ UEWait :: t2 -> u_comps t1 = [].
  Proof. pose proof U_run as Hu. destruct s as [p c d w al]. apply Hu. Qed.
  (** Once the operation called set_value(), that call returns and then run() returns. *)
  Lemma run_set : u_comps tr <> [] -> (forall l, u_set l -> u_step sep dm s l = Disabled) -> u_done s = true.
  Proof.
    pose proof U_run as Hu. destruct s as [p c d w al]. destruct Hu as (Hr & Hc & Hv & -> & -> & Hf & _). rewrite Hc. intros Hn Hq.
    pose proof (Hq ULEmplace I) as H1. pose proof (Hq ULDone I) as H2. simpl in *.
    destruct c; try congruence; destruct p; try (specialize (Hf eq_refl)); try discriminate; reflexivity.
  Qed.
  Lemma run_returns v : u_done s = true -> u_comps tr = [v] -> (forall l, u_run l -> u_step sep dm s l = Disabled) -> In UEStart tr -> u_rets tr = [v].
  Proof.
    pose proof U_run as Hu. destruct s as [p c d w al]. destruct Hu as (Hr & Hc & Hv & -> & -> & Hf & Hi & Hst & _). rewrite Hr. simpl. intros Hd Hcv Hq Hs.
    destruct c; try discriminate. rewrite Hcv in Hc.
    pose proof (Hq ULStartRet I) as H1. pose proof (Hq ULCheck I) as H2. pose proof (Hq ULWaitRet I) as H3. simpl in *.
    rewrite orb_true_r in *. destruct w as [x|]; [|congruence].
    destruct p; try discriminate; auto. exfalso. apply (proj1 Hst Hs). reflexivity.
  Qed.
End run.
Lemma run_finishes sep dm s ls tr s' tr' : u_done s = true -> Forall u_run ls -> run_from (u_step sep dm) s tr ls = Running s' tr' -> length ls <= 2.
Proof.
  intros Hd Hf Hrun. assert (H : length ls <= match u_pc s with UStart | UWait => 2 | ULoop => 1 | _ => 0 end).
  { revert s tr Hd Hrun. induction Hf as [|l ls Hl Hls IH]; intros s tr Hd Hrun; simpl; [lia|]. simpl in Hrun.
    destruct (u_step sep dm s l) as [s1 es| |] eqn:Hs; try discriminate. destruct s as [p c d v al]. simpl in Hd. subst d.
    destruct l; simpl in Hl; try tauto; simpl in Hs; destruct p; try discriminate.
    - destruct (sep || u_nocall c); [|discriminate]. injection Hs as <- <-. specialize (IH (US ULoop c true v al) _ eq_refl Hrun). simpl in *. lia.
    - destruct v; [|discriminate]. injection Hs as <- <-. specialize (IH (US URet c true (Some n) false) _ eq_refl Hrun). simpl in *. lia.
    - destruct (sep || u_nocall c); [|discriminate]. injection Hs as <- <-. specialize (IH (US ULoop c true v al) _ eq_refl Hrun). simpl in *. lia. }
  destruct (u_pc s); lia.
Qed.
Lemma U_fail sep dm s tr l f es : U sep s tr -> u_step sep dm s l = Fail f es ->
  dm = true /\ f = Panicked /\ es = [UEWait] /\ (sep = false -> u_comps tr = []).
Proof.
  destruct s as [p c d v al]. intros (Hr & Hc & Hv & Hd & Hal & Hf & Hi & Hst & Hs & Ho & Hw) H. subst d al. unfold u_step in H.
  destruct l; destruct p; try discriminate; destruct c; try discriminate; simpl in H;
  repeat match type of H with
  | (if ?b then _ else _) = _ => destruct b eqn:?; try discriminate
  | (match ?b with _ => _ end) = _ => destruct b eqn:?; try discriminate
  end; try (specialize (Hi eq_refl); discriminate); try (specialize (Hf eq_refl); discriminate); try congruence;
  injection H as <- <-; repeat split; auto; intros He; specialize (Hs He eq_refl); discriminate.
Qed.
Lemma run_fails sep dm ls f tr : run (u_step sep dm) u_init ls = Failed f tr ->
  dm = true /\ f = Panicked /\ exists t, tr = t ++ [UEWait] /\ (sep = false -> u_comps t = []).
Proof.
  intros Hrun. destruct (run_from_failed (u_step sep dm) ls _ _ _ _ Hrun) as (ls1 & l & s & tr1 & es & H1 & H2 & ->).
  pose proof (U_run sep dm ls1 s tr1 H1) as Hu. destruct (U_fail _ _ _ _ _ _ _ Hu H2) as (-> & -> & -> & Hn). eauto.
Qed.
Lemma run_no_service sep ls s tr : run (u_step sep true) u_init ls = Running s tr -> ~ In UEWait tr.
Proof.
  refine (run_inv (u_step sep true) (fun _ tr0 => ~ In UEWait tr0) u_init (fun H => H) _ ls s tr).
  intros s0 tr0 l s' es Hn H Hin. apply in_app_iff in Hin. destruct Hin as [Hin|Hin]; [exact (Hn Hin)|].
  destruct s0 as [p c d v al]. unfold u_step in H.
  repeat match type of H with
  | context [match ?b with _ => _ end] => destruct b; try discriminate
  end; injection H as <- <-; simpl in Hin; intuition discriminate.
Qed.

(** detach() and spawn() *)
Definition D (sp : bool) (s : dst) (tr : list devent) : Prop :=
  match s with
  | DS false DNone DCNone => tr = []
  | DS false DLive DCNone => tr = [DEAlloc]
  | DS true DLive DCNone => tr = [DEAlloc; DEStart]
  | DS true DLive (DCRecv v) => sp = true /\ tr = [DEAlloc; DEStart; DEComp v]
  | DS true DLive DCRead | DS true DLive DCFree => exists v, tr = [DEAlloc; DEStart; DEComp v] ++ (if sp then [DERecv v] else [])
  | DS true DFreed DCCont => sp = false /\ exists v, tr = [DEAlloc; DEStart; DEComp v; DEFree]
  | DS true DFreed DCFin => exists v, tr = if sp then spawn_trace v else detach_trace v
  | _ => False
  end.
Lemma D_step sp s tr l s' es : D sp s tr -> d_step sp s l = Next s' es -> D sp s' (tr ++ es).
Proof.
  destruct s as [[] [] c]; destruct c; simpl; try tauto; intros Hd H; destruct l; try discriminate; try (injection H as <- <-);
  repeat match goal with H : exists _, _ |- _ => destruct H | H : _ /\ _ |- _ => destruct H end; subst; simpl; eauto;
  try destruct sp; simpl; unfold spawn_trace, detach_trace; eauto.
Qed.
Lemma D_safe sp s tr l f es : D sp s tr -> d_step sp s l <> Fail f es.
Proof. destruct s as [[] [] c]; destruct c; simpl; try tauto; intros Hd H; destruct l; discriminate. Qed.
Section detach.
  Variables (sp : bool) (ls : list dlabel) (s : dst) (tr : list devent).
  Hypothesis Hrun : run (d_step sp) d_init ls = Running s tr.
  Lemma D_run : D sp s tr.
  Proof. exact (run_inv (d_step sp) (D sp) d_init eq_refl (fun s0 tr0 l s' es => D_step sp s0 tr0 l s' es) ls s tr Hrun). Qed.
  Lemma detach_exact : exists v, prefix tr (if sp then spawn_trace v else detach_trace v).
  Proof.
    pose proof D_run as Hd. unfold prefix. destruct s as [[] [] c]; destruct c; simpl in Hd; try tauto;
    repeat match goal with H : exists _, _ |- _ => destruct H | H : _ /\ _ |- _ => destruct H end; subst;
    try destruct sp; unfold spawn_trace, detach_trace;
    (match goal with v : nat |- _ => exists v; eexists; reflexivity | _ => exists 0; eexists; reflexivity end).
  Qed.
  Lemma detach_complete v : d_step sp s DLStep = Disabled -> In (DEComp v) tr -> tr = if sp then spawn_trace v else detach_trace v.
  Proof.
    pose proof D_run as Hd. intros Hq Hi. destruct s as [[] [] c]; destruct c; simpl in Hd, Hq; try tauto; try discriminate;
    repeat match goal with H : exists _, _ |- _ => destruct H | H : _ /\ _ |- _ => destruct H end; subst;
    try (simpl in Hi; intuition discriminate).
    destruct sp; unfold spawn_trace, detach_trace in *; simpl in Hi; intuition congruence.
  Qed.
End detach.
Lemma detach_safe sp ls f tr : run (d_step sp) d_init ls <> Failed f tr.
Proof. exact (run_safe (d_step sp) (D sp) d_init eq_refl (fun s0 tr0 l s' es => D_step sp s0 tr0 l s' es) (fun s0 tr0 l f0 es => D_safe sp s0 tr0 l f0 es) ls f tr). Qed.
Lemma detach_finishes sp s n tr s' tr' : run_from (d_step sp) s tr (repeat DLStep n) = Running s' tr' -> n <= 4.
Proof.
  intros Hrun. assert (H : n <= match d_cp s with DCRecv _ => 4 | DCRead => 3 | DCFree => 2 | DCCont => 1 | _ => 0 end).
  { revert s tr Hrun. induction n as [|n IH]; intros s tr Hrun; [lia|]. simpl in Hrun.
    destruct s as [st b c]; destruct c; simpl in Hrun; try discriminate; unfold d_use in Hrun; try (destruct b; try discriminate; []);
    apply IH in Hrun; simpl in *; try destruct sp; simpl in *; lia. }
  destruct (d_cp s); lia.
Qed.
