(** Properties of cancellation_event, cancellation_callback and cancellation_observer. *)
From Coq Require Import List Arith Bool Lia.
From Verif Require Import Lts ListFacts M_Cancel S_Cancel P_Cancel P_CancelInv P_CancelMark P_CancelStep.
Import ListNotations.

Lemma k_inv ls s tr : crun ls = Running s tr -> k_rule tr -> KI s tr.
Proof.
  intros Hr Hc. refine (run_inv_client c_step k_rule KI c_init k_rule_prefix ki_init _ ls s tr Hr Hc).
  intros s0 tr0 l s' es HI E Hk. pose proof (c_step_ok _ _ l HI) as H. rewrite E in H. now apply H.
Qed.
Lemma k_safe ls f tr : crun ls = Failed f tr -> ~ k_rule tr.
Proof.
  refine (run_safe_client c_step k_rule KI c_init k_rule_prefix ki_init _ _ ls f tr).
  - intros s0 tr0 l s' es HI E Hk. pose proof (c_step_ok _ _ l HI) as H. rewrite E in H. now apply H.
  - intros s0 tr0 l f0 es HI Hk E. pose proof (c_step_ok _ _ l HI) as H. rewrite E in H. now apply H.
Qed.
Lemma k_once ls s tr : crun ls = Running s tr -> k_rule tr -> NoDup (runs tr).
Proof. intros Hr Hc. apply (k_inv _ _ _ Hr Hc). Qed.

(** the events of a step *)
Lemma c_events s l s' es : c_step s l = Next s' es ->
  es = [] \/ (exists ev, es = [ev] /\ match ev with KRun c h => h = HCancel /\ exists i rest, l = LLoop i /\ nth_error (c_loops s) i = Some (CL (c :: rest) None) | _ => True end) \/
  (exists c e, es = [KNew c (Some e); KRun c HCtor] /\ l = LNew c (Some e) /\ n_life (c_nd s c) = LNone /\ e_req (c_ev s e) = true) \/
  (exists c e, es = [KForce c (Some e); KRun c HForce] /\ l = LSet c (Some e) true /\ n_life (c_nd s c) = LNone /\ e_req (c_ev s e) = true).
Proof.
  assert (One : forall P Q R : Prop, forall ev, match ev with KRun c h => False | _ => True end ->
    P \/ (exists ev', [ev] = [ev'] /\ match ev' with KRun c h => h = HCancel /\ exists i rest, l = LLoop i /\ nth_error (c_loops s) i = Some (CL (c :: rest) None) | _ => True end) \/ Q \/ R).
  { intros P Q R ev H. right. left. exists ev. split; auto. destruct ev; tauto. }
  intros E. destruct l as [c tok|c|c tok force|c|c|e|e|e|e|i|k|k]; cbn [c_step] in E; unfold c_push, c_erase in E.
  - destruct (n_life (c_nd s c)) eqn:El; try discriminate. destruct tok as [e|]; [|injection E as _ <-; now apply One]. destruct (negb (ev_ok s e)); [discriminate|]. destruct (e_req (c_ev s e)) eqn:Er.
    + injection E as _ <-. right. right. left. exists c, e. auto.
    + destruct (forallb _ _); [|discriminate]. injection E as _ <-. now apply One.
  - destruct (_ && _); [|discriminate]. destruct (n_tok (c_nd s c)); [|injection E as _ <-; now apply One].
    repeat match type of E with context [if ?b then _ else _] => destruct b end; try discriminate; injection E as _ <-; now apply One.
  - destruct (n_life (c_nd s c)) eqn:El; try discriminate.
    + destruct tok as [e|].
      * destruct (negb (ev_ok s e)); [discriminate|]. destruct (e_req (c_ev s e)) eqn:Er; simpl negb in E; cbv iota in E.
        -- destruct force; injection E as _ <-; [right; right; right; exists c, e; auto|now apply One].
        -- destruct (forallb _ _); [|discriminate]. injection E as _ <-. destruct force; now apply One.
      * injection E as _ <-. destruct force; now apply One.
    + destruct (n_obs _); [|discriminate]. destruct (n_tok _); discriminate.
  - destruct (_ && _); [|discriminate]. destruct (n_tok (c_nd s c)); [|injection E as _ <-; now apply One].
    repeat match type of E with context [if ?b then _ else _] => destruct b end; try discriminate; injection E as _ <-; now apply One.
  - destruct (negb _); [discriminate|]. destruct (n_obs _); [injection E as _ <-; now apply One|]. destruct (existsb _ _); [discriminate|]. destruct (n_tok (c_nd s c)); [|injection E as _ <-; now apply One].
    repeat match type of E with context [if ?b then _ else _] => destruct b end; try discriminate; injection E as _ <-; now apply One.
  - destruct (negb _); [discriminate|]. destruct (forallb _ _); [|discriminate]. injection E as _ <-; now apply One.
  - destruct (negb _); [discriminate|]. injection E as _ <-; now apply One.
  - destruct (negb _); [discriminate|]. destruct (e_cbs _); [|discriminate]. injection E as _ <-; now apply One.
  - destruct (ev_ok _ _); [|discriminate]. injection E as _ <-; now apply One.
  - destruct (nth_error (c_loops s) i) as [[rest [k|]]|] eqn:Hi; try discriminate.
    + destruct rest; destruct (nth_error (c_fns s) k) as [[|]|]; try discriminate; injection E as _ <-; now left.
    + destruct rest as [|c rest]; [discriminate|]. destruct (n_tok _); [|discriminate]. destruct (forallb _ _); [|discriminate]. injection E as _ <-. right. left. eexists. split; [reflexivity|]. split; auto. exists i, rest. auto.
  - destruct (nth_error (c_fns s) k) as [[c e h|]|]; try discriminate. destruct h; injection E as _ <-; now apply One.
  - destruct (nth_error (c_fns s) k) as [[c e h|]|]; try discriminate. destruct h; try discriminate.
    all: destruct (negb _); [discriminate|]; destruct (negb _); [discriminate|]; destruct (e_lock _); [discriminate|]; injection E as _ <-; now apply One.
Qed.

(** what holds when the functor of [c] is called *)
Lemma k_run_facts ls s t1 c h t2 : crun ls = Running s (t1 ++ KRun c h :: t2) -> k_rule (t1 ++ KRun c h :: t2) -> cause c h t1 /\ ~ In (KDel c) t1.
Proof.
  intros Hr Hc. destruct (run_split_event _ _ _ _ _ _ _ Hr) as (ls1 & l & ls2 & s1 & s2 & tr1 & e1 & e2 & -> & H1 & H2 & -> & H3).
  assert (Hc1 : k_rule tr1). { apply (k_rule_prefix _ (e1 ++ KRun c h :: t2)). rewrite app_assoc. exact Hc. }
  pose proof (k_inv _ _ _ H1 Hc1) as HI.
  assert (Hfr : forall c, n_life (c_nd s1 c) = LNone -> ~ In (KDel c) tr1).
  { intros c' Hl Hd. apply (k_dead _ _ HI) in Hd. unfold fresh in Hd. rewrite Hl in Hd. now destruct Hd. }
  destruct (c_events _ _ _ _ H2) as [E|[(ev & E & Hev)|[(c' & e & E & El & Hl & Hrq)|(c' & e & E & El & Hl & Hrq)]]].
  - destruct e1; discriminate.
  - destruct e1 as [|x e1]; [|destruct e1; discriminate]. simpl in E. injection E as <- ->. destruct Hev as (-> & i & rest & -> & Hi). rewrite app_nil_r.
    assert (Hin : In c (rests s1)). { unfold rests. apply in_flat_map. exists (CL (c :: rest) None). split; [now apply nth_error_In in Hi|now left]. }
    pose proof (o_rst _ _ _ _ _ _ _ _ _ (k_ok _ _ HI c) (proj2 (It _) (proj2 (memb_In _ _) Hin))) as (A & B & C & D & _). split.
    + simpl. destruct (n_tok (c_nd s1 c)) as [e|] eqn:Et; [|destruct B]. exists e. apply (v_c_iff _ _ _ (k_uniq _ _ HI c)). split; [now apply It|]. now rewrite (k_tok _ _ HI).
    + intros Hd. apply (k_dead _ _ HI) in Hd. apply It in A. destruct Hd. congruence.
  - destruct e1 as [|x e1]; [discriminate|]. destruct e1 as [|y e1]; [|destruct e1; discriminate]. simpl in E. injection E as -> -> -> ->. split.
    + simpl. exists e, tr1. split; auto. now rewrite <- (k_req _ _ HI).
    + rewrite in_app_iff. intros [X|[X|[]]]; [now apply Hfr in X|discriminate].
  - destruct e1 as [|x e1]; [discriminate|]. destruct e1 as [|y e1]; [|destruct e1; discriminate]. simpl in E. injection E as -> -> -> ->. split.
    + simpl. exists e, tr1. split; auto. now rewrite <- (k_req _ _ HI).
    + rewrite in_app_iff. intros [X|[X|[]]]; [now apply Hfr in X|discriminate].
Qed.
Lemma k_cause ls s t1 c h t2 : crun ls = Running s (t1 ++ KRun c h :: t2) -> k_rule (t1 ++ KRun c h :: t2) -> cause c h t1.
Proof. intros H1 H2. exact (proj1 (k_run_facts _ _ _ _ _ _ H1 H2)). Qed.
Lemma k_deleted ls s t1 c h t2 : crun ls = Running s (t1 ++ KRun c h :: t2) -> k_rule (t1 ++ KRun c h :: t2) -> ~ In (KDel c) t1.
Proof. intros H1 H2. exact (proj2 (k_run_facts _ _ _ _ _ _ H1 H2)). Qed.

Lemma quiet_rests s : c_quiet s -> rests s = [].
Proof. intros [_ H]. unfold rests. apply flat_map_nil. intros l Hl. now rewrite (H l Hl). Qed.
Lemma k_complete ls s tr : crun ls = Running s tr -> k_rule tr -> c_quiet s -> forall c e, called c e tr -> In c (runs tr).
Proof.
  intros Hr Hc Hq c e H. pose proof (k_inv _ _ _ Hr Hc) as HI. apply (v_c_iff _ _ _ (k_uniq _ _ HI c)) in H. destruct H as [H _]. apply It in H.
  apply (o_c _ _ _ _ _ _ _ _ _ (k_ok _ _ HI c)) in H. rewrite (quiet_rests _ Hq) in H. destruct H as [H|[]]. apply v_x_iff. now apply It.
Qed.
Lemma k_unlocked ls s tr : crun ls = Running s tr -> k_rule tr -> c_quiet s -> forall e, e_lock (c_ev s e) = false.
Proof.
  intros Hr Hc [Hq _] e. pose proof (k_inv _ _ _ Hr Hc) as HI. pose proof (k_lock _ _ HI e) as H. rewrite sum_map_0 in H; [destruct (e_lock (c_ev s e)); [discriminate|auto]|].
  intros f Hf. now rewrite (Hq f Hf).
Qed.

(** events tell the truth *)
Lemma k_split ls s t1 ev t2 : crun ls = Running s (t1 ++ ev :: t2) -> k_rule (t1 ++ ev :: t2) -> match ev with KRun _ _ => False | _ => True end ->
  exists ls1 l s1 s2 e2, KI s1 t1 /\ crun ls1 = Running s1 t1 /\ c_step s1 l = Next s2 (ev :: e2) /\ exists t2', t2 = e2 ++ t2'.
Proof.
  intros Hr Hc Hev. destruct (run_split_event _ _ _ _ _ _ _ Hr) as (ls1 & l & ls2 & s1 & s2 & tr1 & e1 & e2 & -> & H1 & H2 & -> & H3).
  assert (Hc1 : k_rule tr1). { apply (k_rule_prefix _ (e1 ++ ev :: t2)). rewrite app_assoc. exact Hc. }
  pose proof (k_inv _ _ _ H1 Hc1) as HI.
  assert (E1 : e1 = []). { destruct (c_events _ _ _ _ H2) as [E|[(ev' & E & _)|[(c' & e & E & _)|(c' & e & E & _)]]]; destruct e1 as [|x [|y e1]]; try discriminate; auto.
    - injection E as _ -> _. destruct Hev. - destruct e1; discriminate. - injection E as _ -> _. destruct Hev. - destruct e1; discriminate. }
  subst e1. rewrite app_nil_r in *. exists ls1, l, s1, s2, e2. simpl in H2. split; auto. split; auto. split; auto. destruct (run_from_trace_prefix _ _ _ _ _ _ H3) as [t2' E]. simpl in E. rewrite <- app_assoc in E. apply app_inv_head in E. simpl in E. injection E as ->. eauto.
Qed.

Lemma k_late ls s t1 c e t2 : crun ls = Running s (t1 ++ KNew c (Some e) :: t2) -> k_rule (t1 ++ KNew c (Some e) :: t2) -> reqd e t1 = true -> exists t2', t2 = KRun c HCtor :: t2'.
Proof.
  intros Hr Hc Hq. destruct (k_split _ _ _ _ _ Hr Hc I) as (ls1 & l & s1 & s2 & e2 & HI & H1 & H2 & t2' & ->).
  destruct l as [c' tok|c'|c' tok force|c'|c'|e'|e'|e'|e'|i|k|k]; cbn [c_step] in H2; unfold c_push, c_erase in H2.
  1: { destruct (n_life (c_nd s1 c')); try discriminate. destruct tok as [e'|]; [|discriminate]. destruct (negb (ev_ok s1 e')); [discriminate|]. destruct (e_req (c_ev s1 e')) eqn:E.
       - injection H2 as _ -> -> <-. simpl. eauto.
       - destruct (forallb _ _); [|discriminate]. injection H2 as _ -> -> _. rewrite (k_req _ _ HI) in E. congruence. }
  all: exfalso; repeat match type of H2 with context [match ?b with _ => _ end] => destruct b end; discriminate.
Qed.
Lemma k_force ls s t1 c e t2 : crun ls = Running s (t1 ++ KForce c (Some e) :: t2) -> k_rule (t1 ++ KForce c (Some e) :: t2) -> reqd e t1 = true -> exists t2', t2 = KRun c HForce :: t2'.
Proof.
  intros Hr Hc Hq. destruct (k_split _ _ _ _ _ Hr Hc I) as (ls1 & l & s1 & s2 & e2 & HI & H1 & H2 & t2' & ->).
  destruct l as [c' tok|c'|c' tok force|c'|c'|e'|e'|e'|e'|i|k|k]; cbn [c_step] in H2; unfold c_push, c_erase in H2.
  3: { destruct (n_life (c_nd s1 c')); try discriminate.
       - destruct tok as [e'|]; [|destruct force; discriminate]. destruct (negb (ev_ok s1 e')); [discriminate|]. destruct (e_req (c_ev s1 e')) eqn:E; simpl negb in H2; cbv iota in H2.
         + destruct force; [|discriminate]. injection H2 as _ -> -> <-. simpl. eauto.
         + destruct (forallb _ _); [|discriminate]. destruct force; [|discriminate]. injection H2 as _ -> -> _. rewrite (k_req _ _ HI) in E. congruence.
       - destruct (n_obs _); [|discriminate]. destruct (n_tok _); discriminate. }
  all: exfalso; repeat match type of H2 with context [match ?b with _ => _ end] => destruct b end; discriminate.
Qed.
Lemma k_set ls s t1 c e b t2 : crun ls = Running s (t1 ++ KSet c (Some e) b :: t2) -> k_rule (t1 ++ KSet c (Some e) b :: t2) -> b = negb (reqd e t1).
Proof.
  intros Hr Hc. destruct (k_split _ _ _ _ _ Hr Hc I) as (ls1 & l & s1 & s2 & e2 & HI & H1 & H2 & t2' & ->).
  destruct l as [c' tok|c'|c' tok force|c'|c'|e'|e'|e'|e'|i|k|k]; cbn [c_step] in H2; unfold c_push, c_erase in H2.
  3: { destruct (n_life (c_nd s1 c')); try discriminate.
       - destruct tok as [e'|]; [|destruct force; discriminate]. destruct (negb (ev_ok s1 e')); [discriminate|]. destruct (e_req (c_ev s1 e')) eqn:E; simpl negb in H2; cbv iota in H2.
         + destruct force; [discriminate|]. injection H2 as _ _ <- <- _. now rewrite <- (k_req _ _ HI), E.
         + destruct (forallb _ _); [|discriminate]. destruct force; [discriminate|]. injection H2 as _ _ <- <- _. now rewrite <- (k_req _ _ HI), E.
       - destruct (n_obs _); [|discriminate]. destruct (n_tok _); discriminate. }
  all: exfalso; repeat match type of H2 with context [match ?b with _ => _ end] => destruct b end; discriminate.
Qed.
Lemma k_query ls s t1 e b t2 : crun ls = Running s (t1 ++ KQuery e b :: t2) -> k_rule (t1 ++ KQuery e b :: t2) -> b = reqd e t1.
Proof.
  intros Hr Hc. destruct (k_split _ _ _ _ _ Hr Hc I) as (ls1 & l & s1 & s2 & e2 & HI & H1 & H2 & t2' & ->).
  destruct l as [c' tok|c'|c' tok force|c'|c'|e'|e'|e'|e'|i|k|k]; cbn [c_step] in H2; unfold c_push, c_erase in H2.
  9: { destruct (ev_ok s1 e'); [|discriminate]. injection H2 as _ <- <- _. apply HI. }
  all: exfalso; repeat match type of H2 with context [match ?b with _ => _ end] => destruct b end; discriminate.
Qed.

(** a node is new *)
Lemma k_new_fresh ls s t1 c tok t2 : crun ls = Running s (t1 ++ KNew c tok :: t2) -> k_rule (t1 ++ KNew c tok :: t2) -> forall e, ~ uses c e t1.
Proof.
  intros Hr Hc. destruct (k_split _ _ _ _ _ Hr Hc I) as (ls1 & l & s1 & s2 & e2 & HI & H1 & H2 & t2' & ->).
  destruct l as [c' tok'|c'|c' tok' force|c'|c'|e'|e'|e'|e'|i|k|k]; cbn [c_step] in H2; unfold c_push, c_erase in H2.
  1: { destruct (n_life (c_nd s1 c')) eqn:El; try discriminate. assert (c' = c). { destruct tok' as [e'|]; [|congruence]. destruct (negb (ev_ok s1 e')); [discriminate|]. destruct (e_req _); [congruence|]. destruct (forallb _ _); congruence. } subst c'.
       apply (fresh_facts _ _ _ HI El). }
  all: exfalso; repeat match type of H2 with context [match ?b with _ => _ end] => destruct b end; discriminate.
Qed.
(** of a callback constructed while cancellation is not requested, the functor is called after a later cancel() *)
Lemma k_new_cancel ls s t1 c e ta h tb : let tr := t1 ++ KNew c (Some e) :: ta ++ KRun c h :: tb in crun ls = Running s tr -> k_rule tr -> reqd e t1 = false -> In (KCancel e) ta.
Proof.
  intros tr Hr Hc Hq. pose proof (k_new_fresh _ _ _ _ _ _ Hr Hc) as Hf. assert (E : tr = (t1 ++ KNew c (Some e) :: ta) ++ KRun c h :: tb) by (unfold tr; rewrite <- app_assoc; reflexivity).
  assert (Hc' := Hc). assert (Hr' := Hr). rewrite E in Hr', Hc'. pose proof (k_cause _ _ _ _ _ _ Hr' Hc') as H. pose proof (k_inv _ _ _ Hr Hc) as HI.
  assert (Hue : forall e' t t', uses c e' t -> tr = t ++ t' -> e' = e).
  { intros e' t t' Hu Et. apply (k_uniq _ _ HI c); [rewrite Et; now apply uses_mono|left; unfold tr; apply in_elt]. }
  destruct h; simpl in H.
  - destruct H as (e' & t0 & E0 & Hq'). destruct ta as [|y ta _] using rev_ind.
    + apply app_inj_tail in E0. destruct E0 as [-> E0]. injection E0 as ->. congruence.
    + exfalso. replace (t1 ++ KNew c (Some e) :: ta ++ [y]) with ((t1 ++ KNew c (Some e) :: ta) ++ [y]) in E0 by (rewrite <- app_assoc; reflexivity). apply app_inj_tail in E0. destruct E0 as [E0 ->].
      assert (Hx : crun ls = Running s ((t1 ++ KNew c (Some e) :: ta) ++ KNew c (Some e') :: KRun c HCtor :: tb)). { rewrite Hr. f_equal. unfold tr. repeat (rewrite <- app_assoc; simpl). reflexivity. }
      assert (Hy : k_rule ((t1 ++ KNew c (Some e) :: ta) ++ KNew c (Some e') :: KRun c HCtor :: tb)). { replace ((t1 ++ KNew c (Some e) :: ta) ++ KNew c (Some e') :: KRun c HCtor :: tb) with tr; auto. unfold tr. repeat (rewrite <- app_assoc; simpl). reflexivity. }
      apply (k_new_fresh _ _ _ _ _ _ Hx Hy e). left. apply in_elt.
  - destruct H as (e' & ta' & tb' & E0 & Ha & Hn). assert (Hu : uses c e' ta') by now apply armed_uses. assert (e' = e). { apply (Hue e' ta' (KCancel e' :: tb' ++ KRun c HCancel :: tb) Hu). rewrite E, E0, <- app_assoc. reflexivity. } subst e'.
    clear - E0 Hu Hf. revert ta' E0 Hu. 
    assert (G : forall t1 ta', t1 ++ KNew c (Some e) :: ta = ta' ++ KCancel e :: tb' -> (exists x, ta' = t1 ++ KNew c (Some e) :: x /\ ta = x ++ KCancel e :: tb') \/ exists y, t1 = ta' ++ y).
    { intros u. induction u as [|x u IH]; intros v Ev.
      - destruct v as [|z v]; [right; exists []; reflexivity|]. simpl in Ev. injection Ev as <- ->. left. exists v. auto.
      - destruct v as [|z v]; [right; exists (x :: u); reflexivity|]. simpl in Ev. injection Ev as <- Ev. destruct (IH v Ev) as [(w & -> & ->)|(w & ->)]; [left; exists w; auto|right; exists w; auto]. }
    intros ta' E0 Hu. destruct (G t1 ta' E0) as [(x & _ & ->)|(y & ->)]; [apply in_elt|]. exfalso. apply (Hf e). now apply uses_mono.
  - destruct H as (e' & t0 & E0 & Hq'). exfalso. assert (Hx : In (KForce c (Some e')) tr). { rewrite E, E0, <- app_assoc. simpl. apply in_elt. }
    (* a callback is not an observer *)
    pose proof (k_ok _ _ HI c) as Hok. pose proof (o_ob _ _ _ _ _ _ _ _ _ Hok) as A. pose proof (o_cb _ _ _ _ _ _ _ _ _ Hok) as B.
    assert (Han : !(v_an (nvw c tr))). { apply It. apply v_an_iff. exists e. unfold tr. apply in_elt. } assert (Hao : !(v_ao (nvw c tr))). { apply It. apply v_ao_iff. exists e'. auto. }
    destruct (n_obs (c_nd s c)); simpl in A, B; tauto.
Qed.

(** unbind() detaches, unless cancel() was called before *)
Lemma k_unbind ls s ta c tb h tc : let tr := ta ++ KUnbind c :: tb ++ KRun c h :: tc in crun ls = Running s tr -> k_rule tr -> exists e, called c e ta.
Proof.
  intros tr Hr Hc. assert (E : tr = (ta ++ KUnbind c :: tb) ++ KRun c h :: tc) by (unfold tr; rewrite <- app_assoc; reflexivity). rewrite E in Hr, Hc. destruct (run_split_event _ _ _ _ _ _ _ Hr) as (ls1 & l & ls2 & s1 & s2 & tr1 & e1 & e2 & -> & H1 & H2 & E1 & H3).
  assert (Hc1 : k_rule tr1). { apply (k_rule_prefix _ (e1 ++ KRun c h :: tc)). rewrite app_assoc, <- E1. exact Hc. } pose proof (k_inv _ _ _ H1 Hc1) as HI.
  assert (Hu : In (KUnbind c) (tr1 ++ e1)) by (rewrite <- E1; apply in_elt).
  assert (Hfr : n_life (c_nd s1 c) = LNone -> ~ In (KUnbind c) tr1). { intros Hl Hx. apply v_u_iff in Hx. destruct (fresh_facts _ _ _ HI Hl) as (_ & _ & _ & _ & Fv). rewrite Fv in Hx. discriminate. }
  destruct (c_events _ _ _ _ H2) as [X|[(ev & X & Hev)|[(c' & e & X & El & Hl & Hrq)|(c' & e & X & El & Hl & Hrq)]]].
  - destruct e1; discriminate.
  - destruct e1 as [|x e1]; [|destruct e1; discriminate]. simpl in X. injection X as <- ->. destruct Hev as (-> & _).
    pose proof (k_cause _ _ _ _ _ _ Hr Hc) as (e & t1 & t2 & E2 & Ha & Hn). exists e.
    assert (G : forall u v, u ++ KUnbind c :: tb = v ++ KCancel e :: t2 -> (exists x, u = v ++ KCancel e :: x) \/ In (KUnbind c) v).
    { intros u. induction u as [|z u IH]; intros v Ev.
      - destruct v as [|w v]; [discriminate|]. simpl in Ev. injection Ev as <- _. right. now left.
      - destruct v as [|w v]; simpl in Ev; injection Ev as <- Ev; [left; exists u; auto|]. destruct (IH v Ev) as [(w & ->)|Hw]; [left; exists w; auto|right; now right]. }
    destruct (G _ _ E2) as [(x & ->)|Hw]; [exists t1, x; auto|]. exfalso. apply Hn. now left.
  - exfalso. destruct e1 as [|x e1]; [discriminate|]. destruct e1 as [|y e1]; [|destruct e1; discriminate]. simpl in X. injection X as -> -> -> ->. apply in_app_iff in Hu. destruct Hu as [Hu|[Hu|[]]]; [|discriminate]. now apply Hfr.
  - exfalso. destruct e1 as [|x e1]; [discriminate|]. destruct e1 as [|y e1]; [|destruct e1; discriminate]. simpl in X. injection X as -> -> -> ->. apply in_app_iff in Hu. destruct Hu as [Hu|[Hu|[]]]; [|discriminate]. now apply Hfr.
Qed.

(** cancellation_observer *)
Lemma k_reset_true ls s tr c : crun ls = Running s tr -> k_rule tr -> In (KReset c true) tr -> ~ In c (runs tr).
Proof.
  intros Hr Hc H Hx. pose proof (k_inv _ _ _ Hr Hc) as HI. apply v_r_iff in H. apply v_x_iff in Hx. apply It in H, Hx. apply (o_x _ _ _ _ _ _ _ _ _ (k_ok _ _ HI c)) in Hx. tauto.
Qed.
Lemma k_reset_false ls s tr c e : crun ls = Running s tr -> k_rule tr -> c_quiet s -> In (KReset c false) tr -> armed c e tr -> In c (runs tr).
Proof.
  intros Hr Hc Hq H Ha. pose proof (k_inv _ _ _ Hr Hc) as HI. apply v_f_iff in H. apply (v_a_iff _ _ _ (k_uniq _ _ HI c)) in Ha. destruct Ha as [Ha _]. apply v_x_iff, It. apply It in H.
  assert (Ha' : !(v_an (nvw c tr)) \/ !(v_ao (nvw c tr))) by (rewrite !It; now apply orb_true_iff). destruct (o_f _ _ _ _ _ _ _ _ _ (k_ok _ _ HI c) H Ha') as [X|X]; auto. rewrite (quiet_rests _ Hq) in X. destruct X.
Qed.
Lemma k_set_false ls s tr c e : crun ls = Running s tr -> k_rule tr -> In (KSet c (Some e) false) tr -> ~ In c (runs tr).
Proof.
  intros Hr Hc H Hx. pose proof (k_inv _ _ _ Hr Hc) as HI. assert (Hs : v_s (nvw c tr) = true) by (apply v_s_iff; eauto). apply v_x_iff in Hx. apply It in Hs, Hx. apply (o_x _ _ _ _ _ _ _ _ _ (k_ok _ _ HI c)) in Hx. tauto.
Qed.

(** ** Progress *)
Lemma k_progress ls s tr : crun ls = Running s tr -> k_rule tr -> (forall l, c_internal l -> c_step s l = Disabled) -> c_quiet s.
Proof.
  intros Hr Hc Hd. pose proof (k_inv _ _ _ Hr Hc) as HI.
  assert (Hf : forall f, In f (c_fns s) -> f = FEnd).
  { intros f Hf. apply In_nth_error in Hf. destruct Hf as [k Hk]. specialize (Hd (LRet k) I). simpl in Hd. rewrite Hk in Hd. destruct f as [c e h|]; auto. destruct h; discriminate. }
  split; auto. intros l Hl. pose proof Hl as Hin. apply In_nth_error in Hl. destruct Hl as [i Hi]. specialize (Hd (LLoop i) I). simpl in Hd. rewrite Hi in Hd. destruct l as [rest [k|]].
  - pose proof (k_cur _ _ HI _ k Hin eq_refl) as Hk. destruct (nth_error (c_fns s) k) as [f|] eqn:Ek; [|apply nth_error_None in Ek; lia]. rewrite (Hf f (nth_error_In _ _ Ek)) in Hd. destruct rest; discriminate.
  - destruct rest as [|c rest]; auto. exfalso.
    assert (Hlv : forall c', In c' (c :: rest) -> In c' (rests s)). { intros c' Hc'. unfold rests. apply in_flat_map. exists (CL (c :: rest) None). auto. }
    pose proof (o_rst _ _ _ _ _ _ _ _ _ (k_ok _ _ HI c)) as H. rewrite It, memb_In in H. specialize (H (Hlv c (or_introl eq_refl))). destruct H as (_ & H & _). destruct (n_tok (c_nd s c)); [|destruct H].
    change (nlive s c && forallb (nlive s) rest) with (forallb (nlive s) (c :: rest)) in Hd. rewrite (proj2 (forallb_forall (nlive s) (c :: rest))) in Hd; [discriminate|]. intros c' Hc'. apply (k_rest_live _ _ HI). auto.
Qed.

Definition lmeas (l : cloop) : nat := 4 * length (l_rest l) + match l_cur l with Some _ => 1 | None => 0 end.
Definition fmeas (f : cfn) : nat := match f with FRun _ _ _ => 2 | FEnd => 0 end.
Definition cmeas (s : cst) : nat := sum (map lmeas (c_loops s)) + sum (map fmeas (c_fns s)).
Lemma cmeas_step s l s' es : c_internal l -> c_step s l = Next s' es -> cmeas s' + 1 <= cmeas s.
Proof.
  intros Hl E. destruct l; try destruct Hl; simpl in E.
  - destruct (nth_error (c_loops s) i) as [[rest [k|]]|] eqn:Hi; try discriminate.
    + assert (E' : s' = c_with_loops s (set_nth (c_loops s) i (CL rest None))). { destruct rest; destruct (nth_error (c_fns s) k) as [[|]|]; try discriminate; now injection E. } subst s'. unfold cmeas. simpl.
      pose proof (sum_map_set_nth lmeas _ i (CL rest None) _ Hi) as H. unfold lmeas in H at 2 4. simpl in H. lia.
    + destruct rest as [|c rest]; [discriminate|]. destruct (n_tok _); [|discriminate]. destruct (_ && _); [|discriminate]. injection E as <- _. unfold cmeas. simpl.
      pose proof (sum_map_set_nth lmeas _ i (CL rest (Some (length (c_fns s)))) _ Hi) as H. unfold lmeas in H at 2 4. simpl in H. rewrite map_app, sum_app. simpl. lia.
  - destruct (nth_error (c_fns s) k) as [[c e h|]|] eqn:Hk; try discriminate. pose proof (sum_map_set_nth fmeas _ k FEnd _ Hk) as H. simpl in H. unfold cmeas. destruct h; injection E as <- _; simpl; lia.
Qed.
Lemma k_finishes s tr : forall ls s' tr', Forall c_internal ls -> run_from c_step s tr ls = Running s' tr' -> length ls <= cmeas s.
Proof.
  intros ls. revert s tr. induction ls as [|l ls IH]; intros s tr s' tr' Hf Hr; [simpl; lia|]. inversion Hf; subst. simpl in Hr. destruct (c_step s l) as [s1 es| |] eqn:E; try discriminate.
  pose proof (cmeas_step _ _ _ _ H1 E). specialize (IH _ _ _ _ H2 Hr). simpl. lia.
Qed.
