(** Proofs about future::get. *)
From Coq Require Import List Arith Bool Lia.
From Verif Require Import Lts ListFacts M_Wait S_Wait P_Wait M_Future S_Future.
Import ListNotations.

Section Proofs.
Variable T : Type.
Notation P := (future_prim T).

Definition f_inv (s : PS P) : Prop := NoDup (f_q s) /\ (f_q s <> [] -> f_val s = None).

Definition future_laws : laws P.
Proof.
  refine (Laws P (fun (s : PS P) o => In o (f_q s)) f_inv _ _ _ _ _ _).
  - simpl. split; [|auto]. split; [constructor|]. auto.
  - intros s o a s' es (H1 & H2) Hn. simpl. unfold f_start. destruct (f_val s) as [x|] eqn:Hv; [discriminate|].
    intros [= <- <-]. simpl. split; [|intros o'; apply In_snoc]. split; simpl; [now apply NoDup_snoc|auto].
  - intros s o a s' v es (H1 & H2) Hn. simpl. unfold f_start. destruct (f_val s) as [x|] eqn:Hv; [|discriminate].
    intros [= <- <- <-]. split; [split; [auto|rewrite Hv; exact H2]|tauto].
  - intros s [x] s' taken es (H1 & H2). simpl. destruct (f_val s); [discriminate|]. intros [= <- <- <-].
    split; [split; simpl; [constructor|congruence]|]. split; [auto|]. split; [auto|]. simpl. tauto.
  - intros s o (H1 & H2) Hin. simpl in Hin. simpl. unfold f_try.
    rewrite H2 by (intros Hq; rewrite Hq in Hin; destruct Hin). rewrite (proj2 (memb_In _ _) Hin). eexists. split; [reflexivity|]. simpl. split.
    + split; simpl; [now apply NoDup_remove1|auto].
    + intros o'. now apply In_remove1_NoDup.
  - intros s o s' v HI Hn. simpl. unfold f_resume. destruct (f_can s o); [intros [= <- <-]; split; [exact HI|tauto]|].
    destruct (f_val s); [|discriminate]. intros [= <- <-]. split; [exact HI|tauto].
Defined.

(** taken means: the value is there *)
Definition future_tlaws : tlaws P future_laws.
Proof.
  refine (TLaws P future_laws (fun (s : PS P) o => f_val s <> None) _ _ _ _ _ _ _).
  - intros s [x] s' taken es o HI. simpl. destruct (f_val s); [discriminate|]. intros [= <- <- <-]. simpl. discriminate.
  - intros s [x] s' taken es o HI Hv. simpl. destruct (f_val s); [discriminate|congruence].
  - intros s o a s' es o' HI Hv Hne. simpl. unfold f_start. destruct (f_val s); [discriminate|congruence].
  - intros s o a s' v es o' HI Hv Hne. simpl. unfold f_start. destruct (f_val s) eqn:E; [|discriminate]. intros [= <- <- <-]. congruence.
  - intros s o s' b o' HI Hv Hne. simpl. unfold f_try. destruct (f_val s) eqn:E; [|congruence]. intros [= <- <-]. congruence.
  - intros s o s' v o' HI Hv. simpl. unfold f_resume. destruct (f_can s o); [intros [= <- <-]; exact Hv|].
    destruct (f_val s) eqn:E; [|congruence]. intros [= <- <-]. congruence.
  - intros s o s' b HI Hv. simpl. unfold f_try. destruct (f_val s) eqn:E; [|congruence]. intros [= <- <-]. auto.
Defined.

Section Runs.
Variable eager : bool.
Notation cst := (cst P).
Notation step := (step P eager).
Notation trace := (list (event P)).
Notation JT := (JT P future_laws eager future_tlaws).

Lemma sets_app (t1 t2 : trace) : sets (t1 ++ t2) = sets t1 ++ sets t2.
Proof. induction t1 as [|e t1 IH]; simpl; auto. destruct e as [| | | |[x]]; simpl; auto. now rewrite IH. Qed.
Lemma sets_none (es : trace) : existsb is_prim_event es = false -> sets es = [].
Proof. induction es as [|e es IH]; simpl; auto. destruct e; simpl; auto. discriminate. Qed.
Lemma sets_In x (tr : trace) : In (EPrim (ESet x : PE P)) tr <-> In x (sets tr).
Proof.
  induction tr as [|e tr IH]; simpl; [tauto|]. destruct e as [| | | |[y]]; simpl; rewrite <- IH; try (intuition discriminate).
  split; (intros [H|H]; [left; congruence|auto]).
Qed.

Definition FInv (s : cst) (tr : trace) : Prop :=
  JT s tr /\
  sets tr = match f_val (c_prim s) with Some x => [x] | None => [] end /\
  (forall o, f_can (c_prim s) o = true <-> o_node (c_op s o) = NCancelled) /\
  (forall o, o_node (c_op s o) = NCancelled -> cancelled_before_set o tr).

Lemma FInv_init : FInv (c_init P) [].
Proof.
  split; [apply JT_init|]. split; [auto|]. split; simpl; [intuition discriminate|discriminate].
Qed.

Lemma before_app o (t1 t2 : trace) : cancelled_before_set o t1 -> cancelled_before_set o (t1 ++ t2).
Proof. intros (ta & tb & -> & H). exists ta, (tb ++ t2). rewrite app_assoc. auto. Qed.

Lemma prim_cases s s' es : step_eff P s s' es ->
  (c_prim s' = c_prim s /\ sets es = []) \/
  (exists o, f_val (c_prim s) = None /\ c_prim s' = FS None (f_q (c_prim s) ++ [o]) (f_can (c_prim s)) /\ sets es = []) \/
  (exists o, f_val (c_prim s) = None /\ o_node (c_op s' o) = NCancelled /\
     c_prim s' = FS None (remove1 o (f_q (c_prim s))) (upd (f_can (c_prim s)) o true) /\ sets es = []) \/
  (exists x, f_val (c_prim s) = None /\ c_prim s' = FS (Some x) [] (f_can (c_prim s)) /\ sets es = [x]).
Proof.
  intros He. destruct (step_prim_eff _ _ _ He) as [Hp Hes _|o tok a pes Hp _ ->|o tok a v pes Hp _ ->|o _ Hp Hn ->|o v Hp ->|pl taken pes Hp -> _].
  - left. split; auto. now apply sets_none.
  - simpl in Hp. unfold f_start in Hp. destruct (f_val (c_prim s)) eqn:Hv; [discriminate|]. injection Hp as Hp <-.
    right; left. exists o. auto.
  - simpl in Hp. unfold f_start in Hp. destruct (f_val (c_prim s)) eqn:Hv; [|discriminate]. injection Hp as Hp _ <-. left. auto.
  - simpl in Hp. unfold f_try in Hp. destruct (f_val (c_prim s)) eqn:Hv; [discriminate|].
    destruct (memb o (f_q (c_prim s))); [|discriminate]. injection Hp as Hp. right; right; left. exists o. auto.
  - simpl in Hp. unfold f_resume in Hp. left. destruct (f_can (c_prim s) o); [injection Hp; auto|].
    destruct (f_val (c_prim s)); [|discriminate]. injection Hp; auto.
  - simpl in Hp. destruct pl as [x]. simpl in Hp. destruct (f_val (c_prim s)) eqn:Hv; [discriminate|]. injection Hp as Hp <- <-.
    right; right; right. exists x. auto.
Qed.

Lemma FInv_step s tr l s' es : FInv s tr -> step s l = Next s' es -> FInv s' (tr ++ es).
Proof.
  intros (HJT & HV & HC & HB) Hs.
  pose proof (JT_step _ _ _ _ _ _ _ _ _ HJT Hs) as HJT'.
  pose proof (JT_reliable _ _ _ _ _ _ HJT) as HR. pose proof HJT as [[HG HTI] HTK].
  pose proof (step_effect _ _ _ _ _ _ _ HG HR Hs) as He.
  pose proof (prim_cases _ _ _ He) as Hcase.
  assert (Hcn : forall o, o_node (c_op s' o) = NCancelled -> o_node (c_op s o) = NCancelled \/
    (f_val (c_prim s') = None /\ sets es = [] /\ f_val (c_prim s) = None /\ f_can (c_prim s') o = true)).
  { intros o Hn. destruct (cancelled_new _ _ _ _ He Hn) as [Hn0|[Hn0 Hp]]; auto. right.
    simpl in Hp. unfold f_try in Hp. destruct (f_val (c_prim s)) eqn:Hv; [discriminate|].
    destruct (memb o (f_q (c_prim s))); [|discriminate]. injection Hp as Hp.
    assert (Hcan : f_can (c_prim s') o = true) by (rewrite <- Hp; apply upd_same).
    destruct Hcase as [(Hq & Hse)|[(o1 & _ & Hq & Hse)|[(o1 & _ & _ & Hq & Hse)|(x & _ & Hq & Hse)]]].
    - repeat split; auto. now rewrite Hq.
    - repeat split; auto. now rewrite Hq.
    - repeat split; auto. now rewrite Hq.
    - exfalso. rewrite Hq in Hp. discriminate. }
  assert (HV' : sets (tr ++ es) = match f_val (c_prim s') with Some x => [x] | None => [] end).
  { rewrite sets_app, HV. destruct Hcase as [(-> & ->)|[(o & -> & -> & ->)|[(o & -> & _ & -> & ->)|(x & -> & -> & ->)]]]; auto using app_nil_r. }
  split; [exact HJT'|]. split; [exact HV'|]. split.
  - intros o. split.
    + intros Hw. destruct (f_can (c_prim s) o) eqn:Hold.
      * apply (node_stays s s' es o NCancelled He); auto. now apply HC.
      * destruct Hcase as [(Hq & _)|[(o1 & _ & Hq & _)|[(o1 & _ & Hn & Hq & _)|(x & _ & Hq & _)]]]; rewrite Hq in Hw; simpl in Hw; try congruence.
        unfold upd in Hw. destruct (Nat.eqb_spec o o1) as [E|E]; [subst o1; exact Hn|congruence].
    + intros Hn. destruct (Hcn o Hn) as [Hn0|(_ & _ & _ & H)]; auto. apply HC in Hn0.
      destruct Hcase as [(Hq & _)|[(o1 & _ & Hq & _)|[(o1 & _ & _ & Hq & _)|(x & _ & Hq & _)]]]; rewrite Hq; simpl; auto.
      unfold upd. destruct (Nat.eqb o o1); auto.
  - intros o Hn. destruct (Hcn o Hn) as [Hn0|(Hv' & Hse & Hv & _)]; [apply before_app; auto|].
    exists (tr ++ es), []. rewrite app_nil_r. split; [auto|]. split; [|rewrite HV', Hv'; reflexivity].
    pose proof HJT' as [[HG' HTI'] _]. destruct (cancelled_requested _ _ _ s' o HG' Hn) as (e & He1 & He2).
    eapply requested_of; eauto. split; eauto. apply (t_node_started _ _ _ s' (tr ++ es) o HJT'). congruence.
Qed.

Lemma f_inv_run ls s tr : run step (c_init P) ls = Running s tr -> FInv s tr.
Proof. exact (run_inv step FInv (c_init P) FInv_init FInv_step ls s tr). Qed.

(** ** Reports *)
Lemma fut_some ls s t1 o x t2 : run step (c_init P) ls = Running s (t1 ++ EDone (P := P) o (Some x) :: t2) -> sets t1 = [x].
Proof.
  intros Hr. destruct (t_report _ _ future_tlaws _ _ _ _ _ _ Hr) as (ls1 & s1 & Hr1 & HJT & Hcase).
  pose proof (f_inv_run ls1 s1 _ Hr1) as (_ & HV & HC & HB). rewrite HV.
  destruct Hcase as [(w & Hf & Hv & Hn)|(ps & Hres & _)].
  - assert (Hst : started o t1) by (apply (t_done_started _ _ _ future_tlaws _ _ _ _ _ _ Hr)).
    apply starts_In in Hst. destruct Hst as (tok & a & Hst). apply in_split in Hst. destruct Hst as (ta & tb & ->).
    destruct (t_start_event _ _ _ future_tlaws _ _ _ _ _ _ _ Hr1) as (ls0 & s0 & Hr0 & _ & Hni & Hk).
    destruct Hk as [(ps & es & Hst & Hk)|(ps & w' & es & Hst & Hk)]; [unfold kind_q in Hk; congruence|].
    simpl in Hst. unfold f_start in Hst. destruct (f_val (c_prim s0)) as [y|] eqn:Hc; [|discriminate].
    pose proof (f_inv_run ls0 s0 _ Hr0) as (_ & HV0 & _). rewrite Hc in HV0. injection Hst as _ <- _. unfold kind_f in Hk.
    rewrite Hk in Hf. injection Hf as <-. simpl in Hv. injection Hv as ->.
    destruct (f_val (c_prim s1)) as [z|]; rewrite sets_app, HV0 in HV; simpl in HV; [|discriminate].
    injection HV as <- _. reflexivity.
  - simpl in Hres. unfold f_resume in Hres. destruct (f_can (c_prim s1) o); [discriminate|].
    destruct (f_val (c_prim s1)); [|discriminate]. injection Hres as _ <-. reflexivity.
Qed.

Lemma fut_none ls s t1 o t2 : run step (c_init P) ls = Running s (t1 ++ EDone (P := P) o None :: t2) -> cancelled_before_set o t1.
Proof.
  intros Hr. destruct (t_report _ _ future_tlaws _ _ _ _ _ _ Hr) as (ls1 & s1 & Hr1 & HJT & Hcase).
  pose proof (f_inv_run ls1 s1 _ Hr1) as (_ & HV & HC & HB).
  destruct Hcase as [(w & Hf & Hv & Hn)|(ps & Hres & Hn)].
  - exfalso. assert (Hst : started o t1) by (apply (t_done_started _ _ _ future_tlaws _ _ _ _ _ _ Hr)).
    apply starts_In in Hst. destruct Hst as (tok & a & Hst). apply in_split in Hst. destruct Hst as (ta & tb & ->).
    destruct (t_start_event _ _ _ future_tlaws _ _ _ _ _ _ _ Hr1) as (ls0 & s0 & Hr0 & _ & Hni & Hk).
    destruct Hk as [(ps & es & Hst & Hk)|(ps & w' & es & Hst & Hk)]; [unfold kind_q in Hk; congruence|].
    simpl in Hst. unfold f_start in Hst. destruct (f_val (c_prim s0)) as [y|] eqn:Hc; [|discriminate].
    injection Hst as _ <- _. unfold kind_f in Hk. rewrite Hk in Hf. injection Hf as <-. discriminate.
  - simpl in Hres. unfold f_resume in Hres. apply HB, HC. destruct (f_can (c_prim s1) o); auto.
    destruct (f_val (c_prim s1)); discriminate.
Qed.

Lemma before_requested o (tr : trace) : cancelled_before_set o tr -> cancel_requested o tr.
Proof. intros (ta & tb & -> & (e & (a & H1) & H2) & _). exists e. split; [exists a|]; apply in_app_iff; auto. Qed.

Lemma fut_none_requested ls s t1 o t2 : run step (c_init P) ls = Running s (t1 ++ EDone (P := P) o None :: t2) -> cancel_requested o t1.
Proof. intros Hr. apply before_requested. eapply fut_none; eauto. Qed.

Lemma fut_default_token ls s tr o a v : run step (c_init P) ls = Running s tr ->
  In (EStart (P := P) o None a) tr -> In (EDone (P := P) o v) tr -> v <> None.
Proof.
  intros Hr Hs Hd ->. apply in_split in Hd. destruct Hd as (t1 & t2 & ->).
  apply (t_default_token _ _ _ future_tlaws _ _ _ _ _ Hr Hs). destruct (fut_none_requested _ _ _ _ _ Hr) as (e & (b & H1) & H2).
  exists e. split; [exists b|]; apply in_app_iff; auto.
Qed.

(** ** Quiescence *)
Lemma fut_pending ls s tr o : run step (c_init P) ls = Running s tr -> all_returned s -> started o tr ->
  notified o tr = 1 \/ (sets tr = [] /\ ~ cancel_requested o tr).
Proof.
  intros Hr Hret Hst. pose proof (f_inv_run ls s tr Hr) as (HJT & HV & _). pose proof HJT as [[HG HTI] _]. pose proof HTI as (HD & HS & _).
  destruct (quiescent _ _ _ s o HG Hret (proj2 (HS o) Hst)) as [Hd|(Hq & _ & Hnr)].
  - left. now rewrite HD, Hd.
  - right. pose proof HG as (_ & _ & ((_ & HI2) & HQ) & _). apply HQ in Hq. simpl in Hq. split.
    + rewrite HV, HI2; auto. intros He. rewrite He in Hq. destruct Hq.
    + intros Hcr. destruct (requested_iff _ _ _ _ _ _ (conj HG HTI) Hcr) as (e & He1 & He2). rewrite (Hnr e He1) in He2. discriminate.
Qed.

Lemma fut_after ls s tr o : run step (c_init P) ls = Running s tr -> all_returned s -> sets tr <> [] -> started o tr -> notified o tr = 1.
Proof. intros Hr Hret Hs Hst. destruct (fut_pending _ _ _ _ Hr Hret Hst) as [H|[H _]]; auto. contradiction. Qed.

(** ** Failures *)
Lemma fut_fail ls f tr : run step (c_init P) ls = Failed f tr ->
  (f = AssertFailed /\ exists x y, sets tr = [x; y]) \/
  (eager = true /\ f = UseAfterFree /\ exists o, In (EDestroy o) tr /\ notified o tr = 1 /\ cancel_requested o tr).
Proof.
  intros Hr. destruct (t_failure _ _ future_tlaws _ _ _ Hr) as [(ls1 & s & tr1 & l & es & H1 & -> & HJT & Hcase)|H]; auto. left.
  pose proof (f_inv_run ls1 s tr1 H1) as (_ & HV & HC & _). pose proof HJT as [[HG HTI] HTK].
  destruct Hcase as [(o & tok & a & -> & Hl & Hst & ->)|[(pl & pes & -> & Hp & ->)|[(o & x & -> & Hp & Hres & -> & Hn)|(o & x & -> & Hp & Hnd & Htry & ->)]]].
  - simpl in Hst. unfold f_start in Hst. destruct (f_val (c_prim s)); discriminate.
  - simpl in Hp. destruct pl as [x]. simpl in Hp. destruct (f_val (c_prim s)) as [y|] eqn:Hv; [|discriminate]. injection Hp as <- <-.
    split; auto. exists y, x. rewrite sets_app, HV. reflexivity.
  - exfalso. simpl in Hres. unfold f_resume in Hres. destruct (f_can (c_prim s) o) eqn:Hcan; [discriminate|].
    destruct (f_val (c_prim s)) eqn:Hv; [discriminate|]. destruct Hn as [Hn|Hn].
    + specialize (HTK o Hn). simpl in HTK. contradiction.
    + apply HC in Hn. congruence.
  - exfalso. specialize (HTK o Hnd). simpl in HTK. simpl in Htry. unfold f_try in Htry. destruct (f_val (c_prim s)); [discriminate|contradiction].
Qed.

Lemma fut_rule_fail ls f tr : run step (c_init P) ls = Failed f tr -> set_once tr ->
  eager = true /\ f = UseAfterFree /\ exists o, In (EDestroy o) tr /\ notified o tr = 1 /\ cancel_requested o tr.
Proof.
  intros Hr HC. destruct (fut_fail _ _ _ Hr) as [(_ & x & y & H)|H]; auto. unfold set_once in HC. rewrite H in HC. simpl in HC. lia.
Qed.
End Runs.

Lemma fut_safe ls f tr : run (step P false) (c_init P) ls = Failed f tr -> ~ set_once tr.
Proof. intros Hr HC. destruct (fut_rule_fail false _ _ _ Hr HC) as [H _]. discriminate. Qed.

(** ** The two critical sections of set_value() *)
Lemma fine_between (s : fst_ T) x cs : f_val s = Some x -> (forall c, In c cs -> quiet c) ->
  fine_run s cs = (s, map (fun c => match c with CTry _ => OTry false | _ => OStart false end) cs).
Proof.
  intros Hv. induction cs as [|c cs IH]; intros Hq; [reflexivity|]. simpl. pose proof (Hq c (or_introl eq_refl)) as Hc.
  assert (H : fine_step s c = (s, match c with CTry _ => OTry false | _ => OStart false end)).
  { destruct c; try destruct Hc; simpl; [unfold f_start|unfold f_try]; now rewrite Hv. }
  rewrite H, IH; auto. intros c' Hc'. apply Hq. now right.
Qed.

Lemma fine_split (s : fst_ T) x cs : f_val s = None -> (forall c, In c cs -> quiet c) ->
  fine_run s (CSet x :: cs ++ [CWake]) =
  (FS (Some x) [] (f_can s), OSet :: map (fun c => match c with CTry _ => OTry false | _ => OStart false end) cs ++ [OWake (f_q s)]).
Proof.
  intros Hv Hq. cbn [fine_run fine_step]. rewrite Hv.
  assert (H : forall s cs1 cs2, fine_run s (cs1 ++ cs2) =
    let (s1, b1) := fine_run s cs1 in let (s2, b2) := fine_run (T := T) s1 cs2 in (s2, b1 ++ b2)).
  { clear. intros s cs1. revert s. induction cs1 as [|c cs1 IH]; intros s cs2; simpl; [now destruct (fine_run s cs2)|].
    destruct (fine_step s c) as [s1 b]. rewrite IH. destruct (fine_run s1 cs1) as [s2 b1]. destruct (fine_run s2 cs2). reflexivity. }
  rewrite H, (fine_between _ x); auto.
Qed.

Notation F := (future_prim nat).
Lemma fut_uaf : exists ls tr, run (step F true) (c_init F) ls = Failed UseAfterFree tr /\ set_once tr.
Proof.
  exists [LStart (P := F) 0 (Some 0) tt; LPath 0 PathL; LPath 0 PathL; LPrim (FSet 5 : PL F); LWakeNext 0; LPath 0 PathP;
          LCancel 0; LCanNext 0; LPath 0 PathC; LPath 0 PathC; LPath 0 PathC; LDestroy 0; LPath 0 PathP].
  witness. unfold set_once. vm_compute. auto.
Qed.
End Proofs.
