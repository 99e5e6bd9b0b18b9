(** Proofs about async::sequenced_event. *)
From Coq Require Import List Arith Bool Lia.
From Verif Require Import Lts ListFacts M_Wait S_Wait P_Wait M_Recurring S_Recurring P_Recurring.
Import ListNotations.

Lemma count_app {E} (f : E -> bool) l1 l2 : count f (l1 ++ l2) = count f l1 + count f l2.
Proof. unfold count. now rewrite filter_app, app_length. Qed.

Lemma count_existsb {E} (f : E -> bool) l : existsb f l = true -> count f l >= 1.
Proof.
  unfold count. induction l as [|x l IH]; simpl; [discriminate|]. destruct (f x); simpl; [lia|auto].
Qed.

Lemma count_none {E} (f g : E -> bool) l : (forall x, f x = true -> g x = true) -> existsb g l = false -> count f l = 0.
Proof.
  unfold count. intros H. induction l as [|x l IH]; simpl; auto. destruct (g x) eqn:Hg; simpl; [discriminate|].
  destruct (f x) eqn:Hf; [rewrite (H _ Hf) in Hg; discriminate|auto].
Qed.

Section Seq.
Variable eager : bool.
Notation P := sequenced.
Notation U := sequenced_user.
Notation step := (step P eager).

Definition QInv (s : cst P) (tr : list (event P)) : Prop :=
  RInv U eager s tr /\
  sq_seq (r_g (c_prim s)) = seqno tr /\
  seqno tr = count is_raise tr + sq_pend (r_g (c_prim s)) /\
  (forall o tok n, In o (r_q (c_prim s)) -> In (EStart (P:=P) o tok n) tr -> n < sq_seq (r_g (c_prim s)) -> sq_pend (r_g (c_prim s)) > 0).

Lemma raise_prim (e : event P) : is_raise e = true -> is_prim U e = true.
Proof. destruct e; simpl; auto. Qed.
Lemma bump_prim (e : event P) : is_bump e = true -> is_prim U e = true.
Proof. destruct e; simpl; auto. Qed.

Lemma QInv_step s tr l s' es : QInv s tr -> step s l = Next s' es -> QInv s' (tr ++ es).
Proof.
  intros (HI & H1 & H2 & H3) Hs. pose proof (RInv_step U eager _ _ _ _ _ HI Hs) as HI'. split; [exact HI'|].
  pose proof HI as (HJT & _). pose proof HJT as [[HG HTI] _].
  destruct (r_ueff U eager _ _ _ _ _ HI Hs) as [Hg Hes Hq|Hg Hes Hq|gl ges Hg Hes Hq].
  - rewrite Hg. unfold seqno in *. rewrite !count_app.
    rewrite (count_none is_bump (is_prim U) es bump_prim Hes), (count_none is_raise (is_prim U) es raise_prim Hes).
    split; [lia|]. split; [lia|]. intros o tok n Hin Hst Hlt. destruct (Hq o Hin) as [Hq'|(tok' & n' & -> & Hc)].
    + destruct (queued_started U eager s tr o HJT Hq') as [Hst' _].
      apply (H3 o tok n Hq'); auto. apply in_app_iff in Hst. destruct Hst as [Hst|Hst]; auto. exfalso.
      assert (Hso : In o (starts (tr ++ es))) by (rewrite starts_app, in_app_iff; auto).
      destruct HI' as ([[_ (_ & _ & HND & _)] _] & _).
      rewrite starts_app in HND. apply (NoDup_app_disjoint _ _ HND o); auto. apply starts_In. eauto.
    + apply in_app_iff in Hst. assert (n = n').
      { destruct Hst as [Hst|Hst].
        - exfalso. destruct HI' as ([[_ (_ & _ & HND & _)] _] & _). rewrite starts_app in HND.
          apply (NoDup_app_disjoint _ _ HND o); [apply starts_In; eauto|now left].
        - destruct Hst as [[= -> ->]|[]]. reflexivity. }
      subst n'. simpl in Hc. destruct (Nat.leb n (sq_seq (r_g (c_prim s)))); try discriminate. injection Hc as Hc.
      apply Nat.leb_le in Hc. lia.
  - subst es. simpl in Hg. destruct (sq_pend (r_g (c_prim s))) as [|n] eqn:Hp; [discriminate|]. injection Hg as Hg. rewrite <- Hg. simpl.
    unfold seqno, count in *. rewrite !filter_app, !app_length. simpl. split; [lia|]. split; [lia|]. rewrite Hq. simpl. tauto.
  - subst es. simpl in Hg. destruct gl; simpl in Hg; injection Hg as Hg <-; rewrite <- Hg; simpl; unfold seqno, count in *; rewrite !filter_app, !app_length; simpl.
    + split; [lia|]. split; [lia|]. intros. lia.
    + split; [lia|]. split; [lia|]. rewrite Hq. intros o tok n Hin Hst. apply (H3 o tok n Hin).
      apply in_app_iff in Hst. destruct Hst as [Hst|[Hst|[]]]; [auto|discriminate].
Qed.

Lemma QInv_init : QInv (c_init P) [].
Proof. split; [apply RInv_init|]. simpl. repeat split; auto. intros. lia. Qed.

Lemma seq_inv ls s tr : run step (c_init P) ls = Running s tr -> QInv s tr.
Proof. exact (run_inv step QInv (c_init P) QInv_init QInv_step ls s tr). Qed.

(** ** C11 *)
Lemma seq_woken ls s t1 o tok n t2 : run step (c_init P) ls = Running s (t1 ++ EStart (P:=P) o tok n :: t2) ->
  all_returned s -> no_raise_in_progress (t1 ++ EStart (P:=P) o tok n :: t2) ->
  n < seqno (t1 ++ EStart (P:=P) o tok n :: t2) -> notified o (t1 ++ EStart (P:=P) o tok n :: t2) = 1.
Proof.
  intros Hr Hret Hnr Hlt. pose proof (seq_inv _ _ _ Hr) as (HI & H1 & H2 & H3). unfold no_raise_in_progress in Hnr.
  assert (Hst : started o (t1 ++ EStart (P:=P) o tok n :: t2)).
  { apply starts_In. exists tok, n. apply in_app_iff. right. now left. }
  destruct (r_pending U eager ls s _ o Hr Hret Hst) as [H|(Hq & _)]; auto. exfalso.
  specialize (H3 o tok n Hq). specialize (H3 ltac:(apply in_app_iff; right; now left)). lia.
Qed.

Lemma seq_raise_enabled ls s tr : run step (c_init P) ls = Running s tr -> ~ no_raise_in_progress tr ->
  exists s', step s (LPrim (RRaise : PL P)) = Next s' [EPrim (ERaise : PE P)].
Proof.
  intros Hr Hn. pose proof (seq_inv _ _ _ Hr) as (HI & H1 & H2 & H3). unfold no_raise_in_progress in Hn.
  destruct (sq_pend (r_g (c_prim s))) as [|n] eqn:Hp; [lia|].
  apply (r_raise_enabled U eager ls s tr (Sq (sq_seq (r_g (c_prim s))) n) Hr). simpl. now rewrite Hp.
Qed.

(** next_sequence() *)
Lemma seq_next ls s t1 v t2 : run step (c_init P) ls = Running s (t1 ++ EPrim (EUser (ESeqNext v : UE U) : PE P) :: t2) -> v = S (seqno t1).
Proof.
  intros Hr. destruct (run_split_event _ _ _ _ _ _ _ Hr) as (ls1 & l & ls2 & s1 & s2 & tr1 & e1 & e2 & -> & H1 & H2 & -> & H3).
  pose proof (seq_inv _ _ _ H1) as (HI & Hq & _). destruct (r_ueff U eager _ _ _ _ _ HI H2) as [Hg Hes _|Hg Hes _|gl ges Hg Hes _].
  - rewrite existsb_app in Hes. simpl in Hes. rewrite orb_true_r in Hes. discriminate.
  - destruct e1 as [|x e1]; [discriminate|destruct e1; discriminate].
  - destruct gl; simpl in Hg; injection Hg as _ <-; simpl in Hes; (destruct e1 as [|x e1]; [|destruct e1; discriminate]); simpl in Hes; [discriminate|]. injection Hes as -> _. now rewrite Hq, app_nil_r.
Qed.

(** ** C12 *)
Lemma seq_value ls s t1 o tok n t2 v t3 :
  run step (c_init P) ls = Running s (t1 ++ EStart (P:=P) o tok n :: t2 ++ EDone (P:=P) o v :: t3) ->
  v = seqno (t1 ++ EStart (P:=P) o tok n :: t2) /\ n <= seqno t1.
Proof.
  intros Hr. destruct (r_result U eager _ _ _ _ _ _ _ _ _ Hr) as (ls0 & s0 & ls1 & s1 & Hr0 & Hr1 & Hc).
  pose proof (seq_inv _ _ _ Hr1) as (_ & H1 & _). pose proof (seq_inv _ _ _ Hr0) as (_ & H0 & _).
  split.
  - rewrite <- H1. destruct Hc as [(-> & _)|[(-> & _)|(-> & _)]]; reflexivity.
  - rewrite <- H0. assert (Hcond : u_cond U (r_g (c_prim s0)) n <> None) by (destruct Hc as [(_ & _ & ->)|[(_ & _ & ->)|(_ & ->)]]; discriminate).
    simpl in Hcond. destruct (Nat.leb_spec n (sq_seq (r_g (c_prim s0)))); [lia|congruence].
Qed.

Lemma seq_past ls s t1 o tok n t2 v t3 :
  run step (c_init P) ls = Running s (t1 ++ EStart (P:=P) o tok n :: t2 ++ EDone (P:=P) o v :: t3) ->
  no_raise_in_progress t1 -> ~ cancel_requested o (t1 ++ EStart (P:=P) o tok n :: t2) -> v > n.
Proof.
  intros Hr Hnr Hnc. destruct (seq_value _ _ _ _ _ _ _ _ _ Hr) as [Hv Hle].
  destruct (r_result U eager _ _ _ _ _ _ _ _ _ Hr) as (ls0 & s0 & ls1 & s1 & Hr0 & Hr1 & Hc).
  pose proof (seq_inv _ _ _ Hr1) as (_ & H1 & H2 & _). pose proof (seq_inv _ _ _ Hr0) as (_ & H0 & _).
  unfold no_raise_in_progress in Hnr. rewrite count_app in H2. subst v.
  destruct Hc as [(_ & He & _)|[(_ & Hcr & _)|(_ & Hcond)]]; [|tauto|].
  - apply count_existsb in He. change (EStart (P:=P) o tok n :: t2) with ([EStart (P:=P) o tok n] ++ t2) in *.
    rewrite (count_app is_raise [_] t2) in H2. lia.
  - simpl in Hcond. destruct (Nat.leb_spec n (sq_seq (r_g (c_prim s0)))); [|discriminate].
    destruct (Nat.leb_spec (sq_seq (r_g (c_prim s0))) n); [discriminate|].
    rewrite H0 in *. unfold seqno in *. rewrite count_app. lia.
Qed.

Lemma seq_running_rule ls s tr : run step (c_init P) ls = Running s tr -> seq_rule tr.
Proof.
  intros Hr t1 o tok n t2 ->.
  destruct (t_start_event _ _ eager (recurring_tlaws U) _ _ _ _ _ _ _ Hr) as (ls0 & s0 & Hr0 & _ & _ & Hk).
  pose proof (seq_inv _ _ _ Hr0) as (_ & H0 & _). rewrite <- H0. simpl in Hk. unfold r_start in Hk. simpl in Hk.
  destruct (Nat.leb_spec n (sq_seq (r_g (c_prim s0)))); [lia|].
  destruct Hk as [(ps & es & Hst & _)|(ps & w & es & Hst & _)]; destruct (r_st (c_prim s0) o); discriminate.
Qed.

(** ** Failures *)
Lemma seq_fail ls f tr : run step (c_init P) ls = Failed f tr ->
  (f = AssertFailed /\ ~ seq_rule tr) \/
  (eager = true /\ f = UseAfterFree /\ exists o, In (EDestroy o) tr /\ notified o tr = 1 /\ cancel_requested o tr).
Proof.
  intros Hr. destruct (r_fail U eager ls f tr Hr) as [(ls1 & s & tr1 & o & tok & a & H1 & -> & -> & Hc)|[(ls1 & s & tr1 & gl & es & H1 & Hc & _)|H]]; [| |right; exact H].
  - left. split; auto. intros Hrule. specialize (Hrule tr1 o tok a [] eq_refl).
    pose proof (seq_inv _ _ _ H1) as (_ & H0 & _). simpl in Hc.
    destruct (Nat.leb_spec a (sq_seq (r_g (c_prim s)))); [discriminate|lia].
  - destruct gl; discriminate.
Qed.

End Seq.
