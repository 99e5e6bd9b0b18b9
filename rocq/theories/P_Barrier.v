(** Proofs about async::barrier. *)
From Coq Require Import List Arith Bool Lia ZArith.
From Verif Require Import Lts ListFacts M_Wait S_Wait P_Wait M_Recurring S_Recurring P_Recurring P_Sequenced.
Import ListNotations.

(** ** The log of arrivals *)
Lemma sumZ_app (f : arrival -> Z) l1 l2 :
  fold_right Z.add 0%Z (map f (l1 ++ l2)) = (fold_right Z.add 0%Z (map f l1) + fold_right Z.add 0%Z (map f l2))%Z.
Proof. induction l1 as [|a l1 IH]; simpl; [reflexivity|]. rewrite IH. lia. Qed.
Lemma arrived_app l1 l2 : arrived (l1 ++ l2) = (arrived l1 + arrived l2)%Z.
Proof. apply sumZ_app. Qed.
Lemma adjusted_app l1 l2 : adjusted (l1 ++ l2) = (adjusted l1 + adjusted l2)%Z.
Proof. apply sumZ_app. Qed.

Lemma arrived_one n d k : arrived [(n, d, k)] = n.
Proof. unfold arrived. simpl. lia. Qed.
Lemma adjusted_one n d k : adjusted [(n, d, k)] = d.
Proof. unfold adjusted. simpl. lia. Qed.

Lemma all_short_nil e : all_short e [].
Proof. intros [|x l1] l2 H Hn; [congruence|discriminate]. Qed.

Lemma all_short_snoc e l a : all_short e l -> short e (l ++ [a]) -> all_short e (l ++ [a]).
Proof.
  intros H1 H2 l1 l2 He Hn. destruct l2 as [|b l2] using rev_ind.
  - rewrite app_nil_r in He. now subst l1.
  - rewrite app_assoc in He. apply app_inj_tail in He. destruct He as [He _]. exact (H1 l1 l2 He Hn).
Qed.

Lemma log_snoc_short e k L k' e' l' a : log e k L k' e' l' -> short e' (l' ++ [a]) -> snd a = k' ->
  log e k (L ++ [a]) k' e' (l' ++ [a]).
Proof.
  induction 1 as [e k l [H1 H2]|e k l m k' e' l' Hf Hl IH]; intros Hs Ha.
  - apply log_open. split; [now apply all_short_snoc|]. apply Forall_app. split; auto.
  - rewrite <- app_assoc. apply log_full; auto.
Qed.

Lemma log_snoc_full e k L k' e' l' a : log e k L k' e' l' -> arrived (l' ++ [a]) = (e' + adjusted (l' ++ [a]))%Z -> snd a = k' ->
  log e k (L ++ [a]) (S k') (e' + adjusted (l' ++ [a])) [].
Proof.
  induction 1 as [e k l [H1 H2]|e k l m k' e' l' Hf Hl IH]; intros Hs Ha.
  - rewrite <- (app_nil_r (l ++ [a])) at 1. apply log_full.
    + split; [exists l, a; auto|]. split; auto. apply Forall_app. split; auto.
    + apply log_open. split; [apply all_short_nil|constructor].
  - rewrite <- app_assoc. apply log_full; auto.
Qed.

Lemma full_not_short e k l : full_phase e k l -> ~ short e l /\ l <> [].
Proof.
  intros ((l0 & a & -> & _) & H & _). split; [unfold short; lia|]. destruct l0; discriminate.
Qed.

Lemma log_cases e k L k' e' l' : log e k L k' e' l' ->
  (open_phase e k L /\ k' = k /\ e' = e /\ l' = L) \/
  (exists l m, L = l ++ m /\ full_phase e k l /\ log (e + adjusted l) (S k) m k' e' l').
Proof. destruct 1; eauto 10. Qed.

Lemma log_det e k L k1 e1 l1 : log e k L k1 e1 l1 -> forall k2 e2 l2, log e k L k2 e2 l2 -> k1 = k2 /\ e1 = e2 /\ l1 = l2.
Proof.
  induction 1 as [e k l [H1 H2]|e k l m k1 e1 l1 Hf Hl IH]; intros k2 e2 l2 Hl2.
  - destruct (log_cases _ _ _ _ _ _ Hl2) as [(_ & -> & -> & ->)|(l' & m' & -> & Hf' & Hl')]; auto. exfalso.
    destruct (full_not_short _ _ _ Hf') as [Hns Hne]. apply Hns. apply (H1 l' m'); auto.
  - destruct (log_cases _ _ _ _ _ _ Hl2) as [(Ho & _)|(l' & m' & Heq & Hf' & Hl')].
    + exfalso. destruct (full_not_short _ _ _ Hf) as [Hns Hne]. apply Hns. destruct Ho as [Ho _]. apply (Ho l m); auto.
    + assert (Hpre : forall p q z, full_phase e k p -> full_phase e k q -> p = q ++ z -> z = []).
      { intros p q z ((p0 & a & -> & Hsh) & _) Hq Hz. destruct z as [|b z] using rev_ind; auto. exfalso.
        rewrite app_assoc in Hz. apply app_inj_tail in Hz. destruct Hz as [-> _].
        destruct (full_not_short _ _ _ Hq) as [Hns Hne]. apply Hns. apply (Hsh q z); auto. }
      destruct (app_eq_app _ _ _ _ Heq) as (z & [[Hz1 Hz2]|[Hz1 Hz2]]).
      * pose proof (Hpre _ _ _ Hf Hf' Hz1) as Hz. subst z. rewrite app_nil_r in Hz1. simpl in Hz2. subst. auto.
      * pose proof (Hpre _ _ _ Hf' Hf Hz1) as Hz. subst z. rewrite app_nil_r in Hz1. simpl in Hz2. subst. auto.
Qed.

Lemma log_tokens e k L k' e' l' : log e k L k' e' l' -> k <= k' /\ forall a, In a L -> snd a <= k'.
Proof.
  induction 1 as [e k l [H1 H2]|e k l m k' e' l' Hf Hl [IH1 IH2]].
  - split; auto. intros a Ha. rewrite Forall_forall in H2. rewrite (H2 a Ha). auto.
  - split; [lia|]. intros a Ha. apply in_app_iff in Ha. destruct Ha as [Ha|Ha]; auto.
    destruct Hf as (_ & _ & Hf). rewrite Forall_forall in Hf. rewrite (Hf a Ha). lia.
Qed.

Section Bar.
Variable e0 : Z.
Variable eager : bool.
Notation P := (barrier e0).
Notation U := (barrier_user e0).
Notation step := (step P eager).

Lemma arrivals_app (t1 t2 : list (event P)) : arrivals (t1 ++ t2) = arrivals t1 ++ arrivals t2.
Proof.
  induction t1 as [|e t1 IH]; simpl; auto. destruct e as [o tok a|o v|e|o|[|[n d k]]]; simpl; auto. now rewrite IH.
Qed.

Lemma arrivals_none (tr : list (event P)) : existsb (is_prim U) tr = false -> arrivals tr = [].
Proof.
  induction tr as [|e tr IH]; simpl; auto. destruct e as [o tok a|o v|e|o|x]; simpl; auto. discriminate.
Qed.

Definition BInv (s : cst P) (tr : list (event P)) : Prop :=
  RInv U eager s tr /\
  (exists e l, log e0 0 (arrivals tr) (b_seq (r_g (c_prim s))) e l /\
     b_exp (r_g (c_prim s)) = (e + adjusted l)%Z /\ b_cnt (r_g (c_prim s)) = arrived l) /\
  b_seq (r_g (c_prim s)) = count is_raise tr + b_pend (r_g (c_prim s)) /\
  (forall o tok k, In o (r_q (c_prim s)) -> In (EStart (P:=P) o tok k) tr ->
     k <= b_seq (r_g (c_prim s)) /\ (k < b_seq (r_g (c_prim s)) -> b_pend (r_g (c_prim s)) > 0)).

Lemma braise_prim (e : event P) : is_raise e = true -> is_prim U e = true.
Proof. destruct e; simpl; auto. Qed.

(** One arrival, for the invariant. *)
Lemma bar_arrive_ok g n d g' es (tr : list (event P)) : (exists e l, log e0 0 (arrivals tr) (b_seq g) e l /\ b_exp g = (e + adjusted l)%Z /\ b_cnt g = arrived l) ->
  bar_arrive g n d = GOk g' es -> es = [EArrive n d (b_seq g)] /\
  (exists e l, log e0 0 (arrivals tr ++ [(n, d, b_seq g)]) (b_seq g') e l /\ b_exp g' = (e + adjusted l)%Z /\ b_cnt g' = arrived l) /\
  ((b_seq g' = b_seq g /\ b_pend g' = b_pend g) \/ (b_seq g' = S (b_seq g) /\ b_pend g' = S (b_pend g))).
Proof.
  intros (e & l & Hl & He & Hc) Ha. unfold bar_arrive in Ha.
  destruct (Z.leb_spec 0 (b_exp g + d)) as [H1|H1]; [|discriminate].
  assert (Hr : arrived (l ++ [(n, d, b_seq g)]) = (b_cnt g + n)%Z) by (rewrite arrived_app, arrived_one; lia).
  assert (Hd : (e + adjusted (l ++ [(n, d, b_seq g)]))%Z = (b_exp g + d)%Z) by (rewrite adjusted_app, adjusted_one; lia).
  destruct (Z.eqb_spec (b_cnt g + n) (b_exp g + d)) as [H2|H2].
  - injection Ha as <- <-. simpl. split; auto. split; auto.
    exists (e + adjusted (l ++ [(n, d, b_seq g)]))%Z, []. split; [apply log_snoc_full; auto; exact (eq_trans Hr (eq_trans H2 (eq_sym Hd)))|].
    rewrite Hd. unfold adjusted, arrived. simpl. split; [lia|reflexivity].
  - destruct (Z.ltb_spec (b_cnt g + n) (b_exp g + d)) as [H3|H3]; [|discriminate].
    injection Ha as <- <-. simpl. split; auto. split; auto.
    exists e, (l ++ [(n, d, b_seq g)]). split; [apply log_snoc_short; auto; unfold short; rewrite arrived_app, adjusted_app, arrived_one, adjusted_one; lia|]. split; lia.
Qed.

Lemma BInv_step s tr l s' es : BInv s tr -> step s l = Next s' es -> BInv s' (tr ++ es).
Proof.
  intros (HI & H1 & H2 & H3) Hs. pose proof (RInv_step U eager _ _ _ _ _ HI Hs) as HI'. split; [exact HI'|].
  pose proof HI as (HJT & _). pose proof HJT as [[HG HTI] _].
  destruct (r_ueff U eager _ _ _ _ _ HI Hs) as [Hg Hes Hq|Hg Hes Hq|gl ges Hg Hes Hq].
  - rewrite Hg. rewrite arrivals_app, (arrivals_none es Hes), app_nil_r. rewrite count_app.
    rewrite (count_none is_raise (is_prim U) es braise_prim Hes).
    split; [exact H1|]. split; [lia|]. intros o tok n Hin Hst. destruct (Hq o Hin) as [Hq'|(tok' & n' & -> & Hc)].
    + destruct (queued_started U eager s tr o HJT Hq') as [Hst' _].
      apply (H3 o tok n Hq'); auto. apply in_app_iff in Hst. destruct Hst as [Hst|Hst]; auto. exfalso.
      destruct HI' as ([[_ (_ & _ & HND & _)] _] & _).
      rewrite starts_app in HND. apply (NoDup_app_disjoint _ _ HND o); auto. apply starts_In. eauto.
    + apply in_app_iff in Hst. assert (n = n').
      { destruct Hst as [Hst|Hst].
        - exfalso. destruct HI' as ([[_ (_ & _ & HND & _)] _] & _). rewrite starts_app in HND.
          apply (NoDup_app_disjoint _ _ HND o); [apply starts_In; eauto|now left].
        - destruct Hst as [[= -> ->]|[]]. reflexivity. }
      subst n'. simpl in Hc. injection Hc as Hc. apply Nat.eqb_eq in Hc. lia.
  - subst es. simpl in Hg. destruct (b_pend (r_g (c_prim s))) as [|n] eqn:Hp; [discriminate|]. injection Hg as Hg. rewrite <- Hg. simpl.
    rewrite arrivals_app. simpl. rewrite app_nil_r. split; [exact H1|].
    unfold count in *. rewrite !filter_app, !app_length. simpl. split; [lia|]. rewrite Hq. simpl. tauto.
  - subst es. assert (Hg' : exists n d, bar_arrive (r_g (c_prim s)) n d = GOk (r_g (c_prim s')) ges) by (destruct gl; simpl in Hg; eauto).
    destruct Hg' as (n & d & Hg').
    destruct (bar_arrive_ok _ _ _ _ _ tr H1 Hg') as (-> & Hlog & Hseq).
    split; [rewrite arrivals_app; exact Hlog|]. split.
    + unfold count in *. rewrite !filter_app, !app_length. simpl. lia.
    + rewrite Hq. intros o tok k Hin Hst. apply in_app_iff in Hst. destruct Hst as [Hst|[Hst|[]]]; [|discriminate].
      destruct (H3 o tok k Hin Hst). lia.
Qed.

Lemma BInv_init : BInv (c_init P) [].
Proof.
  split; [apply RInv_init|]. simpl. split; [|split; [reflexivity|tauto]].
  exists e0, []. split; [apply log_open; split; [apply all_short_nil|constructor]|]. unfold adjusted, arrived. simpl. split; [lia|reflexivity].
Qed.

Lemma bar_inv ls s tr : run step (c_init P) ls = Running s tr -> BInv s tr.
Proof. exact (run_inv step BInv (c_init P) BInv_init BInv_step ls s tr). Qed.

Lemma bar_phases ls s tr k : run step (c_init P) ls = Running s tr -> phases tr k -> b_seq (r_g (c_prim s)) = k.
Proof.
  intros Hr (e & l & Hl). destruct (bar_inv _ _ _ Hr) as (_ & (e' & l' & Hl' & _) & _).
  now destruct (log_det _ _ _ _ _ _ Hl' _ _ _ Hl).
Qed.

Lemma bar_phases_of ls s tr k : run step (c_init P) ls = Running s tr -> b_seq (r_g (c_prim s)) = k -> phases tr k.
Proof. intros Hr <-. destruct (bar_inv _ _ _ Hr) as (_ & (e & l & Hl & _) & _). exists e, l. exact Hl. Qed.

Lemma bar_phases_final ls k :
  (match run step (c_init P) ls with Running s _ => Nat.eqb (b_seq (r_g (c_prim s))) k | _ => false end) = true ->
  phases (events_of (run step (c_init P) ls)) k.
Proof.
  destruct (run step (c_init P) ls) as [s tr| |f tr] eqn:Hr; try discriminate. simpl. intros H. apply Nat.eqb_eq in H.
  exact (bar_phases_of ls s tr k Hr H).
Qed.

(** ** C15 *)
Lemma bar_accounting ls s tr : run step (c_init P) ls = Running s tr ->
  exists k e l, log e0 0 (arrivals tr) k e l /\ count is_raise tr <= k.
Proof.
  intros Hr. destruct (bar_inv _ _ _ Hr) as (_ & (e & l & Hl & _) & H2 & _). exists (b_seq (r_g (c_prim s))), e, l. split; [auto|lia].
Qed.

Lemma bar_raise_enabled ls s tr k : run step (c_init P) ls = Running s tr -> phases tr k -> count is_raise tr < k ->
  exists s', step s (LPrim (RRaise : PL P)) = Next s' [EPrim (ERaise : PE P)].
Proof.
  intros Hr Hk Hlt. pose proof (bar_phases _ _ _ _ Hr Hk) as Hs. pose proof (bar_inv _ _ _ Hr) as (_ & _ & H2 & _).
  destruct (b_pend (r_g (c_prim s))) as [|n] eqn:Hp; [lia|].
  apply (r_raise_enabled U eager ls s tr (Bar (b_seq (r_g (c_prim s))) (b_exp (r_g (c_prim s))) (b_cnt (r_g (c_prim s))) n) Hr).
  simpl. now rewrite Hp.
Qed.

Lemma bar_fail ls f tr : run step (c_init P) ls = Failed f tr ->
  (f = AssertFailed /\ exists tr0 n d k e l, tr = tr0 ++ [EPrim (EUser (EArrive n d k : UE U) : PE P)] /\
     log e0 0 (arrivals tr0) k e l /\
     ((e + adjusted (l ++ [(n, d, k)]) < 0)%Z \/ (arrived (l ++ [(n, d, k)]) > e + adjusted (l ++ [(n, d, k)]))%Z)) \/
  (eager = true /\ f = UseAfterFree /\ exists o, In (EDestroy o) tr /\ notified o tr = 1 /\ cancel_requested o tr).
Proof.
  intros Hr. destruct (r_fail U eager ls f tr Hr) as [(ls1 & s & tr1 & o & tok & a & H1 & -> & -> & Hc)|[(ls1 & s & tr1 & gl & es & H1 & Hc & Htr)|H]]; [| |right; exact H].
  - discriminate.
  - left. destruct (bar_inv _ _ _ H1) as (_ & (e & l & Hl & He & Hcnt) & _).
    assert (Hg' : exists n d, bar_arrive (r_g (c_prim s)) n d = GFail f es) by (destruct gl; simpl in Hc; eauto).
    destruct Hg' as (n & d & Ha). unfold bar_arrive in Ha.
    assert (Hr1 : arrived (l ++ [(n, d, b_seq (r_g (c_prim s)))]) = (b_cnt (r_g (c_prim s)) + n)%Z) by (rewrite arrived_app, arrived_one; lia).
    assert (Hd : (e + adjusted (l ++ [(n, d, b_seq (r_g (c_prim s)))]))%Z = (b_exp (r_g (c_prim s)) + d)%Z) by (rewrite adjusted_app, adjusted_one; lia).
    destruct (Z.leb_spec 0 (b_exp (r_g (c_prim s)) + d)) as [Hle|Hle].
    + destruct (Z.eqb_spec (b_cnt (r_g (c_prim s)) + n) (b_exp (r_g (c_prim s)) + d)) as [H2|H2]; [discriminate|].
      destruct (Z.ltb_spec (b_cnt (r_g (c_prim s)) + n) (b_exp (r_g (c_prim s)) + d)) as [H3|H3]; [discriminate|].
      injection Ha as <- <-. split; auto. exists tr1, n, d, (b_seq (r_g (c_prim s))), e, l. split; [exact Htr|]. split; [exact Hl|]. right. lia.
    + injection Ha as <- <-. split; auto. exists tr1, n, d, (b_seq (r_g (c_prim s))), e, l. split; [exact Htr|]. split; [exact Hl|]. left. lia.
Qed.

(** ** C14 *)
Lemma bar_woken ls s t1 o tok k t2 j : run step (c_init P) ls = Running s (t1 ++ EStart (P:=P) o tok k :: t2) ->
  all_returned s -> phases (t1 ++ EStart (P:=P) o tok k :: t2) j -> k < j ->
  count is_raise (t1 ++ EStart (P:=P) o tok k :: t2) = j -> notified o (t1 ++ EStart (P:=P) o tok k :: t2) = 1.
Proof.
  intros Hr Hret Hph Hlt Hnr. pose proof (bar_inv _ _ _ Hr) as (HI & H1 & H2 & H3). pose proof (bar_phases _ _ _ _ Hr Hph) as Hj.
  assert (Hst : started o (t1 ++ EStart (P:=P) o tok k :: t2)).
  { apply starts_In. exists tok, k. apply in_app_iff. right. now left. }
  destruct (r_pending U eager ls s _ o Hr Hret Hst) as [H|(Hq & _)]; auto. exfalso.
  destruct (H3 o tok k Hq) as [_ H4]; [apply in_app_iff; right; now left|]. lia.
Qed.

(** ** C13 *)
Lemma bar_not_early ls s t1 o tok k t2 v t3 n d j j' :
  run step (c_init P) ls = Running s (t1 ++ EStart (P:=P) o tok k :: t2 ++ EDone (P:=P) o v :: t3) ->
  In (n, d, k) (arrivals t1) -> phases t1 j -> count is_raise t1 = j ->
  ~ cancel_requested o (t1 ++ EStart (P:=P) o tok k :: t2) ->
  phases (t1 ++ EStart (P:=P) o tok k :: t2) j' -> k < j'.
Proof.
  intros Hr Hin Hph Hnr Hnc Hph'.
  destruct (r_result U eager _ _ _ _ _ _ _ _ _ Hr) as (ls0 & s0 & ls1 & s1 & Hr0 & Hr1 & Hc).
  pose proof (bar_inv _ _ _ Hr1) as (_ & _ & H2 & _). rewrite (bar_phases _ _ _ _ Hr1 Hph') in H2.
  pose proof (bar_phases _ _ _ _ Hr0 Hph) as Hj.
  assert (Hkj : k <= j).
  { destruct Hph as (e & l & Hl). destruct (log_tokens _ _ _ _ _ _ Hl) as [_ Ht]. exact (Ht _ Hin). }
  rewrite count_app in H2.
  destruct Hc as [(_ & He & _)|[(_ & Hcr & _)|(_ & Hcond)]]; [|tauto|].
  - apply count_existsb in He. change (EStart (P:=P) o tok k :: t2) with ([EStart (P:=P) o tok k] ++ t2) in H2.
    rewrite (count_app is_raise [_] t2) in H2. lia.
  - simpl in Hcond. injection Hcond as Hcond. apply Nat.eqb_neq in Hcond. lia.
Qed.

End Bar.

(** The events of the calls *)
Lemma bar_calls e0 eager s l s' es : M_Wait.step (barrier e0) eager s (LPrim (RUserStep (l : UL (barrier_user e0)) : PL (barrier e0))) = Next s' es ->
  es = [EPrim (EUser (match l with BArrive n => EArrive n 0 | BJoin n => EArrive n n | BDrop n => EArrive 0 (- n) end (b_seq (r_g (c_prim s))) : UE (barrier_user e0)) : PE (barrier e0))].
Proof.
  simpl. unfold r_step. destruct l; simpl; unfold bar_arrive; repeat match goal with |- context [if ?b then _ else _] => destruct b end; simpl; intros E; try discriminate; injection E as _ <-; reflexivity.
Qed.
