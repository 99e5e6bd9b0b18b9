(** Proofs about async::queue. *)
From Coq Require Import List Arith Bool Lia.
From Verif Require Import Lts ListFacts M_Wait S_Wait P_Wait M_Queue S_Queue.
Import ListNotations.

Section Proofs.
Variable T : Type.
Notation P := (queue_prim T).

Definition q_inv (s : qst T) : Prop :=
  (q_buf s <> [] -> q_sinks s = []) /\ NoDup (q_sinks s) /\ (forall o, In o (q_sinks s) -> q_val s o = None).


Definition queue_laws : laws P.
Proof.
  refine (Laws P (fun (s : PS P) o => In o (q_sinks s)) q_inv _ _ _ _ _ _).
  - simpl. split; [|auto]. split; [auto|]. split; [constructor|simpl; tauto].
  - intros s o a s' es (H1 & H2 & H3) Hn. simpl. unfold q_start.
    destruct (q_buf s) as [|x rest] eqn:Hb; [|destruct (q_sinks s); discriminate].
    intros [= <- <-]. simpl. split; [|intros o'; apply In_snoc].
    split; [simpl; congruence|]. split; [now apply NoDup_snoc|].
    simpl. intros o' Ho'. apply In_snoc in Ho'. unfold upd. destruct (Nat.eqb_spec o' o); auto. destruct Ho'; auto. congruence.
  - intros s o a s' v es (H1 & H2 & H3) Hn. simpl. unfold q_start.
    destruct (q_buf s) as [|x rest] eqn:Hb; [discriminate|]. destruct (q_sinks s) eqn:Hs; [|discriminate].
    intros [= <- <- <-]. simpl. split; [|tauto]. split; [simpl; auto|]. split; [constructor|simpl; tauto].
  - intros s l s' taken es (H1 & H2 & H3). simpl. unfold q_step. destruct l as [x|].
    + destruct (q_sinks s) as [|o rest] eqn:Hs.
      * intros [= <- <- <-]. simpl. split; [|split; [constructor|split; [simpl; tauto|simpl; tauto]]].
        split; [simpl; auto|]. split; [constructor|simpl; tauto].
      * destruct (q_buf s) as [|y buf] eqn:Hb; [|discriminate]. intros [= <- <- <-]. simpl.
        inversion H2 as [|? ? Hno Hnd]; subst. split; [|split; [|split]].
        -- split; [simpl; congruence|]. split; auto. simpl. intros o' Ho'. unfold upd.
           destruct (Nat.eqb_spec o' o); [congruence|]. apply H3. now right.
        -- constructor; [simpl; tauto|constructor].
        -- intros o' [->|[]]. now left.
        -- intros o'. split.
           ++ intros Hin. split; auto. intros [->|[]]; auto.
           ++ intros [[->|Hin] Hne]; auto. destruct Hne. now left.
    + destruct (q_buf s) as [|y buf] eqn:Hb; intros [= <- <- <-]; simpl.
      * split; [|split; [constructor|split; [simpl; tauto|simpl; tauto]]]. unfold q_inv. rewrite Hb. auto.
      * split; [|split; [constructor|split; [simpl; tauto|simpl; tauto]]].
        split; [simpl; intros _; apply H1; congruence|]. auto.
  - intros s o (H1 & H2 & H3) Hin. simpl in Hin. simpl. unfold q_try. rewrite (H3 o Hin).
    rewrite (proj2 (memb_In o _) Hin). eexists. split; [reflexivity|]. simpl. split.
    + split; [simpl; intros Hb; rewrite (H1 Hb); reflexivity|]. split; [now apply NoDup_remove1|].
      simpl. intros o' Ho'. apply In_remove1 in Ho'. auto.
    + intros o'. now apply In_remove1_NoDup.
  - intros s o s' v HI Hn. simpl. unfold q_resume. intros [= <- <-]. split; [exact HI|tauto].
Defined.

Definition queue_tlaws : tlaws P queue_laws.
Proof.
  refine (TLaws P queue_laws (fun (s : PS P) o => q_val s o <> None) _ _ _ _ _ _ _); simpl.
  - intros s l s' taken es o HI Hs Hin. unfold q_step in Hs. destruct l as [x|].
    + destruct (q_sinks s) as [|o1 rest]; [injection Hs as <- <- <-; destruct Hin|].
      destruct (q_buf s); [|discriminate]. injection Hs as <- <- <-. destruct Hin as [->|[]]. simpl.
      rewrite upd_same. discriminate.
    + destruct (q_buf s); injection Hs as <- <- <-; destruct Hin.
  - intros s l s' taken es o HI Hv Hs. unfold q_step in Hs. destruct l as [x|].
    + destruct (q_sinks s) as [|o1 rest]; [injection Hs as <- <- <-; exact Hv|].
      destruct (q_buf s); [|discriminate]. injection Hs as <- <- <-. simpl. unfold upd. destruct (Nat.eqb o o1); [discriminate|exact Hv].
    + destruct (q_buf s); injection Hs as <- <- <-; exact Hv.
  - intros s o a s' es o' HI Hv Hne Hs. unfold q_start in Hs.
    destruct (q_buf s); [|destruct (q_sinks s); discriminate]. injection Hs as <- <-. simpl. now rewrite upd_other.
  - intros s o a s' v es o' HI Hv Hne Hs. unfold q_start in Hs.
    destruct (q_buf s); [discriminate|]. destruct (q_sinks s); [|discriminate]. injection Hs as <- <- <-. simpl. now rewrite upd_other.
  - intros s o s' b o' HI Hv Hne Hs. unfold q_try in Hs. destruct (q_val s o); [injection Hs as <- <-; exact Hv|].
    destruct (memb o (q_sinks s)); [|discriminate]. injection Hs as <- <-. exact Hv.
  - intros s o s' v o' HI Hv Hs. unfold q_resume in Hs. injection Hs as <- <-. exact Hv.
  - intros s o s' b HI Hv. unfold q_try. destruct (q_val s o); [|congruence]. intros H. injection H as <- <-. auto.
Defined.

Section Runs.
Variable eager : bool.
Notation cst := (cst P).
Notation step := (step P eager).
Notation trace := (list (event P)).
Notation JT := (JT P queue_laws eager queue_tlaws).

Fixpoint getters (cs : list (consumer T)) : list nat :=
  match cs with [] => [] | Getter o :: cs' => o :: getters cs' | _ :: cs' => getters cs' end.

Lemma getters_app a b : getters (a ++ b) = getters a ++ getters b.
Proof. induction a as [|c a IH]; simpl; auto. destruct c; simpl; auto. now rewrite IH. Qed.

Lemma getters_consumers (tr : trace) : getters (consumers tr) = starts tr.
Proof.
  induction tr as [|e tr IH]; simpl; auto. destruct e as [o tok a|o v|e|o|x]; simpl; auto.
  - now rewrite IH.
  - destruct x; simpl; auto.
Qed.

Lemma getters_In o cs : In (Getter o) cs <-> In o (getters cs).
Proof.
  induction cs as [|c cs IH]; simpl; [tauto|]. destruct c as [o'|r]; simpl; rewrite <- IH.
  - split; intros [H|H]; auto; left; congruence.
  - split; [intros [H|H]; [discriminate|auto]|auto].
Qed.

Lemma consumers_app (a b : trace) : consumers (a ++ b) = consumers a ++ consumers b.
Proof. induction a as [|e a IH]; simpl; auto. destruct e as [o tok u|o v|e|o|x]; simpl; rewrite ?IH; auto. destruct x; simpl; rewrite ?IH; auto. Qed.
Lemma puts_app (a b : trace) : puts (a ++ b) = puts a ++ puts b.
Proof. induction a as [|e a IH]; simpl; auto. destruct e as [o tok u|o v|e|o|x]; simpl; rewrite ?IH; auto. destruct x; simpl; rewrite ?IH; auto. Qed.

Definition flat (val : nat -> option T) (cs : list (consumer T)) : list T := flat_map (handed val) cs.

Lemma flat_app val a b : flat val (a ++ b) = flat val a ++ flat val b.
Proof. apply flat_map_app. Qed.

Lemma flat_upd val o x cs : ~ In o (getters cs) -> flat (upd val o x) cs = flat val cs.
Proof.
  intros Hn. apply flat_map_ext_in. intros c Hc. destruct c as [o'|r]; simpl; auto.
  rewrite upd_other; auto. intros ->. apply Hn. now apply getters_In.
Qed.

Definition order_inv (s : qst T) (tr : trace) : Prop :=
  exists pre post, consumers tr = pre ++ post /\ puts tr = flat (q_val s) pre ++ q_buf s /\
    flat (q_val s) post = [] /\ subseq (q_sinks s) (getters post).

Definition QInv (s : cst) (tr : trace) : Prop :=
  JT s tr /\
  (forall o (v : PV P), o_fast (c_op s o) = Some v -> v = q_val (c_prim s) o /\ v <> None) /\
  (forall o (v : PV P), In (EDone o v) tr -> o_done (c_op s o) = true /\ v = q_val (c_prim s) o) /\
  (forall o, (o_node (c_op s o) = NCancelled -> q_val (c_prim s) o = None)) /\
  order_inv (c_prim s) tr.

Lemma order_none s tr tr' s' : consumers tr' = consumers tr -> puts tr' = puts tr ->
  q_buf s' = q_buf s -> q_val s' = q_val s -> (q_sinks s' = q_sinks s \/ exists o, q_sinks s' = remove1 o (q_sinks s)) ->
  order_inv s tr -> order_inv s' tr'.
Proof.
  intros Hc Hp Hb Hv Hs (pre & post & H1 & H2 & H3 & H4). exists pre, post.
  rewrite Hc, Hp, Hb, Hv. repeat split; auto.
  destruct Hs as [->|[o ->]]; auto. now apply subseq_remove1.
Qed.

Lemma flat_single val o x pre p1 p2 :
  NoDup (getters (pre ++ p1 ++ Getter o :: p2)) -> flat val (p1 ++ Getter o :: p2) = [] ->
  flat (upd val o (Some x)) (pre ++ p1 ++ [Getter o]) = flat val pre ++ [x] /\ flat (upd val o (Some x)) p2 = [].
Proof.
  intros Hnd Hf. rewrite !getters_app in Hnd. simpl in Hnd.
  assert (Hno : ~ In o (getters pre ++ getters p1 ++ getters p2)).
  { intros Hin. rewrite app_assoc in Hnd. apply NoDup_remove_2 in Hnd. apply Hnd. now rewrite <- app_assoc. }
  rewrite !in_app_iff in Hno.
  rewrite flat_app in Hf. apply app_eq_nil in Hf. destruct Hf as [Hf1 Hf2].
  assert (Hf3 : flat val p2 = []).
  { change (Getter o :: p2) with ([Getter o] ++ p2) in Hf2. rewrite flat_app in Hf2. now apply app_eq_nil in Hf2. }
  rewrite !flat_app, (flat_upd val o (Some x) pre), (flat_upd val o (Some x) p1), (flat_upd val o (Some x) p2) by tauto.
  rewrite Hf1, Hf3. simpl. rewrite upd_same. simpl. auto.
Qed.

Ltac cg := try change (PV P) with (option T) in *; congruence.

Lemma QInv_step s tr l s' es : QInv s tr -> step s l = Next s' es -> QInv s' (tr ++ es).
Proof.
  intros (HJT & HF & HD & HN & HO) Hs.
  pose proof (JT_step _ _ _ _ _ _ _ _ _ HJT Hs) as HJT'.
  pose proof (JT_reliable _ _ _ _ _ _ HJT) as HR. pose proof HJT as [[HG HTI] HTK].
  split; [exact HJT'|].
  pose proof (step_effect _ _ _ _ _ _ _ HG HR Hs) as He.
  pose proof HG as (_ & _ & ((HI1 & HI2 & HI3) & HQ) & _).
  assert (Hnqd : forall o, In o (q_sinks (c_prim s)) -> o_done (c_op s o) = false /\ o_fast (c_op s o) = None /\ o_node (c_op s o) = NQueued).
  { intros o Ho. apply HQ in Ho. destruct (o_done (c_op s o)) eqn:Hd.
    - destruct (done_detached _ _ _ s o HG Hd) as (Hc & _). cg.
    - destruct (o_fast (c_op s o)) eqn:Hf; auto. pose proof (fast_node _ _ _ s o _ HG Hf). cg. }
  destruct He as [s' o tok a pes Hl Hn Hd Hst Hss|s' o tok a v pes Hl Hn Hd Hst Hss|s' o es Hp|s' es Hcp Hss Hes|s' pl taken pes Hp Htk Hss].
  - (* start, slow path *)
    simpl in Hst. unfold q_start in Hst. destruct (q_buf (c_prim s)) as [|x rest] eqn:Hb; [|destruct (q_sinks (c_prim s)); discriminate].
    injection Hst as Hcp <-. rewrite <- Hcp. simpl.
    destruct HTI as (_ & HS & HND & _).
    assert (Hnew : ~ In o (starts tr)) by (rewrite <- HS; tauto).
    split; [|split; [|split]].
    + intros o' v' Hf'. specialize (Hss o'). unfold stat in Hss. unfold upd.
      destruct (Nat.eqb_spec o' o); injection Hss as _ Hf2 _ _; [cg|]. apply HF. cg.
    + intros o' v' Hin. apply in_app_iff in Hin. destruct Hin as [Hin|[Hin|[]]]; [|discriminate].
      destruct (HD _ _ Hin) as [Hd' Hv']. specialize (Hss o'). unfold stat in Hss. unfold upd.
      destruct (Nat.eqb_spec o' o) as [E|E]; [subst; cg|]. injection Hss as _ _ _ ->. auto.
    + intros o' Hn'. specialize (Hss o'). unfold stat in Hss. unfold upd.
      destruct (Nat.eqb_spec o' o) as [E|E]; [reflexivity|]. injection Hss as _ _ Hn2 _. apply HN. cg.
    + destruct HO as (pre & post & H1 & H2 & H3 & H4). exists pre, (post ++ [Getter o]). simpl.
      assert (Hgt : ~ In o (getters pre) /\ ~ In o (getters post)).
      { rewrite <- getters_consumers, H1, getters_app, in_app_iff in Hnew. tauto. }
      rewrite consumers_app, puts_app. simpl. rewrite H1, H2, Hb, flat_app, getters_app, !flat_upd by tauto.
      rewrite H3. simpl. rewrite upd_same. repeat split; rewrite ?app_nil_r; auto; [now rewrite app_assoc|].
      now apply subseq_snoc.
  - (* start, fast path *)
    simpl in Hst. unfold q_start in Hst. destruct (q_buf (c_prim s)) as [|x rest] eqn:Hb; [discriminate|].
    destruct (q_sinks (c_prim s)) eqn:Hsk; [|discriminate].
    injection Hst as Hcp <- <-. rewrite <- Hcp. simpl.
    destruct HTI as (_ & HS & HND & _).
    assert (Hnew : ~ In o (starts tr)) by (rewrite <- HS; tauto).
    split; [|split; [|split]].
    + intros o' v' Hf'. specialize (Hss o'). unfold stat in Hss. unfold upd.
      destruct (Nat.eqb_spec o' o); injection Hss as _ Hf2 _ _; [rewrite Hf2 in Hf'; injection Hf' as <-; split; [reflexivity|discriminate]|]. apply HF. cg.
    + intros o' v' Hin. apply in_app_iff in Hin. destruct Hin as [Hin|[Hin|[]]]; [|discriminate].
      destruct (HD _ _ Hin) as [Hd' Hv']. specialize (Hss o'). unfold stat in Hss. unfold upd.
      destruct (Nat.eqb_spec o' o) as [E|E]; [subst; cg|]. injection Hss as _ _ _ ->. auto.
    + intros o' Hn'. specialize (Hss o'). unfold stat in Hss. unfold upd.
      destruct (Nat.eqb_spec o' o) as [E|E]; injection Hss as _ _ Hn2 _; [cg|]. apply HN. cg.
    + destruct HO as (pre & post & H1 & H2 & H3 & H4). exists (pre ++ post ++ [Getter o]), []. simpl.
      assert (Hgt : ~ In o (getters pre) /\ ~ In o (getters post)).
      { rewrite <- getters_consumers, H1, getters_app, in_app_iff in Hnew. tauto. }
      rewrite consumers_app, puts_app. simpl. rewrite H1, H2, Hb, !flat_app, !flat_upd by tauto.
      rewrite H3. simpl. rewrite upd_same. simpl. rewrite !app_nil_r, <- !app_assoc. repeat split; auto. constructor.
  - (* resolver step *)
    destruct Hp as [s' Hcp Hss|s' e Hn Ht Hr Htry Hss|s' v Hf Hn Hd Hcp Hss|s' v Hn Hd Hr Hss].
    + rewrite Hcp, app_nil_r. split; [|split; [|split]]; auto.
      * intros o' v' Hf'. specialize (Hss o'). unfold stat in Hss. apply HF. cg.
      * intros o' v' Hin. destruct (HD _ _ Hin). specialize (Hss o'). unfold stat in Hss. split; cg.
      * intros o' Hn'. specialize (Hss o'). unfold stat in Hss. apply HN. cg.
    + rewrite app_nil_r. pose proof (proj2 (HQ o) Hn) as Hin. simpl in Hin.
      simpl in Htry. unfold q_try in Htry. rewrite (HI3 o Hin), (proj2 (memb_In _ _) Hin) in Htry.
      injection Htry as Hcp. rewrite <- Hcp. simpl. split; [|split; [|split]].
      * intros o' v' Hf'. specialize (Hss o'). unfold stat in Hss. apply HF. destruct (Nat.eqb_spec o' o) as [E|E]; simpl in Hss; cg.
      * intros o' v' Hin'. destruct (HD _ _ Hin'). specialize (Hss o'). unfold stat in Hss. destruct (Nat.eqb_spec o' o) as [E|E]; simpl in Hss; split; cg.
      * intros o' Hn'. specialize (Hss o'). unfold stat in Hss. destruct (Nat.eqb_spec o' o) as [E|E]; simpl in Hss; [subst; auto|]. apply HN. cg.
      * apply (order_none (c_prim s) tr); simpl; eauto.
    + rewrite Hcp. split; [|split; [|split]].
      * intros o' v' Hf'. specialize (Hss o'). unfold stat in Hss. apply HF. destruct (Nat.eqb_spec o' o) as [E|E]; simpl in Hss; cg.
      * intros o' v' Hin'. specialize (Hss o'). unfold stat in Hss. apply in_app_iff in Hin'. destruct Hin' as [Hin'|[Hin'|[]]].
        -- destruct (HD _ _ Hin'). destruct (Nat.eqb_spec o' o) as [E|E]; simpl in Hss; split; cg.
        -- injection Hin' as <- <-. rewrite Nat.eqb_refl in Hss. simpl in Hss. destruct (HF _ _ Hf). split; cg.
      * intros o' Hn'. specialize (Hss o'). unfold stat in Hss. apply HN. destruct (Nat.eqb_spec o' o) as [E|E]; simpl in Hss; cg.
      * apply (order_none (c_prim s) tr); simpl; auto; rewrite ?consumers_app, ?puts_app; simpl; now rewrite app_nil_r.
    + simpl in Hr. unfold q_resume in Hr. injection Hr as Hcp Hv. rewrite <- Hcp. split; [|split; [|split]].
      * intros o' v' Hf'. specialize (Hss o'). unfold stat in Hss. apply HF. destruct (Nat.eqb_spec o' o) as [E|E]; simpl in Hss; cg.
      * intros o' v' Hin'. specialize (Hss o'). unfold stat in Hss. apply in_app_iff in Hin'. destruct Hin' as [Hin'|[Hin'|[]]].
        -- destruct (HD _ _ Hin'). destruct (Nat.eqb_spec o' o) as [E|E]; simpl in Hss; split; cg.
        -- injection Hin' as <- <-. rewrite Nat.eqb_refl in Hss. simpl in Hss. split; cg.
      * intros o' Hn'. specialize (Hss o'). unfold stat in Hss. apply HN. destruct (Nat.eqb_spec o' o) as [E|E]; simpl in Hss; cg.
      * apply (order_none (c_prim s) tr); simpl; auto; rewrite ?consumers_app, ?puts_app; simpl; now rewrite app_nil_r.
  - (* no effect on the queue *)
    rewrite Hcp.
    assert (Hc : consumers (tr ++ es) = consumers tr /\ puts (tr ++ es) = puts tr /\ forall o v, In (EDone o v) (tr ++ es) -> In (EDone o v) tr).
    { rewrite consumers_app, puts_app. destruct Hes as [->|[[o ->]|[e ->]]]; simpl; rewrite !app_nil_r; auto;
        (split; [reflexivity|split; [reflexivity|]]); intros o' v' Hin; apply in_app_iff in Hin;
        (destruct Hin as [Hin|[Hin|[]]]; [auto|discriminate]). }
    destruct Hc as (Hc1 & Hc2 & Hc3). split; [|split; [|split]].
    + intros o' v' Hf'. specialize (Hss o'). unfold stat in Hss. apply HF. cg.
    + intros o' v' Hin'. specialize (Hss o'). unfold stat in Hss. destruct (HD _ _ (Hc3 _ _ Hin')). split; cg.
    + intros o' Hn'. specialize (Hss o'). unfold stat in Hss. apply HN. cg.
    + apply (order_none (c_prim s) tr); auto.
  - (* put / maybe_get *)
    assert (Hdn : forall o v, In (EDone o v) (tr ++ map EPrim pes) -> In (EDone o v) tr).
    { intros o v Hin. apply in_app_iff in Hin. destruct Hin as [Hin|Hin]; auto. apply In_prim_done in Hin; tauto. }
    simpl in Hp. unfold q_step in Hp. destruct pl as [x|].
    + destruct (q_sinks (c_prim s)) as [|o rest] eqn:Hsk.
      * injection Hp as Hcp <- <-. rewrite <- Hcp. simpl. simpl in Hss. split; [|split; [|split]].
        -- intros o' v' Hf'. specialize (Hss o'). unfold stat in Hss. apply HF. cg.
        -- intros o' v' Hin'. specialize (Hss o'). unfold stat in Hss. destruct (HD _ _ (Hdn _ _ Hin')). split; cg.
        -- intros o' Hn'. specialize (Hss o'). unfold stat in Hss. apply HN. cg.
        -- destruct HO as (pre & post & H1 & H2 & H3 & H4). exists pre, post. simpl.
           rewrite consumers_app, puts_app. simpl. rewrite app_nil_r, H2, <- app_assoc. repeat split; auto. constructor.
      * destruct (q_buf (c_prim s)) as [|y buf] eqn:Hb; [|discriminate]. injection Hp as Hcp <- <-. rewrite <- Hcp. simpl.
        destruct (Hnqd o ltac:(now left)) as (Hod & Hof & Hon).
        split; [|split; [|split]].
        -- intros o' v' Hf'. specialize (Hss o'). unfold stat in Hss. simpl in Hss. unfold upd.
           destruct (Nat.eqb_spec o' o) as [E|E]; simpl in Hss; [cg|]. apply HF. cg.
        -- intros o' v' Hin'. specialize (Hss o'). unfold stat in Hss. simpl in Hss. unfold upd. destruct (HD _ _ (Hdn _ _ Hin')).
           destruct (Nat.eqb_spec o' o) as [E|E]; simpl in Hss; [cg|]. split; cg.
        -- intros o' Hn'. specialize (Hss o'). unfold stat in Hss. simpl in Hss. unfold upd.
           destruct (Nat.eqb_spec o' o) as [E|E]; simpl in Hss; [cg|]. apply HN. cg.
        -- destruct HO as (pre & post & H1 & H2 & H3 & H4). rewrite Hsk in H4.
           assert (Hpost : exists p1 p2, post = p1 ++ Getter o :: p2 /\ subseq rest (getters p2)).
           { clear -H4. induction post as [|c post IH]; simpl in H4; [inversion H4|].
             destruct c as [o'|r].
             - inversion H4 as [|x0 a0 b0 Hs0|x0 a0 b0 Hs0]; subst.
               + exists [], post. auto.
               + destruct (IH Hs0) as (p1 & p2 & -> & Hs). exists (Getter o' :: p1), p2. auto.
             - destruct (IH H4) as (p1 & p2 & -> & Hs). exists (Taker r :: p1), p2. auto. }
           destruct Hpost as (p1 & p2 & -> & Hsub).
           destruct HTI as (_ & _ & HND & _). rewrite <- getters_consumers, H1 in HND.
           destruct (flat_single (q_val (c_prim s)) o x pre p1 p2 HND H3) as [Hfl1 Hfl2].
           exists (pre ++ p1 ++ [Getter o]), p2. simpl.
           rewrite consumers_app, puts_app. simpl. rewrite app_nil_r, H1, H2, Hb, !app_nil_r, Hfl1, Hfl2.
           repeat split; auto. now rewrite <- !app_assoc.
    + destruct (q_buf (c_prim s)) as [|y buf] eqn:Hb; injection Hp as Hcp <- <-; rewrite <- Hcp; simpl; simpl in Hss.
      * split; [|split; [|split]].
        -- intros o' v' Hf'. specialize (Hss o'). unfold stat in Hss. apply HF. cg.
        -- intros o' v' Hin'. specialize (Hss o'). unfold stat in Hss. destruct (HD _ _ (Hdn _ _ Hin')). split; cg.
        -- intros o' Hn'. specialize (Hss o'). unfold stat in Hss. apply HN. cg.
        -- destruct HO as (pre & post & H1 & H2 & H3 & H4). exists pre, (post ++ [Taker None]). simpl.
           rewrite consumers_app, puts_app, getters_app, flat_app. simpl. rewrite app_nil_r, H1, H2, H3, app_nil_r, app_assoc. rewrite ?app_nil_r. auto.
      * split; [|split; [|split]].
        -- intros o' v' Hf'. specialize (Hss o'). unfold stat in Hss. apply HF. cg.
        -- intros o' v' Hin'. specialize (Hss o'). unfold stat in Hss. destruct (HD _ _ (Hdn _ _ Hin')). split; cg.
        -- intros o' Hn'. specialize (Hss o'). unfold stat in Hss. apply HN. cg.
        -- destruct HO as (pre & post & H1 & H2 & H3 & H4). exists (pre ++ post ++ [Taker (Some y)]), []. simpl.
           rewrite consumers_app, puts_app, !flat_app. simpl. rewrite !app_nil_r, H1, H2, H3, Hb. simpl.
           rewrite <- !app_assoc. rewrite HI1 by cg. repeat split; auto. constructor.
Qed.

Lemma QInv_init : QInv (c_init P) [].
Proof.
  split; [apply JT_init|]. simpl. repeat split; try discriminate; try tauto.
  exists [], []. simpl. repeat split; auto. constructor.
Qed.

Lemma queue_inv ls s tr : run step (c_init P) ls = Running s tr -> QInv s tr.
Proof. exact (run_inv step QInv (c_init P) QInv_init QInv_step ls s tr). Qed.

(** what the receivers were told so far *)
Lemma reported_In (tr : trace) o : reported tr o <> None -> In (EDone (P:=P) o (reported tr o)) tr.
Proof.
  induction tr as [|e tr IH]; simpl; [congruence|]. destruct e as [o' tok a|o' v|e|o'|x]; simpl; auto.
  destruct (Nat.eqb_spec o' o) as [->|]; auto.
Qed.

Lemma notified_In (tr : trace) o : notified o tr > 0 <-> exists v, In (EDone o v) tr.
Proof.
  induction tr as [|e tr IH]; simpl.
  - split; [lia|intros (? & [])].
  - destruct e as [o' tok a|o' v|e|o'|x]; simpl; try (rewrite IH; split; [intros (v & H); eauto|intros (v' & [H|H]); [discriminate|eauto]]).
    destruct (Nat.eqb_spec o' o) as [->|Hne].
    + split; [eauto|lia].
    + simpl. rewrite IH. split; [intros (v' & H); eauto|intros (v' & [H|H]); [congruence|eauto]].
Qed.

(** ** C06 *)
Lemma q_fifo ls s tr : run step (c_init P) ls = Running s tr ->
  exists res, (forall o v, In (EDone o v) tr -> v = res o) /\
    puts tr = flat_map (handed res) (consumers tr) ++ q_buf (c_prim s).
Proof.
  intros Hr. destruct (queue_inv ls s tr Hr) as (_ & _ & HD & _ & (pre & post & H1 & H2 & H3 & H4)).
  exists (q_val (c_prim s)). split.
  - intros o v Hin. now destruct (HD _ _ Hin).
  - change (flat_map (handed (q_val (c_prim s))) (consumers tr)) with (flat (q_val (c_prim s)) (consumers tr)).
    rewrite H1, flat_app, H3, app_nil_r. exact H2.
Qed.

Lemma pending_none s tr o : QInv s tr -> all_returned s -> notified o tr = 0 -> started o tr -> q_val (c_prim s) o = None.
Proof.
  intros ([[HG HTI] _] & _) Hret Hn Hst. pose proof HTI as (HD & HS & _).
  destruct (quiescent _ _ _ s o HG Hret (proj2 (HS o) Hst)) as [Hd|(Hq & _)].
  - rewrite HD, Hd in Hn. discriminate.
  - pose proof HG as (_ & _ & ((_ & _ & HI3) & HQ) & _). apply HI3. now apply HQ.
Qed.

Lemma q_fifo_quiescent ls s tr : run step (c_init P) ls = Running s tr -> all_returned s ->
  puts tr = flat_map (handed (reported tr)) (consumers tr) ++ q_buf (c_prim s).
Proof.
  intros Hr Hret. pose proof (queue_inv ls s tr Hr) as HI.
  pose proof HI as (HJT & _ & HD & _ & (pre & post & H1 & H2 & H3 & H4)).
  rewrite (flat_map_ext_in (handed (reported tr)) (handed (q_val (c_prim s)))).
  - change (flat_map (handed (q_val (c_prim s))) (consumers tr)) with (flat (q_val (c_prim s)) (consumers tr)).
    rewrite H1, flat_app, H3, app_nil_r. exact H2.
  - intros c Hc. destruct c as [o|r]; simpl; auto. f_equal.
    assert (Hst : started o tr) by (unfold started; rewrite <- getters_consumers; now apply getters_In).
    destruct (Nat.eq_dec (notified o tr) 0) as [Hz|Hnz].
    + rewrite (pending_none s tr o HI Hret Hz Hst). destruct (reported tr o) eqn:Hrp; auto.
      pose proof (reported_In tr o) as Hi. rewrite Hrp in Hi. specialize (Hi ltac:(discriminate)).
      assert (notified o tr > 0) by (apply notified_In; eauto). lia.
    + destruct (proj1 (notified_In tr o) ltac:(lia)) as [v Hv].
      assert (Hrep : In (EDone (P:=P) o (reported tr o)) tr).
      { clear -Hv. induction tr as [|e tr IH]; simpl in *; [tauto|].
        destruct Hv as [->|Hv].
        - simpl. rewrite Nat.eqb_refl. auto.
        - destruct e as [o' tok a|o' v'|e|o'|x]; simpl; auto. destruct (Nat.eqb_spec o' o) as [->|]; auto. }
      now destruct (HD _ _ Hrep).
Qed.

(** ** C07 *)
Lemma q_exclusive ls s tr : run step (c_init P) ls = Running s tr ->
  q_buf (c_prim s) = [] \/ q_sinks (c_prim s) = [].
Proof.
  intros Hr. destruct (queue_inv ls s tr Hr) as ([[(_ & _ & ((HI1 & _) & _) & _) _] _] & _).
  destruct (q_buf (c_prim s)); auto. right. apply HI1. discriminate.
Qed.

Lemma q_no_prim_fail s tr l f es : QInv s tr -> step s l = Fail f es ->
  eager = true /\ f = UseAfterFree /\ exists o x, l = LPath o x /\ get_pc x (c_op s o) = PUnreg /\
     o_done (c_op s o) = true /\ o_alive (c_op s o) = false.
Proof.
  intros (HJT & _) Hs. pose proof (JT_reliable _ _ _ _ _ _ HJT) as HR. destruct HJT as [[HG _] HTK].
  pose proof HG as (_ & _ & ((HI1 & _) & _) & _).
  destruct (step_fail _ _ _ _ _ _ _ HG HR Hs) as [(o & tok & a & _ & _ & Hst & _)|[(pl & pes & _ & Hp & _)|[(o & x & _ & _ & Hr & _)|[(o & x & _ & _ & Hnd & Htry & _)|H]]]]; auto.
  - simpl in Hst. unfold q_start in Hst. destruct (q_buf (c_prim s)) as [|x rest] eqn:Hb; [discriminate|].
    rewrite HI1 in Hst by discriminate. discriminate.
  - simpl in Hp. unfold q_step in Hp. destruct pl.
    + destruct (q_sinks (c_prim s)) eqn:Hsk; [discriminate|]. destruct (q_buf (c_prim s)) eqn:Hb; [discriminate|].
      specialize (HI1 ltac:(discriminate)). discriminate.
    + destruct (q_buf (c_prim s)); discriminate.
  - discriminate.
  - specialize (HTK o Hnd). simpl in HTK, Htry. unfold q_try in Htry. destruct (q_val (c_prim s) o); [discriminate|congruence].
Qed.

Lemma q_pending ls s tr : run step (c_init P) ls = Running s tr -> all_returned s ->
  forall o, started o tr -> notified o tr = 1 \/ (q_buf (c_prim s) = [] /\ ~ cancel_requested o tr).
Proof.
  intros Hr Hret o Hst. destruct (queue_inv ls s tr Hr) as ([HJ _] & _). pose proof HJ as [HG HTI].
  pose proof HTI as (HD & HS & _).
  destruct (quiescent _ _ _ s o HG Hret (proj2 (HS o) Hst)) as [Hd|(Hq & _ & Hnr)].
  - left. now rewrite HD, Hd.
  - right. split.
    + destruct (q_exclusive ls s tr Hr) as [Hb|Hsk]; auto.
      pose proof HG as (_ & _ & (_ & HQ) & _). apply HQ in Hq. simpl in Hq. rewrite Hsk in Hq. destruct Hq.
    + intros Hcr. destruct (requested_iff _ _ _ _ _ _ HJ Hcr) as (e & He1 & He2). rewrite (Hnr e He1) in He2. discriminate.
Qed.

Lemma q_started_buf ls s tr o : run step (c_init P) ls = Running s tr -> all_returned s ->
  started o tr -> notified o tr = 0 -> q_buf (c_prim s) = [] /\ ~ cancel_requested o tr.
Proof. intros Hr Hret Hst Hn. destruct (q_pending ls s tr Hr Hret o Hst) as [H|H]; [lia|exact H]. Qed.

(** ** C08 *)
Lemma q_null_cancelled ls s tr1 o tr2 : run step (c_init P) ls = Running s (tr1 ++ EDone (P:=P) o None :: tr2) -> cancel_requested o tr1.
Proof.
  intros Hr. destruct (run_split_done _ _ _ _ _ _ _ _ Hr) as (ls1 & l & ls2 & s1 & s2 & -> & Hr1 & Hs).
  pose proof (queue_inv ls1 s1 tr1 Hr1) as (HJT & HF & HD & HN & HO). pose proof (JT_reliable _ _ _ _ _ _ HJT) as HR.
  pose proof HJT as [HJ HTK]. pose proof HJ as [HG HTI].
  pose proof (step_effect _ _ _ _ _ _ _ HG HR Hs) as He.
  remember [EDone (P:=P) o None] as es eqn:Hes.
  destruct He as [s' o' tok a pes Hl Hn Hd Hst Hss|s' o' tok a v pes Hl Hn Hd Hst Hss|s' o' es Hp|s' es Hcp Hss Hes'|s' pl taken pes Hp Htk Hss]; try discriminate.
  - destruct Hp as [s' Hcp Hss|s' e Hn Ht Hr' Htry Hss|s' v Hf Hn Hd Hcp Hss|s' v Hn Hd Hr' Hss]; try discriminate.
    + injection Hes as -> ->. destruct (HF _ _ Hf); congruence.
    + injection Hes as -> ->. simpl in Hr'. unfold q_resume in Hr'. injection Hr' as Hcp Hv.
      destruct Hn as [Hn|Hn]; [destruct (HTK _ Hn Hv)|].
      destruct (cancelled_requested _ _ _ s1 o HG Hn) as (e & He1 & He2).
      eapply requested_of; eauto.
      destruct HTI as (_ & HS & _). apply HS. intros Hl. destruct (fresh_facts _ _ _ s1 o HG Hl) as (Hn' & _). congruence.
  - exfalso. destruct Hes' as [->|[[o' ->]|[e ->]]]; discriminate.
  - destruct pes as [|? [|? ?]]; discriminate.
Qed.

(** A reported item was put before. *)
Lemma q_item_put ls s tr1 o x tr2 : run step (c_init P) ls = Running s (tr1 ++ EDone (P:=P) o (Some x) :: tr2) -> In x (puts tr1).
Proof.
  intros Hr. destruct (run_split_done _ _ _ _ _ _ _ _ Hr) as (ls1 & l & ls2 & s1 & s2 & -> & Hr1 & Hs).
  assert (Hr2 : run step (c_init P) (ls1 ++ [l]) = Running s2 (tr1 ++ [EDone (P:=P) o (Some x)])).
  { unfold run in *. rewrite run_from_app, Hr1. simpl. now rewrite Hs. }
  destruct (q_fifo _ _ _ Hr2) as (res & Hres & Hputs). rewrite puts_app in Hputs. simpl in Hputs. rewrite app_nil_r in Hputs.
  rewrite Hputs, in_app_iff. left. apply in_flat_map. exists (Getter o). split.
  - apply getters_In. rewrite getters_consumers. apply (t_started _ _ _ queue_tlaws _ _ _ Hr2 o).
    apply notified_In. exists (Some x). apply in_app_iff. right. now left.
  - simpl. rewrite <- (Hres o (Some x)); [now left|]. apply in_app_iff. right. now left.
Qed.

Lemma val_stable ls : forall s tr s' tr' o x, QInv s tr -> q_val (c_prim s) o = Some x -> In o (starts tr) ->
  run_from step s tr ls = Running s' tr' -> q_val (c_prim s') o = Some x /\ QInv s' tr'.
Proof.
  induction ls as [|l ls IH]; intros s tr s' tr' o x HI Hv Hst Hr; simpl in Hr.
  - injection Hr as <- <-. auto.
  - destruct (step s l) as [s1 es| |f es] eqn:Hs; try discriminate.
    pose proof (QInv_step _ _ _ _ _ HI Hs) as HI1.
    apply (IH s1 (tr ++ es)); auto; [|rewrite starts_app, in_app_iff; auto].
    destruct HI as (HJT & _). pose proof (JT_reliable _ _ _ _ _ _ HJT) as HR. pose proof HJT as [[HG (_ & HS & _)] _].
    pose proof HG as (_ & _ & ((HI1' & HI2 & HI3) & HQ) & _).
    pose proof (step_effect _ _ _ _ _ _ _ HG HR Hs) as He.
    destruct He as [s1 o' tok a pes Hl Hn Hd Hst' Hss|s1 o' tok a v pes Hl Hn Hd Hst' Hss|s1 o' es Hp|s1 es Hcp Hss Hes'|s1 pl taken pes Hp Htk Hss].
    + simpl in Hst'. unfold q_start in Hst'. destruct (q_buf (c_prim s)); [|destruct (q_sinks (c_prim s)); discriminate].
      injection Hst' as Hcp _. rewrite <- Hcp. simpl. rewrite upd_other; auto. intros ->. apply HS in Hst. congruence.
    + simpl in Hst'. unfold q_start in Hst'. destruct (q_buf (c_prim s)); [discriminate|]. destruct (q_sinks (c_prim s)); [|discriminate].
      injection Hst' as Hcp _. rewrite <- Hcp. simpl. rewrite upd_other; auto. intros ->. apply HS in Hst. congruence.
    + destruct Hp as [s1 Hcp Hss|s1 e Hn Ht Hr' Htry Hss|s1 v Hf Hn Hd Hcp Hss|s1 v Hn Hd Hr' Hss]; try (rewrite Hcp; exact Hv).
      * simpl in Htry. unfold q_try in Htry. destruct (q_val (c_prim s) o'); [discriminate|].
        destruct (memb o' (q_sinks (c_prim s))); [|discriminate]. injection Htry as Hcp. now rewrite <- Hcp.
      * simpl in Hr'. unfold q_resume in Hr'. injection Hr' as Hcp _. now rewrite <- Hcp.
    + now rewrite Hcp.
    + simpl in Hp. unfold q_step in Hp. destruct pl as [y|].
      * destruct (q_sinks (c_prim s)) as [|o1 rest] eqn:Hsk; [injection Hp as Hcp _ _; now rewrite <- Hcp|].
        destruct (q_buf (c_prim s)); [|discriminate]. injection Hp as Hcp _ _. rewrite <- Hcp. simpl. rewrite upd_other; auto.
        intros ->. rewrite HI3 in Hv; [discriminate|now left].
      * destruct (q_buf (c_prim s)); injection Hp as Hcp _ _; now rewrite <- Hcp.
Qed.

Lemma q_handed ls1 s1 tr1 x o rest ls2 s2 tr2 v :
  run step (c_init P) ls1 = Running s1 tr1 -> q_sinks (c_prim s1) = o :: rest ->
  run step (c_init P) (ls1 ++ LPrim (QPut x : PL P) :: ls2) = Running s2 tr2 -> In (EDone o v) tr2 -> v = Some x.
Proof.
  intros Hr1 Hsk Hr2 Hin. unfold run in *. rewrite run_from_app, Hr1 in Hr2. simpl in Hr2. rewrite Hsk in Hr2.
  destruct (q_buf (c_prim s1)) eqn:Hb; [|discriminate].
  pose proof (queue_inv ls1 s1 tr1 Hr1) as HI.
  match type of Hr2 with run_from _ ?sx (?trx) _ = _ =>
    assert (HI2 : QInv sx trx) by (apply (QInv_step s1 tr1 (LPrim (QPut x : PL P))); [exact HI|simpl; rewrite Hsk, Hb; reflexivity]) end.
  apply val_stable with (o := o) (x := x) in Hr2; auto.
  - destruct Hr2 as [Hv (_ & _ & HD & _)]. destruct (HD _ _ Hin) as [_ ->]. exact Hv.
  - simpl. now rewrite upd_same.
  - rewrite starts_app. simpl. rewrite app_nil_r. destruct HI as ([[HG (_ & HS & _)] _] & _).
    apply HS. intros Hl. destruct (fresh_facts _ _ _ s1 o HG Hl) as (Hn & _).
    pose proof HG as (_ & _ & (_ & HQ) & _). assert (Hq : o_node (c_op s1 o) = NQueued) by (apply HQ; simpl; rewrite Hsk; now left). congruence.
Qed.

End Runs.

Lemma q_default_token eager ls s tr o a v : run (step P eager) (c_init P) ls = Running s tr ->
  In (EStart (P:=P) o None a) tr -> In (EDone (P:=P) o v) tr -> v <> None.
Proof.
  intros Hr Hs Hd ->. apply in_split in Hd. destruct Hd as (tr1 & tr2 & ->).
  pose proof (q_null_cancelled eager ls s tr1 o tr2 Hr) as (e & (a' & Ha') & He).
  apply (t_default_token _ _ eager queue_tlaws ls s _ o a Hr Hs). exists e. split.
  - exists a'. apply in_app_iff. now left.
  - apply in_app_iff. now left.
Qed.

Lemma q_woken eager ls1 s1 tr1 x o rest ls2 s2 tr2 :
  run (step P eager) (c_init P) ls1 = Running s1 tr1 -> q_sinks (c_prim s1) = o :: rest ->
  run (step P eager) (c_init P) (ls1 ++ LPrim (QPut x : PL P) :: ls2) = Running s2 tr2 -> all_returned s2 -> notified o tr2 = 1.
Proof.
  intros Hr1 Hsk Hr2 Hret. destruct (q_exclusive eager ls1 s1 tr1 Hr1) as [Hb|Hb]; [|congruence].
  refine (t_woken _ _ eager queue_tlaws ls1 s1 tr1 (QPut x : PL P) _ [o] _ o ls2 s2 tr2 Hr1 _ _ Hr2 Hret); [|now left].
  simpl. rewrite Hsk, Hb. reflexivity.
Qed.

Lemma q_eager_fail ls f tr : run (step P true) (c_init P) ls = Failed f tr ->
  f = UseAfterFree /\ exists o, In (EDestroy o) tr /\ notified o tr = 1 /\ cancel_requested o tr.
Proof.
  intros Hr. destruct (t_fail _ _ _ queue_tlaws _ _ _ Hr) as [(s & tr1 & l & es & HJT & _ & Hs & Hpf)|(_ & H)]; auto.
  exfalso. destruct HJT as [[(_ & _ & ((HI1 & _) & _) & _) _] HTK].
  destruct Hpf as [(o & tok & a & _ & _ & Hst)|[(pl & pes & _ & Hp)|[(o & x & _ & _ & Hr')|(o & x & _ & _ & Hnd & Htry)]]].
  - simpl in Hst. unfold q_start in Hst. destruct (q_buf (c_prim s)) as [|x rest] eqn:Hb; [discriminate|].
    rewrite HI1 in Hst by discriminate. discriminate.
  - simpl in Hp. unfold q_step in Hp. destruct pl.
    + destruct (q_sinks (c_prim s)) eqn:Hsk; [discriminate|]. destruct (q_buf (c_prim s)) eqn:Hb; [discriminate|].
      specialize (HI1 ltac:(discriminate)). discriminate.
    + destruct (q_buf (c_prim s)); discriminate.
  - discriminate.
  - specialize (HTK o Hnd). simpl in HTK, Htry. unfold q_try in Htry. destruct (q_val (c_prim s) o); [discriminate|congruence].
Qed.

Lemma q_safe_lazy ls f tr : run (step P false) (c_init P) ls <> Failed f tr.
Proof.
  refine (run_safe (step P false) (QInv false) (c_init P) (QInv_init false) (QInv_step false) _ ls f tr).
  intros s tr' l f' es HI Hs. destruct (q_no_prim_fail false s tr' l f' es HI Hs) as [He _]. discriminate.
Qed.

Lemma q_no_assert eager ls tr : run (step P eager) (c_init P) ls <> Failed AssertFailed tr.
Proof.
  intros Hr. destruct eager; [|now apply q_safe_lazy in Hr]. apply q_eager_fail in Hr. destruct Hr. discriminate.
Qed.

End Proofs.

(** The run behind C04_queue_refuted: complete() publishes its bit and is preempted before it looks at the event;
    cancel() finishes the operation, the receiver destroys it, complete() goes on. *)
Lemma q_uaf : exists ls tr, run (step (queue_prim nat) true) (c_init (queue_prim nat)) ls = Failed UseAfterFree tr.
Proof.
  exists [LStart (P := queue_prim nat) 0 (Some 0) tt; LPath 0 PathL; LPath 0 PathL; LPrim (QPut 5 : PL (queue_prim nat)); LWakeNext 0; LPath 0 PathP;
          LCancel 0; LCanNext 0; LPath 0 PathC; LPath 0 PathC; LPath 0 PathC; LDestroy 0; LPath 0 PathP].
  witness.
Qed.
