(** Nestings of the algorithms do not run forever between answers of their environment. *)
From Coq Require Import List Arith Bool Lia.
From Verif Require Import Lts ListFacts M_Nest S_Nest P_Nest.
Import ListNotations.

(** The number of steps that the library can take before it needs an answer, after start() and from a state *)
Fixpoint ms (x : ex) : nat :=
  match x with
  | XInv _ | XLeaf _ | XIte _ _ _ | XRep _ _ _ | XLet _ _ _ => 0
  | XTrans y _ => ms y
  | XSeq y l => ms y + sum (map ms l) + 1
  | XAll y l => ms y + sum (map ms l) + length l + 3
  | XRace _ y l => ms y + sum (map ms l) + 2 * length l + 3
  end.
Fixpoint mo (o : op) : nat :=
  match o with
  | ONew x => ms x
  | OLeaf _ | OFn _ _ | OFin => 0
  | OSet _ => 1
  | OTrans _ o' | ORep _ _ _ o' => mo o'
  | OSeq l o' => mo o' + sum (map ms l) + 1
  | OAll st _ os => sum (map mo os) + (S (length os) - st) + 1
  | ORace _ st nd _ rem os => sum (map mo os) + (length os - st) + length rem + (if nd =? 0 then length os else 0) + 1
  end.
Lemma sum_new l : sum (map mo (map ONew l)) = sum (map ms l).
Proof. induction l as [|x l IH]; simpl; auto. Qed.
Lemma start_mo x : forall o es, o_start x = (o, es) -> mo o <= ms x.
Proof.
  induction x using ex_ind'; simpl; intros o es E; try (inversion E; subst; simpl; lia).
  - destruct (o_start x) as [o1 es1]. inversion E; subst. simpl. exact (IHx _ _ eq_refl).
  - destruct (o_start x) as [o1 es1]. inversion E; subst. simpl. specialize (IHx _ _ eq_refl). lia.
  - inversion E; subst. simpl. rewrite sum_new, map_length. lia.
  - inversion E; subst. simpl. rewrite sum_new, map_length. lia.
Qed.
Lemma start_of_mo x o es : start_of x = Next o es -> mo o <= ms x.
Proof. unfold start_of. destruct (o_start x) as [o1 es1] eqn:E. intros F. inversion F; subst. eapply start_mo; eauto. Qed.
Lemma len_set {A} (l : list A) i x : length (set_nth l i x) = length l.
Proof. revert i. induction l as [|a l IH]; intros [|i]; simpl; auto. Qed.
Lemma filter_len {A} (f : A -> bool) l : length (filter f l) <= length l.
Proof. induction l as [|a l IH]; simpl; [lia|]. destruct (f a); simpl; lia. Qed.

Lemma step_mo o : forall p o' es, o_step o p None = Next o' es -> mo o' < mo o.
Proof.
  induction o using op_ind'; intros p o' es E; simpl in E; try discriminate; try (destruct p; discriminate).
  - destruct (set_dec o) as [[v ->]|Hs]; [destruct p; inversion E; subst; simpl; lia|].
    assert (F : within (OTrans f) (o_step o p None) = Next o' es) by (destruct o; try exact E; now destruct (Hs v)). apply within_next in F as (o1 & F & ->). simpl. eauto.
  - destruct (set_dec o) as [[v ->]|Hs]; [destruct p; inversion E; subst; simpl; lia|].
    assert (F : within (ORep c g body) (o_step o p None) = Next o' es) by (destruct o; try exact E; now destruct (Hs v)). apply within_next in F as (o1 & F & ->). simpl. eauto.
  - destruct (set_dec o) as [[v ->]|Hs].
    + destruct p; [|destruct l; discriminate]. destruct l as [|x l]; [inversion E; subst; simpl; lia|]. apply within_next in E as (o1 & F & ->). apply start_of_mo in F. simpl. lia.
    + assert (F : within (OSeq l) (o_step o p None) = Next o' es) by (destruct o; try exact E; now destruct (Hs v)). apply within_next in F as (o1 & F & ->). apply IHo in F. simpl. lia.
  - destruct p as [|i p].
    + destruct (nth_error os st) as [o|] eqn:Hn.
      * assert (Hl : st < length os) by (apply nth_error_Some; congruence). destruct o; try discriminate. destruct (o_start x) as [o1 es1] eqn:Hx. inversion E; subst. apply start_mo in Hx. cbn [mo].
        pose proof (sum_map_set_nth mo os st o1 _ Hn) as F. cbn [mo] in F. rewrite len_set. lia.
      * destruct (Nat.eqb_spec st (length os)); inversion E; subst. cbn [mo]. lia.
    + rewrite child_nth in E. destruct (nth_error os i) as [o|] eqn:Hi; [|discriminate]. destruct (set_dec o) as [[v ->]|Hs].
      * destruct p; [|discriminate]. pose proof (sum_map_set_nth mo os i OFin _ Hi) as F. cbn [mo] in F. unfold all_done in E. destruct ctr as [|[|c]]; [discriminate| |].
        -- destruct (st <=? length os); inversion E; subst. cbn [mo]. lia.
        -- inversion E; subst. cbn [mo]. rewrite len_set. lia.
      * assert (F : within (fun o'' => OAll st ctr (set_nth os i o'')) (o_step o p None) = Next o' es) by (destruct o; try exact E; now destruct (Hs v)). apply within_next in F as (o1 & F & ->).
        rewrite Forall_forall in H. apply (H o (nth_error_In _ _ Hi)) in F. pose proof (sum_map_set_nth mo os i o1 _ Hi) as G. cbn [mo]. rewrite len_set. lia.
  - destruct p as [|i p].
    + destruct (nth_error os st) as [o|] eqn:Hn; [|discriminate]. assert (Hl : st < length os) by (apply nth_error_Some; congruence). destruct o; try discriminate. destruct (o_start x) as [o1 es1] eqn:Hx. inversion E; subst. apply start_mo in Hx. cbn [mo].
      pose proof (sum_map_set_nth mo os st o1 _ Hn) as F. cbn [mo] in F. rewrite len_set. lia.
    + destruct (Nat.eqb_spec i (length os)) as [->|Ni].
      { destruct p; [|destruct rem; discriminate]. destruct rem as [|j rem]; [discriminate|]. inversion E; subst. cbn [mo length]. lia. }
      rewrite child_nth in E. destruct (nth_error os i) as [o|] eqn:Hi; [|discriminate]. destruct (set_dec o) as [[v ->]|Hs].
      * destruct p; [|discriminate]. pose proof (sum_map_set_nth mo os i OFin _ Hi) as F. cbn [mo] in F. unfold race_done in E.
        assert (G : length (if nd =? 0 then filter (fun j => negb (j =? i)) (seq 0 (length os)) else rem) <= length rem + (if nd =? 0 then length os else 0)).
        { destruct (nd =? 0); [|lia]. pose proof (filter_len (fun j => negb (j =? i)) (seq 0 (length os))) as K. rewrite seq_length in K. lia. }
        revert G E. generalize (if nd =? 0 then filter (fun j => negb (j =? i)) (seq 0 (length os)) else rem). intros rem' G E.
        destruct (S nd =? length os); [destruct rem'; inversion E; subst; cbn [mo]; lia|]. inversion E; subst. cbn [mo]. change (S nd =? 0) with false. cbn iota. rewrite len_set. lia.
      * assert (F : within (fun o'' => ORace r st nd w rem (set_nth os i o'')) (o_step o p None) = Next o' es) by (destruct o; try exact E; now destruct (Hs v)). apply within_next in F as (o1 & F & ->).
        rewrite Forall_forall in H. apply (H o (nth_error_In _ _ Hi)) in F. pose proof (sum_map_set_nth mo os i o1 _ Hi) as G. cbn [mo]. rewrite len_set. lia.
Qed.
Lemma n_step_mo o p o' es : n_step o (NLStep p) = Next o' es -> mo o' < mo o.
Proof.
  simpl. intros E. assert (K : (exists v, o = OSet v /\ o' = OFin) \/ o_step o p None = Next o' es) by (destruct p; [|now right]; destruct o; try (now right); left; inversion E; subst; eauto).
  destruct K as [(v & -> & ->)|F]; [simpl; lia|eapply step_mo; eauto].
Qed.
Lemma lib_bound ps : forall o tr o' tr', run_from n_step o tr (map NLStep ps) = Running o' tr' -> length ps + mo o' <= mo o.
Proof.
  induction ps as [|p ps IH]; intros o tr o' tr' R; cbn [map run_from] in R; [inversion R; subst; simpl; lia|].
  destruct (n_step o (NLStep p)) as [o1 es| |] eqn:E; try discriminate. apply n_step_mo in E. apply IH in R. simpl. lia.
Qed.
(** An execution that was started reaches the next answer, the notification or a failure by steps of the library. *)
Lemma lib_settles x n : forall ls o tr, mo o <= n -> run n_step (n_init x) ls = Running o tr -> In NLStart ls ->
  exists ps, (exists f tr', run n_step (n_init x) (ls ++ map NLStep ps) = Failed f tr') \/
    exists o' tr', run n_step (n_init x) (ls ++ map NLStep ps) = Running o' tr' /\ (~ env_idle tr' \/ exists v, In (NDone v) tr').
Proof.
  induction n as [n IH] using lt_wf_ind. intros ls o tr Hm R Hs. pose proof (ni_run_all _ _ _ _ R) as H. destruct (ni_cnt _ _ _ H) as [C1 C2]. pose proof (n_started _ _ _ _ R Hs) as Hn.
  assert (D : o = OFin \/ o <> OFin) by (destruct o; (now left) || (right; discriminate)). destruct D as [E|E].
  { exists []. right. exists o, tr. split; [simpl; rewrite app_nil_r; exact R|]. right. destruct (ni_fin _ _ _ H E) as (t & v & -> & _). exists v. apply in_or_app. right. now left. }
  destruct (Nat.eq_dec (rl o + rf o) 0) as [Z|Z]; [|exists []; right; exists o, tr; split; [simpl; rewrite app_nil_r; exact R|left; intros [E1 E2]; lia]].
  assert (P : exists p, n_step o (NLStep p) <> Disabled).
  { destruct (set_dec o) as [[v ->]|Hset]; [exists []; discriminate|]. destruct (o_progress o (ni_wf _ _ _ H)) as (p & Hp); auto; [destruct o; simpl in *; tauto|lia|lia|]. exists p. intros F. apply Hp. simpl in F. destruct p; auto. now destruct o. }
  destruct P as (p & Hp). destruct (n_step o (NLStep p)) as [o1 es| |f es] eqn:F; [|congruence|].
  - assert (R1 : run n_step (n_init x) (ls ++ [NLStep p]) = Running o1 (tr ++ es)) by (unfold run in *; rewrite run_from_app, R; cbn [run_from]; rewrite F; reflexivity).
    pose proof (n_step_mo _ _ _ _ F) as L. destruct (IH (mo o1) ltac:(lia) (ls ++ [NLStep p]) o1 (tr ++ es) (le_n _) R1) as (ps & K); [apply in_or_app; left; exact Hs|].
    exists (p :: ps). rewrite <- app_assoc in K. exact K.
  - exists [p]. left. exists f, (tr ++ es). unfold run in *. rewrite run_from_app, R. cbn [map run_from]. rewrite F. reflexivity.
Qed.
