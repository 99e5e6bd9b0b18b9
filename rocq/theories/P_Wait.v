(** Proofs about the generic cancellable-wait machine M_Wait. *)
From Coq Require Import List Arith Bool Lia.
From Verif Require Import Lts M_Wait S_Wait ListFacts P_WaitView.
Import ListNotations.

(** What a wait primitive has to guarantee: [pq ps o] says that the node of [o] is linked. *)
(** A step that notifies a receiver emits nothing else. *)
Lemma step_done_only P eager s l s' es o v :
  step P eager s l = Next s' es -> In (EDone o v) es -> es = [EDone o v].
Proof.
  intros Hs Hin. destruct l as [o' tok a|o' x|e|k|k|pl|o']; simpl in Hs; unfold path_step in Hs;
  repeat match type of Hs with
  | context [match ?x with _ => _ end] => destruct x eqn:?; try discriminate
  end; injection Hs as <- <-; simpl in Hin;
  repeat match goal with
  | H : False |- _ => destruct H
  | H : _ \/ _ |- _ => destruct H
  | H : In _ (map _ _) |- _ => apply in_map_iff in H; destruct H as (? & ? & ?)
  end; try discriminate; congruence.
Qed.

Lemma run_split_done P eager ls s tr1 o v tr2 :
  run (step P eager) (c_init P) ls = Running s (tr1 ++ EDone o v :: tr2) ->
  exists ls1 l ls2 s1 s2, ls = ls1 ++ l :: ls2 /\ run (step P eager) (c_init P) ls1 = Running s1 tr1 /\
    step P eager s1 l = Next s2 [EDone o v].
Proof.
  intros Hr. destruct (run_split_event _ _ _ _ _ _ _ Hr) as (ls1 & l & ls2 & s1 & s2 & tr0 & e1 & e2 & -> & H1 & H2 & -> & _).
  pose proof (step_done_only _ _ _ _ _ _ o v H2 ltac:(apply in_elt)) as He.
  destruct e1 as [|x e1].
  - simpl in He. injection He as He2. subst e2. exists ls1, l, ls2, s1, s2. rewrite app_nil_r. auto.
  - destruct e1; discriminate.
Qed.

Record laws (P : prim) := Laws {
  pq : PS P -> nat -> Prop;
  pinv : PS P -> Prop;
  l_init : pinv (p_init P) /\ forall o, ~ pq (p_init P) o;
  l_start_q : forall ps o a ps' es, pinv ps -> ~ pq ps o -> p_start P ps o a = SQueued ps' es ->
    pinv ps' /\ forall o', pq ps' o' <-> pq ps o' \/ o' = o;
  l_start_f : forall ps o a ps' v es, pinv ps -> ~ pq ps o -> p_start P ps o a = SFast ps' v es ->
    pinv ps' /\ forall o', pq ps' o' <-> pq ps o';
  l_step : forall ps l ps' taken es, pinv ps -> p_step P ps l = POk ps' taken es ->
    pinv ps' /\ NoDup taken /\ (forall o, In o taken -> pq ps o) /\
    forall o', pq ps' o' <-> pq ps o' /\ ~ In o' taken;
  l_try : forall ps o, pinv ps -> pq ps o -> exists ps', p_try P ps o = TOk ps' true /\
    pinv ps' /\ forall o', pq ps' o' <-> pq ps o' /\ o' <> o;
  l_resume : forall ps o ps' v, pinv ps -> ~ pq ps o -> p_resume P ps o = ROk ps' v ->
    pinv ps' /\ forall o', pq ps' o' <-> pq ps o'
}.
Arguments pq {P}. Arguments pinv {P}. Arguments l_init {P}. Arguments l_start_q {P}. Arguments l_start_f {P}.
Arguments l_step {P}. Arguments l_try {P}. Arguments l_resume {P}.

Section Proofs.
Variable P : prim.
Variable W : laws P.
Variable eager : bool.
Notation cst := (cst P).
Notation event := (event P).
Notation step := (step P eager).

Definition isSome {A} (x : option A) : bool := match x with Some _ => true | None => false end.
Definition cb_of (s : cst) (o : nat) (t : option nat) : nat :=
  match t with Some e => cnt o (e_cbs (c_ev s e)) | None => 0 end.
Definition req_of (s : cst) (t : option nat) : bool :=
  match t with Some e => e_req (c_ev s e) | None => false end.
Definition inrest (o : nat) (lps : list loop) : nat := sum (map (fun lp => cnt o (lp_rest lp)) lps).

Definition view_of (s : cst) (o : nat) : view :=
  let r := c_op s o in
  View (isSome (o_tok r)) (req_of s (o_tok r)) (o_bits r) (o_l r) (o_p r) (o_c r) (o_node r)
       (o_done r) (o_alive r) (isSome (o_fast r))
       (cb_of s o (o_tok r)) (inrest o (c_wk s)) (inrest o (c_cn s)).

Definition GInv (s : cst) : Prop :=
  (forall o, In (view_of s o) (R eager)) /\
  (forall e o, In o (e_cbs (c_ev s e)) -> o_tok (c_op s o) = Some e) /\
  (pinv W (c_prim s) /\ forall o, pq W (c_prim s) o <-> o_node (c_op s o) = NQueued) /\
  ((forall lp o, In lp (c_wk s) -> lp_cur lp = Some o -> o_p (c_op s o) <> PIdle) /\
   (forall lp o, In lp (c_cn s) -> lp_cur lp = Some o -> o_c (c_op s o) <> PIdle)).

(** tryCancel_ on a node that was already unlinked by a waker can only return false (it may still fail) *)
Definition reliable (s : cst) : Prop :=
  forall o x ps b, get_pc x (c_op s o) = PTry -> o_node (c_op s o) = NTaken ->
  p_try P (c_prim s) o = TOk ps b -> ps = c_prim s /\ b = false.

Notation ndone := notified.

Lemma ndone_app o (es1 es2 : list event) : ndone o (es1 ++ es2) = ndone o es1 + ndone o es2.
Proof. induction es1 as [|e es1 IH]; simpl; auto. destruct e; auto. rewrite IH. lia. Qed.

Lemma ndone_prim o (es : list (PE P)) : ndone o (map EPrim es) = 0.
Proof. induction es; simpl; auto. Qed.

Definition vsim (v v' : view) (n : nat) : Prop :=
  (v' = v /\ n = 0) \/ exists l, In l vlabels /\ vstep eager v l = Next v' (repeat tt n).

Lemma vlabels_start_q t r : (t = false -> r = false) -> In (VStartQ t r) vlabels.
Proof. destruct t, r; simpl; intros H; try (specialize (H eq_refl)); try congruence; tauto. Qed.
Lemma vlabels_start_f t r : (t = false -> r = false) -> In (VStartF t r) vlabels.
Proof. destruct t, r; simpl; intros H; try (specialize (H eq_refl)); try congruence; tauto. Qed.
Lemma vlabels_path x : In (VPath x) vlabels.
Proof. destruct x; simpl; tauto. Qed.

Lemma inrest_app o l1 l2 : inrest o (l1 ++ l2) = inrest o l1 + inrest o l2.
Proof. unfold inrest. now rewrite map_app, sum_app. Qed.

Lemma inrest_set o l k lp lp' :
  nth_error l k = Some lp -> inrest o (set_nth l k lp') + cnt o (lp_rest lp) = inrest o l + cnt o (lp_rest lp').
Proof. intros H. unfold inrest. now apply (sum_map_set_nth (fun lp => cnt o (lp_rest lp))). Qed.

Ltac other_op o o' := destruct (Nat.eq_dec o o') as [->|?Hne].

(** views of operations other than the one that steps *)
Lemma view_same s s' o :
  c_op s' o = c_op s o -> inrest o (c_wk s') = inrest o (c_wk s) -> inrest o (c_cn s') = inrest o (c_cn s) ->
  (forall e, o_tok (c_op s o) = Some e -> e_req (c_ev s' e) = e_req (c_ev s e) /\ cnt o (e_cbs (c_ev s' e)) = cnt o (e_cbs (c_ev s e))) ->
  view_of s' o = view_of s o.
Proof.
  intros Hop Hw Hc He. unfold view_of. rewrite Hop, Hw, Hc.
  destruct (o_tok (c_op s o)) as [e|] eqn:Ht; simpl; [|reflexivity].
  destruct (He e eq_refl) as [-> ->]. reflexivity.
Qed.

Lemma fresh_facts s o : GInv s -> o_l (c_op s o) = PIdle ->
  o_node (c_op s o) = NFresh /\ o_tok (c_op s o) = None /\ o_p (c_op s o) = PIdle /\ o_c (c_op s o) = PIdle /\
  o_done (c_op s o) = false /\ o_alive (c_op s o) = true.
Proof.
  intros [HV _] Hl. specialize (HV o).
  pose (Q := fun v => match v_l v with PIdle =>
     match v_node v, v_p v, v_c v with NFresh, PIdle, PIdle => negb (v_tok v) && negb (v_done v) && v_alive v | _, _, _ => false end | _ => true end).
  assert (HQ : forallb Q (R eager) = true) by (destruct eager; vm_compute; reflexivity).
  pose proof (R_check Q eager HQ _ HV) as H. unfold Q in H. simpl in H. rewrite Hl in H.
  destruct (o_node (c_op s o)); try discriminate. destruct (o_p (c_op s o)); try discriminate.
  destruct (o_c (c_op s o)); try discriminate.
  destruct (o_tok (c_op s o)); try discriminate. destruct (o_done (c_op s o)); try discriminate.
  destruct (o_alive (c_op s o)); try discriminate. repeat split; auto.
Qed.

Lemma pq_node s o : GInv s -> (pq W (c_prim s) o <-> o_node (c_op s o) = NQueued).
Proof. intros (_ & _ & (_ & H) & _). apply H. Qed.

(** an activity about to try to cancel finds the node queued or taken *)
Lemma try_facts s o x : GInv s -> get_pc x (c_op s o) = PTry ->
  o_node (c_op s o) = NQueued \/ o_node (c_op s o) = NTaken.
Proof.
  intros [HV _] Hl. specialize (HV o).
  pose (Q := fun v => match v_pc x v with PTry =>
     match v_node v with NQueued | NTaken => true | _ => false end | _ => true end).
  assert (HQ : forallb Q (R eager) = true) by (destruct eager, x; vm_compute; reflexivity).
  pose proof (R_check Q eager HQ _ HV) as H. unfold Q in H.
  replace (v_pc x (view_of s o)) with (get_pc x (c_op s o)) in H by (destruct x; reflexivity).
  rewrite Hl in H. simpl in H. destruct (o_node (c_op s o)); try discriminate; auto.
Qed.

Lemma resume_facts s o x : GInv s -> get_pc x (c_op s o) = PResume ->
  o_done (c_op s o) = false /\ (o_node (c_op s o) = NTaken \/ o_node (c_op s o) = NCancelled).
Proof.
  intros [HV _] Hl. specialize (HV o).
  pose (Q := fun v => match v_pc x v with PResume =>
     negb (v_done v) && match v_node v with NTaken | NCancelled => true | _ => false end | _ => true end).
  assert (HQ : forallb Q (R eager) = true) by (destruct eager, x; vm_compute; reflexivity).
  pose proof (R_check Q eager HQ _ HV) as H. unfold Q in H.
  replace (v_pc x (view_of s o)) with (get_pc x (c_op s o)) in H by (destruct x; reflexivity).
  rewrite Hl in H. simpl in H.
  destruct (o_done (c_op s o)); try discriminate. destruct (o_node (c_op s o)); try discriminate; auto.
Qed.

Lemma fast_facts s o x : GInv s -> get_pc x (c_op s o) = PFast ->
  o_done (c_op s o) = false /\ o_node (c_op s o) = NFresh /\ x = PathL /\ exists v, o_fast (c_op s o) = Some v.
Proof.
  intros [HV _] Hl. specialize (HV o).
  pose (Q := fun v => match v_pc x v with PFast =>
     negb (v_done v) && v_fast v && match v_node v with NFresh => true | _ => false end && match x with PathL => true | _ => false end | _ => true end).
  assert (HQ : forallb Q (R eager) = true) by (destruct eager, x; vm_compute; reflexivity).
  pose proof (R_check Q eager HQ _ HV) as H. unfold Q in H.
  replace (v_pc x (view_of s o)) with (get_pc x (c_op s o)) in H by (destruct x; reflexivity).
  rewrite Hl in H. simpl in H.
  destruct (o_done (c_op s o)); try discriminate. destruct (o_node (c_op s o)); simpl in H; try (rewrite andb_false_r in H; discriminate).
  destruct x; simpl in H; rewrite ?andb_false_r in H; try discriminate.
  destruct (o_fast (c_op s o)); try discriminate. eauto.
Qed.

Lemma v_pc_view x s o : v_pc x (view_of s o) = get_pc x (c_op s o).
Proof. destruct x; reflexivity. Qed.

(** How one activity step changes the view of its own operation. *)
Lemma path_view s o x s' es :
  GInv s -> reliable s -> path_step P s o x = Next s' es ->
  vstep eager (view_of s o) (VPath x) = Next (view_of s' o) (repeat tt (ndone o es)) /\
  (forall o', o' <> o -> view_of s' o' = view_of s o' /\ ndone o' es = 0).
Proof.
  intros HG HR Hs. unfold path_step in Hs. simpl vstep. rewrite v_pc_view.
  destruct (get_pc x (c_op s o)) as [| | | |m| | |] eqn:Hpc; try discriminate;
    simpl v_alive; destruct (o_alive (c_op s o)) eqn:Hal; try discriminate; simpl in Hs |- *.
  - (* PFast *)
    destruct (fast_facts s o x HG Hpc) as (Hd & Hn & -> & v & Hf).
    rewrite Hf in *. injection Hs as <- <-. rewrite Hd. simpl. rewrite Nat.eqb_refl. simpl.
    split.
    + unfold view_of, with_op; simpl. rewrite upd_same. simpl. rewrite ?Hal, ?Hf. reflexivity.
    + intros o' Hne. split.
      * apply view_same; simpl; auto. now rewrite upd_other.
      * destruct (Nat.eqb_spec o o'); [congruence|reflexivity].
  - (* PListen *)
    destruct (o_tok (c_op s o)) as [e|] eqn:Ht; simpl.
    + destruct (e_req (c_ev s e)) eqn:Hr.
      * injection Hs as <- <-. split.
        -- unfold view_of, with_op; simpl. rewrite upd_same. rewrite Ht; simpl; rewrite Hr.
           destruct x; simpl; rewrite ?Ht, ?Hal; simpl; rewrite ?Hr; reflexivity.
        -- intros o' Hne. split; auto. apply view_same; simpl; auto. now rewrite upd_other.
      * injection Hs as <- <-. split.
        -- unfold view_of; simpl. rewrite upd_same. rewrite Ht; simpl; rewrite Hr.
           destruct x; simpl; rewrite ?Ht, ?Hal; simpl; rewrite ?upd_same; simpl;
             rewrite cnt_app, cnt_cons; destruct (Nat.eq_dec o o); try congruence;
             rewrite cnt_nil, Nat.add_1_r; reflexivity.
        -- intros o' Hne. split; auto. apply view_same; simpl; auto.
           ++ now rewrite upd_other.
           ++ intros e' He'. destruct (Nat.eq_dec e' e) as [->|Hee].
              ** rewrite upd_same. simpl. rewrite Hr. split; auto.
                 rewrite cnt_app, cnt_cons. destruct (Nat.eq_dec o o'); try congruence. rewrite cnt_nil. lia.
              ** rewrite upd_other; auto.
    + injection Hs as <- <-. split.
      * unfold view_of, with_op; simpl. rewrite upd_same. rewrite Ht.
        destruct x; simpl; rewrite ?Ht, ?Hal; simpl; reflexivity.
      * intros o' Hne. split; auto. apply view_same; simpl; auto. now rewrite upd_other.
  - (* PTry *)
    destruct (try_facts s o x HG Hpc) as [Hn|Hn].
    + destruct HG as (HV & HE & (HI & HQ) & HL).
      destruct (l_try W _ _ HI (proj2 (HQ o) Hn)) as (ps & Ht & _).
      rewrite Ht in Hs. injection Hs as <- <-. rewrite Hn. split.
      * unfold view_of; simpl. rewrite upd_same. destruct x; simpl; rewrite ?Hal; reflexivity.
      * intros o' Hne. split; auto. apply view_same; simpl; auto. now rewrite upd_other.
    + destruct (p_try P (c_prim s) o) as [ps b|f] eqn:Ht; try discriminate. destruct (HR o x ps b Hpc Hn Ht) as [-> ->]. injection Hs as <- <-. rewrite Hn. split.
      * unfold view_of; simpl. rewrite upd_same. destruct x; simpl; rewrite ?Hn, ?Hal; reflexivity.
      * intros o' Hne. split; auto. apply view_same; simpl; auto. now rewrite upd_other.
  - (* PTrans *)
    unfold do_trans in Hs. destruct (moverlap (o_bits (c_op s o)) m); try discriminate.
    injection Hs as <- <-. split.
    + unfold view_of, with_op; simpl. rewrite upd_same. destruct x; simpl; rewrite ?Hal; reflexivity.
    + intros o' Hne. split; auto. apply view_same; simpl; auto. now rewrite upd_other.
  - (* PUnreg *)
    destruct (o_tok (c_op s o)) as [e|] eqn:Ht; try discriminate. simpl.
    destruct (e_req (c_ev s e)) eqn:Hr.
    + injection Hs as <- <-. split.
      * unfold view_of, with_op; simpl. rewrite upd_same. rewrite Ht. simpl. rewrite Hr.
        destruct x; simpl; rewrite ?Ht, ?Hal; simpl; rewrite ?Hr; reflexivity.
      * intros o' Hne. split; auto. apply view_same; simpl; auto. now rewrite upd_other.
    + destruct (memb o (e_cbs (c_ev s e))) eqn:Hm; try discriminate.
      injection Hs as <- <-. apply memb_In in Hm. pose proof (cnt_remove1_same _ _ Hm) as Hc.
      rewrite <- Hc. split.
      * unfold view_of; simpl. rewrite upd_same. rewrite Ht. simpl. rewrite Hr.
        destruct x; simpl; rewrite ?Ht, ?Hal; simpl; rewrite ?upd_same; simpl; reflexivity.
      * intros o' Hne. split; auto. apply view_same; simpl; auto.
        -- now rewrite upd_other.
        -- intros e' He'. destruct (Nat.eq_dec e' e) as [->|Hee].
           ++ rewrite upd_same. simpl. rewrite Hr. split; auto. now apply cnt_remove1_other.
           ++ rewrite upd_other; auto.
  - (* PResume *)
    destruct (resume_facts s o x HG Hpc) as (Hd & Hn). rewrite Hd.
    destruct (p_resume P (c_prim s) o) as [ps v|f]; try discriminate.
    injection Hs as <- <-. simpl. rewrite Nat.eqb_refl. simpl. split.
    + unfold view_of; simpl. rewrite upd_same. destruct x; simpl; rewrite ?Hal; reflexivity.
    + intros o' Hne. split.
      * apply view_same; simpl; auto. now rewrite upd_other.
      * destruct (Nat.eqb_spec o o'); [congruence|reflexivity].
Qed.

Lemma step_sim s l s' es :
  GInv s -> reliable s -> step s l = Next s' es -> forall o, vsim (view_of s o) (view_of s' o) (ndone o es).
Proof.
  intros HG HR Hs o. pose proof HG as (HV & HE & (HI & HQ) & HL1 & HL2).
  destruct l as [o' tok a|o' x|e|k|k|pl|o']; simpl in Hs.
  - (* LStart *)
    destruct (o_l (c_op s o')) eqn:Hl; try discriminate.
    destruct (fresh_facts s o' HG Hl) as (Hn & Ht & Hp & Hc & Hd & Ha).
    assert (Hcb : forall e, cnt o' (e_cbs (c_ev s e)) = 0).
    { intros e. apply cnt_zero. intros Hin. apply HE in Hin. congruence. }
    destruct (p_start P (c_prim s) o' a) as [ps es'|ps v es'|f] eqn:Hst; try discriminate;
      injection Hs as <- <-; simpl; rewrite ndone_prim.
    + destruct (Nat.eq_dec o o') as [->|Hne].
      * right. exists (VStartQ (isSome tok) (req_of s tok)). split.
        -- apply vlabels_start_q. destruct tok; simpl; congruence.
        -- simpl. rewrite Hl. unfold view_of; simpl. rewrite upd_same. simpl. rewrite Ht. simpl.
           destruct tok as [e|]; simpl; [rewrite Hcb|]; reflexivity.
      * left. split; auto. apply view_same; simpl; auto. now rewrite upd_other.
    + destruct (Nat.eq_dec o o') as [->|Hne].
      * right. exists (VStartF (isSome tok) (req_of s tok)). split.
        -- apply vlabels_start_f. destruct tok; simpl; congruence.
        -- simpl. rewrite Hl. unfold view_of; simpl. rewrite upd_same. simpl. rewrite Ht. simpl.
           destruct tok as [e|]; simpl; [rewrite Hcb|]; reflexivity.
      * left. split; auto. apply view_same; simpl; auto. now rewrite upd_other.
  - (* LPath *)
    destruct (path_view s o' x s' es HG HR Hs) as [H1 H2].
    destruct (Nat.eq_dec o o') as [->|Hne].
    + right. exists (VPath x). split; [apply vlabels_path|exact H1].
    + destruct (H2 o Hne) as [H3 H4]. left. auto.
  - (* LCancel *)
    injection Hs as <- <-. simpl.
    assert (Hpd : inrest o (c_cn s ++ [Loop None (e_cbs (c_ev s e))]) = inrest o (c_cn s) + cnt o (e_cbs (c_ev s e))).
    { rewrite inrest_app. unfold inrest at 2. simpl. lia. }
    destruct (o_tok (c_op s o)) as [e'|] eqn:Ht.
    + destruct (Nat.eq_dec e' e) as [->|Hne].
      * right. exists VCancel. split; [simpl; tauto|]. simpl.
        unfold view_of at 1; simpl. rewrite Ht. simpl.
        unfold view_of; simpl. rewrite Ht. simpl. rewrite upd_same. simpl. rewrite Hpd.
        rewrite (Nat.add_comm (inrest o (c_cn s))). reflexivity.
      * left. split; auto. unfold view_of; simpl. rewrite Ht. simpl. rewrite upd_other by auto.
        rewrite Hpd. replace (cnt o (e_cbs (c_ev s e))) with 0; [now rewrite Nat.add_0_r|].
        symmetry. apply cnt_zero. intros Hin. apply HE in Hin. congruence.
    + left. split; auto. unfold view_of; simpl. rewrite Ht. simpl.
      rewrite Hpd. replace (cnt o (e_cbs (c_ev s e))) with 0; [now rewrite Nat.add_0_r|].
      symmetry. apply cnt_zero. intros Hin. apply HE in Hin. congruence.
  - (* LCanNext *)
    destruct (nth_error (c_cn s) k) as [lp|] eqn:Hk; try discriminate.
    destruct (loop_ready o_c s lp); try discriminate.
    destruct (lp_rest lp) as [|o' rest] eqn:Hrest; try discriminate.
    destruct (o_alive (c_op s o')) eqn:Hal; try discriminate. simpl in Hs.
    destruct (o_c (c_op s o')) eqn:Hc; try discriminate. injection Hs as <- <-.
    pose proof (inrest_set o _ k lp (Loop (Some o') rest) Hk) as Hin. simpl in Hin. rewrite Hrest, cnt_cons in Hin.
    destruct (Nat.eq_dec o o') as [->|Hne].
    + destruct (Nat.eq_dec o' o'); [|congruence].
      right. exists VCanNext. split; [simpl; tauto|]. simpl.
      replace (inrest o' (c_cn s)) with (S (inrest o' (set_nth (c_cn s) k (Loop (Some o') rest)))) by lia.
      rewrite Hal. simpl. rewrite Hc. unfold view_of; simpl. rewrite upd_same. simpl. rewrite ?Hal. reflexivity.
    + destruct (Nat.eq_dec o' o); [congruence|]. left. split; auto. apply view_same; simpl; auto; [now rewrite upd_other|lia].
  - (* LWakeNext *)
    destruct (nth_error (c_wk s) k) as [lp|] eqn:Hk; try discriminate.
    destruct (loop_ready o_p s lp); try discriminate.
    destruct (lp_rest lp) as [|o' rest] eqn:Hrest; try discriminate.
    destruct (o_alive (c_op s o')) eqn:Hal; try discriminate. simpl in Hs.
    destruct (o_p (c_op s o')) eqn:Hc; try discriminate. injection Hs as <- <-.
    pose proof (inrest_set o _ k lp (Loop (Some o') rest) Hk) as Hin. simpl in Hin. rewrite Hrest, cnt_cons in Hin.
    destruct (Nat.eq_dec o o') as [->|Hne].
    + destruct (Nat.eq_dec o' o'); [|congruence].
      right. exists VWakeNext. split; [simpl; tauto|]. simpl.
      replace (inrest o' (c_wk s)) with (S (inrest o' (set_nth (c_wk s) k (Loop (Some o') rest)))) by lia.
      rewrite Hal. simpl. rewrite Hc. unfold view_of; simpl. rewrite upd_same. simpl. rewrite ?Hal. reflexivity.
    + destruct (Nat.eq_dec o' o); [congruence|]. left. split; auto. apply view_same; simpl; auto; [now rewrite upd_other|lia].
  - (* LPrim *)
    destruct (p_step P (c_prim s) pl) as [ps taken es'| |f es'] eqn:Hp; try discriminate.
    injection Hs as <- <-. rewrite ndone_prim.
    destruct (l_step W _ _ _ _ _ HI Hp) as (_ & Hnd & Htk & _).
    assert (Hin : inrest o (c_wk s ++ [Loop None taken]) = inrest o (c_wk s) + cnt o taken).
    { rewrite inrest_app. unfold inrest at 2. simpl. lia. }
    destruct (memb o taken) eqn:Hm.
    + apply memb_In in Hm. pose proof (proj1 (HQ o) (Htk o Hm)) as Hq.
      assert (Hc1 : cnt o taken = 1).
      { pose proof (NoDup_cnt _ Hnd o). pose proof (proj2 (cnt_pos o taken) Hm). lia. }
      right. exists VTake. split; [simpl; tauto|]. simpl. rewrite Hq.
      unfold view_of; simpl. rewrite (proj2 (memb_In o taken) Hm). simpl. rewrite Hin, Hc1, Nat.add_1_r. reflexivity.
    + left. split; auto. apply view_same; simpl; auto.
      * now rewrite Hm.
      * rewrite Hin. apply memb_not_In in Hm. apply cnt_zero in Hm. lia.
  - (* LDestroy *)
    destruct (o_done (c_op s o') && o_alive (c_op s o') && (eager || all_ended (c_op s o'))) eqn:Hb; try discriminate.
    injection Hs as <- <-. destruct (Nat.eq_dec o o') as [->|Hne].
    + right. exists VDestroy. split; [simpl; tauto|]. simpl.
      unfold all_ended in Hb. rewrite Hb. unfold view_of, with_op; simpl. rewrite upd_same. reflexivity.
    + left. split; auto. apply view_same; simpl; auto. now rewrite upd_other.
Qed.

Lemma R_vsim v v' n : In v (R eager) -> vsim v v' n -> In v' (R eager).
Proof.
  intros Hv [[-> _]|(l & Hl & Hs)]; auto. eapply R_closed; eauto.
Qed.

Lemma set_pc_tok x p (r : opst P) : o_tok (set_pc x p r) = o_tok r.
Proof. destruct x; reflexivity. Qed.
Lemma set_pc_node x p (r : opst P) : o_node (set_pc x p r) = o_node r.
Proof. destruct x; reflexivity. Qed.

Lemma do_trans_spec m x (r r' : opst P) : do_trans P m x r = Some r' ->
  exists p, p <> PIdle /\ r' = set_pc x p (set_bits (mor (o_bits r) m) r).
Proof.
  unfold do_trans. destruct (moverlap (o_bits r) m); [discriminate|]. intros [= <-].
  eexists. split; [|reflexivity].
  destruct (negb _ || negb _); [discriminate|]. destruct (negb _); discriminate.
Qed.

Lemma path_tok s o x s' es : path_step P s o x = Next s' es ->
  (forall o', o_tok (c_op s' o') = o_tok (c_op s o')) /\
  (forall e o', In o' (e_cbs (c_ev s' e)) -> In o' (e_cbs (c_ev s e)) \/ (o' = o /\ o_tok (c_op s o) = Some e)) /\
  c_wk s' = c_wk s /\ c_cn s' = c_cn s /\ (forall o', o' <> o -> c_op s' o' = c_op s o').
Proof.
  unfold path_step. intros Hs.
  repeat match type of Hs with
  | context [match ?x with _ => _ end] => destruct x eqn:?; try discriminate
  end; injection Hs as <- <-;
  try match goal with H : do_trans _ _ _ _ = Some _ |- _ => destruct (do_trans_spec _ _ _ _ H) as (?p & _ & ->) end;
  (split; [intros o'; simpl; try (destruct (Nat.eq_dec o' o) as [->|Hne]; [rewrite upd_same|rewrite upd_other by auto]); rewrite ?set_pc_tok; simpl; auto; try (destruct x; reflexivity)|]);
  (split; [|split; [reflexivity|split; [reflexivity|intros o' Hne; simpl; now rewrite upd_other]]]); simpl; auto; intros e' o' Hin.
  - destruct (Nat.eq_dec e' n) as [->|Hne].
    + rewrite upd_same in Hin. simpl in Hin. apply in_app_iff in Hin. destruct Hin as [Hin|[->|[]]]; auto.
    + rewrite upd_other in Hin by auto. auto.
  - destruct (Nat.eq_dec e' n) as [->|Hne].
    + rewrite upd_same in Hin. simpl in Hin. apply In_remove1 in Hin. auto.
    + rewrite upd_other in Hin by auto. auto.
Qed.

Lemma path_pc s o x s' es : path_step P s o x = Next s' es ->
  forall y o', get_pc y (c_op s o') <> PIdle -> get_pc y (c_op s' o') <> PIdle.
Proof.
  intros Hs y o' Hy. destruct (path_tok _ _ _ _ _ Hs) as (_ & _ & _ & _ & Ho).
  destruct (Nat.eq_dec o' o) as [->|Hne]; [|now rewrite Ho].
  unfold path_step in Hs.
  repeat match type of Hs with
  | context [match ?x with _ => _ end] => destruct x eqn:?; try discriminate
  end; injection Hs as <- <-;
  try match goal with H : do_trans _ _ _ _ = Some _ |- _ => destruct (do_trans_spec _ _ _ _ H) as (?p & ? & ->) end;
  simpl; rewrite upd_same;
  destruct x, y; simpl in *; auto; try discriminate; try (destruct b; simpl in *; auto; discriminate).
Qed.

Lemma ginv_step s l s' es : GInv s -> reliable s -> step s l = Next s' es -> GInv s'.
Proof.
  intros HG HR Hs. pose proof (step_sim s l s' es HG HR Hs) as Hsim.
  pose proof HG as (HV & HE & (HI & HQ) & HL1 & HL2).
  split; [intros o; eapply R_vsim; eauto|].
  destruct l as [o tok a|o x|e|k|k|pl|o]; simpl in Hs.
  - (* LStart *)
    destruct (o_l (c_op s o)) eqn:Hl; try discriminate.
    destruct (fresh_facts s o HG Hl) as (Hn & Ht & Hp & Hc & Hd & Ha).
    assert (Hnq : ~ pq W (c_prim s) o) by (rewrite HQ; congruence).
    destruct (p_start P (c_prim s) o a) as [ps es'|ps v es'|f] eqn:Hst; try discriminate;
      injection Hs as <- <-; simpl.
    + destruct (l_start_q W _ _ _ _ _ HI Hnq Hst) as [HI' HQ'].
      split; [|split; [split; [exact HI'|]|split]].
      * intros e o' Hin. specialize (HE _ _ Hin). destruct (Nat.eq_dec o' o) as [->|]; [congruence|now rewrite upd_other].
      * intros o'. rewrite HQ'. destruct (Nat.eq_dec o' o) as [->|].
        -- rewrite upd_same. simpl. tauto.
        -- rewrite upd_other by auto. rewrite HQ. tauto.
      * intros lp o' Hlp Hcur. specialize (HL1 _ _ Hlp Hcur). destruct (Nat.eq_dec o' o) as [->|]; [congruence|now rewrite upd_other].
      * intros lp o' Hlp Hcur. specialize (HL2 _ _ Hlp Hcur). destruct (Nat.eq_dec o' o) as [->|]; [congruence|now rewrite upd_other].
    + destruct (l_start_f W _ _ _ _ _ _ HI Hnq Hst) as [HI' HQ'].
      split; [|split; [split; [exact HI'|]|split]].
      * intros e o' Hin. specialize (HE _ _ Hin). destruct (Nat.eq_dec o' o) as [->|]; [congruence|now rewrite upd_other].
      * intros o'. rewrite HQ'. destruct (Nat.eq_dec o' o) as [->|].
        -- rewrite upd_same. simpl. apply HQ.
        -- rewrite upd_other by auto. apply HQ.
      * intros lp o' Hlp Hcur. specialize (HL1 _ _ Hlp Hcur). destruct (Nat.eq_dec o' o) as [->|]; [congruence|now rewrite upd_other].
      * intros lp o' Hlp Hcur. specialize (HL2 _ _ Hlp Hcur). destruct (Nat.eq_dec o' o) as [->|]; [congruence|now rewrite upd_other].
  - (* LPath *)
    destruct (path_tok _ _ _ _ _ Hs) as (Htok & Hcbs & Hwk & Hcn & Hoth).
    pose proof (path_pc _ _ _ _ _ Hs) as Hpc.
    split; [|split; [|split]].
    + intros e o' Hin. rewrite Htok. destruct (Hcbs _ _ Hin) as [H|[-> H]]; auto.
    + unfold path_step in Hs. destruct (get_pc x (c_op s o)) as [| | | |m| | |] eqn:Hp; try discriminate;
        destruct (o_alive (c_op s o)) eqn:Hal; try discriminate; simpl in Hs.
      * destruct (o_fast (c_op s o)) eqn:?; try discriminate. injection Hs as <- <-. simpl. split; auto.
        intros o'. rewrite HQ. destruct (Nat.eq_dec o' o) as [->|]; [rewrite upd_same, set_pc_node; reflexivity|now rewrite upd_other].
      * destruct (o_tok (c_op s o)) as [e|]; [destruct (e_req (c_ev s e))|]; injection Hs as <- <-; simpl; split; auto;
        intros o'; rewrite HQ; (destruct (Nat.eq_dec o' o) as [->|]; [rewrite upd_same, set_pc_node; reflexivity|now rewrite upd_other]).
      * destruct (try_facts s o x HG Hp) as [Hn|Hn].
        -- destruct (l_try W _ _ HI (proj2 (HQ o) Hn)) as (ps & Ht & HI' & HQ'). rewrite Ht in Hs.
           injection Hs as <- <-. simpl. split; auto. intros o'. rewrite HQ'.
           destruct (Nat.eq_dec o' o) as [->|].
           ++ rewrite upd_same, set_pc_node. simpl. split; [tauto|discriminate].
           ++ rewrite upd_other by auto. rewrite HQ. tauto.
        -- destruct (p_try P (c_prim s) o) as [ps b|f] eqn:Ht; try discriminate. destruct (HR o x ps b Hp Hn Ht) as [-> ->]. injection Hs as <- <-. simpl. split; auto.
           intros o'. rewrite HQ. destruct (Nat.eq_dec o' o) as [->|]; [rewrite upd_same, set_pc_node; reflexivity|now rewrite upd_other].
      * unfold do_trans in Hs. destruct (moverlap (o_bits (c_op s o)) m); try discriminate.
        injection Hs as <- <-. simpl. split; auto.
        intros o'. rewrite HQ. destruct (Nat.eq_dec o' o) as [->|]; [rewrite upd_same, set_pc_node; reflexivity|now rewrite upd_other].
      * destruct (o_tok (c_op s o)) as [e|]; try discriminate.
        destruct (e_req (c_ev s e)); [|destruct (memb o (e_cbs (c_ev s e))); try discriminate]; injection Hs as <- <-; simpl; split; auto;
        intros o'; rewrite HQ; (destruct (Nat.eq_dec o' o) as [->|]; [rewrite upd_same, set_pc_node; reflexivity|now rewrite upd_other]).
      * destruct (resume_facts s o x HG Hp) as (_ & Hn).
        destruct (p_resume P (c_prim s) o) as [ps v|f] eqn:Hr; try discriminate.
        assert (Hnq : ~ pq W (c_prim s) o) by (rewrite HQ; destruct Hn; congruence).
        destruct (l_resume W _ _ _ _ HI Hnq Hr) as [HI' HQ'].
        injection Hs as <- <-. simpl. split; auto.
        intros o'. rewrite HQ', HQ. destruct (Nat.eq_dec o' o) as [->|]; [rewrite upd_same, set_pc_node; reflexivity|now rewrite upd_other].
    + intros lp o' Hlp Hcur. rewrite Hwk in Hlp. apply (Hpc PathP). exact (HL1 _ _ Hlp Hcur).
    + intros lp o' Hlp Hcur. rewrite Hcn in Hlp. apply (Hpc PathC). exact (HL2 _ _ Hlp Hcur).
  - (* LCancel *)
    injection Hs as <- <-. simpl. split; [|split; [split; auto|split]]; auto.
    + intros e' o' Hin. destruct (Nat.eq_dec e' e) as [->|].
      * rewrite upd_same in Hin. destruct Hin.
      * rewrite upd_other in Hin by auto. auto.
    + intros lp o' Hlp Hcur. apply in_app_iff in Hlp. destruct Hlp as [Hlp|[<-|[]]]; [eauto|discriminate].
  - (* LCanNext *)
    destruct (nth_error (c_cn s) k) as [lp|] eqn:Hk; try discriminate.
    destruct (loop_ready o_c s lp); try discriminate.
    destruct (lp_rest lp) as [|o' rest] eqn:Hrest; try discriminate.
    destruct (o_alive (c_op s o')) eqn:Hal; try discriminate. simpl in Hs.
    destruct (o_c (c_op s o')) eqn:Hc; try discriminate. injection Hs as <- <-. simpl.
    split; [|split; [split; [exact HI|]|split]].
    + intros e o'' Hin. specialize (HE _ _ Hin). destruct (Nat.eq_dec o'' o') as [->|]; [rewrite upd_same; exact HE|now rewrite upd_other].
    + intros o''. rewrite HQ. destruct (Nat.eq_dec o'' o') as [->|]; [rewrite upd_same; reflexivity|now rewrite upd_other].
    + intros lp' o'' Hlp Hcur. specialize (HL1 _ _ Hlp Hcur). destruct (Nat.eq_dec o'' o') as [->|]; [rewrite upd_same; exact HL1|now rewrite upd_other].
    + intros lp' o'' Hlp Hcur. apply In_set_nth in Hlp. destruct Hlp as [->|Hlp].
      * simpl in Hcur. injection Hcur as <-. rewrite upd_same. discriminate.
      * specialize (HL2 _ _ Hlp Hcur). destruct (Nat.eq_dec o'' o') as [->|]; [rewrite upd_same; discriminate|now rewrite upd_other].
  - (* LWakeNext *)
    destruct (nth_error (c_wk s) k) as [lp|] eqn:Hk; try discriminate.
    destruct (loop_ready o_p s lp); try discriminate.
    destruct (lp_rest lp) as [|o' rest] eqn:Hrest; try discriminate.
    destruct (o_alive (c_op s o')) eqn:Hal; try discriminate. simpl in Hs.
    destruct (o_p (c_op s o')) eqn:Hc; try discriminate. injection Hs as <- <-. simpl.
    split; [|split; [split; [exact HI|]|split]].
    + intros e o'' Hin. specialize (HE _ _ Hin). destruct (Nat.eq_dec o'' o') as [->|]; [rewrite upd_same; exact HE|now rewrite upd_other].
    + intros o''. rewrite HQ. destruct (Nat.eq_dec o'' o') as [->|]; [rewrite upd_same; reflexivity|now rewrite upd_other].
    + intros lp' o'' Hlp Hcur. apply In_set_nth in Hlp. destruct Hlp as [->|Hlp].
      * simpl in Hcur. injection Hcur as <-. rewrite upd_same. discriminate.
      * specialize (HL1 _ _ Hlp Hcur). destruct (Nat.eq_dec o'' o') as [->|]; [rewrite upd_same; discriminate|now rewrite upd_other].
    + intros lp' o'' Hlp Hcur. specialize (HL2 _ _ Hlp Hcur). destruct (Nat.eq_dec o'' o') as [->|]; [rewrite upd_same; exact HL2|now rewrite upd_other].
  - (* LPrim *)
    destruct (p_step P (c_prim s) pl) as [ps taken es'| |f es'] eqn:Hp; try discriminate.
    injection Hs as <- <-. simpl.
    destruct (l_step W _ _ _ _ _ HI Hp) as (HI' & Hnd & Htk & HQ').
    split; [|split; [split; [exact HI'|]|split]].
    + intros e o Hin. specialize (HE _ _ Hin). destruct (memb o taken); exact HE.
    + intros o. rewrite HQ'. destruct (memb o taken) eqn:Hm.
      * apply memb_In in Hm. simpl. split; [tauto|discriminate].
      * apply memb_not_In in Hm. rewrite HQ. tauto.
    + intros lp o Hlp Hcur. apply in_app_iff in Hlp. destruct Hlp as [Hlp|[<-|[]]]; [|discriminate].
      specialize (HL1 _ _ Hlp Hcur). destruct (memb o taken); exact HL1.
    + intros lp o Hlp Hcur. specialize (HL2 _ _ Hlp Hcur). destruct (memb o taken); exact HL2.
  - (* LDestroy *)
    destruct (o_done (c_op s o) && o_alive (c_op s o) && (eager || all_ended (c_op s o))) eqn:Hb; try discriminate.
    injection Hs as <- <-. simpl. split; [|split; [split; [exact HI|]|split]].
    + intros e o' Hin. specialize (HE _ _ Hin). destruct (Nat.eq_dec o' o) as [->|]; [rewrite upd_same; exact HE|now rewrite upd_other].
    + intros o'. rewrite HQ. destruct (Nat.eq_dec o' o) as [->|]; [rewrite upd_same; reflexivity|now rewrite upd_other].
    + intros lp o' Hlp Hcur. specialize (HL1 _ _ Hlp Hcur). destruct (Nat.eq_dec o' o) as [->|]; [rewrite upd_same; exact HL1|now rewrite upd_other].
    + intros lp o' Hlp Hcur. specialize (HL2 _ _ Hlp Hcur). destruct (Nat.eq_dec o' o) as [->|]; [rewrite upd_same; exact HL2|now rewrite upd_other].
Qed.

Lemma ginv_init : GInv (c_init P).
Proof.
  destruct (l_init W) as [HI HQ].
  split; [intros o; apply R_init|]. split; [simpl; tauto|]. split; [split; [exact HI|]|].
  - intros o. simpl. split; [intros H; destruct (HQ _ H)|discriminate].
  - simpl. split; tauto.
Qed.

(** ** Traces *)
Definition TInv (s : cst) (tr : list event) : Prop :=
  (forall o, ndone o tr = if o_done (c_op s o) then 1 else 0) /\
  (forall o, o_l (c_op s o) <> PIdle <-> In o (starts tr)) /\
  NoDup (starts tr) /\
  (forall o tok a, In (EStart o tok a) tr -> o_tok (c_op s o) = tok) /\
  (forall e, e_req (c_ev s e) = true <-> In (ECancel e) tr).

Lemma done_notified o v (tr : list event) : In (EDone o v) tr -> notified o tr > 0.
Proof.
  induction tr as [|e tr IH]; simpl; [tauto|]. intros [->|H]; [rewrite Nat.eqb_refl; lia|]. specialize (IH H).
  destruct e; simpl; lia.
Qed.

Lemma starts_app (tr1 tr2 : list event) : starts (tr1 ++ tr2) = starts tr1 ++ starts tr2.
Proof. induction tr1 as [|e tr1 IH]; simpl; auto. destruct e; simpl; auto. now rewrite IH. Qed.

Lemma starts_prim (es : list (PE P)) : starts (map (@EPrim P) es) = [].
Proof. induction es; simpl; auto. Qed.

Lemma starts_In o tr : In o (starts tr) <-> exists tok a, In (@EStart P o tok a) tr.
Proof.
  induction tr as [|e tr IH]; simpl.
  - split; [tauto|intros (? & ? & [])].
  - destruct e as [o' tok' a'|o' v|e|o'|x]; simpl; rewrite ?IH;
      try (split; [intros (tok & a & H); eauto|intros (tok & a & [H|H]); [discriminate|eauto]]).
    split.
    + intros [->|(tok & a & H)]; eauto.
    + intros (tok & a & [[= -> -> ->]|H]); eauto.
Qed.

Lemma In_prim_start o tok a (es : list (PE P)) : ~ In (EStart o tok a) (map (@EPrim P) es).
Proof. intros H. apply in_map_iff in H. destruct H as (? & ? & _). discriminate. Qed.
Lemma In_prim_cancel e (es : list (PE P)) : ~ In (ECancel e) (map (@EPrim P) es).
Proof. intros H. apply in_map_iff in H. destruct H as (? & ? & _). discriminate. Qed.
Lemma In_prim_done o v (es : list (PE P)) : ~ In (EDone o v) (map (@EPrim P) es).
Proof. intros H. apply in_map_iff in H. destruct H as (? & ? & _). discriminate. Qed.

(** ** What one activity step does to the primitive, the trace and the rarely changing fields *)
Definition stat (r : opst P) := (o_tok r, o_fast r, o_node r, o_done r).

Lemma stat_set_pc x p (r : opst P) : stat (set_pc x p r) = stat r.
Proof. destruct x; reflexivity. Qed.

Lemma try_requested s o x : GInv s -> get_pc x (c_op s o) = PTry ->
  exists e, o_tok (c_op s o) = Some e /\ e_req (c_ev s e) = true.
Proof.
  intros [HV _] Hl. specialize (HV o).
  pose (Q := fun v => match v_pc x v with PTry => v_tok v && v_req v | _ => true end).
  assert (HQ : forallb Q (R eager) = true) by (destruct eager, x; vm_compute; reflexivity).
  pose proof (R_check Q eager HQ _ HV) as H. unfold Q in H. rewrite v_pc_view, Hl in H. simpl in H.
  destruct (o_tok (c_op s o)) as [e|]; try discriminate. eauto.
Qed.

Lemma cancelled_requested s o : GInv s -> o_node (c_op s o) = NCancelled ->
  exists e, o_tok (c_op s o) = Some e /\ e_req (c_ev s e) = true.
Proof.
  intros [HV _] Hl. specialize (HV o).
  pose (Q := fun v => match v_node v with NCancelled => v_tok v && v_req v | _ => true end).
  assert (HQ : forallb Q (R eager) = true) by (destruct eager; vm_compute; reflexivity).
  pose proof (R_check Q eager HQ _ HV) as H. unfold Q in H. simpl in H. rewrite Hl in H.
  destruct (o_tok (c_op s o)) as [e|]; try discriminate. eauto.
Qed.

Definition same_stat (s s' : cst) : Prop := forall o, stat (c_op s' o) = stat (c_op s o).

Inductive path_eff (s : cst) (o : nat) : cst -> list event -> Prop :=
| eff_none s' : c_prim s' = c_prim s -> same_stat s s' -> path_eff s o s' []
| eff_cancel s' e : o_node (c_op s o) = NQueued -> o_tok (c_op s o) = Some e -> e_req (c_ev s e) = true ->
    p_try P (c_prim s) o = TOk (c_prim s') true ->
    (forall o', stat (c_op s' o') = if Nat.eqb o' o then stat (set_node NCancelled (c_op s o)) else stat (c_op s o')) ->
    path_eff s o s' []
| eff_fast s' v : o_fast (c_op s o) = Some v -> o_node (c_op s o) = NFresh -> o_done (c_op s o) = false ->
    c_prim s' = c_prim s ->
    (forall o', stat (c_op s' o') = if Nat.eqb o' o then stat (set_done (c_op s o)) else stat (c_op s o')) ->
    path_eff s o s' [EDone o (p_fast P (c_prim s) v)]
| eff_resume s' v : (o_node (c_op s o) = NTaken \/ o_node (c_op s o) = NCancelled) -> o_done (c_op s o) = false ->
    p_resume P (c_prim s) o = ROk (c_prim s') v ->
    (forall o', stat (c_op s' o') = if Nat.eqb o' o then stat (set_done (c_op s o)) else stat (c_op s o')) ->
    path_eff s o s' [EDone o v].

Lemma path_effect s o x s' es :
  GInv s -> reliable s -> path_step P s o x = Next s' es -> path_eff s o s' es.
Proof.
  intros HG HR Hs. unfold path_step in Hs.
  assert (Hupd : forall (r : opst P) o', stat (upd (c_op s) o r o') = if Nat.eqb o' o then stat r else stat (c_op s o')).
  { intros r o'. unfold upd. destruct (Nat.eqb o' o); reflexivity. }
  assert (Hpc : forall p o', stat (upd (c_op s) o (set_pc x p (c_op s o)) o') = stat (c_op s o')).
  { intros p o'. rewrite Hupd. destruct (Nat.eqb_spec o' o) as [->|]; auto. apply stat_set_pc. }
  destruct (get_pc x (c_op s o)) as [| | | |m| | |] eqn:Hp; try discriminate;
    destruct (o_alive (c_op s o)) eqn:Hal; try discriminate; simpl in Hs.
  - destruct (fast_facts s o x HG Hp) as (Hd & Hn & -> & v & Hf). rewrite Hf in Hs. injection Hs as <- <-.
    apply eff_fast; simpl; auto. intros o'. rewrite Hupd. reflexivity.
  - destruct (o_tok (c_op s o)) as [e|]; [destruct (e_req (c_ev s e))|]; injection Hs as <- <-;
      apply eff_none; simpl; auto; intros o'; apply Hpc.
  - destruct (try_facts s o x HG Hp) as [Hn|Hn].
    + destruct (try_requested s o x HG Hp) as (e & He1 & He2).
      pose proof HG as (HV & HE & (HI & HQ) & HL).
      destruct (l_try W _ _ HI (proj2 (HQ o) Hn)) as (ps & Ht & _). rewrite Ht in Hs. injection Hs as <- <-.
      apply eff_cancel with e; simpl; auto.
      intros o'. rewrite Hupd. now rewrite stat_set_pc.
    + destruct (p_try P (c_prim s) o) as [ps b|f] eqn:Ht; try discriminate. destruct (HR o x ps b Hp Hn Ht) as [-> ->]. injection Hs as <- <-. apply eff_none; simpl; auto. intros o'; apply Hpc.
  - destruct (do_trans P m x (c_op s o)) as [r'|] eqn:Hd; try discriminate. injection Hs as <- <-.
    destruct (do_trans_spec _ _ _ _ Hd) as (p & _ & ->).
    apply eff_none; simpl; auto. intros o'. simpl. rewrite Hupd, stat_set_pc. destruct (Nat.eqb_spec o' o) as [->|]; auto.
  - destruct (o_tok (c_op s o)) as [e|]; try discriminate.
    destruct (e_req (c_ev s e)); [|destruct (memb o (e_cbs (c_ev s e))); try discriminate]; injection Hs as <- <-;
      apply eff_none; simpl; auto; intros o'; apply Hpc.
  - destruct (resume_facts s o x HG Hp) as (Hd & Hn).
    destruct (p_resume P (c_prim s) o) as [ps v|f] eqn:Hr; try discriminate. injection Hs as <- <-.
    apply eff_resume; simpl; auto. intros o'. rewrite Hupd. now rewrite stat_set_pc.
Qed.

Lemma path_req s o x s' es : path_step P s o x = Next s' es -> forall e, e_req (c_ev s' e) = e_req (c_ev s e).
Proof.
  intros Hs e. unfold path_step in Hs.
  repeat match type of Hs with
  | context [match ?x with _ => _ end] => destruct x eqn:?; try discriminate
  end; injection Hs as <- <-; simpl; auto;
  (destruct (Nat.eq_dec e n) as [->|]; [rewrite upd_same; simpl; congruence|now rewrite upd_other]).
Qed.

Lemma path_started s o x s' es : path_step P s o x = Next s' es ->
  forall o', o_l (c_op s' o') = PIdle <-> o_l (c_op s o') = PIdle.
Proof.
  intros Hs o'. destruct (path_tok _ _ _ _ _ Hs) as (_ & _ & _ & _ & Ho).
  pose proof (path_pc _ _ _ _ _ Hs PathL o') as Hp. simpl in Hp.
  destruct (pc_eq_dec (o_l (c_op s o')) PIdle) as [Hi|Hi]; [|specialize (Hp Hi); tauto].
  split; [auto|]. intros _. destruct (Nat.eq_dec o' o) as [->|Hne]; [|now rewrite Ho].
  unfold path_step in Hs.
  destruct x; simpl in Hs.
  - rewrite Hi in Hs. discriminate.
  - repeat match type of Hs with
    | context [match ?x with _ => _ end] => destruct x eqn:?; try discriminate
    end; injection Hs as <- <-;
    try match goal with H : do_trans _ _ _ _ = Some _ |- _ => destruct (do_trans_spec _ _ _ _ H) as (?p & ? & ->) end;
    simpl; rewrite upd_same; simpl; auto; try (destruct b; auto).
  - repeat match type of Hs with
    | context [match ?x with _ => _ end] => destruct x eqn:?; try discriminate
    end; injection Hs as <- <-;
    try match goal with H : do_trans _ _ _ _ = Some _ |- _ => destruct (do_trans_spec _ _ _ _ H) as (?p & ? & ->) end;
    simpl; rewrite upd_same; simpl; auto; try (destruct b; auto).
Qed.

Lemma tinv_step s tr l s' es :
  GInv s -> reliable s -> TInv s tr -> step s l = Next s' es -> TInv s' (tr ++ es).
Proof.
  intros HG HR (HD & HS & HN & HT & HC) Hs.
  destruct l as [o tok a|o x|e|k|k|pl|o]; simpl in Hs.
  - destruct (o_l (c_op s o)) eqn:Hl; try discriminate.
    destruct (fresh_facts s o HG Hl) as (Hn & Ht & Hp & Hc & Hd & Ha).
    assert (Hfresh : ~ In o (starts tr)) by (rewrite <- HS; tauto).
    assert (Hgoal : forall ps r pes, o_tok r = tok -> o_done r = o_done (c_op s o) -> o_l r <> PIdle ->
       TInv (St ps (upd (c_op s) o r) (c_ev s) (c_wk s) (c_cn s)) (tr ++ EStart o tok a :: map EPrim pes)).
    { intros ps r pes Hr1 Hr2 Hr3. unfold TInv. simpl. rewrite starts_app. simpl. rewrite starts_prim.
      split; [|split; [|split; [|split]]].
      - intros o'. rewrite ndone_app. simpl. rewrite ndone_prim, HD, Nat.add_0_r.
        unfold upd. destruct (Nat.eqb_spec o' o) as [->|]; [now rewrite Hr2|reflexivity].
      - intros o'. rewrite in_app_iff. simpl. unfold upd. destruct (Nat.eqb_spec o' o) as [->|Hne].
        + tauto.
        + rewrite HS. intuition congruence.
      - now apply NoDup_snoc.
      - intros o' tok' a' Hin. apply in_app_iff in Hin. destruct Hin as [Hin|[Hin|Hin]].
        + rewrite upd_other; eauto. intros ->. apply Hfresh. apply starts_In. eauto.
        + injection Hin as <- <- <-. now rewrite upd_same.
        + apply In_prim_start in Hin. tauto.
      - intros e. rewrite HC, in_app_iff. simpl. split; [tauto|]. intros [H|[H|H]]; auto; [discriminate|apply In_prim_cancel in H; tauto]. }
    destruct (p_start P (c_prim s) o a) as [ps es'|ps v es'|f] eqn:Hst; try discriminate;
      injection Hs as <- <-; apply Hgoal; simpl; auto; discriminate.
  - pose proof (path_effect _ _ _ _ _ HG HR Hs) as He.
    pose proof (path_req _ _ _ _ _ Hs) as Hreq. pose proof (path_started _ _ _ _ _ Hs) as Hst.
    destruct (path_tok _ _ _ _ _ Hs) as (Htok & _).
    assert (Hst2 : starts (tr ++ es) = starts tr).
    { rewrite starts_app. destruct He; simpl; now rewrite app_nil_r. }
    split; [|split; [|split; [|split]]].
    + intros o'. rewrite ndone_app, HD. destruct He as [s' Hcp Hss|s' e Hn Ht Hr Htry Hss|s' v Hf Hn Hd Hcp Hss|s' v Hn Hd Hr Hss];
        specialize (Hss o'); unfold stat in Hss.
      * injection Hss as _ _ _ ->. simpl. lia.
      * destruct (Nat.eqb_spec o' o) as [E|E]; [subst o'|]; injection Hss as _ _ _ ->; simpl; lia.
      * simpl. destruct (Nat.eqb_spec o' o) as [E|E]; [subst o'|]; injection Hss as _ _ _ ->.
        -- rewrite Nat.eqb_refl, Hd. simpl. reflexivity.
        -- destruct (Nat.eqb_spec o o'); [congruence|]. simpl. lia.
      * simpl. destruct (Nat.eqb_spec o' o) as [E|E]; [subst o'|]; injection Hss as _ _ _ ->.
        -- rewrite Nat.eqb_refl, Hd. simpl. reflexivity.
        -- destruct (Nat.eqb_spec o o'); [congruence|]. simpl. lia.
    + intros o'. rewrite Hst2, <- HS. specialize (Hst o'). tauto.
    + now rewrite Hst2.
    + intros o' tok a Hin. rewrite Htok. apply in_app_iff in Hin. destruct Hin as [Hin|Hin]; eauto.
      destruct He; simpl in Hin; intuition discriminate.
    + intros e. rewrite Hreq, HC, in_app_iff. split; [tauto|]. intros [H|H]; auto.
      destruct He; simpl in H; intuition discriminate.
  - injection Hs as <- <-. unfold TInv; simpl. rewrite starts_app. simpl. rewrite app_nil_r.
    split; [|split; [|split; [|split]]]; auto.
    + intros o. rewrite ndone_app, HD. simpl. lia.
    + intros o tok a Hin. apply in_app_iff in Hin. destruct Hin as [Hin|[Hin|[]]]; [eauto|discriminate].
    + intros e'. rewrite in_app_iff. simpl. unfold upd. destruct (Nat.eqb_spec e' e) as [->|Hne]; simpl.
      * tauto.
      * rewrite HC. intuition congruence.
  - destruct (nth_error (c_cn s) k) as [lp|] eqn:Hk; try discriminate.
    destruct (loop_ready o_c s lp); try discriminate.
    destruct (lp_rest lp) as [|o rest]; try discriminate.
    destruct (o_alive (c_op s o)); try discriminate. simpl in Hs.
    destruct (o_c (c_op s o)) eqn:Hc; try discriminate. injection Hs as <- <-.
    rewrite app_nil_r. unfold TInv; simpl. split; [|split; [|split; [|split]]]; auto.
    + intros o'. rewrite HD. unfold upd. destruct (Nat.eqb_spec o' o) as [->|]; auto.
    + intros o'. rewrite <- HS. unfold upd. destruct (Nat.eqb_spec o' o) as [->|]; simpl; tauto.
    + intros o' tok a Hin. rewrite <- (HT _ _ _ Hin). unfold upd. destruct (Nat.eqb_spec o' o) as [->|]; auto.
  - destruct (nth_error (c_wk s) k) as [lp|] eqn:Hk; try discriminate.
    destruct (loop_ready o_p s lp); try discriminate.
    destruct (lp_rest lp) as [|o rest]; try discriminate.
    destruct (o_alive (c_op s o)); try discriminate. simpl in Hs.
    destruct (o_p (c_op s o)) eqn:Hc; try discriminate. injection Hs as <- <-.
    rewrite app_nil_r. unfold TInv; simpl. split; [|split; [|split; [|split]]]; auto.
    + intros o'. rewrite HD. unfold upd. destruct (Nat.eqb_spec o' o) as [->|]; auto.
    + intros o'. rewrite <- HS. unfold upd. destruct (Nat.eqb_spec o' o) as [->|]; simpl; tauto.
    + intros o' tok a Hin. rewrite <- (HT _ _ _ Hin). unfold upd. destruct (Nat.eqb_spec o' o) as [->|]; auto.
  - destruct (p_step P (c_prim s) pl) as [ps taken es'| |f es'] eqn:Hp; try discriminate.
    injection Hs as <- <-. unfold TInv; simpl. rewrite starts_app, starts_prim, app_nil_r.
    split; [|split; [|split; [|split]]]; auto.
    + intros o. rewrite ndone_app, ndone_prim, HD, Nat.add_0_r. destruct (memb o taken); auto.
    + intros o. rewrite <- HS. destruct (memb o taken); simpl; tauto.
    + intros o tok a Hin. apply in_app_iff in Hin. destruct Hin as [Hin|Hin]; [|apply In_prim_start in Hin; tauto].
      rewrite <- (HT _ _ _ Hin). destruct (memb o taken); auto.
    + intros e. rewrite HC, in_app_iff. split; [tauto|]. intros [H|H]; auto. apply In_prim_cancel in H; tauto.
  - destruct (o_done (c_op s o) && o_alive (c_op s o) && (eager || all_ended (c_op s o))) eqn:Hb; try discriminate.
    injection Hs as <- <-. unfold TInv; simpl. rewrite starts_app. simpl. rewrite app_nil_r.
    split; [|split; [|split; [|split]]]; auto.
    + intros o'. rewrite ndone_app, HD. simpl. rewrite Nat.add_0_r. unfold upd. destruct (Nat.eqb_spec o' o) as [->|]; auto.
    + intros o'. rewrite <- HS. unfold upd. destruct (Nat.eqb_spec o' o) as [->|]; simpl; tauto.
    + intros o' tok a Hin. apply in_app_iff in Hin. destruct Hin as [Hin|[Hin|[]]]; [|discriminate].
      rewrite <- (HT _ _ _ Hin). unfold upd. destruct (Nat.eqb_spec o' o) as [->|]; auto.
    + intros e. rewrite HC, in_app_iff. simpl. intuition discriminate.
Qed.

Lemma tinv_init : TInv (c_init P) [].
Proof.
  unfold TInv; simpl. split; [|split; [|split; [|split]]]; auto; try tauto.
  - constructor.
  - intros e. split; [discriminate|tauto].
Qed.

Definition J (s : cst) (tr : list event) : Prop := GInv s /\ TInv s tr.

Lemma J_init : J (c_init P) [].
Proof. split; [apply ginv_init|apply tinv_init]. Qed.

Lemma J_step s tr l s' es : J s tr -> reliable s -> step s l = Next s' es -> J s' (tr ++ es).
Proof. intros [HG HT] HR Hs. split; [eapply ginv_step; eauto|eapply tinv_step; eauto]. Qed.

(** ** Failures *)
Lemma step_fail s l f es : GInv s -> reliable s -> step s l = Fail f es ->
  (exists o tok a, l = LStart o tok a /\ o_l (c_op s o) = PIdle /\ p_start P (c_prim s) o a = SFail f /\ es = [EStart o tok a]) \/
  (exists pl pes, l = LPrim pl /\ p_step P (c_prim s) pl = PFail f pes /\ es = map EPrim pes) \/
  (exists o x, l = LPath o x /\ get_pc x (c_op s o) = PResume /\ p_resume P (c_prim s) o = RFail f /\ es = []) \/
  (exists o x, l = LPath o x /\ get_pc x (c_op s o) = PTry /\ o_node (c_op s o) = NTaken /\ p_try P (c_prim s) o = TFail f /\ es = []) \/
  (eager = true /\ f = UseAfterFree /\ exists o x, l = LPath o x /\ get_pc x (c_op s o) = PUnreg /\
     o_done (c_op s o) = true /\ o_alive (c_op s o) = false).
Proof.
  intros HG HR Hs. pose proof HG as (HV & HE & (HI & HQ) & HL1 & HL2).
  destruct l as [o tok a|o x|e|k|k|pl|o]; simpl in Hs.
  - destruct (o_l (c_op s o)) eqn:Hl; try discriminate.
    destruct (p_start P (c_prim s) o a) as [ps es'|ps v es'|f'] eqn:Hst; try discriminate.
    injection Hs as <- <-. left. exists o, tok, a. auto.
  - unfold path_step in Hs.
    assert (Hview : forall f n, vstep eager (view_of s o) (VPath x) = Fail f n -> fail_ok eager (view_of s o) (VPath x) f = true).
    { intros f0 n. apply R_fail; auto. apply vlabels_path. }
    simpl vstep in Hview. rewrite v_pc_view in Hview.
    destruct (get_pc x (c_op s o)) as [| | | |m| | |] eqn:Hp; try discriminate;
      simpl v_alive in Hview;
      (destruct (o_alive (c_op s o)) eqn:Hal; simpl in Hs;
       [|injection Hs as <- <-; specialize (Hview UseAfterFree [] eq_refl); unfold fail_ok in Hview;
         destruct eager eqn:Heag; try discriminate; rewrite v_pc_view, Hp in Hview; try discriminate;
         right; right; right; right; split; auto; split; auto; exists o, x; auto]); simpl in Hview.
    + destruct (fast_facts s o x HG Hp) as (Hd & Hn & -> & v & Hf). rewrite Hf in Hs. discriminate.
    + destruct (o_tok (c_op s o)) as [e|]; [destruct (e_req (c_ev s e))|]; discriminate.
    + destruct (try_facts s o x HG Hp) as [Hn|Hn].
      * destruct (l_try W _ _ HI (proj2 (HQ o) Hn)) as (ps & Ht & _). rewrite Ht in Hs. discriminate.
      * destruct (p_try P (c_prim s) o) as [ps b|f'] eqn:Ht; try discriminate. injection Hs as <- <-.
        right. right. right. left. exists o, x. auto.
    + unfold do_trans in Hs. destruct (moverlap (o_bits (c_op s o)) m); try discriminate.
      specialize (Hview AssertFailed [] eq_refl). unfold fail_ok in Hview. destruct eager; discriminate.
    + destruct (o_tok (c_op s o)) as [e|] eqn:Ht; simpl in Hview.
      * destruct (e_req (c_ev s e)); try discriminate. simpl in Hview.
        destruct (memb o (e_cbs (c_ev s e))) eqn:Hm; try discriminate.
        apply memb_not_In, cnt_zero in Hm. rewrite Hm in Hview.
        specialize (Hview BadUnlink [] eq_refl). unfold fail_ok in Hview. destruct eager; discriminate.
      * specialize (Hview AssertFailed [] eq_refl). unfold fail_ok in Hview. destruct eager; discriminate.
    + destruct (p_resume P (c_prim s) o) as [ps v|f'] eqn:Hr; try discriminate. injection Hs as <- <-.
      right. right. left. exists o, x. auto.
  - discriminate.
  - destruct (nth_error (c_cn s) k) as [lp|] eqn:Hk; try discriminate.
    destruct (loop_ready o_c s lp); try discriminate.
    destruct (lp_rest lp) as [|o rest] eqn:Hrest; try discriminate.
    assert (Hpd : inrest o (c_cn s) > 0).
    { apply nth_error_In in Hk. pose proof (sum_map_le (fun lp => cnt o (lp_rest lp)) _ _ Hk) as H. simpl in H.
      rewrite Hrest, cnt_cons in H. destruct (Nat.eq_dec o o); [|congruence]. unfold inrest. lia. }
    assert (Hview : forall f n, vstep eager (view_of s o) VCanNext = Fail f n -> fail_ok eager (view_of s o) VCanNext f = true).
    { intros f0 n. apply R_fail; auto. simpl; tauto. }
    simpl in Hview. destruct (inrest o (c_cn s)); [lia|].
    destruct (o_alive (c_op s o)); simpl in *.
    + destruct (o_c (c_op s o)); try discriminate;
        specialize (Hview AssertFailed [] eq_refl); unfold fail_ok in Hview; destruct eager; discriminate.
    + specialize (Hview UseAfterFree [] eq_refl). unfold fail_ok in Hview. destruct eager; discriminate.
  - destruct (nth_error (c_wk s) k) as [lp|] eqn:Hk; try discriminate.
    destruct (loop_ready o_p s lp); try discriminate.
    destruct (lp_rest lp) as [|o rest] eqn:Hrest; try discriminate.
    assert (Hpd : inrest o (c_wk s) > 0).
    { apply nth_error_In in Hk. pose proof (sum_map_le (fun lp => cnt o (lp_rest lp)) _ _ Hk) as H. simpl in H.
      rewrite Hrest, cnt_cons in H. destruct (Nat.eq_dec o o); [|congruence]. unfold inrest. lia. }
    assert (Hview : forall f n, vstep eager (view_of s o) VWakeNext = Fail f n -> fail_ok eager (view_of s o) VWakeNext f = true).
    { intros f0 n. apply R_fail; auto. simpl; tauto. }
    simpl in Hview. destruct (inrest o (c_wk s)); [lia|].
    destruct (o_alive (c_op s o)); simpl in *.
    + destruct (o_p (c_op s o)); try discriminate;
        specialize (Hview AssertFailed [] eq_refl); unfold fail_ok in Hview; destruct eager; discriminate.
    + specialize (Hview UseAfterFree [] eq_refl). unfold fail_ok in Hview. destruct eager; discriminate.
  - destruct (p_step P (c_prim s) pl) as [ps taken es'| |f' es'] eqn:Hp; try discriminate.
    injection Hs as <- <-. right. left. exists pl, es'. auto.
  - destruct (o_done (c_op s o) && o_alive (c_op s o) && (eager || all_ended (c_op s o))); discriminate.
Qed.

(** ** Quiescence *)
Lemma stuck_paths (s : cst) : stuck eager s -> forall o x, ended (get_pc x (c_op s o)) = true.
Proof.
  intros H o x. specialize (H (LPath o x) eq_refl). simpl in H. unfold path_step in H.
  destruct (get_pc x (c_op s o)) as [| | | |m| | |] eqn:Hp; auto;
    (destruct (o_alive (c_op s o)); simpl in H; try discriminate);
  repeat match type of H with
  | context [match ?x with _ => _ end] => destruct x eqn:?; try discriminate
  end.
Qed.

Lemma stuck_wk (s : cst) : GInv s -> stuck eager s -> forall lp, In lp (c_wk s) -> lp_rest lp = [].
Proof.
  intros HG H lp Hin. destruct HG as (_ & _ & _ & HL1 & _).
  destruct (In_nth_error _ _ Hin) as [k Hk].
  pose proof (H (LWakeNext k) eq_refl) as Hs. simpl in Hs. rewrite Hk in Hs.
  assert (Hr : loop_ready o_p s lp = true).
  { unfold loop_ready. destruct (lp_cur lp) as [o|] eqn:Hcur; auto.
    pose proof (HL1 _ _ Hin Hcur) as Hne. pose proof (stuck_paths s H o PathP) as He. simpl in He.
    destruct (o_p (c_op s o)); simpl in *; congruence. }
  rewrite Hr in Hs. destruct (lp_rest lp) as [|o rest]; auto.
  destruct (o_alive (c_op s o)); simpl in Hs; try discriminate. destruct (o_p (c_op s o)); discriminate.
Qed.

Lemma stuck_cn (s : cst) : GInv s -> stuck eager s -> forall lp, In lp (c_cn s) -> lp_rest lp = [].
Proof.
  intros HG H lp Hin. destruct HG as (_ & _ & _ & _ & HL1).
  destruct (In_nth_error _ _ Hin) as [k Hk].
  pose proof (H (LCanNext k) eq_refl) as Hs. simpl in Hs. rewrite Hk in Hs.
  assert (Hr : loop_ready o_c s lp = true).
  { unfold loop_ready. destruct (lp_cur lp) as [o|] eqn:Hcur; auto.
    pose proof (HL1 _ _ Hin Hcur) as Hne. pose proof (stuck_paths s H o PathC) as He. simpl in He.
    destruct (o_c (c_op s o)); simpl in *; congruence. }
  rewrite Hr in Hs. destruct (lp_rest lp) as [|o rest]; auto.
  destruct (o_alive (c_op s o)); simpl in Hs; try discriminate. destruct (o_c (c_op s o)); discriminate.
Qed.

Lemma stuck_returned (s : cst) : GInv s -> stuck eager s -> all_returned s.
Proof.
  intros HG H. split.
  - intros o. unfold all_ended.
    pose proof (stuck_paths s H o PathL) as H1. pose proof (stuck_paths s H o PathP) as H2.
    pose proof (stuck_paths s H o PathC) as H3. simpl in *. now rewrite H1, H2, H3.
  - intros lp [Hlp|Hlp]; [now apply (stuck_wk s HG H)|now apply (stuck_cn s HG H)].
Qed.

Lemma quiescent s o : GInv s -> all_returned s -> o_l (c_op s o) <> PIdle ->
  o_done (c_op s o) = true \/
  (o_node (c_op s o) = NQueued /\ o_done (c_op s o) = false /\
   forall e, o_tok (c_op s o) = Some e -> e_req (c_ev s e) = false).
Proof.
  intros HG [Hall Hlps] Hst. pose proof HG as (HV & _). specialize (HV o).
  pose (Q := fun v => negb (ended (v_l v) && ended (v_p v) && ended (v_c v) && Nat.eqb (v_wk v) 0 && Nat.eqb (v_pd v) 0)
                  || match v_l v with PIdle => true | _ => false end || v_done v
                  || (match v_node v with NQueued => true | _ => false end && negb (v_tok v && v_req v))).
  assert (HQ : forallb Q (R eager) = true) by (destruct eager; vm_compute; reflexivity).
  pose proof (R_check Q eager HQ _ HV) as Hq. unfold Q in Hq. simpl in Hq.
  specialize (Hall o). unfold all_ended in Hall. rewrite Hall in Hq. simpl in Hq.
  assert (H4 : inrest o (c_wk s) = 0).
  { apply sum_map_0. intros lp Hlp. rewrite (Hlps lp); auto. }
  assert (H5 : inrest o (c_cn s) = 0).
  { apply sum_map_0. intros lp Hlp. rewrite (Hlps lp); auto. }
  rewrite H4, H5 in Hq. simpl in Hq.
  destruct (o_l (c_op s o)) eqn:Hl; try (destruct (Hst eq_refl)); simpl in Hall; try discriminate.
  simpl in Hq. destruct (o_done (c_op s o)); auto. simpl in Hq. right.
  destruct (o_node (c_op s o)); try discriminate. split; auto. split; auto.
  intros e He. rewrite He in Hq. simpl in Hq. destruct (e_req (c_ev s e)); [discriminate|reflexivity].
Qed.

(** The callback of a completed operation is not registered any more. *)
Lemma done_unregistered s o e : GInv s -> o_done (c_op s o) = true -> ~ In o (e_cbs (c_ev s e)).
Proof.
  intros HG Hd Hin. pose proof HG as (HV & HE & _). specialize (HV o).
  pose (Q := fun v => negb (v_done v) || Nat.eqb (v_cb v) 0).
  assert (HQ : forallb Q (R eager) = true) by (destruct eager; vm_compute; reflexivity).
  pose proof (R_check Q eager HQ _ HV) as Hq. unfold Q in Hq. simpl in Hq. rewrite Hd in Hq. simpl in Hq.
  rewrite (HE _ _ Hin) in Hq. simpl in Hq. apply Nat.eqb_eq in Hq. apply cnt_zero in Hq. auto.
Qed.

(** A completed operation is neither linked nor does anybody still have to call complete()/call() on it. *)
Lemma done_detached s o : GInv s -> o_done (c_op s o) = true ->
  o_node (c_op s o) <> NQueued /\ inrest o (c_wk s) = 0 /\ inrest o (c_cn s) = 0.
Proof.
  intros HG Hd. pose proof HG as (HV & HE & _). specialize (HV o).
  pose (Q := fun v => negb (v_done v) || (match v_node v with NQueued => false | _ => true end && Nat.eqb (v_wk v) 0 && Nat.eqb (v_pd v) 0)).
  assert (HQ : forallb Q (R eager) = true) by (destruct eager; vm_compute; reflexivity).
  pose proof (R_check Q eager HQ _ HV) as Hq. unfold Q in Hq. simpl in Hq. rewrite Hd in Hq. simpl in Hq.
  apply andb_prop in Hq. destruct Hq as [Hq H3]. apply andb_prop in Hq. destruct Hq as [H1 H2].
  apply Nat.eqb_eq in H2, H3. split; auto. destruct (o_node (c_op s o)); congruence.
Qed.

(** Fast path and slow path exclude each other. *)
Lemma fast_node s o v : GInv s -> o_fast (c_op s o) = Some v -> o_node (c_op s o) = NFresh.
Proof.
  intros HG Hd. pose proof HG as (HV & HE & _). specialize (HV o).
  pose (Q := fun v => negb (v_fast v) || (match v_node v with NFresh => true | _ => false end)).
  assert (HQ : forallb Q (R eager) = true) by (destruct eager; vm_compute; reflexivity).
  pose proof (R_check Q eager HQ _ HV) as Hq. unfold Q in Hq. simpl in Hq. rewrite Hd in Hq. simpl in Hq.
  destruct (o_node (c_op s o)); congruence.
Qed.

Lemma fresh_idle s o : GInv s -> o_l (c_op s o) <> PIdle -> o_node (c_op s o) = NFresh -> exists v, o_fast (c_op s o) = Some v.
Proof.
  intros HG Hl Hn. pose proof HG as (HV & HE & _). specialize (HV o).
  pose (Q := fun v => v_fast v || (match v_l v with PIdle => true | _ => false end) || (match v_node v with NFresh => false | _ => true end)).
  assert (HQ : forallb Q (R eager) = true) by (destruct eager; vm_compute; reflexivity).
  pose proof (R_check Q eager HQ _ HV) as Hq. unfold Q in Hq. simpl in Hq. rewrite Hn in Hq.
  destruct (o_fast (c_op s o)) as [v|]; eauto. simpl in Hq. destruct (o_l (c_op s o)); try discriminate. congruence.
Qed.

(** ** Termination of the internal steps *)
Definition pot (p : pc) : nat :=
  match p with PIdle | PEnd => 0 | PFast | PResume => 1 | PUnreg => 2 | PTrans _ => 3 | PTry => 4 | PListen => 5 end.
Definition op_pot (r : opst P) : nat := pot (o_l r) + pot (o_p r) + pot (o_c r).
Definition measure (ops : list nat) (s : cst) : nat :=
  sum (map (fun o => op_pot (c_op s o)) ops)
  + 4 * sum (map (fun lp => length (lp_rest lp)) (c_wk s))
  + 5 * sum (map (fun lp => length (lp_rest lp)) (c_cn s)).

Lemma sum_upd ops o (f : nat -> opst P) r : NoDup ops -> In o ops ->
  sum (map (fun o' => op_pot (upd f o r o')) ops) + op_pot (f o) = sum (map (fun o' => op_pot (f o')) ops) + op_pot r.
Proof.
  induction ops as [|h t IH]; simpl; [tauto|]. intros Hnd Hin. inversion Hnd as [|? ? Hh Ht]; subst.
  destruct Hin as [->|Hin].
  - rewrite upd_same. rewrite (sum_map_ext (fun o' => op_pot (upd f o r o')) (fun o' => op_pot (f o')) t); [lia|].
    intros x Hx. rewrite upd_other; auto. congruence.
  - specialize (IH Ht Hin). rewrite upd_other by (intros ->; auto). lia.
Qed.

Lemma path_pot s o x s' es : path_step P s o x = Next s' es ->
  op_pot (c_op s' o) < op_pot (c_op s o).
Proof.
  intros Hs. unfold path_step in Hs.
  assert (Hset : forall p r, get_pc x (c_op s o) <> PIdle -> pot p < pot (get_pc x (c_op s o)) ->
    o_l r = o_l (c_op s o) -> o_p r = o_p (c_op s o) -> o_c r = o_c (c_op s o) ->
    op_pot (set_pc x p r) < op_pot (c_op s o)).
  { intros p r _ Hlt H1 H2 H3. unfold op_pot. destruct x; simpl in *; rewrite ?H1, ?H2, ?H3; lia. }
  destruct (get_pc x (c_op s o)) as [| | | |m| | |] eqn:Hp; try discriminate;
  destruct (o_alive (c_op s o)); try discriminate; simpl in Hs.
  - destruct (o_fast (c_op s o)); try discriminate. injection Hs as <- <-. simpl. rewrite upd_same.
    apply Hset; simpl; auto; try discriminate; lia.
  - destruct (o_tok (c_op s o)) as [e|]; [destruct (e_req (c_ev s e))|]; injection Hs as <- <-; simpl; rewrite upd_same;
    apply Hset; simpl; auto; try discriminate; lia.
  - destruct (p_try P (c_prim s) o) as [ps b|f]; try discriminate. injection Hs as <- <-. simpl. rewrite upd_same.
    apply Hset; try (destruct b; reflexivity); simpl; try discriminate; lia.
  - unfold do_trans in Hs. destruct (moverlap (o_bits (c_op s o)) m); try discriminate.
    injection Hs as <- <-. simpl. rewrite upd_same. apply Hset; auto; try discriminate.
    destruct (negb _ || negb _); [simpl; lia|]. destruct (negb _); simpl; lia.
  - destruct (o_tok (c_op s o)) as [e|]; try discriminate.
    destruct (e_req (c_ev s e)); [|destruct (memb o (e_cbs (c_ev s e))); try discriminate]; injection Hs as <- <-;
      simpl; rewrite upd_same; apply Hset; simpl; auto; try discriminate; lia.
  - destruct (p_resume P (c_prim s) o) as [ps v|f]; try discriminate. injection Hs as <- <-. simpl. rewrite upd_same.
    apply Hset; simpl; auto; try discriminate; lia.
Qed.

Lemma measure_decreases s tr l s' es :
  J s tr -> internal l = true -> step s l = Next s' es -> measure (starts tr) s' < measure (starts tr) s.
Proof.
  intros [HG (_ & HS & HN & _)] Hint Hs.
  assert (Hstarted : forall o x, get_pc x (c_op s o) <> PIdle -> In o (starts tr)).
  { intros o x Hx. apply HS. intros Hl. destruct (fresh_facts s o HG Hl) as (_ & _ & H1 & H2 & _).
    destruct x; simpl in Hx; congruence. }
  assert (Hstarted2 : forall o, inrest o (c_wk s) > 0 \/ inrest o (c_cn s) > 0 -> In o (starts tr)).
  { intros o Ho. apply HS. intros Hl.
    pose proof HG as (HV & _). specialize (HV o).
    pose (Q := fun v => match v_l v with PIdle => Nat.eqb (v_wk v) 0 && Nat.eqb (v_pd v) 0 | _ => true end).
    assert (HQ : forallb Q (R eager) = true) by (destruct eager; vm_compute; reflexivity).
    pose proof (R_check Q eager HQ _ HV) as Hq. unfold Q in Hq. simpl in Hq. rewrite Hl in Hq.
    apply andb_prop in Hq. destruct Hq as [H1 H2]. apply Nat.eqb_eq in H1, H2. lia. }
  destruct l as [o tok a|o x|e|k|k|pl|o]; try discriminate; simpl in Hs; unfold measure.
  - pose proof (path_pot _ _ _ _ _ Hs) as Hpot.
    destruct (path_tok _ _ _ _ _ Hs) as (_ & _ & -> & -> & Hoth).
    assert (Hin : In o (starts tr)).
    { apply (Hstarted o x). intros Hx. unfold path_step in Hs. rewrite Hx in Hs. discriminate. }
    pose proof (sum_upd (starts tr) o (c_op s) (c_op s' o) HN Hin) as Hsum.
    rewrite (sum_map_ext (fun o' => op_pot (c_op s' o')) (fun o' => op_pot (upd (c_op s) o (c_op s' o) o'))).
    + lia.
    + intros o' _. unfold upd. destruct (Nat.eqb_spec o' o) as [->|Hne]; auto. now rewrite Hoth.
  - destruct (nth_error (c_cn s) k) as [lp|] eqn:Hk; try discriminate.
    destruct (loop_ready o_c s lp); try discriminate.
    destruct (lp_rest lp) as [|o rest] eqn:Hrest; try discriminate.
    destruct (o_alive (c_op s o)) eqn:Hal; try discriminate. simpl in Hs.
    destruct (o_c (c_op s o)) eqn:Hc; try discriminate. injection Hs as <- <-. simpl.
    assert (Hin : In o (starts tr)).
    { apply Hstarted2. right. pose proof (nth_error_In _ _ Hk) as Hi.
      pose proof (sum_map_le (fun lp => cnt o (lp_rest lp)) _ _ Hi) as H. simpl in H.
      rewrite Hrest, cnt_cons in H. destruct (Nat.eq_dec o o); [|congruence]. unfold inrest. lia. }
    pose proof (sum_upd (starts tr) o (c_op s) (set_pc PathC PTry (c_op s o)) HN Hin) as Hsum.
    pose proof (sum_map_set_nth (fun lp => length (lp_rest lp)) _ k (Loop (Some o) rest) _ Hk) as Hl. simpl in Hl.
    rewrite Hrest in Hl. simpl in Hl.
    assert (Hop : op_pot (set_pc PathC PTry (c_op s o)) = op_pot (c_op s o) + 4).
    { unfold op_pot. simpl. rewrite Hc. simpl. lia. }
    simpl in Hsum. simpl in Hop. rewrite Hal in Hsum, Hop. rewrite Hop in Hsum. lia.
  - destruct (nth_error (c_wk s) k) as [lp|] eqn:Hk; try discriminate.
    destruct (loop_ready o_p s lp); try discriminate.
    destruct (lp_rest lp) as [|o rest] eqn:Hrest; try discriminate.
    destruct (o_alive (c_op s o)) eqn:Hal; try discriminate. simpl in Hs.
    destruct (o_p (c_op s o)) eqn:Hc; try discriminate. injection Hs as <- <-. simpl.
    assert (Hin : In o (starts tr)).
    { apply Hstarted2. left. pose proof (nth_error_In _ _ Hk) as Hi.
      pose proof (sum_map_le (fun lp => cnt o (lp_rest lp)) _ _ Hi) as H. simpl in H.
      rewrite Hrest, cnt_cons in H. destruct (Nat.eq_dec o o); [|congruence]. unfold inrest. lia. }
    pose proof (sum_upd (starts tr) o (c_op s) (set_pc PathP (PTrans bit_P) (c_op s o)) HN Hin) as Hsum.
    pose proof (sum_map_set_nth (fun lp => length (lp_rest lp)) _ k (Loop (Some o) rest) _ Hk) as Hl. simpl in Hl.
    rewrite Hrest in Hl. simpl in Hl.
    assert (Hop : op_pot (set_pc PathP (PTrans bit_P) (c_op s o)) = op_pot (c_op s o) + 3).
    { unfold op_pot. simpl. rewrite Hc. simpl. lia. }
    simpl in Hsum. simpl in Hop. rewrite Hal in Hsum, Hop. rewrite Hop in Hsum. lia.
Qed.

Lemma internal_starts s l s' es : internal l = true -> GInv s -> reliable s -> step s l = Next s' es -> starts es = [].
Proof.
  intros Hi HG HR Hs. destruct l as [o tok a|o x|e|k|k|pl|o]; try discriminate; simpl in Hs.
  - destruct (path_effect _ _ _ _ _ HG HR Hs); reflexivity.
  - destruct (nth_error (c_cn s) k) as [lp|]; try discriminate.
    destruct (loop_ready o_c s lp); try discriminate. destruct (lp_rest lp) as [|o rest]; try discriminate.
    destruct (o_alive (c_op s o)); try discriminate. simpl in Hs.
    destruct (o_c (c_op s o)); try discriminate. now injection Hs as <- <-.
  - destruct (nth_error (c_wk s) k) as [lp|]; try discriminate.
    destruct (loop_ready o_p s lp); try discriminate. destruct (lp_rest lp) as [|o rest]; try discriminate.
    destruct (o_alive (c_op s o)); try discriminate. simpl in Hs.
    destruct (o_p (c_op s o)); try discriminate. now injection Hs as <- <-.
Qed.

Definition frozen_node (n : nst) : Prop := n = NTaken \/ n = NCancelled.

(** A node never leaves the states NTaken and NCancelled. *)
Lemma frozen_step s l s' es o : GInv s -> reliable s -> step s l = Next s' es ->
  (o_node (c_op s o) = NTaken -> o_node (c_op s' o) = NTaken) /\
  (o_node (c_op s o) = NCancelled -> o_node (c_op s' o) = NCancelled).
Proof.
  intros HG HR Hs. pose proof (step_sim s l s' es HG HR Hs o) as Hsim.
  pose proof HG as (HV & _). specialize (HV o).
  pose (Q := fun n v => match v_node v, n with NTaken, NTaken | NCancelled, NCancelled =>
    forallb (fun l => match vstep eager v l with
       | Next v' _ => match v_node v', n with NTaken, NTaken | NCancelled, NCancelled => true | _, _ => false end
       | _ => true end) vlabels
    | _, _ => true end).
  assert (HQ : forall n, forallb (Q n) (R eager) = true) by (intros []; unfold Q; destruct eager; vm_compute; reflexivity).
  split; intros Hn.
  - pose proof (R_check (Q NTaken) eager (HQ NTaken) _ HV) as Hq. unfold Q in Hq. simpl v_node in Hq at 1. rewrite Hn in Hq.
    destruct Hsim as [[Hv _]|(vl & Hl & Hv)].
    + apply (f_equal v_node) in Hv. simpl in Hv. congruence.
    + rewrite forallb_forall in Hq. specialize (Hq vl Hl). rewrite Hv in Hq. simpl in Hq.
      destruct (o_node (c_op s' o)); congruence.
  - pose proof (R_check (Q NCancelled) eager (HQ NCancelled) _ HV) as Hq. unfold Q in Hq. simpl v_node in Hq at 1. rewrite Hn in Hq.
    destruct Hsim as [[Hv _]|(vl & Hl & Hv)].
    + apply (f_equal v_node) in Hv. simpl in Hv. congruence.
    + rewrite forallb_forall in Hq. specialize (Hq vl Hl). rewrite Hv in Hq. simpl in Hq.
      destruct (o_node (c_op s' o)); congruence.
Qed.

(** A decision procedure for [all_returned] (used for concrete witnesses only). *)
Definition returnedb (os : list nat) (s : cst) : bool :=
  forallb (fun o => all_ended (c_op s o)) os &&
  forallb (fun lp => match lp_rest lp with [] => true | _ => false end) (c_wk s ++ c_cn s).

Lemma returnedb_ok s tr : J s tr -> returnedb (starts tr) s = true -> all_returned s.
Proof.
  intros [HG (_ & HS & _)] H. apply andb_true_iff in H. destruct H as [H1 H2].
  rewrite forallb_forall in H1, H2. split.
  - intros o. destruct (in_dec Nat.eq_dec o (starts tr)) as [Hi|Hi]; [now apply H1|].
    assert (Hl : o_l (c_op s o) = PIdle).
    { destruct (pc_eq_dec (o_l (c_op s o)) PIdle); auto. destruct Hi. now apply HS. }
    destruct (fresh_facts s o HG Hl) as (_ & _ & Hp & Hc & _). unfold all_ended. now rewrite Hl, Hp, Hc.
  - intros lp Hlp. specialize (H2 lp). rewrite in_app_iff in H2. specialize (H2 Hlp). destruct (lp_rest lp); congruence.
Qed.

(** ** Failures of the client that destroys operations at once *)
Lemma unreg_requested s o x : GInv s -> get_pc x (c_op s o) = PUnreg -> o_done (c_op s o) = true ->
  exists e, o_tok (c_op s o) = Some e /\ e_req (c_ev s e) = true.
Proof.
  intros [HV _] Hl Hd. specialize (HV o).
  pose (Q := fun v => match v_pc x v with PUnreg => negb (v_done v) || (v_tok v && v_req v) | _ => true end).
  assert (HQ : forallb Q (R eager) = true) by (destruct eager, x; vm_compute; reflexivity).
  pose proof (R_check Q eager HQ _ HV) as H. unfold Q in H. rewrite v_pc_view, Hl in H. simpl in H. rewrite Hd in H. simpl in H.
  unfold req_of in H. destruct (o_tok (c_op s o)) as [e|]; [|discriminate]. exists e. auto.
Qed.

Lemma try_not_done s o x : GInv s -> get_pc x (c_op s o) = PTry -> o_done (c_op s o) = false.
Proof.
  intros [HV _] Hl. specialize (HV o).
  pose (Q := fun v => match v_pc x v with PTry => negb (v_done v) | _ => true end).
  assert (HQ : forallb Q (R eager) = true) by (destruct eager, x; vm_compute; reflexivity).
  pose proof (R_check Q eager HQ _ HV) as H. unfold Q in H. rewrite v_pc_view, Hl in H. simpl in H.
  now apply negb_true_iff in H.
Qed.

Definition AInv (s : cst) (tr : list event) : Prop := forall o, o_alive (c_op s o) = false -> In (EDestroy o) tr.

Lemma alive_set_pc x p (r : opst P) : o_alive (set_pc x p r) = o_alive r.
Proof. destruct x; reflexivity. Qed.

Lemma AInv_step s tr l s' es : AInv s tr -> step s l = Next s' es -> AInv s' (tr ++ es).
Proof.
  intros HA Hs o' Ho'. apply in_app_iff.
  assert (Hcase : o_alive (c_op s o') = false \/ es = [EDestroy o']).
  { destruct l as [o tok a|o x|e|k|k|pl|o]; simpl in Hs.
    - left. destruct (o_l (c_op s o)); try discriminate.
      destruct (p_start P (c_prim s) o a) as [ps es'|ps v es'|f]; try discriminate; injection Hs as <- <-; simpl in Ho'; revert Ho';
        unfold upd; destruct (Nat.eqb_spec o' o) as [->|]; auto.
    - left. unfold path_step in Hs.
      assert (Hu : forall r, o_alive r = o_alive (c_op s o) -> o_alive (upd (c_op s) o r o') = false -> o_alive (c_op s o') = false).
      { intros r Hr. unfold upd. destruct (Nat.eqb_spec o' o) as [->|]; congruence. }
      destruct (get_pc x (c_op s o)) as [| | | |m| | |]; try discriminate; (destruct (o_alive (c_op s o)) eqn:Hal; simpl in Hs; [|discriminate]).
      + destruct (o_fast (c_op s o)); try discriminate. injection Hs as <- <-. eapply Hu; [|exact Ho']. rewrite alive_set_pc. exact Hal.
      + destruct (o_tok (c_op s o)) as [e|].
        * destruct (e_req (c_ev s e)); injection Hs as <- <-; (eapply Hu; [|exact Ho']); rewrite alive_set_pc; exact Hal.
        * injection Hs as <- <-. eapply Hu; [|exact Ho']. rewrite alive_set_pc; exact Hal.
      + destruct (p_try P (c_prim s) o) as [ps b|f]; try discriminate. injection Hs as <- <-.
        eapply Hu; [|exact Ho']. rewrite alive_set_pc. destruct b; exact Hal.
      + unfold do_trans in Hs. destruct (moverlap (o_bits (c_op s o)) m); try discriminate. injection Hs as <- <-.
        eapply Hu; [|exact Ho']. rewrite alive_set_pc. exact Hal.
      + destruct (o_tok (c_op s o)) as [e|]; try discriminate. destruct (e_req (c_ev s e)).
        * injection Hs as <- <-. eapply Hu; [|exact Ho']. rewrite alive_set_pc. exact Hal.
        * destruct (memb o (e_cbs (c_ev s e))); try discriminate. injection Hs as <- <-. eapply Hu; [|exact Ho']. rewrite alive_set_pc. exact Hal.
      + destruct (p_resume P (c_prim s) o) as [ps v|f]; try discriminate. injection Hs as <- <-.
        eapply Hu; [|exact Ho']. rewrite alive_set_pc. exact Hal.
    - left. injection Hs as <- <-. exact Ho'.
    - left. destruct (nth_error (c_cn s) k) as [lp|]; try discriminate.
      destruct (loop_ready o_c s lp); try discriminate. destruct (lp_rest lp) as [|o rest]; try discriminate.
      destruct (o_alive (c_op s o)) eqn:Hal; try discriminate. simpl in Hs.
      destruct (o_c (c_op s o)); try discriminate. injection Hs as <- <-. simpl in Ho'. revert Ho'.
      unfold upd. destruct (Nat.eqb_spec o' o) as [->|]; simpl; congruence.
    - left. destruct (nth_error (c_wk s) k) as [lp|]; try discriminate.
      destruct (loop_ready o_p s lp); try discriminate. destruct (lp_rest lp) as [|o rest]; try discriminate.
      destruct (o_alive (c_op s o)) eqn:Hal; try discriminate. simpl in Hs.
      destruct (o_p (c_op s o)); try discriminate. injection Hs as <- <-. simpl in Ho'. revert Ho'.
      unfold upd. destruct (Nat.eqb_spec o' o) as [->|]; simpl; congruence.
    - left. destruct (p_step P (c_prim s) pl) as [ps taken es'| |f es']; try discriminate. injection Hs as <- <-. simpl in Ho'.
      revert Ho'. destruct (memb o' taken); auto.
    - destruct (o_done (c_op s o) && o_alive (c_op s o) && (eager || all_ended (c_op s o))); try discriminate.
      injection Hs as <- <-. simpl in Ho'. revert Ho'. unfold upd. destruct (Nat.eqb_spec o' o) as [->|]; auto. }
  destruct Hcase as [H|H]; [left; auto|right; subst es; now left].
Qed.

Lemma ainv ls s tr : run step (c_init P) ls = Running s tr -> AInv s tr.
Proof. apply (run_inv step AInv). - intros o H. discriminate. - exact AInv_step. Qed.

(** ** The generic theorems, relative to an invariant [K] that implies reliability, for clients obeying [C] *)
Section Generic.
Variable C : list event -> Prop.
Variable Cpre : forall tr es, C (tr ++ es) -> C tr.
Variable K : cst -> list event -> Prop.
Variable K_J : forall s tr, K s tr -> J s tr.
Variable K_rel : forall s tr, K s tr -> reliable s.
Variable K_init : K (c_init P) [].
Variable K_step : forall s tr l s' es, K s tr -> step s l = Next s' es -> C (tr ++ es) -> K s' (tr ++ es).

Lemma g_inv ls s tr : run step (c_init P) ls = Running s tr -> C tr -> K s tr.
Proof. intros Hr HC. exact (run_inv_client step C K (c_init P) Cpre K_init K_step ls s tr Hr HC). Qed.

Lemma g_once ls s tr : run step (c_init P) ls = Running s tr -> C tr -> forall o, notified o tr <= 1.
Proof.
  intros Hr HC o. destruct (K_J _ _ (g_inv _ _ _ Hr HC)) as [_ (HD & _)].
  rewrite HD. destruct (o_done (c_op s o)); lia.
Qed.

(** no completion without a start *)
Lemma g_started ls s tr : run step (c_init P) ls = Running s tr -> C tr -> forall o, notified o tr > 0 -> started o tr.
Proof.
  intros Hr HC o Hn. destruct (K_J _ _ (g_inv _ _ _ Hr HC)) as [HG (HD & HS & _)].
  apply HS. intros Hl. destruct (fresh_facts s o HG Hl) as (_ & _ & _ & _ & Hd & _).
  rewrite HD, Hd in Hn. lia.
Qed.

Lemma requested_iff s tr o : J s tr -> cancel_requested o tr ->
  exists e, o_tok (c_op s o) = Some e /\ e_req (c_ev s e) = true.
Proof.
  intros [HG (HD & HS & HN & HT & HC)] (e & (a & Ha) & He). exists e. split; [eauto|]. now apply HC.
Qed.

Lemma requested_of s tr o e : J s tr -> In o (starts tr) -> o_tok (c_op s o) = Some e -> e_req (c_ev s e) = true ->
  cancel_requested o tr.
Proof.
  intros [HG (HD & HS & HN & HT & HC)] Ho Ht He. apply starts_In in Ho. destruct Ho as (tok & a & Ha).
  pose proof (HT _ _ _ Ha) as Htok. rewrite Ht in Htok. subst tok. exists e. split; [exists a; exact Ha|]. now apply HC.
Qed.

Lemma g_cancelled ls s tr : run step (c_init P) ls = Running s tr -> C tr -> all_returned s ->
  forall o, started o tr -> cancel_requested o tr -> notified o tr = 1.
Proof.
  intros Hr HC Hret o Hst Hcr. pose proof (K_J _ _ (g_inv _ _ _ Hr HC)) as HJ. pose proof HJ as [HG (HD & HS & _)].
  destruct (requested_iff _ _ _ HJ Hcr) as (e & He1 & He2).
  destruct (quiescent s o HG Hret (proj2 (HS o) Hst)) as [Hd|(_ & _ & Hnr)].
  - now rewrite HD, Hd.
  - rewrite (Hnr e He1) in He2. discriminate.
Qed.

Lemma frozen_run ls : forall s tr s' tr' o, K s tr -> run_from step s tr ls = Running s' tr' -> C tr' ->
  (o_node (c_op s o) = NTaken -> o_node (c_op s' o) = NTaken) /\ K s' tr'.
Proof.
  induction ls as [|l ls IH]; intros s tr s' tr' o HK Hr HC; simpl in Hr.
  - injection Hr as <- <-. auto.
  - destruct (step s l) as [s1 es| |f es] eqn:Hs; try discriminate.
    assert (HK1 : K s1 (tr ++ es)).
    { apply (K_step s tr l); auto. destruct (run_from_trace_prefix step ls _ _ _ _ Hr) as [es' ->]. exact (Cpre _ _ HC). }
    destruct (IH _ _ _ _ o HK1 Hr HC) as [H1 H2]. split; auto.
    intros Hn. apply H1. destruct (K_J _ _ HK) as [HG _]. exact (proj1 (frozen_step _ _ _ _ o HG (K_rel _ _ HK) Hs) Hn).
Qed.

(** an operation whose node the primitive unlinked in order to wake it *)
Lemma g_woken ls1 s1 tr1 pl ps taken es o ls2 s2 tr2 :
  run step (c_init P) ls1 = Running s1 tr1 -> p_step P (c_prim s1) pl = POk ps taken es -> In o taken ->
  run step (c_init P) (ls1 ++ LPrim pl :: ls2) = Running s2 tr2 -> C tr2 -> all_returned s2 -> notified o tr2 = 1.
Proof.
  intros Hr1 Hp Hin Hr2 HC Hret. unfold run in *. rewrite run_from_app, Hr1 in Hr2.
  destruct (run_from_trace_prefix step (LPrim pl :: ls2) _ _ _ _ Hr2) as [es0 Htr].
  assert (HK1 : K s1 tr1) by (apply (g_inv ls1); auto; subst; eauto).
  simpl in Hr2. rewrite Hp in Hr2.
  destruct (run_from_trace_prefix step ls2 _ _ _ _ Hr2) as [es1 Htr1].
  assert (Hs : step s1 (LPrim pl) = Next (St ps (fun o => if memb o taken then set_node NTaken (c_op s1 o) else c_op s1 o) (c_ev s1)
                   (c_wk s1 ++ [Loop None taken]) (c_cn s1)) (map EPrim es)).
  { simpl. now rewrite Hp. }
  assert (HK2 : K (St ps (fun o => if memb o taken then set_node NTaken (c_op s1 o) else c_op s1 o) (c_ev s1)
                   (c_wk s1 ++ [Loop None taken]) (c_cn s1)) (tr1 ++ map EPrim es)).
  { apply (K_step s1 tr1 (LPrim pl)); auto. rewrite Htr1 in HC. exact (Cpre _ _ HC). }
  destruct (frozen_run ls2 _ _ _ _ o HK2 Hr2 HC) as [Hfr HK].
  simpl in Hfr. rewrite (proj2 (memb_In o taken) Hin) in Hfr. specialize (Hfr eq_refl).
  pose proof (K_J _ _ HK) as [HG (HD & HS & _)].
  destruct (pc_eq_dec (o_l (c_op s2 o)) PIdle) as [Hi|Hi].
  - destruct (fresh_facts s2 o HG Hi) as (Hn & _). congruence.
  - destruct (quiescent s2 o HG Hret Hi) as [Hd|(Hq & _)]; [now rewrite HD, Hd|congruence].
Qed.

Lemma g_finishes ls s tr : run step (c_init P) ls = Running s tr ->
  (forall ls' s' tr', run_from step s tr ls' = Running s' tr' -> C tr') ->
  exists n, finishes_within eager n s tr.
Proof.
  intros Hr HCi. assert (HK : K s tr) by (apply (g_inv ls); auto; apply (HCi [] s tr); reflexivity).
  exists (measure (starts tr) s). unfold finishes_within.
  clear Hr. intros ls'. revert s tr HK HCi.
  induction ls' as [|l ls' IH]; intros s tr HK HCi s' tr' Hint Hr; simpl; [lia|].
  simpl in Hr. destruct (step s l) as [s1 es| |f es] eqn:Hs; try discriminate.
  pose proof (K_J _ _ HK) as HJ. pose proof (K_rel _ _ HK) as HR.
  pose proof (measure_decreases s tr l s1 es HJ (Hint l (or_introl eq_refl)) Hs) as Hm.
  pose proof (internal_starts s l s1 es (Hint l (or_introl eq_refl)) (proj1 HJ) HR Hs) as Hst.
  assert (Hlen : length ls' <= measure (starts (tr ++ es)) s1).
  { apply (IH s1 (tr ++ es)) with (s' := s') (tr' := tr'); auto.
    - apply (K_step s tr l); auto. apply (HCi [l] s1). simpl. now rewrite Hs.
    - intros ls2 s2 tr2 H2. apply (HCi (l :: ls2) s2). simpl. now rewrite Hs.
    - intros l' Hl'. apply Hint. now right. }
  rewrite starts_app, Hst, app_nil_r in Hlen. lia.
Qed.

Lemma g_progress ls s tr : run step (c_init P) ls = Running s tr -> C tr -> stuck eager s -> all_returned s.
Proof.
  intros Hr HC Hst. destruct (K_J _ _ (g_inv _ _ _ Hr HC)) as [HG _]. now apply stuck_returned.
Qed.

(** C05: nothing is registered at an event whose waits are all over *)
(** the default token is never cancelled *)
Lemma no_token_not_cancelled s tr o a : J s tr -> In (EStart o None a) tr -> ~ cancel_requested o tr.
Proof.
  intros HJ Hin Hcr. destruct (requested_iff s tr o HJ Hcr) as (e & He & _). destruct HJ as [_ (_ & _ & _ & HT & _)].
  rewrite (HT _ _ _ Hin) in He. discriminate.
Qed.

(** The ways in which a run can fail: inside of the primitive (first four), or because an operation was destroyed
    whose receiver had been notified while its complete() was still running, which needs a cancellation. *)
Definition prim_failure (s : cst) (l : label P) (f : failure) : Prop :=
  (exists o tok a, l = LStart o tok a /\ o_l (c_op s o) = PIdle /\ p_start P (c_prim s) o a = SFail f) \/
  (exists pl pes, l = LPrim pl /\ p_step P (c_prim s) pl = PFail f pes) \/
  (exists o x, l = LPath o x /\ get_pc x (c_op s o) = PResume /\ p_resume P (c_prim s) o = RFail f) \/
  (exists o x, l = LPath o x /\ get_pc x (c_op s o) = PTry /\ o_node (c_op s o) = NTaken /\ p_try P (c_prim s) o = TFail f).

Lemma g_fail ls f tr : run step (c_init P) ls = Failed f tr -> C tr ->
  (exists s tr1 l es, K s tr1 /\ tr = tr1 ++ es /\ step s l = Fail f es /\ prim_failure s l f) \/
  (eager = true /\ f = UseAfterFree /\ exists o, In (EDestroy o) tr /\ notified o tr = 1 /\ cancel_requested o tr).
Proof.
  intros Hr HC. destruct (run_from_failed step ls _ _ _ _ Hr) as (ls1 & l & s & tr1 & es & H1 & H2 & ->).
  assert (HK : K s tr1) by (apply (g_inv ls1); auto; eapply Cpre; eauto).
  pose proof (K_J _ _ HK) as HJ. pose proof HJ as [HG (HD & HS & _)].
  destruct (step_fail _ _ _ _ HG (K_rel _ _ HK) H2) as [(o & tok & a & -> & Hl & Hst & He)|[(pl & pes & -> & Hp & He)|[(o & x & -> & Hp & Hres & He)|[(o & x & -> & Hp & Hnd & Htry & He)|(He & -> & o & x & -> & Hp & Hd & Ha)]]]].
  - left. exists s, tr1, (LStart o tok a), es. repeat split; auto. left. eauto 10.
  - left. exists s, tr1, (LPrim pl), es. repeat split; auto. right; left. eauto 10.
  - left. exists s, tr1, (LPath o x), es. repeat split; auto. right; right; left. eauto 10.
  - left. exists s, tr1, (LPath o x), es. repeat split; auto. right; right; right. eauto 10.
  - right. repeat split; auto. simpl in H2. unfold path_step in H2. rewrite Hp, Ha in H2. simpl in H2. injection H2 as <-.
    exists o. rewrite app_nil_r. split; [apply (ainv ls1 s tr1 H1 o Ha)|]. split; [now rewrite HD, Hd|].
    destruct (unreg_requested s o x HG Hp Hd) as (e & Ht & Hreq).
    eapply requested_of; eauto. apply HS. intros Hl. destruct (fresh_facts s o HG Hl) as (_ & _ & _ & _ & Hd' & _). congruence.
Qed.

Lemma g_event_clean ls s tr e : run step (c_init P) ls = Running s tr -> C tr ->
  (forall o, uses_event o e tr -> notified o tr = 1) -> e_cbs (c_ev s e) = [].
Proof.
  intros Hr HC Hall. pose proof (K_J _ _ (g_inv _ _ _ Hr HC)) as [HG (HD & HS & HN & HT & _)].
  destruct (e_cbs (c_ev s e)) as [|o l] eqn:Hcb; auto. exfalso.
  assert (Hin : In o (e_cbs (c_ev s e))) by (rewrite Hcb; now left).
  pose proof HG as (_ & HE & _). pose proof (HE _ _ Hin) as Htok.
  assert (Hst : In o (starts tr)).
  { apply HS. intros Hl. destruct (fresh_facts s o HG Hl) as (_ & Ht & _). congruence. }
  apply starts_In in Hst. destruct Hst as (tok & a & Ha). pose proof (HT _ _ _ Ha) as Ht. rewrite Htok in Ht. subst tok.
  assert (Hn : notified o tr = 1) by (apply Hall; exists a; exact Ha).
  rewrite HD in Hn. destruct (o_done (c_op s o)) eqn:Hd; [|discriminate].
  exact (done_unregistered s o e HG Hd Hin).
Qed.

End Generic.

(** ** The effect of one step as seen by an instance *)
Inductive step_eff (s : cst) : cst -> list event -> Prop :=
| se_start_q s' o tok a pes :
    o_l (c_op s o) = PIdle -> o_node (c_op s o) = NFresh -> o_done (c_op s o) = false ->
    p_start P (c_prim s) o a = SQueued (c_prim s') pes ->
    (forall o', stat (c_op s' o') = if Nat.eqb o' o then (tok, None, NQueued, false) else stat (c_op s o')) ->
    step_eff s s' (EStart o tok a :: map EPrim pes)
| se_start_f s' o tok a v pes :
    o_l (c_op s o) = PIdle -> o_node (c_op s o) = NFresh -> o_done (c_op s o) = false ->
    p_start P (c_prim s) o a = SFast (c_prim s') v pes ->
    (forall o', stat (c_op s' o') = if Nat.eqb o' o then (tok, Some v, NFresh, false) else stat (c_op s o')) ->
    step_eff s s' (EStart o tok a :: map EPrim pes)
| se_path s' o es : path_eff s o s' es -> step_eff s s' es
| se_skip s' es : c_prim s' = c_prim s -> same_stat s s' ->
    (es = [] \/ (exists o, es = [EDestroy o]) \/ (exists e, es = [ECancel e])) -> step_eff s s' es
| se_prim s' pl taken pes :
    p_step P (c_prim s) pl = POk (c_prim s') taken pes ->
    (forall o, In o taken -> o_node (c_op s o) = NQueued) ->
    (forall o, stat (c_op s' o) = if memb o taken then stat (set_node NTaken (c_op s o)) else stat (c_op s o)) ->
    step_eff s s' (map EPrim pes).

Lemma step_effect s l s' es : GInv s -> reliable s -> step s l = Next s' es -> step_eff s s' es.
Proof.
  intros HG HR Hs. pose proof HG as (_ & _ & (HI & HQ) & _).
  assert (Hupd : forall (r : opst P) o o', stat (upd (c_op s) o r o') = if Nat.eqb o' o then stat r else stat (c_op s o')).
  { intros r o o'. unfold upd. destruct (Nat.eqb o' o); reflexivity. }
  destruct l as [o tok a|o x|e|k|k|pl|o]; simpl in Hs.
  - destruct (o_l (c_op s o)) eqn:Hl; try discriminate.
    destruct (fresh_facts s o HG Hl) as (Hn & Ht & Hp & Hc & Hd & Ha).
    destruct (p_start P (c_prim s) o a) as [ps es'|ps v es'|f] eqn:Hst; try discriminate; injection Hs as <- <-.
    + apply se_start_q; simpl; auto. intros o'. rewrite Hupd. unfold stat at 1; simpl. now rewrite Hd.
    + apply se_start_f with v; simpl; auto. intros o'. rewrite Hupd. unfold stat at 1; simpl. now rewrite Hd, Hn.
  - apply (se_path s s' o). eapply path_effect; eauto.
  - injection Hs as <- <-. apply se_skip; simpl; eauto. intros o; reflexivity.
  - destruct (nth_error (c_cn s) k) as [lp|]; try discriminate.
    destruct (loop_ready o_c s lp); try discriminate. destruct (lp_rest lp) as [|o rest]; try discriminate.
    destruct (o_alive (c_op s o)); try discriminate. simpl in Hs.
    destruct (o_c (c_op s o)); try discriminate. injection Hs as <- <-.
    apply se_skip; simpl; auto. intros o'. simpl. rewrite Hupd. destruct (Nat.eqb_spec o' o) as [->|]; auto.
  - destruct (nth_error (c_wk s) k) as [lp|]; try discriminate.
    destruct (loop_ready o_p s lp); try discriminate. destruct (lp_rest lp) as [|o rest]; try discriminate.
    destruct (o_alive (c_op s o)); try discriminate. simpl in Hs.
    destruct (o_p (c_op s o)); try discriminate. injection Hs as <- <-.
    apply se_skip; simpl; auto. intros o'. simpl. rewrite Hupd. destruct (Nat.eqb_spec o' o) as [->|]; auto.
  - destruct (p_step P (c_prim s) pl) as [ps taken es'| |f es'] eqn:Hp; try discriminate.
    injection Hs as <- <-. apply se_prim with pl taken; simpl; auto.
    + intros o Ho. apply HQ. destruct (l_step W _ _ _ _ _ HI Hp) as (_ & _ & Htk & _). auto.
    + intros o. destruct (memb o taken); reflexivity.
  - destruct (o_done (c_op s o) && o_alive (c_op s o) && (eager || all_ended (c_op s o))) eqn:Hb; try discriminate.
    injection Hs as <- <-. apply se_skip; simpl; eauto. intros o'. simpl. rewrite Hupd. destruct (Nat.eqb_spec o' o) as [->|]; auto.
Qed.

(** ** What happened at the start of an operation stays true *)
Definition kind_q (s : cst) (o : nat) : Prop := o_node (c_op s o) <> NFresh.
Definition kind_f (s : cst) (o : nat) (v : PV P) : Prop := o_fast (c_op s o) = Some v.

Lemma kind_step s tr l s' es o : J s tr -> reliable s -> step s l = Next s' es -> In o (starts tr) ->
  (kind_q s o -> kind_q s' o) /\ (forall v, kind_f s o v -> kind_f s' o v).
Proof.
  intros [HG (_ & HS & _)] HR Hs Hst. apply HS in Hst.
  pose proof (step_effect _ _ _ _ HG HR Hs) as He. unfold kind_q, kind_f.
  assert (Hcases : o_fast (c_op s' o) = o_fast (c_op s o) /\ (o_node (c_op s o) <> NFresh -> o_node (c_op s' o) <> NFresh)).
  { destruct He as [s' o1 tok a pes Hl Hn Hd Hst' Hss|s' o1 tok a v pes Hl Hn Hd Hst' Hss|s' o1 es Hp|s' es Hcp Hss Hes|s' pl taken pes Hp Htk Hss].
    - specialize (Hss o). destruct (Nat.eqb_spec o o1) as [E|E]; [congruence|]. unfold stat in Hss. split; [congruence|]. intros H; congruence.
    - specialize (Hss o). destruct (Nat.eqb_spec o o1) as [E|E]; [congruence|]. unfold stat in Hss. split; [congruence|]. intros H; congruence.
    - destruct Hp as [s' Hcp Hss|s' e Hn Ht Hr Htry Hss|s' v Hf Hn Hd Hcp Hss|s' v Hn Hd Hr Hss]; specialize (Hss o).
      + unfold stat in Hss. split; [congruence|]. intros H; congruence.
      + destruct (Nat.eqb_spec o o1) as [E|E]; unfold stat in Hss; simpl in Hss; subst; split; try congruence; intros H; congruence.
      + destruct (Nat.eqb_spec o o1) as [E|E]; unfold stat in Hss; simpl in Hss; subst; split; try congruence; intros H; congruence.
      + destruct (Nat.eqb_spec o o1) as [E|E]; unfold stat in Hss; simpl in Hss; subst; split; try congruence; intros H; congruence.
    - specialize (Hss o). unfold stat in Hss. split; [congruence|]. intros H; congruence.
    - specialize (Hss o). destruct (memb o taken); unfold stat in Hss; simpl in Hss; split; try congruence; intros H; congruence. }
  destruct Hcases as [H1 H2]. split; [auto|]. intros v. now rewrite H1.
Qed.

Section Start.
Variable C : list event -> Prop.
Variable Cpre : forall tr es, C (tr ++ es) -> C tr.
Variable K : cst -> list event -> Prop.
Variable K_J : forall s tr, K s tr -> J s tr.
Variable K_rel : forall s tr, K s tr -> reliable s.
Variable K_init : K (c_init P) [].
Variable K_step : forall s tr l s' es, K s tr -> step s l = Next s' es -> C (tr ++ es) -> K s' (tr ++ es).

Lemma kind_run ls : forall s tr s' tr' o, K s tr -> run_from step s tr ls = Running s' tr' -> C tr' -> In o (starts tr) ->
  (kind_q s o -> kind_q s' o) /\ (forall v, kind_f s o v -> kind_f s' o v).
Proof.
  induction ls as [|l ls IH]; intros s tr s' tr' o HK Hr HC Hst; simpl in Hr.
  - injection Hr as <- <-. auto.
  - destruct (step s l) as [s1 es| |f es] eqn:Hs; try discriminate.
    assert (HC1 : C (tr ++ es)) by (destruct (run_from_trace_prefix step ls _ _ _ _ Hr) as [es' ->]; eapply Cpre; eauto).
    destruct (kind_step s tr l s1 es o (K_J _ _ HK) (K_rel _ _ HK) Hs Hst) as [H1 H2].
    assert (Hst1 : In o (starts (tr ++ es))) by (rewrite starts_app, in_app_iff; auto).
    destruct (IH s1 (tr ++ es) s' tr' o (K_step _ _ _ _ _ HK Hs HC1) Hr HC Hst1) as [H3 H4]. auto.
Qed.

Lemma g_start ls s t1 o tok a t2 : run step (c_init P) ls = Running s (t1 ++ EStart o tok a :: t2) -> C (t1 ++ EStart o tok a :: t2) ->
  exists ls0 s0, run step (c_init P) ls0 = Running s0 t1 /\ K s0 t1 /\ ~ In o (starts t1) /\
   ((exists ps es, p_start P (c_prim s0) o a = SQueued ps es /\ kind_q s o) \/
    (exists ps v es, p_start P (c_prim s0) o a = SFast ps v es /\ kind_f s o v)).
Proof.
  intros Hr HC. destruct (run_split_event step _ _ _ _ _ _ Hr) as (ls1 & l & ls2 & s1 & s2 & tr1 & e1 & e2 & -> & Hr1 & Hs & Ht1 & Hr2).
  assert (HCp : C (t1 ++ EStart o tok a :: e2)).
  { rewrite Ht1, <- app_assoc. destruct (run_from_trace_prefix step ls2 _ _ _ _ Hr2) as [es' He]. rewrite He in HC. eapply Cpre; eauto. }
  assert (HC1 : C tr1) by (rewrite Ht1, <- app_assoc in HCp; eapply Cpre; eauto).
  pose proof (run_inv_client step C K (c_init P) Cpre K_init K_step ls1 s1 tr1 Hr1 HC1) as HK1.
  assert (HCs : C (tr1 ++ e1 ++ EStart o tok a :: e2)) by (rewrite Ht1, <- app_assoc in HCp; exact HCp).
  pose proof (K_step _ _ _ _ _ HK1 Hs HCs) as HK2.
  pose proof (K_J _ _ HK1) as HJ1. pose proof HJ1 as [HG (_ & HS & _)].
  assert (Hin2 : In o (starts (tr1 ++ e1 ++ EStart o tok a :: e2))).
  { rewrite !starts_app, !in_app_iff. simpl. auto. }
  pose proof (kind_run ls2 s2 _ s _ o HK2 Hr2 HC Hin2) as [Hkq Hkf].
  destruct l as [o1 tok1 a1|o1 x|e|k|k|pl|o1]; simpl in Hs.
  - destruct (o_l (c_op s1 o1)) eqn:Hl; try discriminate.
    destruct (p_start P (c_prim s1) o1 a1) as [ps es'|ps v es'|f] eqn:Hst; try discriminate; injection Hs as Hs2 He.
    + destruct e1 as [|x e1]; [|exfalso; simpl in He; injection He as _ He; assert (Hi : In (EStart o tok a) (map (@EPrim P) es')) by (rewrite He; apply in_app_iff; right; now left); apply in_map_iff in Hi; destruct Hi as (? & ? & _); discriminate].
      simpl in He. injection He as -> -> -> _. rewrite app_nil_r in Ht1. subst tr1.
      exists ls1, s1. split; [auto|]. split; [auto|]. split; [rewrite <- HS; tauto|]. left. exists ps, es'. split; [auto|].
      apply Hkq. subst s2. unfold kind_q. simpl. rewrite upd_same. simpl. discriminate.
    + destruct e1 as [|x e1]; [|exfalso; simpl in He; injection He as _ He; assert (Hi : In (EStart o tok a) (map (@EPrim P) es')) by (rewrite He; apply in_app_iff; right; now left); apply in_map_iff in Hi; destruct Hi as (? & ? & _); discriminate].
      simpl in He. injection He as -> -> -> _. rewrite app_nil_r in Ht1. subst tr1.
      exists ls1, s1. split; [auto|]. split; [auto|]. split; [rewrite <- HS; tauto|]. right. exists ps, v, es'. split; [auto|].
      apply Hkf. subst s2. unfold kind_f. simpl. rewrite upd_same. reflexivity.
  - exfalso. pose proof (path_effect _ _ _ _ _ HG (K_rel _ _ HK1) Hs) as He. remember (e1 ++ EStart o tok a :: e2) as es.
    assert (Hi : In (EStart o tok a) es) by (subst es; apply in_app_iff; right; now left).
    clear Heqes. destruct He; simpl in Hi; intuition discriminate.
  - exfalso. injection Hs as _ He. assert (Hi : In (EStart o tok a) [ECancel e]) by (rewrite He; apply in_app_iff; right; now left).
    destruct Hi as [Hi|[]]; discriminate.
  - exfalso. destruct (nth_error (c_cn s1) k) as [lp|]; try discriminate.
    destruct (loop_ready o_c s1 lp); try discriminate. destruct (lp_rest lp) as [|o' rest]; try discriminate.
    destruct (o_alive (c_op s1 o')); try discriminate. simpl in Hs. destruct (o_c (c_op s1 o')); try discriminate.
    injection Hs as _ He. destruct e1; discriminate.
  - exfalso. destruct (nth_error (c_wk s1) k) as [lp|]; try discriminate.
    destruct (loop_ready o_p s1 lp); try discriminate. destruct (lp_rest lp) as [|o' rest]; try discriminate.
    destruct (o_alive (c_op s1 o')); try discriminate. simpl in Hs. destruct (o_p (c_op s1 o')); try discriminate.
    injection Hs as _ He. destruct e1; discriminate.
  - exfalso. destruct (p_step P (c_prim s1) pl) as [ps taken es'| |f es']; try discriminate. injection Hs as _ He.
    assert (Hi : In (EStart o tok a) (map (@EPrim P) es')) by (rewrite He; apply in_app_iff; right; now left).
    apply in_map_iff in Hi. destruct Hi as (? & ? & _). discriminate.
  - exfalso. destruct (o_done (c_op s1 o1) && o_alive (c_op s1 o1) && (eager || all_ended (c_op s1 o1))); try discriminate.
    injection Hs as _ He. assert (Hi : In (EStart o tok a) [EDestroy o1]) by (rewrite He; apply in_app_iff; right; now left).
    destruct Hi as [Hi|[]]; discriminate.
Qed.
End Start.

(** ** A sufficient condition for reliability that does not need client rules *)
Record tlaws := TLaws {
  pt : PS P -> nat -> Prop;   (* "taken" mark in the primitive's own state *)
  t_take : forall ps l ps' taken es o, pinv W ps -> p_step P ps l = POk ps' taken es -> In o taken -> pt ps' o;
  t_step : forall ps l ps' taken es o, pinv W ps -> pt ps o -> p_step P ps l = POk ps' taken es -> pt ps' o;
  t_start_q : forall ps o a ps' es o', pinv W ps -> pt ps o' -> o' <> o -> p_start P ps o a = SQueued ps' es -> pt ps' o';
  t_start_f : forall ps o a ps' v es o', pinv W ps -> pt ps o' -> o' <> o -> p_start P ps o a = SFast ps' v es -> pt ps' o';
  t_try : forall ps o ps' b o', pinv W ps -> pt ps o' -> o' <> o -> p_try P ps o = TOk ps' b -> pt ps' o';
  t_resume : forall ps o ps' v o', pinv W ps -> pt ps o' -> p_resume P ps o = ROk ps' v -> pt ps' o';
  t_rel : forall ps o ps' b, pinv W ps -> pt ps o -> p_try P ps o = TOk ps' b -> ps' = ps /\ b = false
}.

Section Reliable.
Variable T : tlaws.
Definition JT (s : cst) (tr : list event) : Prop :=
  J s tr /\ forall o, o_node (c_op s o) = NTaken -> pt T (c_prim s) o.

Lemma JT_reliable s tr : JT s tr -> reliable s.
Proof. intros [[(_ & _ & (HI & _) & _) _] HT] o x ps b _ Hn Ht. eapply (t_rel T); eauto. Qed.

Lemma JT_init : JT (c_init P) [].
Proof. split; [apply J_init|]. simpl. discriminate. Qed.

Lemma stat_node (r1 r2 : opst P) : stat r1 = stat r2 -> o_node r1 = o_node r2.
Proof. unfold stat. congruence. Qed.

Lemma JT_step s tr l s' es : JT s tr -> step s l = Next s' es -> JT s' (tr ++ es).
Proof.
  intros HJT Hs. pose proof (JT_reliable _ _ HJT) as HR. destruct HJT as [HJ HT].
  split; [eapply J_step; eauto|]. pose proof HJ as [HG _]. pose proof HG as (_ & _ & (HI & _) & _).
  destruct l as [o tok a|o x|e|k|k|pl|o]; simpl in Hs.
  - destruct (o_l (c_op s o)) eqn:Hl; try discriminate.
    destruct (fresh_facts s o HG Hl) as (Hn & _).
    destruct (p_start P (c_prim s) o a) as [ps es'|ps v es'|f] eqn:Hst; try discriminate;
      injection Hs as <- <-; simpl; intros o'; unfold upd; destruct (Nat.eqb_spec o' o) as [->|Hne]; intros Ho';
      simpl in Ho'; try congruence.
    + eapply t_start_q; eauto.
    + eapply t_start_f; eauto.
  - pose proof (path_effect _ _ _ _ _ HG HR Hs) as He.
    intros o' Ho'. destruct He as [s' Hcp Hss|s' e Hn Ht Hr Htry Hss|s' v Hf Hn Hd Hcp Hss|s' v Hn Hd Hr Hss];
      specialize (Hss o').
    + apply stat_node in Hss. rewrite Hcp. apply HT. congruence.
    + destruct (Nat.eqb_spec o' o) as [E|E]; apply stat_node in Hss; simpl in Hss; [congruence|].
      eapply t_try; eauto. apply HT. congruence.
    + rewrite Hcp. apply HT. destruct (Nat.eqb_spec o' o) as [E|E]; apply stat_node in Hss; simpl in Hss; congruence.
    + eapply t_resume; eauto. apply HT. destruct (Nat.eqb_spec o' o) as [E|E]; apply stat_node in Hss; simpl in Hss; congruence.
  - injection Hs as <- <-. exact HT.
  - destruct (nth_error (c_cn s) k) as [lp|]; try discriminate.
    destruct (loop_ready o_c s lp); try discriminate. destruct (lp_rest lp) as [|o rest]; try discriminate.
    destruct (o_alive (c_op s o)); try discriminate. simpl in Hs.
    destruct (o_c (c_op s o)); try discriminate. injection Hs as <- <-. simpl.
    intros o' Ho'. apply HT. revert Ho'. unfold upd. destruct (Nat.eqb_spec o' o) as [->|]; auto.
  - destruct (nth_error (c_wk s) k) as [lp|]; try discriminate.
    destruct (loop_ready o_p s lp); try discriminate. destruct (lp_rest lp) as [|o rest]; try discriminate.
    destruct (o_alive (c_op s o)); try discriminate. simpl in Hs.
    destruct (o_p (c_op s o)); try discriminate. injection Hs as <- <-. simpl.
    intros o' Ho'. apply HT. revert Ho'. unfold upd. destruct (Nat.eqb_spec o' o) as [->|]; auto.
  - destruct (p_step P (c_prim s) pl) as [ps taken es'| |f es'] eqn:Hp; try discriminate.
    injection Hs as <- <-. simpl. intros o Ho. destruct (memb o taken) eqn:Hm.
    + eapply t_take; eauto. now apply memb_In.
    + eapply t_step; eauto.
  - destruct (o_done (c_op s o) && o_alive (c_op s o) && (eager || all_ended (c_op s o))) eqn:Hb; try discriminate.
    injection Hs as <- <-. simpl. intros o' Ho'. apply HT. revert Ho'. unfold upd. destruct (Nat.eqb_spec o' o) as [->|]; auto.
Qed.

Lemma jt_inv ls s tr : run step (c_init P) ls = Running s tr -> JT s tr.
Proof. exact (run_inv step JT (c_init P) JT_init JT_step ls s tr). Qed.

Let CT : list event -> Prop := fun _ => True.
Let CTpre : forall tr es, CT (tr ++ es) -> CT tr := fun _ _ _ => I.
Let KJ : forall s tr, JT s tr -> J s tr := fun s tr H => proj1 H.
Let KS : forall s tr l s' es, JT s tr -> step s l = Next s' es -> CT (tr ++ es) -> JT s' (tr ++ es) :=
  fun s tr l s' es H Hs _ => JT_step s tr l s' es H Hs.

Lemma t_once ls s tr : run step (c_init P) ls = Running s tr -> forall o, notified o tr <= 1.
Proof. intros Hr. exact (g_once CT CTpre JT KJ JT_init KS ls s tr Hr I). Qed.
Lemma t_started ls s tr : run step (c_init P) ls = Running s tr -> forall o, notified o tr > 0 -> started o tr.
Proof. intros Hr. exact (g_started CT CTpre JT KJ JT_init KS ls s tr Hr I). Qed.
Lemma t_cancelled ls s tr : run step (c_init P) ls = Running s tr -> all_returned s ->
  forall o, started o tr -> cancel_requested o tr -> notified o tr = 1.
Proof. intros Hr. exact (g_cancelled CT CTpre JT KJ JT_init KS ls s tr Hr I). Qed.
Lemma t_woken ls1 s1 tr1 pl ps taken es o ls2 s2 tr2 :
  run step (c_init P) ls1 = Running s1 tr1 -> p_step P (c_prim s1) pl = POk ps taken es -> In o taken ->
  run step (c_init P) (ls1 ++ LPrim pl :: ls2) = Running s2 tr2 -> all_returned s2 -> notified o tr2 = 1.
Proof. intros H1 H2 H3 H4. exact (g_woken CT CTpre JT KJ JT_reliable JT_init KS ls1 s1 tr1 pl ps taken es o ls2 s2 tr2 H1 H2 H3 H4 I). Qed.
Lemma t_finishes ls s tr : run step (c_init P) ls = Running s tr -> exists n, finishes_within eager n s tr.
Proof. intros Hr. exact (g_finishes CT CTpre JT KJ JT_reliable JT_init KS ls s tr Hr (fun _ _ _ _ => I)). Qed.
Lemma t_progress ls s tr : run step (c_init P) ls = Running s tr -> stuck eager s -> all_returned s.
Proof. intros Hr. exact (g_progress CT CTpre JT KJ JT_init KS ls s tr Hr I). Qed.
Lemma t_event_clean ls s tr e : run step (c_init P) ls = Running s tr ->
  (forall o, uses_event o e tr -> notified o tr = 1) -> e_cbs (c_ev s e) = [].
Proof. intros Hr. exact (g_event_clean CT CTpre JT KJ JT_init KS ls s tr e Hr I). Qed.
Lemma t_fail ls f tr : run step (c_init P) ls = Failed f tr ->
  (exists s tr1 l es, JT s tr1 /\ tr = tr1 ++ es /\ step s l = Fail f es /\ prim_failure s l f) \/
  (eager = true /\ f = UseAfterFree /\ exists o, In (EDestroy o) tr /\ notified o tr = 1 /\ cancel_requested o tr).
Proof. intros Hr. exact (g_fail CT CTpre JT KJ JT_reliable JT_init KS ls f tr Hr I). Qed.
Lemma t_start_event ls s t1 o tok a t2 : run step (c_init P) ls = Running s (t1 ++ EStart o tok a :: t2) ->
  exists ls0 s0, run step (c_init P) ls0 = Running s0 t1 /\ JT s0 t1 /\ ~ In o (starts t1) /\
   ((exists ps es, p_start P (c_prim s0) o a = SQueued ps es /\ kind_q s o) \/
    (exists ps v es, p_start P (c_prim s0) o a = SFast ps v es /\ kind_f s o v)).
Proof. intros Hr. exact (g_start CT CTpre JT KJ JT_reliable JT_init KS ls s t1 o tok a t2 Hr I). Qed.
Lemma t_done_started ls s t1 o v t2 : run step (c_init P) ls = Running s (t1 ++ EDone o v :: t2) -> started o t1.
Proof.
  intros Hr. destruct (run_split_done _ _ _ _ _ _ _ _ Hr) as (ls1 & l & ls2 & s1 & s2 & -> & Hr1 & Hs).
  assert (Hr2 : run step (c_init P) (ls1 ++ [l]) = Running s2 (t1 ++ [EDone o v])).
  { unfold run in *. rewrite run_from_app, Hr1. simpl. now rewrite Hs. }
  assert (Hn : notified o (t1 ++ [EDone o v]) > 0) by (apply (done_notified o v); apply in_app_iff; right; now left).
  pose proof (t_started _ _ _ Hr2 o Hn) as H. unfold started in *. rewrite starts_app, in_app_iff in H. destruct H as [H|[]]. exact H.
Qed.
Lemma t_returned ls s tr : run step (c_init P) ls = Running s tr -> returnedb (starts tr) s = true -> all_returned s.
Proof. intros Hr. apply returnedb_ok. exact (proj1 (jt_inv ls s tr Hr)). Qed.
Lemma t_returned_final ls :
  (match run step (c_init P) ls with Running s tr => returnedb (starts tr) s | _ => false end) = true ->
  all_returned (state_of (c_init P) (run step (c_init P) ls)).
Proof.
  destruct (run step (c_init P) ls) as [s tr| |f tr] eqn:Hr; try discriminate. simpl. exact (t_returned ls s tr Hr).
Qed.
Lemma t_default_token ls s tr o a : run step (c_init P) ls = Running s tr -> In (EStart o None a) tr -> ~ cancel_requested o tr.
Proof. intros Hr. apply (no_token_not_cancelled s tr o a). exact (proj1 (jt_inv ls s tr Hr)). Qed.
End Reliable.

End Proofs.

(** Facts about traces *)
Section Trace.
Context {P : prim}.
Notation trace := (list (event P)).

Lemma event_after_unstarted f o (tr : trace) : ~ In o (starts tr) -> event_after f o tr = false.
Proof.
  induction tr as [|e tr IH]; simpl; auto. destruct e as [o' tok a|o' v|e|o'|x]; simpl; auto.
  intros H. destruct (Nat.eqb_spec o' o); auto. destruct H. now left.
Qed.

Lemma event_after_app f o (t1 t2 : trace) : event_after f o (t1 ++ t2) =
  event_after f o t1 || (if memb o (starts t1) then existsb f t2 else event_after f o t2).
Proof.
  induction t1 as [|e t1 IH]; simpl; auto. destruct e as [o' tok a|o' v|e|o'|x]; simpl; auto.
  rewrite Nat.eqb_sym. destruct (Nat.eqb o o'); simpl; auto. now rewrite existsb_app.
Qed.

Lemma event_after_snoc f o (t1 t2 : trace) : In o (starts t1) ->
  event_after f o (t1 ++ t2) = event_after f o t1 || existsb f t2.
Proof. intros H. rewrite event_after_app. apply memb_In in H. now rewrite H. Qed.

Lemma event_after_new f o tok a (t1 t2 : trace) : ~ In o (starts t1) ->
  event_after f o (t1 ++ EStart o tok a :: t2) = existsb f t2.
Proof.
  intros H. rewrite event_after_app, event_after_unstarted by auto.
  destruct (memb o (starts t1)) eqn:E; [apply memb_In in E; tauto|]. simpl. now rewrite Nat.eqb_refl.
Qed.

Lemma event_after_mono f o (t1 t2 : trace) : event_after f o t1 = true -> event_after f o (t1 ++ t2) = true.
Proof. intros H. rewrite event_after_app, H. reflexivity. Qed.

Lemma notified_In (tr : trace) o : notified o tr > 0 <-> exists v, In (EDone o v) tr.
Proof.
  induction tr as [|e tr IH]; simpl.
  - split; [lia|intros (? & [])].
  - destruct e as [o' tok a|o' v|e|o'|x]; simpl; try (rewrite IH; split; [intros (v & H); eauto|intros (v' & [H|H]); [discriminate|eauto]]).
    destruct (Nat.eqb_spec o' o) as [->|Hne].
    + split; [eauto|lia].
    + simpl. rewrite IH. split; [intros (v' & H); eauto|intros (v' & [H|H]); [congruence|eauto]].
Qed.

Lemma stat_inv (r : opst P) t f n d : stat P r = (t, f, n, d) -> o_tok r = t /\ o_fast r = f /\ o_node r = n /\ o_done r = d.
Proof. unfold stat. intros [= <- <- <- <-]. auto. Qed.
Lemma stat_eq (r r' : opst P) : stat P r = stat P r' -> o_tok r = o_tok r' /\ o_fast r = o_fast r' /\ o_node r = o_node r' /\ o_done r = o_done r'.
Proof. unfold stat. intros H. injection H. auto. Qed.

End Trace.

(** ** The effect of one step on the primitive, and the ways in which a node changes *)
Section Effects.
Context {P : prim}.
Variable W : laws P.
Variable eager : bool.
Variable T : tlaws P W.
Notation trace := (list (event P)).

Definition is_prim_event (e : event P) : bool := match e with EPrim _ => true | _ => false end.

Inductive prim_eff (s s' : cst P) (es : trace) : Prop :=
| pe_same : c_prim s' = c_prim s -> existsb is_prim_event es = false -> starts es = [] -> prim_eff s s' es
| pe_start_q o tok a pes : p_start P (c_prim s) o a = SQueued (c_prim s') pes -> o_l (c_op s o) = PIdle ->
    es = EStart o tok a :: map EPrim pes -> prim_eff s s' es
| pe_start_f o tok a v pes : p_start P (c_prim s) o a = SFast (c_prim s') v pes -> o_l (c_op s o) = PIdle ->
    es = EStart o tok a :: map EPrim pes -> prim_eff s s' es
| pe_try o : o_node (c_op s o) = NQueued -> p_try P (c_prim s) o = TOk (c_prim s') true ->
    o_node (c_op s' o) = NCancelled -> es = [] -> prim_eff s s' es
| pe_resume o v : p_resume P (c_prim s) o = ROk (c_prim s') v -> es = [EDone o v] -> prim_eff s s' es
| pe_step pl taken pes : p_step P (c_prim s) pl = POk (c_prim s') taken pes -> es = map EPrim pes ->
    (forall o, In o taken -> o_node (c_op s o) = NQueued) -> prim_eff s s' es.

Lemma step_prim_eff s s' es : step_eff P s s' es -> prim_eff s s' es.
Proof.
  intros He.
  destruct He as [s' o tok a pes Hl Hn Hd Hst Hss|s' o tok a v pes Hl Hn Hd Hst Hss|s' o es Hp|s' es Hcp Hss Hes|s' pl taken pes Hp Htk Hss].
  - eapply pe_start_q; eauto.
  - eapply pe_start_f; eauto.
  - destruct Hp as [s' Hcp Hss|s' e Hn Ht Hr Htry Hss|s' v Hf Hn Hd Hcp Hss|s' v Hn Hd Hr Hss].
    + now apply pe_same.
    + apply pe_try with o; auto. specialize (Hss o). rewrite Nat.eqb_refl in Hss. apply stat_eq in Hss. tauto.
    + now apply pe_same.
    + eapply pe_resume; eauto.
  - apply pe_same; auto; destruct Hes as [->|[[o ->]|[e ->]]]; auto.
  - eapply pe_step; eauto.
Qed.

Lemma taken_new s s' es o : step_eff P s s' es -> o_node (c_op s' o) = NTaken -> o_node (c_op s o) = NTaken \/
  (exists pl taken pes, p_step P (c_prim s) pl = POk (c_prim s') taken pes /\ es = map EPrim pes /\ In o taken /\ o_node (c_op s o) = NQueued).
Proof.
  intros He Hn'.
  destruct He as [s' o1 tok a pes Hl Hn Hd Hst Hss|s' o1 tok a v pes Hl Hn Hd Hst Hss|s' o1 es Hp|s' es Hcp Hss Hes|s' pl taken pes Hp Htk Hss].
  - left. specialize (Hss o). destruct (Nat.eqb o o1).
    + apply stat_inv in Hss. destruct Hss as (_ & _ & H & _). congruence.
    + apply stat_eq in Hss. destruct Hss as (_ & _ & H & _). congruence.
  - left. specialize (Hss o). destruct (Nat.eqb o o1).
    + apply stat_inv in Hss. destruct Hss as (_ & _ & H & _). congruence.
    + apply stat_eq in Hss. destruct Hss as (_ & _ & H & _). congruence.
  - left. destruct Hp as [s' Hcp Hss|s' e Hn Ht Hr Htry Hss|s' v Hf Hn Hd Hcp Hss|s' v Hn Hd Hr Hss]; specialize (Hss o);
      try (destruct (Nat.eqb_spec o o1) as [E|E]); apply stat_eq in Hss; destruct Hss as (_ & _ & H & _); simpl in H; congruence.
  - left. specialize (Hss o). apply stat_eq in Hss. destruct Hss as (_ & _ & H & _). congruence.
  - specialize (Hss o). destruct (memb o taken) eqn:Hm.
    + right. apply memb_In in Hm. exists pl, taken, pes. auto.
    + left. apply stat_eq in Hss. destruct Hss as (_ & _ & H & _). congruence.
Qed.

Lemma cancelled_new s s' es o : step_eff P s s' es -> o_node (c_op s' o) = NCancelled -> o_node (c_op s o) = NCancelled \/
  (o_node (c_op s o) = NQueued /\ p_try P (c_prim s) o = TOk (c_prim s') true).
Proof.
  intros He Hn'.
  destruct He as [s' o1 tok a pes Hl Hn Hd Hst Hss|s' o1 tok a v pes Hl Hn Hd Hst Hss|s' o1 es Hp|s' es Hcp Hss Hes|s' pl taken pes Hp Htk Hss].
  - left. specialize (Hss o). destruct (Nat.eqb o o1).
    + apply stat_inv in Hss. destruct Hss as (_ & _ & H & _). congruence.
    + apply stat_eq in Hss. destruct Hss as (_ & _ & H & _). congruence.
  - left. specialize (Hss o). destruct (Nat.eqb o o1).
    + apply stat_inv in Hss. destruct Hss as (_ & _ & H & _). congruence.
    + apply stat_eq in Hss. destruct Hss as (_ & _ & H & _). congruence.
  - destruct Hp as [s' Hcp Hss|s' e Hn Ht Hr Htry Hss|s' v Hf Hn Hd Hcp Hss|s' v Hn Hd Hr Hss]; specialize (Hss o).
    + left. apply stat_eq in Hss. destruct Hss as (_ & _ & H & _). congruence.
    + destruct (Nat.eqb_spec o o1) as [E|E]; [right; now subst|]. left. apply stat_eq in Hss. destruct Hss as (_ & _ & H & _). congruence.
    + left. destruct (Nat.eqb_spec o o1) as [E|E]; apply stat_eq in Hss; destruct Hss as (_ & _ & H & _); simpl in H; congruence.
    + left. destruct (Nat.eqb_spec o o1) as [E|E]; apply stat_eq in Hss; destruct Hss as (_ & _ & H & _); simpl in H; congruence.
  - left. specialize (Hss o). apply stat_eq in Hss. destruct Hss as (_ & _ & H & _). congruence.
  - left. specialize (Hss o). destruct (memb o taken) eqn:Hm; apply stat_eq in Hss; destruct Hss as (_ & _ & H & _); simpl in H; congruence.
Qed.

(** once taken or cancelled, a node stays that way *)
Lemma node_stays s s' es o n : step_eff P s s' es -> (n = NTaken \/ n = NCancelled) -> o_node (c_op s o) = n -> o_node (c_op s' o) = n.
Proof.
  intros He Hk Hn0. assert (HnF : o_node (c_op s o) <> NFresh) by (destruct Hk; congruence).
  assert (HnQ : o_node (c_op s o) <> NQueued) by (destruct Hk; congruence).
  destruct He as [s' o1 tok a pes Hl Hn Hd Hst Hss|s' o1 tok a v pes Hl Hn Hd Hst Hss|s' o1 es Hp|s' es Hcp Hss Hes|s' pl taken pes Hp Htk Hss].
  - specialize (Hss o). destruct (Nat.eqb_spec o o1) as [E|E]; [congruence|]. apply stat_eq in Hss. destruct Hss as (_ & _ & H & _). congruence.
  - specialize (Hss o). destruct (Nat.eqb_spec o o1) as [E|E]; [congruence|]. apply stat_eq in Hss. destruct Hss as (_ & _ & H & _). congruence.
  - destruct Hp as [s' Hcp Hss|s' e Hn Ht Hr Htry Hss|s' v Hf Hn Hd Hcp Hss|s' v Hn Hd Hr Hss]; specialize (Hss o).
    + apply stat_eq in Hss. destruct Hss as (_ & _ & H & _). congruence.
    + destruct (Nat.eqb_spec o o1) as [E|E]; [congruence|]. apply stat_eq in Hss. destruct Hss as (_ & _ & H & _). congruence.
    + destruct (Nat.eqb_spec o o1) as [E|E]; apply stat_eq in Hss; destruct Hss as (_ & _ & H & _); simpl in H; congruence.
    + destruct (Nat.eqb_spec o o1) as [E|E]; apply stat_eq in Hss; destruct Hss as (_ & _ & H & _); simpl in H; congruence.
  - specialize (Hss o). apply stat_eq in Hss. destruct Hss as (_ & _ & H & _). congruence.
  - specialize (Hss o). destruct (memb o taken) eqn:Hm; [apply memb_In in Hm; specialize (Htk _ Hm); congruence|].
    apply stat_eq in Hss; destruct Hss as (_ & _ & H & _); congruence.
Qed.

Lemma t_node_started s tr o : JT P W eager T s tr -> o_node (c_op s o) <> NFresh -> In o (starts tr).
Proof.
  intros [[HG (_ & HS & _)] _] Hn. apply HS. intros Hl. destruct (fresh_facts _ _ _ s o HG Hl) as (Hn' & _). congruence.
Qed.

(** What stands behind a report. *)
Lemma t_report ls s tr1 o v tr2 : run (step P eager) (c_init P) ls = Running s (tr1 ++ EDone o v :: tr2) ->
  exists ls1 s1, run (step P eager) (c_init P) ls1 = Running s1 tr1 /\ JT P W eager T s1 tr1 /\
   ((exists w, o_fast (c_op s1 o) = Some w /\ v = p_fast P (c_prim s1) w /\ o_node (c_op s1 o) = NFresh) \/
    (exists ps, p_resume P (c_prim s1) o = ROk ps v /\
      (o_node (c_op s1 o) = NTaken \/ (o_node (c_op s1 o) = NCancelled /\ cancel_requested o tr1)))).
Proof.
  intros Hr. destruct (run_split_done _ _ _ _ _ _ _ _ Hr) as (ls1 & l & ls2 & s1 & s2 & -> & Hr1 & Hs).
  exists ls1, s1. split; [exact Hr1|].
  pose proof (jt_inv _ _ _ T ls1 s1 tr1 Hr1) as HJT. split; [exact HJT|].
  pose proof (JT_reliable _ _ _ _ _ _ HJT) as HR. pose proof HJT as [HJ HTK]. pose proof HJ as [HG HTI].
  pose proof (step_effect _ _ _ _ _ _ _ HG HR Hs) as He.
  remember [EDone o v] as es eqn:Hes.
  destruct He as [s' o' tok a pes Hl Hn Hd Hst Hss|s' o' tok a v' pes Hl Hn Hd Hst Hss|s' o' es Hp|s' es Hcp Hss Hes'|s' pl taken pes Hp Htk Hss]; try discriminate.
  - destruct Hp as [s' Hcp Hss|s' e Hn Ht Hr' Htry Hss|s' v' Hf Hn Hd Hcp Hss|s' v' Hn Hd Hr' Hss]; try discriminate.
    + injection Hes as -> <-. left. eauto.
    + injection Hes as -> ->. right. exists (c_prim s'). split; [exact Hr'|]. destruct Hn as [Hn|Hn]; [now left|right].
      split; [exact Hn|]. destruct (cancelled_requested _ _ _ s1 o HG Hn) as (e & He1 & He2).
      eapply requested_of; eauto. apply (t_node_started s1 tr1 o HJT). congruence.
  - exfalso. destruct Hes' as [->|[[o' ->]|[e ->]]]; discriminate.
  - destruct pes as [|? [|? ?]]; discriminate.
Qed.

(** What stands behind a failure. *)
Lemma t_failure ls f tr : run (step P eager) (c_init P) ls = Failed f tr ->
  (exists ls1 s tr1 l es, run (step P eager) (c_init P) ls1 = Running s tr1 /\ tr = tr1 ++ es /\ JT P W eager T s tr1 /\
   ((exists o tok a, l = LStart o tok a /\ o_l (c_op s o) = PIdle /\ p_start P (c_prim s) o a = SFail f /\ es = [EStart o tok a]) \/
    (exists pl pes, l = LPrim pl /\ p_step P (c_prim s) pl = PFail f pes /\ es = map EPrim pes) \/
    (exists o x, l = LPath o x /\ get_pc x (c_op s o) = PResume /\ p_resume P (c_prim s) o = RFail f /\ es = [] /\
       (o_node (c_op s o) = NTaken \/ o_node (c_op s o) = NCancelled)) \/
    (exists o x, l = LPath o x /\ get_pc x (c_op s o) = PTry /\ o_node (c_op s o) = NTaken /\ p_try P (c_prim s) o = TFail f /\ es = []))) \/
  (eager = true /\ f = UseAfterFree /\ exists o, In (EDestroy o) tr /\ notified o tr = 1 /\ cancel_requested o tr).
Proof.
  intros Hr. destruct (run_from_failed _ ls _ _ _ _ Hr) as (ls1 & l & s & tr1 & es & H1 & H2 & Htr).
  pose proof (jt_inv _ _ _ T ls1 s tr1 H1) as HJT. pose proof HJT as [[HG HTI] HTK]. pose proof HTI as (HD & HS & _).
  destruct (step_fail _ _ _ _ _ _ _ HG (JT_reliable _ _ _ _ _ _ HJT) H2) as [(o & tok & a & -> & Hl & Hst & He)|[(pl & pes & -> & Hp & He)|[(o & x & -> & Hp & Hres & He)|[(o & x & -> & Hp & Hnd & Htry & He)|(He & -> & o & x & -> & Hp & Hd & Ha)]]]].
  - left. exists ls1, s, tr1, (LStart o tok a), es. repeat split; auto; try apply HJT. left. eauto 10.
  - left. exists ls1, s, tr1, (LPrim pl), es. repeat split; auto; try apply HJT. right; left. eauto 10.
  - left. exists ls1, s, tr1, (LPath o x), es. repeat split; auto; try apply HJT. right; right; left.
    exists o, x. destruct (resume_facts _ _ _ s o x HG Hp) as [_ Hn]. auto.
  - left. exists ls1, s, tr1, (LPath o x), es. repeat split; auto; try apply HJT. right; right; right. eauto 10.
  - right. split; auto. split; auto. simpl in H2. unfold path_step in H2. rewrite Hp, Ha in H2. simpl in H2. injection H2 as <-.
    exists o. rewrite Htr, app_nil_r. split; [apply (ainv _ eager ls1 s tr1 H1 o Ha)|]. split; [now rewrite HD, Hd|].
    destruct (unreg_requested _ _ _ s o x HG Hp Hd) as (e & Ht & Hreq).
    eapply requested_of; eauto. split; eauto. apply HS. intros Hl. destruct (fresh_facts _ _ _ s o HG Hl) as (_ & _ & _ & _ & Hd' & _). congruence.
Qed.

End Effects.
