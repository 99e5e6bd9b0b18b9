(** Proofs about async::wait_group, wait_in_group and oneshot_event. *)
From Coq Require Import List Arith Bool Lia.
From Verif Require Import Lts ListFacts M_Wait S_Wait P_Wait M_WaitGroup S_WaitGroup.
Import ListNotations.

Section Proofs.
Variable V : Type.
Variable n0 : nat.
Notation P := (wait_group V n0).
Notation wst := (wst V).

Definition wg_inv (s : wst) : Prop := NoDup (w_q s) /\ (w_q s <> [] -> w_ctr s > 0).


(** what a step of the primitive does *)
Lemma done_cases (s s' : wst) k taken es : done_step s k = POk s' taken es ->
  w_can s' = w_can s /\ w_in s' = w_in s /\
  exists w d d', nth_error (w_dn s) k = Some (w, d) /\ w_dn s' = set_nth (w_dn s) k (w, d') /\
   ((d = DLoad /\ d' = DLoop (w_ctr s) /\ w_ctr s' = w_ctr s /\ w_q s' = w_q s /\ taken = [] /\ es = []) \/
    (exists v, d = DLoop v /\ d' = DLoop (w_ctr s) /\ w_ctr s' = w_ctr s /\ w_q s' = w_q s /\ taken = [] /\ es = []) \/
    (exists v, d = DLoop v /\ (w, d') = after w /\ w_ctr s = S (w_ctr s') /\ es = [] /\
       ((w_ctr s' = 0 /\ w_q s' = [] /\ taken = w_q s) \/ (w_ctr s' > 0 /\ w_q s' = w_q s /\ taken = []))) \/
    (exists i v, w = Some (i, v) /\ d = DOut /\ d' = DEnd /\ w_ctr s' = w_ctr s /\ w_q s' = w_q s /\ taken = [] /\ es = [EInOut i v])).
Proof.
  unfold done_step. intros H. destruct (nth_error (w_dn s) k) as [[w d]|] eqn:Hn; [|discriminate].
  destruct d as [|v| |].
  - injection H as <- <- <-. simpl. split; [auto|split; [auto|]]. exists w, DLoad, (DLoop (w_ctr s)). auto 10.
  - destruct v as [|[|v]]; [discriminate| |].
    + destruct (w_ctr s) as [|[|c]] eqn:Hc; [discriminate| |]; injection H as <- <- <-; simpl;
        (split; [auto|split; [auto|]]); exists w, (DLoop 1), (snd (after w)); (split; [auto|split; [auto|]]); right; right; left; exists 1;
        (split; [auto|split; [auto|split; [auto|split; [auto|]]]]); [left; auto|right; split; [lia|auto]].
    + destruct (Nat.eqb_spec (w_ctr s) (S (S v))) as [Hc|Hc]; injection H as <- <- <-; simpl; (split; [auto|split; [auto|]]).
      * exists w, (DLoop (S (S v))), (snd (after w)). split; [auto|split; [auto|]]. right; right; left. exists (S (S v)).
        split; [auto|split; [auto|split; [auto|split; [auto|]]]]. right. split; [lia|auto].
      * exists w, (DLoop (S (S v))), (DLoop (w_ctr s)). split; [auto|split; [auto|]]. right; left. exists (S (S v)). auto 10.
  - destruct w as [[i v]|]; [|discriminate]. injection H as <- <- <-. simpl. split; [auto|split; [auto|]].
    exists (Some (i, v)), DOut, DEnd. split; [auto|split; [auto|]]. right; right; right. exists i, v. auto 10.
  - discriminate.
Qed.

Definition wait_group_laws : laws P.
Proof.
  refine (Laws P (fun (s : PS P) o => In o (w_q s)) wg_inv _ _ _ _ _ _).
  - simpl. split; [|auto]. split; [constructor|]. simpl. congruence.
  - intros s o a s' es (H1 & H2) Hn. simpl. unfold wg_start. destruct (w_ctr s) as [|c] eqn:Hc; [discriminate|].
    intros [= <- <-]. simpl. split; [|intros o'; apply In_snoc]. split; simpl; [now apply NoDup_snoc|intros _; lia].
  - intros s o a s' v es (H1 & H2) Hn. simpl. unfold wg_start. destruct (w_ctr s) as [|c] eqn:Hc; [|discriminate].
    intros [= <- <- <-]. split; [split; [auto|rewrite Hc; auto]|tauto].
  - intros s l s' taken es (H1 & H2). simpl.
    assert (Hkeep : forall c, c >= w_ctr s -> w_ctr s' = c -> w_q s' = w_q s -> taken = [] ->
      wg_inv s' /\ NoDup taken /\ (forall o, In o taken -> In o (w_q s)) /\ (forall o', In o' (w_q s') <-> In o' (w_q s) /\ ~ In o' taken)).
    { intros c Hc Hc' Hq ->. split; [|split; [constructor|split; [intros o []|]]].
      - split; rewrite Hq; auto. intros Hne. specialize (H2 Hne). lia.
      - intros o'. rewrite Hq. simpl. tauto. }
    destruct l as [n| |k|i|i v]; cbn [wg_step].
    + intros [= <- <- <-]. apply (Hkeep (w_ctr s + n)); auto. lia.
    + intros [= <- <- <-]. apply (Hkeep (w_ctr s)); auto.
    + intros H. destruct (done_cases _ _ _ _ _ H) as (_ & _ & w & d & d' & _ & _ & [(_ & _ & Hc & Hq & Ht & _)|[(v & _ & _ & Hc & Hq & Ht & _)|[(v & _ & _ & Hc & _ & Hcase)|(i & v & _ & _ & _ & Hc & Hq & Ht & _)]]]);
        try solve [apply (Hkeep (w_ctr s)); auto].
      destruct Hcase as [(Hc' & Hq & ->)|(Hc' & Hq & ->)].
      * split; [|split; [auto|split; [auto|]]].
        -- split; rewrite Hq; [constructor|congruence].
        -- intros o'. rewrite Hq. simpl. tauto.
      * split; [|split; [constructor|split; [intros o []|]]].
        -- split; rewrite Hq; auto.
        -- intros o'. rewrite Hq. simpl. tauto.
    + destruct (w_in s i); try discriminate. intros [= <- <- <-]. apply (Hkeep (w_ctr s + 1)); auto. lia.
    + destruct (w_in s i); try discriminate. intros [= <- <- <-]. apply (Hkeep (w_ctr s)); auto.
  - intros s o (H1 & H2) Hin. simpl in Hin. simpl. unfold wg_try.
    assert (Hc : w_ctr s > 0) by (apply H2; intros Hq; rewrite Hq in Hin; destruct Hin).
    destruct (w_ctr s) as [|c] eqn:Hcs; [lia|]. rewrite (proj2 (memb_In _ _) Hin). eexists. split; [reflexivity|]. simpl. split.
    + split; simpl; [now apply NoDup_remove1|intros _; lia].
    + intros o'. now apply In_remove1_NoDup.
  - intros s o s' v HI Hn. simpl. unfold wg_resume. intros [= <- <-]. split; [exact HI|tauto].
Defined.

Definition wait_group_tlaws : tlaws P wait_group_laws.
Proof.
  refine (TLaws P wait_group_laws (fun (s : PS P) o => ~ In o (w_q s)) _ _ _ _ _ _ _).
  - intros s l s' taken es o HI Hs Hin. destruct (l_step wait_group_laws _ _ _ _ _ HI Hs) as (_ & _ & _ & H).
    specialize (H o). simpl in H. tauto.
  - intros s l s' taken es o HI Hv Hs. destruct (l_step wait_group_laws _ _ _ _ _ HI Hs) as (_ & _ & _ & H).
    specialize (H o). simpl in H. tauto.
  - intros s o a s' es o' HI Hv Hne. simpl. unfold wg_start. destruct (w_ctr s); [discriminate|].
    intros [= <- <-]. simpl. rewrite In_snoc. tauto.
  - intros s o a s' v es o' HI Hv Hne. simpl. unfold wg_start. destruct (w_ctr s); [|discriminate].
    intros [= <- <- <-]. exact Hv.
  - intros s o s' b o' HI Hv Hne. simpl. unfold wg_try. destruct (w_ctr s); [intros [= <- <-]; exact Hv|].
    destruct (memb o (w_q s)); [|discriminate]. intros [= <- <-]. simpl. intros H. apply Hv. now apply In_remove1 in H.
  - intros s o s' v o' HI Hv. simpl. unfold wg_resume. intros [= <- <-]. exact Hv.
  - intros s o s' b HI Hv. simpl. unfold wg_try. destruct (w_ctr s); [intros [= <- <-]; auto|].
    apply memb_not_In in Hv. rewrite Hv. discriminate.
Defined.

Section Runs.
Variable eager : bool.
Notation cst := (cst P).
Notation step := (step P eager).
Notation trace := (list (event P)).
Notation JT := (JT P wait_group_laws eager wait_group_tlaws).

Lemma total_app f (t1 t2 : trace) : total f (t1 ++ t2) = total f t1 + total f t2.
Proof. unfold total. rewrite map_app. apply sum_app. Qed.
Lemma in_events_app i (t1 t2 : trace) : in_events i (t1 ++ t2) = in_events i t1 ++ in_events i t2.
Proof.
  induction t1 as [|e t1 IH]; simpl; auto. destruct e as [o tok a|o v|e|o|x]; auto. destruct x as [n| |j|j v|j v]; auto;
  rewrite IH; destruct (Nat.eqb j i); auto.
Qed.

Definition pend (d : option (nat * V) * dpc) : nat := match snd d with DLoad | DLoop _ => 1 | _ => 0 end.
Definition outd (d : option (nat * V) * dpc) : nat := match d with (Some _, DEnd) => 1 | _ => 0 end.
Definition pending (s : wst) : nat := sum (map pend (w_dn s)).

(** a moment since the start of [o] at which no units were left *)
Definition released (o : nat) (tr : trace) : Prop :=
  exists t1 tok a t2 t3, tr = t1 ++ EStart (P := P) o tok a :: t2 ++ t3 /\
    dones (t1 ++ EStart (P := P) o tok a :: t2) >= units (t1 ++ EStart (P := P) o tok a :: t2).

Lemma released_app o t1 t2 : released o t1 -> released o (t1 ++ t2).
Proof.
  intros (a & tok & x & b & c & -> & H). exists a, tok, x, b, (c ++ t2). split; auto. rewrite <- app_assoc. simpl. now rewrite <- app_assoc.
Qed.

Lemma released_now o tr : In o (starts tr) -> dones tr >= units tr -> released o tr.
Proof.
  intros Hin H. apply starts_In in Hin. destruct Hin as (tok & a & Hin). apply in_split in Hin. destruct Hin as (t1 & t2 & ->).
  exists t1, tok, a, t2, []. rewrite app_nil_r. auto.
Qed.

(** the events of a wrapped operation, from the state *)
Definition in_ok (s : wst) (tr : trace) : Prop :=
  (forall i, match w_in s i with
   | INone => in_events i tr = []
   | IRun => in_events i tr = [EInStart i]
   | IFin k => exists v d, nth_error (w_dn s) k = Some (Some (i, v), d) /\
       in_events i tr = [EInStart i; EInDone i v] ++ match d with DEnd => [EInOut i v] | _ => [] end
   end) /\
  (forall k i v d, nth_error (w_dn s) k = Some (Some (i, v), d) -> w_in s i = IFin k).

Definition acct (s : wst) (tr : trace) : Prop :=
  w_ctr s + dones tr = units tr + pending s /\
  length (w_dn s) = dones tr /\
  total outs tr = sum (map outd (w_dn s)) /\
  in_ok s tr.

(** the part of the invariant that only depends on the primitive *)
Lemma acct_same s tr es : existsb is_prim_event es = false -> acct s tr -> acct s (tr ++ es).
Proof.
  intros He. assert (H0 : total adds es = 0 /\ total calls es = 0 /\ total outs es = 0 /\ forall i, in_events i es = []).
  { induction es as [|e es IH]; [now repeat split|]. simpl in He. apply orb_false_iff in He. destruct He as [He1 He2].
    destruct (IH He2) as (Ha & Hb & Hc & Hd). destruct e; try discriminate; repeat split; auto. }
  destruct H0 as (Ha & Hb & Hc & Hd). intros (H1 & H2 & H3 & H4 & H5).
  unfold acct, dones, units in *. rewrite !total_app, Ha, Hb, Hc, !Nat.add_0_r. split; [auto|split; [auto|split; [auto|]]].
  split; [|exact H5]. intros i. specialize (H4 i). rewrite in_events_app, Hd, app_nil_r. exact H4.
Qed.

Lemma acct_queue s s' tr : w_ctr s' = w_ctr s -> w_dn s' = w_dn s -> w_in s' = w_in s -> acct s tr -> acct s' tr.
Proof. unfold acct, pending, in_ok. intros -> -> ->. auto. Qed.

Lemma sum_set_nth_eq {A} (f : A -> nat) l k x y : nth_error l k = Some y -> sum (map f (set_nth l k x)) + f y = sum (map f l) + f x.
Proof. exact (sum_map_set_nth f l k x y). Qed.

Lemma acct_step s tr l s' taken pes : acct s tr -> wg_step V s l = POk s' taken pes -> acct s' (tr ++ map EPrim (pes : list (PE P))).
Proof.
  intros (H1 & H2 & H3 & H4 & H5) Hs.
  unfold acct, dones, units in *. rewrite !total_app.
  destruct l as [n| |k|i|i v]; cbn [wg_step] in Hs.
  - injection Hs as <- <- <-. simpl. unfold pending in *. simpl. unfold total. simpl. split; [unfold total in *; lia|].
    split; [unfold total in *; lia|]. split; [unfold total in *; lia|]. split; [|exact H5].
    intros i. specialize (H4 i). rewrite in_events_app. simpl. rewrite app_nil_r. exact H4.
  - injection Hs as <- <- <-. unfold pending in *. simpl. rewrite !map_app, !sum_app, app_length. unfold total in *. simpl.
    split; [lia|]. split; [lia|]. split; [lia|]. split.
    + intros i. specialize (H4 i). simpl. rewrite in_events_app. simpl. rewrite app_nil_r. destruct (w_in s i) as [| |k]; auto.
      destruct H4 as (v & d & Hn & He). exists v, d. split; [|exact He]. rewrite nth_error_app1; auto. apply nth_error_Some. congruence.
    + intros k i v d Hn. simpl in Hn |- *. destruct (Nat.lt_ge_cases k (length (w_dn s))) as [Hk|Hk].
      * rewrite nth_error_app1 in Hn by auto. eapply H5; eauto.
      * rewrite nth_error_app2 in Hn by auto. destruct (k - length (w_dn s)) as [|[|]]; discriminate.
  - destruct (done_cases _ _ _ _ _ Hs) as (Hcan & Hin & w & d & d' & Hn & Hdn & Hcase).
    pose proof (sum_set_nth_eq pend _ _ (w, d') _ Hn) as Hp. rewrite <- Hdn in Hp. fold (pending s) (pending s') in Hp.
    pose proof (sum_set_nth_eq outd _ _ (w, d') _ Hn) as Ho. rewrite <- Hdn in Ho.
    assert (Hlen : length (w_dn s') = length (w_dn s)) by (rewrite Hdn; apply set_nth_length).
    assert (Hk : k < length (w_dn s)) by (apply nth_error_Some; congruence).
    assert (Hnew : nth_error (w_dn s') k = Some (w, d')) by (rewrite Hdn; apply (nth_error_set_nth_same _ _ _ _ Hn)).
    assert (Hold : forall j, j <> k -> nth_error (w_dn s') j = nth_error (w_dn s) j) by (intros j Hj; rewrite Hdn; apply nth_error_set_nth_other; auto).
    assert (H5' : forall k0 i v d, nth_error (w_dn s') k0 = Some (Some (i, v), d) -> w_in s' i = IFin k0).
    { intros k0 i v dd Hk0. rewrite Hin. destruct (Nat.eq_dec k0 k) as [E|E].
      - subst k0. rewrite Hnew in Hk0. injection Hk0 as -> ->. eapply H5; eauto.
      - rewrite Hold in Hk0 by auto. eapply H5; eauto. }
    assert (Hev : forall es, (match d with DEnd => True | _ => match d' with DEnd => match w with Some (i, v) => es = [EInOut i v] | None => es = [] end | _ => es = [] end end) -> d <> DEnd ->
      forall i, match w_in s' i with
       | INone => in_events i (tr ++ map EPrim (es : list (PE P))) = []
       | IRun => in_events i (tr ++ map EPrim (es : list (PE P))) = [EInStart i]
       | IFin k => exists v d, nth_error (w_dn s') k = Some (Some (i, v), d) /\
           in_events i (tr ++ map EPrim (es : list (PE P))) = [EInStart i; EInDone i v] ++ match d with DEnd => [EInOut i v] | _ => [] end
       end).
    { intros es0 Hes Hd i. specialize (H4 i). rewrite Hin, in_events_app.
      assert (Hes' : es0 = [] \/ exists i v, w = Some (i, v) /\ d' = DEnd /\ es0 = [EInOut i v]).
      { destruct d; try congruence; destruct d'; auto; destruct w as [[i0 v0]|]; eauto 10. }
      assert (Hoth : forall i0 v0, w = Some (i0, v0) -> i0 <> i -> in_events i (map EPrim (es0 : list (PE P))) = []).
      { intros i0 v0 Hw Hne. destruct Hes' as [->|(i1 & v1 & Hw1 & _ & ->)]; auto. simpl. rewrite Hw in Hw1. injection Hw1 as <- <-.
        destruct (Nat.eqb_spec i0 i); [congruence|reflexivity]. }
      assert (HwN : w = None -> in_events i (map EPrim (es0 : list (PE P))) = []).
      { intros Hw. destruct Hes' as [->|(i1 & v1 & Hw1 & _)]; auto. congruence. }
      destruct (w_in s i) as [| |k0] eqn:Hi.
      - destruct w as [[i0 v0]|]; [|rewrite HwN, app_nil_r by auto; exact H4].
        rewrite (Hoth i0 v0), app_nil_r; auto. intros ->. rewrite (H5 _ _ _ _ Hn) in Hi. discriminate.
      - destruct w as [[i0 v0]|]; [|rewrite HwN, app_nil_r by auto; exact H4].
        rewrite (Hoth i0 v0), app_nil_r; auto. intros ->. rewrite (H5 _ _ _ _ Hn) in Hi. discriminate.
      - destruct H4 as (v0 & d0 & Hn0 & He0). destruct (Nat.eq_dec k0 k) as [E|E].
        + subst k0. rewrite Hn in Hn0. injection Hn0 as -> ->. exists v0, d'. split; [exact Hnew|].
          rewrite He0. destruct d0; try congruence; destruct d'; rewrite Hes; simpl; rewrite ?Nat.eqb_refl; auto.
        + exists v0, d0. split; [rewrite Hold; auto|]. rewrite He0.
          assert (Hz : in_events i (map EPrim (es0 : list (PE P))) = []).
          { destruct w as [[i1 v1]|]; auto. apply (Hoth i1 v1); auto. intros ->. rewrite (H5 _ _ _ _ Hn) in Hi. congruence. }
          rewrite Hz, app_nil_r. reflexivity. }
    unfold pend in Hp; simpl in Hp. unfold outd in Ho; fold outd in Ho.
    destruct Hcase as [(-> & -> & Hc & Hq & -> & ->)|[(v & -> & -> & Hc & Hq & -> & ->)|[(v & -> & Ha & Hc & -> & _)|(i & v & -> & -> & -> & Hc & Hq & -> & ->)]]].
    + unfold total; simpl. simpl in Hp, Ho. split; [unfold total in *; lia|split; [unfold total in *; lia|split; [destruct w as [[]|]; unfold total in *; lia|split; [apply (Hev []); [auto|discriminate]|exact H5']]]].
    + unfold total; simpl. simpl in Hp, Ho. split; [unfold total in *; lia|split; [unfold total in *; lia|split; [destruct w as [[]|]; unfold total in *; lia|split; [apply (Hev []); [auto|discriminate]|exact H5']]]].
    + unfold after in Ha. unfold total; simpl. destruct w as [[i w]|]; injection Ha as ->; simpl in Hp, Ho;
      (split; [unfold total in *; lia|split; [unfold total in *; lia|split; [unfold total in *; lia|split; [apply (Hev []); [auto|discriminate]|exact H5']]]]).
    + unfold total; simpl. simpl in Hp, Ho. split; [unfold total in *; lia|split; [unfold total in *; lia|split; [unfold total in *; lia|split; [apply (Hev [EInOut i v]); [auto|discriminate]|exact H5']]]].
  - destruct (w_in s i) as [| |k] eqn:Hi; try discriminate. injection Hs as <- <- <-. simpl. unfold pending in *. simpl. unfold total in *. simpl.
    split; [lia|]. split; [lia|]. split; [lia|]. split; simpl.
    + intros j. specialize (H4 j). unfold upd. rewrite in_events_app. simpl. rewrite app_nil_r, (Nat.eqb_sym j i). destruct (Nat.eqb_spec i j) as [E|E].
      * subst j. rewrite Hi in H4. rewrite H4. reflexivity.
      * rewrite app_nil_r. exact H4.
    + intros k0 j v d Hk. unfold upd. destruct (Nat.eqb_spec j i) as [E|E]; [|eapply H5; eauto].
      subst j. rewrite (H5 _ _ _ _ Hk) in Hi. discriminate.
  - destruct (w_in s i) as [| |k] eqn:Hi; try discriminate. injection Hs as <- <- <-. unfold pending in *. simpl.
    rewrite !map_app, !sum_app, app_length. unfold total in *. simpl.
    split; [lia|]. split; [lia|]. split; [lia|]. split; simpl.
    + intros j. specialize (H4 j). unfold upd. rewrite in_events_app. simpl. rewrite app_nil_r, (Nat.eqb_sym j i). destruct (Nat.eqb_spec i j) as [E|E].
      * subst j. rewrite Hi in H4. exists v, DLoad. split; [|rewrite H4; reflexivity]. rewrite nth_error_app2, Nat.sub_diag by auto. reflexivity.
      * rewrite app_nil_r. destruct (w_in s j) as [| |k]; auto.
        destruct H4 as (v0 & d & Hn & He). exists v0, d. split; [|exact He]. rewrite nth_error_app1; auto. apply nth_error_Some. congruence.
    + intros k0 j v0 d Hk. destruct (Nat.lt_ge_cases k0 (length (w_dn s))) as [Hlt|Hge].
      * rewrite nth_error_app1 in Hk by auto. unfold upd. destruct (Nat.eqb_spec j i) as [E|E]; [|eapply H5; eauto].
        subst j. rewrite (H5 _ _ _ _ Hk) in Hi. discriminate.
      * rewrite nth_error_app2 in Hk by auto. destruct (k0 - length (w_dn s)) as [|m] eqn:Hm; [|destruct m; discriminate].
        simpl in Hk. injection Hk as <- <- <-. rewrite upd_same. f_equal. lia.
Qed.

Definition WInv (s : cst) (tr : trace) : Prop :=
  JT s tr /\ acct (c_prim s) tr /\
  (forall o, w_can (c_prim s) o = true <-> o_node (c_op s o) = NCancelled) /\
  (forall o, o_node (c_op s o) = NTaken -> released o tr).

Lemma WInv_init : WInv (c_init P) [].
Proof.
  split; [apply JT_init|]. split; [|split].
  - unfold acct, dones, units, pending, total. simpl. repeat split; auto. intros [|k] i v d; discriminate.
  - simpl. intuition discriminate.
  - simpl. discriminate.
Qed.

Lemma wg_step_can s l s' taken pes : wg_step V s l = POk s' taken pes -> w_can s' = w_can s.
Proof.
  destruct l as [n| |k|i|i v]; cbn [wg_step]; try (intros [= <- _ _]; reflexivity).
  - intros H. now destruct (done_cases _ _ _ _ _ H) as (Hcan & _).
  - destruct (w_in s i); try discriminate. intros [= <- _ _]. reflexivity.
  - destruct (w_in s i); try discriminate. intros [= <- _ _]. reflexivity.
Qed.

Lemma WInv_step s tr l s' es : WInv s tr -> step s l = Next s' es -> WInv s' (tr ++ es).
Proof.
  intros (HJT & HA & HC & HT) Hs.
  pose proof (JT_step _ _ _ _ _ _ _ _ _ HJT Hs) as HJT'.
  pose proof (JT_reliable _ _ _ _ _ _ HJT) as HR. pose proof HJT as [[HG HTI] HTK].
  pose proof (step_effect _ _ _ _ _ _ _ HG HR Hs) as He.
  assert (HA' : acct (c_prim s') (tr ++ es)).
  { destruct (step_prim_eff _ _ _ He) as [Hp Hes _|o tok a pes Hp _ ->|o tok a v pes Hp _ ->|o _ Hp _ ->|o v Hp ->|pl taken pes Hp -> _].
    - rewrite Hp. now apply acct_same.
    - simpl in Hp. unfold wg_start in Hp. destruct (w_ctr (c_prim s)) eqn:Hc; [discriminate|]. injection Hp as Hp <-.
      apply acct_same; [reflexivity|]. apply (acct_queue (c_prim s)); auto; rewrite <- Hp; auto.
    - simpl in Hp. unfold wg_start in Hp. destruct (w_ctr (c_prim s)) eqn:Hc; [|discriminate]. injection Hp as Hp _ <-.
      apply acct_same; [reflexivity|]. now rewrite <- Hp.
    - simpl in Hp. unfold wg_try in Hp. destruct (w_ctr (c_prim s)) eqn:Hc; [discriminate|].
      destruct (memb o (w_q (c_prim s))); [|discriminate]. injection Hp as Hp.
      apply acct_same; [reflexivity|]. apply (acct_queue (c_prim s)); auto; rewrite <- Hp; auto.
    - simpl in Hp. unfold wg_resume in Hp. injection Hp as Hp _. apply acct_same; [reflexivity|]. now rewrite <- Hp.
    - exact (acct_step (c_prim s) tr pl (c_prim s') taken pes HA Hp). }
  split; [exact HJT'|]. split; [exact HA'|]. split.
  - intros o. split.
    + intros Hw. destruct (w_can (c_prim s) o) eqn:Hold.
      * apply (node_stays s s' es o NCancelled He); auto. now apply HC.
      * destruct (step_prim_eff _ _ _ He) as [Hp Hes _|o1 tok a pes Hp _ _|o1 tok a v pes Hp _ _|o1 Hn1 Hp Hn1' _|o1 v Hp _|pl taken pes Hp _ _].
        -- congruence.
        -- simpl in Hp. unfold wg_start in Hp. destruct (w_ctr (c_prim s)); [discriminate|]. injection Hp as Hp _. rewrite <- Hp in Hw. simpl in Hw. congruence.
        -- simpl in Hp. unfold wg_start in Hp. destruct (w_ctr (c_prim s)); [|discriminate]. injection Hp as Hp _ _. congruence.
        -- simpl in Hp. unfold wg_try in Hp. destruct (w_ctr (c_prim s)); [discriminate|].
           destruct (memb o1 (w_q (c_prim s))); [|discriminate]. injection Hp as Hp. rewrite <- Hp in Hw. simpl in Hw.
           unfold upd in Hw. destruct (Nat.eqb_spec o o1) as [->|]; auto. congruence.
        -- simpl in Hp. unfold wg_resume in Hp. injection Hp as Hp _. congruence.
        -- simpl in Hp. apply wg_step_can in Hp. congruence.
    + intros Hn. destruct (cancelled_new _ _ _ _ He Hn) as [Hn0|[Hn0 Hp]].
      * apply HC in Hn0.
        destruct (step_prim_eff _ _ _ He) as [Hp Hes _|o1 tok a pes Hp _ _|o1 tok a v pes Hp _ _|o1 Hn1 Hp Hn1' _|o1 v Hp _|pl taken pes Hp _ _].
        -- congruence.
        -- simpl in Hp. unfold wg_start in Hp. destruct (w_ctr (c_prim s)); [discriminate|]. injection Hp as Hp _. rewrite <- Hp. exact Hn0.
        -- simpl in Hp. unfold wg_start in Hp. destruct (w_ctr (c_prim s)); [|discriminate]. injection Hp as Hp _ _. congruence.
        -- simpl in Hp. unfold wg_try in Hp. destruct (w_ctr (c_prim s)); [discriminate|].
           destruct (memb o1 (w_q (c_prim s))); [|discriminate]. injection Hp as Hp. rewrite <- Hp. simpl.
           unfold upd. destruct (Nat.eqb o o1); auto.
        -- simpl in Hp. unfold wg_resume in Hp. injection Hp as Hp _. congruence.
        -- simpl in Hp. apply wg_step_can in Hp. congruence.
      * simpl in Hp. unfold wg_try in Hp. destruct (w_ctr (c_prim s)); [discriminate|].
        destruct (memb o (w_q (c_prim s))); [|discriminate]. injection Hp as Hp. rewrite <- Hp. simpl. apply upd_same.
  - intros o Hn. destruct (taken_new _ _ _ _ He Hn) as [Hn0|(pl & taken & pes & Hp & Hes & Hin & Hq)].
    + apply released_app. auto.
    + assert (Hst : In o (starts tr)) by (apply (t_node_started _ _ _ s tr o HJT); congruence).
      apply released_now; [rewrite starts_app, in_app_iff; auto|].
      assert (Hz : w_ctr (c_prim s') = 0).
      { simpl in Hp. destruct pl as [n| |k|i|i v]; cbn [wg_step] in Hp.
        - injection Hp as _ <- _. destruct Hin.
        - injection Hp as _ <- _. destruct Hin.
        - destruct (done_cases _ _ _ _ _ Hp) as (_ & _ & w & d & d' & _ & _ & [(_ & _ & _ & _ & Ht & _)|[(v & _ & _ & _ & _ & Ht & _)|[(v & _ & _ & Hc & _ & Hcase)|(i & v & _ & _ & _ & _ & _ & Ht & _)]]]);
            try (rewrite Ht in Hin; destruct Hin).
          destruct Hcase as [(Hc' & _)|(_ & _ & Ht)]; [exact Hc'|rewrite Ht in Hin; destruct Hin].
        - destruct (w_in (c_prim s) i); try discriminate. injection Hp as _ <- _. destruct Hin.
        - destruct (w_in (c_prim s) i); try discriminate. injection Hp as _ <- _. destruct Hin. }
      destruct HA' as (H1 & _). rewrite Hz in H1. lia.
Qed.

Lemma wg_inv_run ls s tr : run step (c_init P) ls = Running s tr -> WInv s tr.
Proof. exact (run_inv step WInv (c_init P) WInv_init WInv_step ls s tr). Qed.

Lemma ev_starts_nodup ls s tr : run step (c_init P) ls = Running s tr -> NoDup (starts tr).
Proof. intros Hr. destruct (wg_inv_run ls s tr Hr) as ([[_ (_ & _ & HN & _)] _] & _). exact HN. Qed.

Lemma split_unique (t1 t2 t1' t2' : trace) o tok a tok' a' : NoDup (starts (t1 ++ EStart o tok a :: t2)) ->
  t1 ++ EStart o tok a :: t2 = t1' ++ EStart o tok' a' :: t2' -> t1 = t1' /\ t2 = t2'.
Proof.
  revert t1'. induction t1 as [|e t1 IH]; intros t1' HN He; destruct t1' as [|e' t1']; simpl in He; injection He as He1 He2.
  - auto.
  - exfalso. subst e' t2. simpl in HN. apply NoDup_cons_iff in HN. destruct HN as [HN _]. apply HN.
    rewrite starts_app, in_app_iff. right. now left.
  - exfalso. subst e t2'. simpl in HN. apply NoDup_cons_iff in HN. destruct HN as [HN _]. apply HN.
    rewrite starts_app, in_app_iff. right. now left.
  - subst e'. destruct (IH t1') as [-> ->]; auto. destruct e; simpl in HN; auto. now apply NoDup_cons_iff in HN.
Qed.

(** ** Reports *)
Lemma wg_true ls s t1 o tok a t2 t3 :
  run step (c_init P) ls = Running s (t1 ++ EStart (P := P) o tok a :: t2 ++ EDone (P := P) o true :: t3) ->
  exists ta tb, t2 = ta ++ tb /\ dones (t1 ++ EStart (P := P) o tok a :: ta) >= units (t1 ++ EStart (P := P) o tok a :: ta).
Proof.
  intros Hr.
  assert (Hr' : run step (c_init P) ls = Running s ((t1 ++ EStart (P:=P) o tok a :: t2) ++ EDone (P:=P) o true :: t3)) by (rewrite <- app_assoc; exact Hr).
  destruct (t_report _ _ wait_group_tlaws _ _ _ _ _ _ Hr') as (ls1 & s1 & Hr1 & HJT & Hcase).
  pose proof (wg_inv_run ls1 s1 _ Hr1) as (_ & HA & HC & HT).
  destruct Hcase as [(w & Hf & Hv & Hn)|(ps & Hres & [Hn|[Hn _]])].
  - exists [], t2. split; [reflexivity|].
    destruct (t_start_event _ _ _ wait_group_tlaws _ _ _ _ _ _ _ Hr1) as (ls0 & s0 & Hr0 & _ & Hni & Hk).
    destruct Hk as [(ps & es & Hst & Hk)|(ps & w' & es & Hst & Hk)]; [unfold kind_q in Hk; congruence|].
    simpl in Hst. unfold wg_start in Hst. destruct (w_ctr (c_prim s0)) eqn:Hc; [|discriminate].
    pose proof (wg_inv_run ls0 s0 _ Hr0) as (_ & (H1 & _) & _). rewrite Hc in H1.
    unfold dones, units in *. rewrite !total_app. unfold total in *. simpl. lia.
  - destruct (HT o Hn) as (t1' & tok' & a' & ta & tb & He & Hd).
    destruct (split_unique t1 t2 t1' (ta ++ tb) o tok a tok' a') as [<- ->].
    { exact (ev_starts_nodup _ _ _ Hr1). }
    { exact He. }
    exists ta, tb. split; [reflexivity|].
    replace a with a' by (destruct a, a'; reflexivity). replace tok with tok'; [exact Hd|].
    apply app_inv_head in He. congruence.
  - simpl in Hres. unfold wg_resume in Hres. injection Hres as _ Hv. apply HC in Hn. rewrite Hn in Hv. discriminate.
Qed.

Lemma wg_false ls s t1 o t2 : run step (c_init P) ls = Running s (t1 ++ EDone (P := P) o false :: t2) -> cancel_requested o t1.
Proof.
  intros Hr. destruct (t_report _ _ wait_group_tlaws _ _ _ _ _ _ Hr) as (ls1 & s1 & Hr1 & HJT & Hcase).
  pose proof (wg_inv_run ls1 s1 _ Hr1) as (_ & HA & HC & HT).
  destruct Hcase as [(w & Hf & Hv & Hn)|(ps & Hres & [Hn|[_ H]])]; auto; exfalso.
  - simpl in Hv. subst w. apply starts_In in HJT || idtac.
    assert (Hst : started o t1) by (apply (t_done_started _ _ _ wait_group_tlaws _ _ _ _ _ _ Hr)).
    apply starts_In in Hst. destruct Hst as (tok & a & Hst). apply in_split in Hst. destruct Hst as (ta & tb & ->).
    destruct (t_start_event _ _ _ wait_group_tlaws _ _ _ _ _ _ _ Hr1) as (ls0 & s0 & Hr0 & _ & Hni & Hk).
    destruct Hk as [(ps & es & Hst & Hk)|(ps & w' & es & Hst & Hk)]; [unfold kind_q in Hk; congruence|].
    simpl in Hst. unfold wg_start in Hst. destruct (w_ctr (c_prim s0)) eqn:Hc; [|discriminate].
    injection Hst as _ <- _. unfold kind_f in Hk. congruence.
  - simpl in Hres. unfold wg_resume in Hres. injection Hres as _ Hv.
    destruct (w_can (c_prim s1) o) eqn:Hcan; [|discriminate]. apply HC in Hcan. congruence.
Qed.

Lemma cancel_requested_mono o (t1 t2 : trace) : cancel_requested o t1 -> cancel_requested o (t1 ++ t2).
Proof. intros (e & (a & H1) & H2). exists e. split; [exists a|]; apply in_app_iff; auto. Qed.

Lemma wg_default_token ls s tr o a v : run step (c_init P) ls = Running s tr ->
  In (EStart (P := P) o None a) tr -> In (EDone (P := P) o v) tr -> v = true.
Proof.
  intros Hr Hs Hd. destruct v; auto. exfalso. apply in_split in Hd. destruct Hd as (t1 & t2 & ->).
  apply (t_default_token _ _ _ wait_group_tlaws _ _ _ _ _ Hr Hs). apply cancel_requested_mono. eapply wg_false; eauto.
Qed.

(** ** Quiescence *)
Lemma pending_zero (s : cst) : done_returned s -> pending (c_prim s) = 0.
Proof. intros H. unfold pending. apply sum_map_0. intros [w d] Hin. specialize (H _ Hin). simpl in H. subst d. reflexivity. Qed.

Lemma zero_empty s tr : WInv s tr -> done_returned s -> dones tr >= units tr -> w_ctr (c_prim s) = 0 /\ w_q (c_prim s) = [].
Proof.
  intros (HJT & (H1 & _) & _) Hd Hu. rewrite (pending_zero s Hd) in H1.
  assert (Hc : w_ctr (c_prim s) = 0) by lia. split; auto.
  destruct HJT as [[(_ & _ & ((_ & HI2) & _) & _) _] _]. destruct (w_q (c_prim s)); auto. specialize (HI2 ltac:(discriminate)). lia.
Qed.

Lemma not_queued_stable ls : forall s tr s' tr' o, WInv s tr -> In o (starts tr) -> o_node (c_op s o) <> NQueued ->
  run_from step s tr ls = Running s' tr' -> WInv s' tr' /\ In o (starts tr') /\ o_node (c_op s' o) <> NQueued.
Proof.
  induction ls as [|l ls IH]; intros s tr s' tr' o HI Hst Hn Hr; simpl in Hr.
  - injection Hr as <- <-. auto.
  - destruct (step s l) as [s1 es| |f es] eqn:Hs; try discriminate.
    pose proof (WInv_step _ _ _ _ _ HI Hs) as HI1.
    apply (IH s1 (tr ++ es)); auto; [rewrite starts_app, in_app_iff; auto|].
    destruct HI as (HJT & _). pose proof (JT_reliable _ _ _ _ _ _ HJT) as HR. pose proof HJT as [[HG (_ & HS & _)] _].
    pose proof (step_effect _ _ _ _ _ _ _ HG HR Hs) as He. apply HS in Hst.
    destruct He as [s1 o1 tok a pes Hl Hn1 Hd Hst' Hss|s1 o1 tok a v pes Hl Hn1 Hd Hst' Hss|s1 o1 es Hp|s1 es Hcp Hss Hes|s1 pl taken pes Hp Htk Hss].
    + specialize (Hss o). destruct (Nat.eqb_spec o o1) as [E|E]; [congruence|]. apply stat_eq in Hss. destruct Hss as (_ & _ & H & _). congruence.
    + specialize (Hss o). destruct (Nat.eqb_spec o o1) as [E|E]; [congruence|]. apply stat_eq in Hss. destruct Hss as (_ & _ & H & _). congruence.
    + destruct Hp as [s1 Hcp Hss|s1 e Hn1 Ht Hr' Htry Hss|s1 v Hf Hn1 Hd Hcp Hss|s1 v Hn1 Hd Hr' Hss]; specialize (Hss o);
        try (destruct (Nat.eqb_spec o o1) as [E|E]); apply stat_eq in Hss; destruct Hss as (_ & _ & H & _); simpl in H; congruence.
    + specialize (Hss o). apply stat_eq in Hss. destruct Hss as (_ & _ & H & _). congruence.
    + specialize (Hss o). destruct (memb o taken); apply stat_eq in Hss; destruct Hss as (_ & _ & H & _); simpl in H; congruence.
Qed.

Lemma wg_woken ls1 s1 tr1 ls2 s2 tr2 o : run step (c_init P) ls1 = Running s1 tr1 -> done_returned s1 -> dones tr1 >= units tr1 ->
  run step (c_init P) (ls1 ++ ls2) = Running s2 tr2 -> all_returned s2 -> started o tr1 -> notified o tr2 = 1.
Proof.
  intros Hr1 Hd Hu Hr2 Hret Hst. unfold run in Hr2. rewrite run_from_app in Hr2. fold (run step (c_init P) ls1) in Hr2. rewrite Hr1 in Hr2.
  pose proof (wg_inv_run ls1 s1 tr1 Hr1) as HI. destruct (zero_empty _ _ HI Hd Hu) as [_ Hq].
  assert (Hn : o_node (c_op s1 o) <> NQueued).
  { intros Hn. destruct HI as ([[(_ & _ & (_ & HQ) & _) _] _] & _). apply HQ in Hn. simpl in Hn. rewrite Hq in Hn. destruct Hn. }
  destruct (not_queued_stable ls2 s1 tr1 s2 tr2 o HI Hst Hn Hr2) as ((HJT & _) & Hst2 & Hn2).
  destruct HJT as [[HG (HD & HS & _)] _].
  destruct (quiescent _ _ _ s2 o HG Hret (proj2 (HS o) Hst2)) as [Hdn|(Hqd & _)]; [now rewrite HD, Hdn|contradiction].
Qed.

Lemma wg_pending ls s tr o : run step (c_init P) ls = Running s tr -> all_returned s -> started o tr ->
  notified o tr = 1 \/ (w_ctr (c_prim s) > 0 /\ ~ cancel_requested o tr).
Proof.
  intros Hr Hret Hst. pose proof (wg_inv_run ls s tr Hr) as (HJT & _). pose proof HJT as [[HG HTI] _]. pose proof HTI as (HD & HS & _).
  destruct (quiescent _ _ _ s o HG Hret (proj2 (HS o) Hst)) as [Hd|(Hq & _ & Hnr)].
  - left. now rewrite HD, Hd.
  - right. pose proof HG as (_ & _ & ((_ & HI2) & HQ) & _). apply HQ in Hq. simpl in Hq. split.
    + apply HI2. intros He. rewrite He in Hq. destruct Hq.
    + intros Hcr. destruct (requested_iff _ _ _ _ _ _ (conj HG HTI) Hcr) as (e & He1 & He2). rewrite (Hnr e He1) in He2. discriminate.
Qed.

(** a unit is left for every pending wait *)
Lemma wg_pending_units ls s tr o : run step (c_init P) ls = Running s tr -> all_returned s -> done_returned s -> started o tr ->
  notified o tr = 1 \/ (dones tr < units tr /\ ~ cancel_requested o tr).
Proof.
  intros Hr Hret Hd Hst. destruct (wg_pending ls s tr o Hr Hret Hst) as [H|[Hc H]]; auto. right. split; auto.
  pose proof (wg_inv_run ls s tr Hr) as (_ & (H1 & _) & _). rewrite (pending_zero s Hd) in H1. lia.
Qed.

(** ** Failures, under the client rules *)
Lemma rule_pre (t1 t2 : trace) : wg_rule (t1 ++ t2) -> wg_rule t1.
Proof. intros H a b ->. apply (H a (b ++ t2)). now rewrite app_assoc. Qed.
Lemma reuse_pre (t1 t2 : trace) : reuse_rule (t1 ++ t2) -> reuse_rule t1.
Proof. intros H a e b ->. apply (H a e (b ++ t2)). rewrite <- app_assoc. reflexivity. Qed.

Lemma rule_total (tr : trace) : wg_rule tr -> dones tr <= units tr.
Proof. intros H. apply (H tr []). now rewrite app_nil_r. Qed.

Definition loops_ok (s : wst) : Prop := forall w v, In (w, DLoop v) (w_dn s) -> v > 0.
Definition LInv (s : cst) (tr : trace) : Prop := WInv s tr /\ loops_ok (c_prim s).

Lemma sum_pos {A} (f : A -> nat) l x : In x l -> f x > 0 -> sum (map f l) > 0.
Proof. intros H1 H2. pose proof (sum_map_le f l x H1). lia. Qed.

Lemma rule_ctr s tr w d : WInv s tr -> wg_rule tr -> In (w, d) (w_dn (c_prim s)) -> pend (w, d) > 0 -> w_ctr (c_prim s) > 0.
Proof.
  intros (_ & (H1 & _) & _) HC Hin Hp. pose proof (rule_total tr HC). pose proof (sum_pos pend _ _ Hin Hp). unfold pending in H1. lia.
Qed.

Lemma LInv_step s tr l s' es : LInv s tr -> step s l = Next s' es -> wg_rule (tr ++ es) -> LInv s' (tr ++ es).
Proof.
  intros [HW HL] Hs HC. split; [eapply WInv_step; eauto|].
  assert (HC0 : wg_rule tr) by (eapply rule_pre; eauto).
  pose proof HW as (HJT & _). pose proof (JT_reliable _ _ _ _ _ _ HJT) as HR. pose proof HJT as [[HG HTI] HTK].
  pose proof (step_effect _ _ _ _ _ _ _ HG HR Hs) as He.
  destruct (step_prim_eff _ _ _ He) as [Hp Hes _|o tok a pes Hp _ ->|o tok a v pes Hp _ ->|o _ Hp _ ->|o v Hp ->|pl taken pes Hp -> _].
  - now rewrite Hp.
  - simpl in Hp. unfold wg_start in Hp. destruct (w_ctr (c_prim s)) eqn:Hc; [discriminate|]. injection Hp as Hp <-. rewrite <- Hp. exact HL.
  - simpl in Hp. unfold wg_start in Hp. destruct (w_ctr (c_prim s)) eqn:Hc; [|discriminate]. injection Hp as Hp _ <-. now rewrite <- Hp.
  - simpl in Hp. unfold wg_try in Hp. destruct (w_ctr (c_prim s)) eqn:Hc; [discriminate|].
    destruct (memb o (w_q (c_prim s))); [|discriminate]. injection Hp as Hp. rewrite <- Hp. exact HL.
  - simpl in Hp. unfold wg_resume in Hp. injection Hp as Hp _. now rewrite <- Hp.
  - simpl in Hp. destruct pl as [n| |k|i|i v]; cbn [wg_step] in Hp.
    + injection Hp as Hp _ _. rewrite <- Hp. exact HL.
    + injection Hp as Hp _ _. rewrite <- Hp. intros w v Hin. simpl in Hin. apply in_app_iff in Hin. destruct Hin as [Hin|[Hin|[]]]; [eapply HL; eauto|discriminate].
    + destruct (done_cases _ _ _ _ _ Hp) as (_ & _ & w & d & d' & Hn & Hdn & Hcase).
      intros w' v' Hin. rewrite Hdn in Hin. apply In_set_nth in Hin. destruct Hin as [Hin|Hin]; [|eapply HL; eauto].
      injection Hin as -> Hd'. subst d'. apply nth_error_In in Hn.
      destruct Hcase as [(-> & Hd & _)|[(v & -> & Hd & _)|[(v & -> & Ha & _)|(i & v & _ & _ & Hd & _)]]].
      * injection Hd as ->. eapply rule_ctr; eauto.
      * injection Hd as ->. eapply rule_ctr; eauto.
      * destruct w; discriminate.
      * discriminate.
    + destruct (w_in (c_prim s) i); try discriminate. injection Hp as Hp _ _. rewrite <- Hp. exact HL.
    + destruct (w_in (c_prim s) i); try discriminate. injection Hp as Hp _ _. rewrite <- Hp.
      intros w v' Hin. simpl in Hin. apply in_app_iff in Hin. destruct Hin as [Hin|[Hin|[]]]; [eapply HL; eauto|discriminate].
Qed.

Lemma LInv_init : LInv (c_init P) [].
Proof. split; [apply WInv_init|]. intros w v []. Qed.

Lemma linv_run ls s tr : run step (c_init P) ls = Running s tr -> wg_rule tr -> LInv s tr.
Proof. exact (run_inv_client step wg_rule LInv (c_init P) rule_pre LInv_init LInv_step ls s tr). Qed.

Lemma wg_fail ls f tr : run step (c_init P) ls = Failed f tr -> wg_rule tr ->
  (f = BadUnlink /\ exists s o x,
     LInv s tr /\ get_pc x (c_op s o) = PTry /\ o_node (c_op s o) = NTaken /\ w_ctr (c_prim s) > 0 /\
     exists ls1, run step (c_init P) ls1 = Running s tr) \/
  (eager = true /\ f = UseAfterFree /\ exists o, In (EDestroy o) tr /\ notified o tr = 1 /\ cancel_requested o tr).
Proof.
  intros Hr HC. destruct (run_from_failed _ ls _ _ _ _ Hr) as (ls1 & l & s & tr1 & es & H1 & H2 & Htr).
  assert (HC1 : wg_rule tr1) by (rewrite Htr in HC; eapply rule_pre; eauto).
  pose proof (linv_run ls1 s tr1 H1 HC1) as HL. pose proof HL as [HW HL']. pose proof HW as (HJT & _).
  pose proof HJT as [[HG HTI] HTK]. pose proof HTI as (HD & HS & _).
  destruct (step_fail _ _ _ _ _ _ _ HG (JT_reliable _ _ _ _ _ _ HJT) H2) as [(o & tok & a & -> & Hl & Hst & He)|[(pl & pes & -> & Hp & He)|[(o & x & -> & Hp & Hres & He)|[(o & x & -> & Hp & Hnd & Htry & He)|(He & -> & o & x & -> & Hp & Hd & Ha)]]]].
  - simpl in Hst. unfold wg_start in Hst. destruct (w_ctr (c_prim s)); discriminate.
  - exfalso. simpl in Hp. destruct pl as [n| |k|i|i v]; cbn [wg_step] in Hp; try discriminate.
    + unfold done_step in Hp. destruct (nth_error (w_dn (c_prim s)) k) as [[w d]|] eqn:Hn; [|discriminate].
      apply nth_error_In in Hn. destruct d as [|[|[|v]]| |]; try discriminate.
      * specialize (HL' _ _ Hn). lia.
      * pose proof (rule_ctr s tr1 _ _ HW HC1 Hn (le_n 1)). destruct (w_ctr (c_prim s)) as [|[|]]; try discriminate. lia.
      * destruct (Nat.eqb (w_ctr (c_prim s)) (S (S v))); discriminate.
      * destruct w as [[]|]; discriminate.
    + destruct (w_in (c_prim s) i); discriminate.
    + destruct (w_in (c_prim s) i); discriminate.
  - discriminate.
  - left. subst es. rewrite app_nil_r in Htr. subst tr1. simpl in Htry. unfold wg_try in Htry.
    destruct (w_ctr (c_prim s)) as [|c] eqn:Hc; [discriminate|]. destruct (memb o (w_q (c_prim s))); [discriminate|]. injection Htry as <-.
    split; auto. exists s, o, x. split; auto. split; auto. split; auto. split; [lia|]. eauto.
  - right. split; auto. split; auto. simpl in H2. unfold path_step in H2. rewrite Hp, Ha in H2. simpl in H2. injection H2 as <-.
    exists o. rewrite Htr, app_nil_r. split; [apply (ainv _ eager ls1 s tr1 H1 o Ha)|]. split; [now rewrite HD, Hd|].
    destruct (unreg_requested _ _ _ s o x HG Hp Hd) as (e & Ht & Hreq).
    eapply requested_of; eauto. split; eauto. apply HS. intros Hl. destruct (fresh_facts _ _ _ s o HG Hl) as (_ & _ & _ & _ & Hd' & _). congruence.
Qed.

(** *** with the re-use rule *)
Definition UInv (s : cst) (tr : trace) : Prop :=
  LInv s tr /\ forall o, o_node (c_op s o) = NTaken -> o_done (c_op s o) = false -> w_ctr (c_prim s) = 0.

Lemma UInv_step s tr l s' es : UInv s tr -> step s l = Next s' es -> wg_rule (tr ++ es) /\ reuse_rule (tr ++ es) -> UInv s' (tr ++ es).
Proof.
  intros [HL HU] Hs [HC HRU]. split; [eapply LInv_step; eauto|]. intros o Hn Hd.
  destruct HL as [HW _]. pose proof HW as (HJT & (HA & _) & _). pose proof (JT_reliable _ _ _ _ _ _ HJT) as HR. pose proof HJT as [[HG HTI] HTK].
  pose proof HTI as (HDn & _).
  pose proof (step_effect _ _ _ _ _ _ _ HG HR Hs) as He.
  pose proof (WInv_step _ _ _ _ _ HW Hs) as (HJT' & (HA' & _) & _).
  assert (Hd0 : o_done (c_op s o) = false).
  { destruct HJT' as [[_ (HDn' & _)] _]. specialize (HDn' o). rewrite Hd in HDn'. specialize (HDn o).
    rewrite ndone_app in HDn'. destruct (o_done (c_op s o)); auto. lia. }
  assert (Hstep : forall pl taken pes, wg_step V (c_prim s) pl = POk (c_prim s') taken pes -> es = map EPrim (pes : list (PE P)) ->
     o_node (c_op s o) = NTaken -> w_ctr (c_prim s') = 0).
  { intros pl taken pes Hp -> Hn0. pose proof (HU o Hn0 Hd0) as Hz.
    assert (Hadd : forall e : event P, In e (map EPrim (pes : list (PE P))) -> map EPrim (pes : list (PE P)) = [e] -> adds e = 0).
    { intros e _ He1. destruct (Nat.eq_dec (adds e) 0) as [|Hne]; auto. exfalso.
      assert (Hst : started o tr) by (apply (t_node_started _ _ _ s tr o HJT); congruence).
      rewrite He1 in HRU. pose proof (HRU tr e [] eq_refl ltac:(lia)) as H. rewrite Hz in HA.
      specialize (H ltac:(lia) o Hst). rewrite HDn, Hd0 in H. discriminate. }
    destruct pl as [n| |k|i|i v]; cbn [wg_step] in Hp.
    - injection Hp as Hp _ <-. rewrite <- Hp. simpl. pose proof (Hadd (EPrim (EAdd n : PE P)) (or_introl eq_refl) eq_refl). simpl in H. lia.
    - injection Hp as Hp _ _. rewrite <- Hp. exact Hz.
    - destruct (done_cases _ _ _ _ _ Hp) as (_ & _ & w & d & d' & _ & _ & [(_ & _ & Hc & _)|[(v & _ & _ & Hc & _)|[(v & _ & _ & Hc & _)|(i & v & _ & _ & _ & Hc & _)]]]); lia.
    - destruct (w_in (c_prim s) i); try discriminate. injection Hp as _ _ <-.
      pose proof (Hadd (EPrim (EInStart i : PE P)) (or_introl eq_refl) eq_refl). simpl in H. lia.
    - destruct (w_in (c_prim s) i); try discriminate. injection Hp as Hp _ _. rewrite <- Hp. exact Hz. }
  destruct (taken_new _ _ _ _ He Hn) as [Hn0|(pl & taken & pes & Hp & Hes & Hin & Hq)].
  - destruct (step_prim_eff _ _ _ He) as [Hp Hes _|o1 tok a pes Hp _ _|o1 tok a v pes Hp _ _|o1 _ Hp _ _|o1 v Hp _|pl taken pes Hp Hes _].
    + rewrite Hp. eauto.
    + simpl in Hp. unfold wg_start in Hp. rewrite (HU o Hn0 Hd0) in Hp. discriminate.
    + simpl in Hp. unfold wg_start in Hp. rewrite (HU o Hn0 Hd0) in Hp. injection Hp as Hp _ _. rewrite <- Hp. eauto.
    + simpl in Hp. unfold wg_try in Hp. rewrite (HU o Hn0 Hd0) in Hp. discriminate.
    + simpl in Hp. unfold wg_resume in Hp. injection Hp as Hp _. rewrite <- Hp. eauto.
    + exact (Hstep _ _ _ Hp Hes Hn0).
  - simpl in Hp. destruct pl as [n| |k|i|i v]; cbn [wg_step] in Hp.
    + injection Hp as _ <- _. destruct Hin.
    + injection Hp as _ <- _. destruct Hin.
    + destruct (done_cases _ _ _ _ _ Hp) as (_ & _ & w & d & d' & _ & _ & [(_ & _ & _ & _ & Ht & _)|[(v & _ & _ & _ & _ & Ht & _)|[(v & _ & _ & Hc & _ & Hcase)|(i & v & _ & _ & _ & _ & _ & Ht & _)]]]);
        try (rewrite Ht in Hin; destruct Hin).
      destruct Hcase as [(Hc' & _)|(_ & _ & Ht)]; [exact Hc'|rewrite Ht in Hin; destruct Hin].
    + destruct (w_in (c_prim s) i); try discriminate. injection Hp as _ <- _. destruct Hin.
    + destruct (w_in (c_prim s) i); try discriminate. injection Hp as _ <- _. destruct Hin.
Qed.

Lemma uinv_run ls s tr : run step (c_init P) ls = Running s tr -> wg_rule tr -> reuse_rule tr -> UInv s tr.
Proof.
  intros Hr H1 H2. refine (run_inv_client step (fun tr => wg_rule tr /\ reuse_rule tr) UInv (c_init P) _ _ UInv_step ls s tr Hr (conj H1 H2)).
  - intros a b [Ha Hb]. split; [eapply rule_pre|eapply reuse_pre]; eauto.
  - split; [apply LInv_init|]. simpl. discriminate.
Qed.

Lemma wg_reuse_fail ls f tr : run step (c_init P) ls = Failed f tr -> wg_rule tr -> reuse_rule tr ->
  eager = true /\ f = UseAfterFree /\ exists o, In (EDestroy o) tr /\ notified o tr = 1 /\ cancel_requested o tr.
Proof.
  intros Hr H1 H2. destruct (wg_fail _ _ _ Hr H1) as [(_ & s & o & x & HL & Hp & Hn & Hc & ls1 & Hr1)|H]; auto. exfalso.
  destruct (uinv_run _ _ _ Hr1 H1 H2) as [_ HU]. destruct HL as [([[HG _] _] & _) _].
  pose proof (HU o Hn (try_not_done _ _ _ s o x HG Hp)). lia.
Qed.

(** ** wait_in_group *)
Lemma wg_in_events ls s tr i : run step (c_init P) ls = Running s tr ->
  in_events i tr = [] \/ in_events i tr = [EInStart i] \/
  exists v, in_events i tr = [EInStart i; EInDone i v] \/ in_events i tr = [EInStart i; EInDone i v; EInOut i v].
Proof.
  intros Hr. pose proof (wg_inv_run ls s tr Hr) as (_ & (_ & _ & _ & H & _) & _). specialize (H i).
  destruct (w_in (c_prim s) i) as [| |k]; auto. destruct H as (v & d & _ & H). right; right. exists v.
  destruct d; auto.
Qed.

Lemma wg_in_before ls s tr : run step (c_init P) ls = Running s tr -> w_ctr (c_prim s) + total outs tr <= units tr.
Proof.
  intros Hr. pose proof (wg_inv_run ls s tr Hr) as (_ & (H1 & H2 & H3 & _) & _).
  assert (H : sum (map pend (w_dn (c_prim s))) + sum (map outd (w_dn (c_prim s))) <= length (w_dn (c_prim s))).
  { clear H2 H3. induction (w_dn (c_prim s)) as [|x l IH]; [auto|cbn [map sum length]].
    assert (pend x + outd x <= 1) by (destruct x as [w d]; destruct w, d; vm_compute; auto). lia. }
  unfold pending in H1. lia.
Qed.

Lemma total_split f g h (tr : trace) : (forall e, f e = g e + h e) -> total f tr = total g tr + total h tr.
Proof. intros H. unfold total. induction tr as [|e tr IH]; simpl; auto. rewrite IH, H. lia. Qed.

Lemma units_split (tr : trace) : units tr = n0 + total own_adds tr + total in_starts tr.
Proof. unfold units. rewrite (total_split adds own_adds in_starts); [lia|]. intros e. destruct e as [| | | |[]]; simpl; lia. Qed.
Lemma dones_split (tr : trace) : dones tr = total own_calls tr + total in_dones tr.
Proof. unfold dones. apply total_split. intros e. destruct e as [| | | |[]]; simpl; lia. Qed.

Lemma wg_in_count ls s tr : run step (c_init P) ls = Running s tr -> done_returned s ->
  w_ctr (c_prim s) + total own_calls tr + total outs tr = n0 + total own_adds tr + total in_starts tr.
Proof.
  intros Hr Hd. pose proof (wg_inv_run ls s tr Hr) as (_ & (H1 & H2 & H3 & H4 & H5) & _). rewrite (pending_zero s Hd) in H1.
  rewrite units_split, dones_split in H1.
  assert (H : total in_dones tr = total outs tr); [|lia].
  (* both count the calls of done() with an owner *)
  rewrite dones_split in H2.
  enough (He : total in_dones tr = sum (map (fun d => match fst d with Some _ => 1 | None => 0 end) (w_dn (c_prim s)))).
  { rewrite H3, He. apply sum_map_ext. intros [w d] Hin. specialize (Hd _ Hin). simpl in *. subst d. destruct w; reflexivity. }
  clear - Hr. revert ls s tr Hr.
  apply (run_inv step (fun s tr => total in_dones tr = sum (map (fun d => match fst d with Some _ => 1 | None => 0 end) (w_dn (c_prim s)))) (c_init P)).
  - reflexivity.
  - intros s tr l s' es IH Hs. rewrite total_app, IH.
    assert (Hkeep : w_dn (c_prim s') = w_dn (c_prim s) -> total in_dones es = 0 ->
      sum (map (fun d : option (nat * V) * dpc => match fst d with Some _ => 1 | None => 0 end) (w_dn (c_prim s))) + total in_dones es =
      sum (map (fun d : option (nat * V) * dpc => match fst d with Some _ => 1 | None => 0 end) (w_dn (c_prim s')))).
    { intros -> ->. lia. }
    destruct l as [o tok a|o x|e|k|k|pl|o]; simpl in Hs.
    + destruct (o_l (c_op s o)); try discriminate. unfold wg_start in Hs. destruct (w_ctr (c_prim s)); injection Hs as <- <-; apply Hkeep; reflexivity.
    + unfold path_step in Hs. destruct (get_pc x (c_op s o)) eqn:Hp; try discriminate; destruct (negb (o_alive (c_op s o))); try discriminate.
      * destruct (o_fast (c_op s o)); try discriminate. injection Hs as <- <-; apply Hkeep; reflexivity.
      * destruct (o_tok (c_op s o)) as [e|]; [destruct (e_req (c_ev s e))|]; injection Hs as <- <-; apply Hkeep; reflexivity.
      * simpl in Hs. unfold wg_try in Hs. destruct (w_ctr (c_prim s)); [injection Hs as <- <-; apply Hkeep; reflexivity|].
        destruct (memb o (w_q (c_prim s))); [|discriminate]. injection Hs as <- <-; apply Hkeep; reflexivity.
      * destruct (do_trans P m x (c_op s o)); try discriminate. injection Hs as <- <-; apply Hkeep; reflexivity.
      * destruct (o_tok (c_op s o)) as [e|]; try discriminate. destruct (e_req (c_ev s e)); [injection Hs as <- <-; apply Hkeep; reflexivity|].
        destruct (memb o (e_cbs (c_ev s e))); [|discriminate]. injection Hs as <- <-; apply Hkeep; reflexivity.
      * simpl in Hs. injection Hs as <- <-; apply Hkeep; reflexivity.
    + injection Hs as <- <-; apply Hkeep; reflexivity.
    + destruct (nth_error (c_cn s) k) as [lp|]; try discriminate.
      destruct (loop_ready o_c s lp); try discriminate. destruct (lp_rest lp) as [|o rest]; try discriminate.
      destruct (o_alive (c_op s o)); try discriminate. simpl in Hs.
      destruct (o_c (c_op s o)); try discriminate. injection Hs as <- <-; apply Hkeep; reflexivity.
    + destruct (nth_error (c_wk s) k) as [lp|]; try discriminate.
      destruct (loop_ready o_p s lp); try discriminate. destruct (lp_rest lp) as [|o rest]; try discriminate.
      destruct (o_alive (c_op s o)); try discriminate. simpl in Hs.
      destruct (o_p (c_op s o)); try discriminate. injection Hs as <- <-; apply Hkeep; reflexivity.
    + destruct (wg_step V (c_prim s) pl) as [ps taken pes| |f pes] eqn:Hp; try discriminate. injection Hs as <- <-. simpl.
      destruct pl as [n| |k|i|i v]; cbn [wg_step] in Hp.
      * injection Hp as <- _ <-. unfold total. simpl. lia.
      * injection Hp as <- _ <-. unfold total. simpl. rewrite map_app, sum_app. simpl. lia.
      * destruct (done_cases _ _ _ _ _ Hp) as (_ & _ & w & d & d' & Hn & Hdn & Hcase).
        assert (Hz : total in_dones (map EPrim (pes : list (PE P))) = 0).
        { destruct Hcase as [(_ & _ & _ & _ & _ & ->)|[(v & _ & _ & _ & _ & _ & ->)|[(v & _ & _ & _ & -> & _)|(i & v & _ & _ & _ & _ & _ & _ & ->)]]]; reflexivity. }
        etransitivity; [exact (f_equal2 Nat.add eq_refl Hz)|]. rewrite Hdn. pose proof (sum_map_set_nth (fun d : option (nat * V) * dpc => match fst d with Some _ => 1 | None => 0 end) _ _ (w, d') _ Hn) as H. simpl in H. lia.
      * destruct (w_in (c_prim s) i); try discriminate. injection Hp as <- _ <-. unfold total. simpl. lia.
      * destruct (w_in (c_prim s) i); try discriminate. injection Hp as <- _ <-. unfold total. simpl. rewrite map_app, sum_app. simpl. lia.
    + destruct (o_done (c_op s o) && o_alive (c_op s o) && (eager || all_ended (c_op s o))); try discriminate.
      injection Hs as <- <-; apply Hkeep; reflexivity.
Qed.

(** wrapped operations complete at most as often as they are started *)
Fixpoint done_ids (tr : trace) : list nat :=
  match tr with [] => [] | EPrim (EInDone i _) :: tr' => i :: done_ids tr' | _ :: tr' => done_ids tr' end.
Fixpoint start_ids (tr : trace) : list nat :=
  match tr with [] => [] | EPrim (EInStart i) :: tr' => i :: start_ids tr' | _ :: tr' => start_ids tr' end.

Lemma done_ids_length tr : length (done_ids tr) = total in_dones tr.
Proof. unfold total. induction tr as [|e tr IH]; simpl; auto. destruct e as [| | | |[]]; simpl; auto. Qed.
Lemma start_ids_length tr : length (start_ids tr) = total in_starts tr.
Proof. unfold total. induction tr as [|e tr IH]; simpl; auto. destruct e as [| | | |[]]; simpl; auto. Qed.

Definition isD (e : wevent V) : bool := match e with EInDone _ _ => true | _ => false end.
Definition isS (e : wevent V) : bool := match e with EInStart _ => true | _ => false end.
Lemma done_ids_cnt tr i : cnt i (done_ids tr) = length (filter isD (in_events i tr)).
Proof.
  induction tr as [|e tr IH]; simpl; auto. destruct e as [| | | |[n| |j|j v|j v]]; auto.
  - destruct (Nat.eqb j i); auto.
  - rewrite cnt_cons. destruct (Nat.eq_dec j i) as [E|E]; destruct (Nat.eqb_spec j i) as [E'|E']; try congruence; simpl; auto.
  - destruct (Nat.eqb j i); auto.
Qed.
Lemma start_ids_cnt tr i : cnt i (start_ids tr) = length (filter isS (in_events i tr)).
Proof.
  induction tr as [|e tr IH]; simpl; auto. destruct e as [| | | |[n| |j|j v|j v]]; auto.
  - rewrite cnt_cons. destruct (Nat.eq_dec j i) as [E|E]; destruct (Nat.eqb_spec j i) as [E'|E']; try congruence; simpl; auto.
  - destruct (Nat.eqb j i); auto.
  - destruct (Nat.eqb j i); auto.
Qed.

Lemma wg_in_le ls s tr : run step (c_init P) ls = Running s tr -> total in_dones tr <= total in_starts tr.
Proof.
  intros Hr. rewrite <- done_ids_length, <- start_ids_length.
  assert (H : forall i, cnt i (done_ids tr) <= cnt i (start_ids tr) /\ cnt i (done_ids tr) <= 1).
  { intros i. rewrite done_ids_cnt, start_ids_cnt.
    destruct (wg_in_events ls s tr i Hr) as [->|[->|(v & [->| ->])]]; simpl; auto. }
  apply NoDup_incl_length.
  - apply (NoDup_count_occ Nat.eq_dec). intros x. exact (proj2 (H x)).
  - intros x Hx. apply cnt_pos in Hx. apply cnt_pos. destruct (H x). lia.
Qed.

(** every step emits at most one event, hence every prefix of a trace is the trace of a run *)
Lemma wg_one s tr l s' es : WInv s tr -> step s l = Next s' es -> length es <= 1.
Proof.
  intros (HJT & _) Hs. pose proof (JT_reliable _ _ _ _ _ _ HJT) as HR. pose proof HJT as [[HG HTI] HTK].
  pose proof (step_effect _ _ _ _ _ _ _ HG HR Hs) as He.
  destruct He as [s' o tok a pes Hl Hn Hd Hst Hss|s' o tok a v pes Hl Hn Hd Hst Hss|s' o es Hp|s' es Hcp Hss Hes|s' pl taken pes Hp Htk Hss].
  - simpl in Hst. unfold wg_start in Hst. destruct (w_ctr (c_prim s)); [discriminate|]. injection Hst as _ <-. auto.
  - simpl in Hst. unfold wg_start in Hst. destruct (w_ctr (c_prim s)); [|discriminate]. injection Hst as _ _ <-. auto.
  - destruct Hp; auto.
  - destruct Hes as [->|[[o ->]|[e ->]]]; auto.
  - rewrite map_length. simpl in Hp. destruct pl as [n| |k|i|i v]; cbn [wg_step] in Hp.
    + injection Hp as _ _ <-. auto.
    + injection Hp as _ _ <-. auto.
    + destruct (done_cases _ _ _ _ _ Hp) as (_ & _ & w & d & d' & Hn & Hdn & [(_ & _ & _ & _ & _ & ->)|[(v & _ & _ & _ & _ & _ & ->)|[(v & _ & _ & _ & -> & _)|(i & v & _ & _ & _ & _ & _ & _ & ->)]]]); auto.
    + destruct (w_in (c_prim s) i); try discriminate. injection Hp as _ _ <-. auto.
    + destruct (w_in (c_prim s) i); try discriminate. injection Hp as _ _ <-. auto.
Qed.

Lemma wg_prefix ls s t1 t2 : run step (c_init P) ls = Running s (t1 ++ t2) -> exists ls1 s1, run step (c_init P) ls1 = Running s1 t1.
Proof.
  intros Hr. destruct t2 as [|x t2]; [rewrite app_nil_r in Hr; eauto|].
  destruct (run_split_event step _ _ _ _ _ _ Hr) as (ls1 & l & ls2 & s1 & s2 & tr1 & e1 & e2 & -> & Hr1 & Hs & Ht1 & Hr2).
  pose proof (wg_one _ _ _ _ _ (wg_inv_run _ _ _ Hr1) Hs) as Hlen. rewrite app_length in Hlen. simpl in Hlen.
  destruct e1; [|simpl in Hlen; lia]. rewrite app_nil_r in Ht1. subst t1. eauto.
Qed.

Lemma wg_in_wait ls s t1 o tok a t2 t3 :
  run step (c_init P) ls = Running s (t1 ++ EStart (P := P) o tok a :: t2 ++ EDone (P := P) o true :: t3) ->
  (forall u w, t1 ++ EStart (P := P) o tok a :: t2 ++ EDone (P := P) o true :: t3 = u ++ w -> total own_calls u <= n0 + total own_adds u) ->
  exists ta tb, t2 = ta ++ tb /\ total in_dones (t1 ++ EStart (P := P) o tok a :: ta) = total in_starts (t1 ++ EStart (P := P) o tok a :: ta).
Proof.
  intros Hr HC. destruct (wg_true _ _ _ _ _ _ _ _ Hr) as (ta & tb & -> & Hd). exists ta, tb. split; auto.
  rewrite units_split, dones_split in Hd.
  assert (He : t1 ++ EStart (P := P) o tok a :: (ta ++ tb) ++ EDone (P := P) o true :: t3 = (t1 ++ EStart (P := P) o tok a :: ta) ++ tb ++ EDone (P := P) o true :: t3).
  { rewrite <- !app_assoc. reflexivity. }
  pose proof (HC _ _ He) as H1. rewrite He in Hr. destruct (wg_prefix _ _ _ _ Hr) as (ls1 & s1 & Hr1).
  pose proof (wg_in_le _ _ _ Hr1). lia.
Qed.

Lemma wg_true_rule ls s t1 o tok a t2 t3 :
  run step (c_init P) ls = Running s (t1 ++ EStart (P := P) o tok a :: t2 ++ EDone (P := P) o true :: t3) ->
  wg_rule (t1 ++ EStart (P := P) o tok a :: t2 ++ EDone (P := P) o true :: t3) ->
  exists ta tb, t2 = ta ++ tb /\ dones (t1 ++ EStart (P := P) o tok a :: ta) = units (t1 ++ EStart (P := P) o tok a :: ta).
Proof.
  intros Hr HC. destruct (wg_true _ _ _ _ _ _ _ _ Hr) as (ta & tb & -> & Hd). exists ta, tb. split; auto.
  apply Nat.le_antisymm; [|exact Hd]. apply (HC _ (tb ++ EDone (P := P) o true :: t3)). rewrite <- !app_assoc. reflexivity.
Qed.

Lemma wg_no_trip ls f tr : run step (c_init P) ls = Failed f tr -> wg_rule tr -> f <> AssertFailed /\ f <> CounterUnderflow.
Proof.
  intros Hr HC. destruct (wg_fail _ _ _ Hr HC) as [(-> & _)|(_ & -> & _)]; split; discriminate.
Qed.

Lemma wg_released ls s tr : run step (c_init P) ls = Running s tr -> all_returned s -> done_returned s ->
  dones tr = units tr -> forall o, started o tr -> notified o tr = 1.
Proof.
  intros Hr Hret Hd He o Hst. destruct (wg_pending_units _ _ _ o Hr Hret Hd Hst) as [H|[H _]]; auto.
  rewrite He in H. now apply Nat.lt_irrefl in H.
Qed.

(** DOut only occurs in calls made by wait_in_group *)
Definition OInv (s : cst) (tr : trace) : Prop := WInv s tr /\ ~ In (None, DOut) (w_dn (c_prim s)).

Lemma OInv_step s tr l s' es : OInv s tr -> step s l = Next s' es -> OInv s' (tr ++ es).
Proof.
  intros [HW HO] Hs. pose proof (WInv_step _ _ _ _ _ HW Hs) as HW'. split; [exact HW'|]. destruct HW as (HJT & _).
  pose proof (JT_reliable _ _ _ _ _ _ HJT) as HR. pose proof HJT as [[HG HTI] HTK].
  pose proof (step_effect _ _ _ _ _ _ _ HG HR Hs) as He.
  destruct (step_prim_eff _ _ _ He) as [Hp Hes _|o tok a pes Hp _ _|o tok a v pes Hp _ _|o _ Hp _ _|o v Hp _|pl taken pes Hp _ _].
  - now rewrite Hp.
  - simpl in Hp. unfold wg_start in Hp. destruct (w_ctr (c_prim s)) eqn:Hc; [discriminate|]. injection Hp as <- _. exact HO.
  - simpl in Hp. unfold wg_start in Hp. destruct (w_ctr (c_prim s)) eqn:Hc; [|discriminate]. injection Hp as <- _ _. exact HO.
  - simpl in Hp. unfold wg_try in Hp. destruct (w_ctr (c_prim s)) eqn:Hc; [discriminate|].
    destruct (memb o (w_q (c_prim s))); [|discriminate]. injection Hp as <-. exact HO.
  - simpl in Hp. unfold wg_resume in Hp. injection Hp as <- _. exact HO.
  - simpl in Hp. destruct pl as [n| |k|i|i v]; cbn [wg_step] in Hp.
    + injection Hp as <- _ _. exact HO.
    + injection Hp as <- _ _. cbn [call_done w_dn]. rewrite in_app_iff. intros [H|[H|[]]]; [auto|discriminate].
    + destruct (done_cases _ _ _ _ _ Hp) as (_ & _ & w & d & d' & Hn & -> & Hcase). intros Hin. apply In_set_nth in Hin.
      destruct Hin as [Hin|Hin]; [|now apply HO].
      destruct Hcase as [(_ & -> & _)|[(v & _ & -> & _)|[(v & _ & Ha & _)|(i & v & _ & _ & -> & _)]]]; try discriminate.
      rewrite Ha in Hin. destruct w; discriminate.
    + destruct (w_in (c_prim s) i); try discriminate. injection Hp as <- _ _. exact HO.
    + destruct (w_in (c_prim s) i); try discriminate. injection Hp as <- _ _. cbn [with_in call_done w_dn]. rewrite in_app_iff.
      intros [H|[H|[]]]; [auto|discriminate].
Qed.

Lemma o_inv_run ls s tr : run step (c_init P) ls = Running s tr -> OInv s tr.
Proof. refine (run_inv step OInv (c_init P) _ OInv_step ls s tr). split; [exact WInv_init|]. intros []. Qed.

Lemma wg_done_enabled ls s tr k w d : run step (c_init P) ls = Running s tr -> wg_rule tr ->
  nth_error (w_dn (c_prim s)) k = Some (w, d) -> d <> DEnd ->
  exists s' es, step s (LPrim (WStep k : PL P)) = Next s' es.
Proof.
  intros Hr HC Hk Hd. destruct (linv_run _ _ _ Hr HC) as [HW HL]. pose proof (nth_error_In _ _ Hk) as Hin.
  assert (Hc : pend (w, d) > 0 -> w_ctr (c_prim s) > 0) by (apply (rule_ctr s tr w d HW HC Hin)).
  assert (Hv : forall v, d = DLoop v -> v > 0) by (intros v ->; exact (HL _ _ Hin)).
  assert (Ho : d = DOut -> exists i v, w = Some (i, v)).
  { intros ->. destruct w as [[i v]|]; eauto. exfalso. exact (proj2 (o_inv_run _ _ _ Hr) Hin). }
  cbn [M_Wait.step p_step wait_group wg_step]. unfold done_step. rewrite Hk.
  destruct d as [|v| |]; [| | |congruence].
  - eexists _, _. reflexivity.
  - specialize (Hv v eq_refl). specialize (Hc (le_n 1)). destruct v as [|[|v]]; [lia| |].
    + destruct (w_ctr (c_prim s)) as [|[|c]]; [lia| |]; eexists _, _; reflexivity.
    + destruct (Nat.eqb _ _); eexists _, _; reflexivity.
  - destruct (Ho eq_refl) as (i & v & ->). eexists _, _. reflexivity.
Qed.
End Runs.

Lemma wg_safe ls f tr : run (step P false) (c_init P) ls = Failed f tr -> wg_rule tr -> ~ reuse_rule tr.
Proof. intros Hr H1 H2. destruct (wg_reuse_fail false _ _ _ Hr H1 H2) as [H _]. discriminate. Qed.

End Proofs.

(** ** Concrete executions *)
Fixpoint ruleb {V n0} (d u : nat) (tr : list (event (wait_group V n0))) : bool :=
  Nat.leb d u && match tr with [] => true | e :: tr' => ruleb (d + calls e) (u + adds e) tr' end.

Lemma ruleb_ok {V n0} (tr : list (event (wait_group V n0))) : ruleb 0 n0 tr = true -> wg_rule tr.
Proof.
  assert (H : forall d u (t1 t2 : list (event (wait_group V n0))), ruleb d u (t1 ++ t2) = true -> d + total calls t1 <= u + total adds t1).
  { intros d u t1. revert d u. induction t1 as [|e t1 IH]; intros d u t2 H.
    - destruct t2; cbn [app ruleb] in H; apply andb_prop in H; destruct H as [H _]; apply Nat.leb_le in H; unfold total; simpl; lia.
    - cbn [app ruleb] in H. apply andb_prop in H. destruct H as [_ H]. apply IH in H. unfold total in *. cbn [map sum]. lia. }
  intros Hb t1 t2 ->. apply H in Hb. exact Hb.
Qed.

Lemma no_adds_reuse {V n0} (tr : list (event (wait_group V n0))) : total adds tr = 0 -> reuse_rule tr.
Proof. intros Ha t1 e t2 -> He. exfalso. rewrite total_app in Ha. unfold total in Ha. cbn [map sum] in Ha. lia. Qed.

Notation W1 := (wait_group nat 1).

Lemma wg_uaf : exists ls tr, run (step W1 true) (c_init W1) ls = Failed UseAfterFree tr /\ wg_rule tr /\ reuse_rule tr.
Proof.
  exists [LStart (P := W1) 0 (Some 0) tt; LPath 0 PathL; LPath 0 PathL; LPrim (WDone : PL W1); LPrim (WStep 0 : PL W1);
    LPrim (WStep 0 : PL W1); LWakeNext 2; LPath 0 PathP;
    LCancel 0; LCanNext 0; LPath 0 PathC; LPath 0 PathC; LPath 0 PathC; LDestroy 0; LPath 0 PathP].
  witness. split; [apply ruleb_ok; vmrefl|apply no_adds_reuse; vmrefl].
Qed.

Lemma wg_reuse_bad : exists ls tr, run (step W1 false) (c_init W1) ls = Failed BadUnlink tr /\ wg_rule tr.
Proof.
  exists [LStart (P := W1) 0 (Some 0) tt; LPath 0 PathL; LPath 0 PathL; LPrim (WDone : PL W1); LPrim (WStep 0 : PL W1);
    LPrim (WStep 0 : PL W1); LPrim (WAdd 1 : PL W1); LCancel 0; LCanNext 0; LPath 0 PathC; LPath 0 PathC].
  witness. apply ruleb_ok; vmrefl.
Qed.

(** ** oneshot_event *)
Section Oneshot.
Notation P := oneshot.
Notation trace := (list (event P)).

Lemma total_pos f (tr : trace) : total f tr > 0 -> exists e, In e tr /\ f e > 0.
Proof.
  unfold total. induction tr as [|e tr IH]; simpl; [lia|]. intros H. destruct (f e) eqn:Hf.
  - destruct (IH H) as (e' & H1 & H2). eauto.
  - exists e. split; auto. lia.
Qed.

Lemma oneshot_before eager ls s t1 o t2 : run (step P eager) (c_init P) ls = Running s (t1 ++ EDone (P := P) o true :: t2) ->
  In (EPrim (EDoneCall : PE P)) t1.
Proof.
  intros Hr. pose proof (t_done_started _ _ _ (wait_group_tlaws _ _) _ _ _ _ _ _ Hr) as Hst.
  apply starts_In in Hst. destruct Hst as (tok & a & Hst). apply in_split in Hst. destruct Hst as (ta & tb & ->).
  rewrite <- app_assoc in Hr. simpl in Hr. destruct (wg_true _ _ _ _ _ _ _ _ _ _ _ Hr) as (tc & td & -> & Hd).
  unfold units in Hd. destruct (total_pos calls _ (Nat.lt_le_trans 0 1 _ ltac:(auto) (Nat.le_trans _ _ _ (Nat.le_add_r 1 _) Hd))) as (e & Hin & He).
  destruct e as [| | | |[n| |i|i []|i []]]; simpl in He; try lia. 
  apply in_app_iff in Hin. destruct Hin as [Hin|[Hin|Hin]]; [|discriminate|];
  apply in_app_iff; [now left|right; right; apply in_app_iff; now left].
Qed.

Lemma oneshot_after eager ls s tr o : run (step P eager) (c_init P) ls = Running s tr -> total adds tr = 0 ->
  In (EPrim (EDoneCall : PE P)) tr -> all_returned s -> done_returned s -> started o tr -> notified o tr = 1.
Proof.
  intros Hr Ha Hin Hret Hd Hst. destruct (wg_pending_units _ _ _ _ _ _ o Hr Hret Hd Hst) as [H|[Hlt _]]; auto. exfalso.
  unfold units, dones in Hlt. rewrite Ha in Hlt. pose proof (sum_map_le calls tr _ Hin) as H. unfold total in Hlt. simpl in H. lia.
Qed.

(** However often raise() is called, at most one call returns: a second one cannot get past its assertion (or wraps the
    counter around). *)
Lemma oneshot_again eager ls s tr : run (step P eager) (c_init P) ls = Running s tr -> total adds tr = 0 ->
  done_returned s -> dones tr <= 1.
Proof.
  intros Hr Ha Hd. pose proof (wg_inv_run _ _ _ _ _ _ Hr) as (_ & (H1 & _) & _). rewrite (pending_zero _ _ s Hd) in H1.
  unfold units in H1. rewrite Ha in H1. lia.
Qed.

Lemma no_adds_rules (tr : trace) : total adds tr = 0 -> dones tr <= 1 -> wg_rule tr /\ reuse_rule tr.
Proof.
  intros Ha Hd. split.
  - intros t1 t2 ->. unfold dones, units in *. rewrite total_app in Hd. lia.
  - intros t1 e t2 -> He. rewrite total_app in Ha. unfold total in Ha. simpl in Ha. lia.
Qed.

Lemma oneshot_safe eager ls f tr : run (step P eager) (c_init P) ls = Failed f tr -> total adds tr = 0 -> dones tr <= 1 ->
  eager = true /\ f = UseAfterFree /\ exists o, In (EDestroy o) tr /\ notified o tr = 1 /\ cancel_requested o tr.
Proof. intros Hr Ha Hd. destruct (no_adds_rules tr Ha Hd) as [H1 H2]. exact (wg_reuse_fail _ _ eager ls f tr Hr H1 H2). Qed.

Lemma oneshot_twice : exists ls tr, run (step P false) (c_init P) ls = Failed AssertFailed tr /\
  tr = [EPrim (EDoneCall : PE P); EPrim (EDoneCall : PE P)].
Proof.
  exists [LPrim (WDone : PL P); LPrim (WStep 0 : PL P); LPrim (WStep 0 : PL P); LPrim (WDone : PL P); LPrim (WStep 1 : PL P); LPrim (WStep 1 : PL P)].
  witness. vmrefl.
Qed.
End Oneshot.

