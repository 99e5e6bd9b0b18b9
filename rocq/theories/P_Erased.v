(** Proofs about type-erased callables: C89, C90. *)
From Coq Require Import List Arith Bool Lia.
From Verif Require Import Lts ListFacts M_Erased S_Erased.
Import ListNotations.

Section Beh.
Variable beh : nat -> nat -> nat -> nat * nat.
Notation step := (e_step beh).
Notation ref := (ref beh).
Notation valr := (valr beh).

Lemma ref_app tr e : ref (tr ++ [e]) = ref_event beh (ref tr) e.
Proof. unfold S_Erased.ref. now rewrite fold_left_app. Qed.
Lemma valr_app tr e : valr (tr ++ [e]) = val_event beh (valr tr) e.
Proof. unfold S_Erased.valr. now rewrite fold_left_app. Qed.

Definition held (o : eobj) : option (nat * nat) := match o with OCb f => f | ORcv c st => Some (c, st) | _ => None end.
Record EI (s : evars) (tr : list eevent) : Prop := {
  e_val : forall x, valr tr x = held (s x);
  e_rcv : forall x c st, s x = ORcv c st -> ref tr x = Some (c, st);
  e_cls : forall x, option_map fst (ref tr x) = option_map fst (valr tr x);
  e_cb : forall x c st, s x = OCb (Some (c, st)) -> stateless beh c -> ref tr x = Some (c, st);
  e_arm : forall x, (exists f, s x = OItem (Some f)) <-> exists y, In (VArm x y) tr;
  e_calls : calls_run beh valr tr;
  e_sets : sets_run beh ref tr;
  e_scalls : forall t1 x c st a r t2, tr = t1 ++ VCall x c st a r :: t2 -> stateless beh c -> ref t1 x = Some (c, st);
  e_bools : bools ref tr
}.
Lemma ei_init : EI e_init [].
Proof.
  constructor; cbn; auto; try discriminate; try (intros t1 *; destruct t1; discriminate).
  - split; [intros [f H]; discriminate|intros [y []]].
Qed.

Lemma snoc_inv {A} (l : list A) e t1 x t2 : l ++ [e] = t1 ++ x :: t2 -> (exists t, l = t1 ++ x :: t) \/ (t1 = l /\ x = e).
Proof.
  intros H. destruct (rev_ind (fun t2 => l ++ [e] = t1 ++ x :: t2 -> (exists t, l = t1 ++ x :: t) \/ (t1 = l /\ x = e))) with (l := t2); auto.
  - intros E. apply app_inj_tail in E. destruct E as [-> ->]. auto.
  - intros y t _ E. rewrite app_comm_cons, app_assoc in E. apply app_inj_tail in E. destruct E as [-> ->]. eauto.
Qed.

Lemma ei_event s tr s' e : EI s tr ->
  (forall x, valr (tr ++ [e]) x = held (s' x)) -> (forall x c st, s' x = ORcv c st -> ref (tr ++ [e]) x = Some (c, st)) ->
  (forall x, option_map fst (ref (tr ++ [e]) x) = option_map fst (valr (tr ++ [e]) x)) ->
  (forall x c st, s' x = OCb (Some (c, st)) -> stateless beh c -> ref (tr ++ [e]) x = Some (c, st)) ->
  (forall x, (exists f, s' x = OItem (Some f)) <-> (exists f, s x = OItem (Some f)) \/ exists y, e = VArm x y) ->
  (forall x c st a r, e = VCall x c st a r -> valr tr x = Some (c, st) /\ r = snd (beh c st a) /\ (stateless beh c -> ref tr x = Some (c, st))) ->
  (forall x c st a r, e = VSet x c st a r -> ref tr x = Some (c, st) /\ r = snd (beh c st a)) ->
  (forall x b, e = VBool x b -> (b = true <-> ref tr x <> None)) -> EI s' (tr ++ [e]).
Proof.
  intros [H1 H2 H3 H4 H5 H6 H7 H8 H9] A1 A2 A3 A4 A5 A6 A7 A8. constructor; auto.
  - intros x. rewrite A5, H5. split.
    + intros [[y Hy]|[y ->]]; exists y; apply in_or_app; [auto|right; now left].
    + intros [y Hy]. apply in_app_iff in Hy. destruct Hy as [Hy|[->|[]]]; eauto.
  - intros t1 x c st a r t2 E. apply snoc_inv in E. destruct E as [[t ->]|[-> E]]; [eapply H6; eauto|]. split; apply (A6 _ _ _ _ _ (eq_sym E)).
  - intros t1 x c st a r t2 E. apply snoc_inv in E. destruct E as [[t ->]|[-> E]]; [eapply H7; eauto|]. exact (A7 _ _ _ _ _ (eq_sym E)).
  - intros t1 x c st a r t2 E Hs. apply snoc_inv in E. destruct E as [[t ->]|[-> E]]; [eapply H8; eauto|]. apply (A6 _ _ _ _ _ (eq_sym E)). exact Hs.
  - intros t1 x b t2 E. apply snoc_inv in E. destruct E as [[t ->]|[-> E]]; [eapply H9; eauto|]. exact (A8 _ _ (eq_sym E)).
Qed.

Ltac up := unfold upd; match goal with |- context [?a =? ?b] => destruct (Nat.eqb_spec a b) as [->|] end.
Lemma ei_step s tr l s' es : EI s tr -> step s l = Next s' es -> EI s' (tr ++ es).
Proof.
  intros HI H. pose proof (e_val _ _ HI) as Hv. pose proof (e_rcv _ _ HI) as Hr. pose proof (e_cls _ _ HI) as Hc. pose proof (e_cb _ _ HI) as Hb.
  destruct l as [x|x c st|x c st|x y|x|x a|x a|x|x y]; cbn [e_step] in H.
  - destruct (s x) eqn:Ex; try discriminate. injection H as <- <-. apply (ei_event s); auto; rewrite ?ref_app, ?valr_app; cbn [ref_event val_event]; try discriminate.
    + intros z. up; auto.
    + intros z c st. up; auto. discriminate.
    + intros z. up; auto.
    + intros z c st. up; auto. discriminate.
    + intros z. up; [|split; [auto|intros [H|[y H]]; [auto|discriminate]]]. split; [intros [f H]; discriminate|]. intros [[f H]|[y H]]; congruence.
  - destruct (s x) eqn:Ex; try discriminate. injection H as <- <-. apply (ei_event s); auto; rewrite ?ref_app, ?valr_app; cbn [ref_event val_event]; try discriminate.
    + intros z. up; auto.
    + intros z c' st'. up; auto. discriminate.
    + intros z. up; auto.
    + intros z c' st'. up; auto. intros [= <- <-]. auto.
    + intros z. up; [|split; [auto|intros [H|[y H]]; [auto|discriminate]]]. split; [intros [f H]; discriminate|]. intros [[f H]|[y H]]; congruence.
  - destruct (s x) eqn:Ex; try discriminate. injection H as <- <-. apply (ei_event s); auto; rewrite ?ref_app, ?valr_app; cbn [ref_event val_event]; try discriminate.
    + intros z. up; auto.
    + intros z c' st'. up; auto. congruence.
    + intros z. up; auto.
    + intros z c' st'. up; auto. discriminate.
    + intros z. up; [|split; [auto|intros [H|[y H]]; [auto|discriminate]]]. split; [intros [f H]; discriminate|]. intros [[f H]|[y H]]; congruence.
  - assert (Hi : forall z, s' = upd s x (s y) -> (forall f, s y <> OItem f) -> (forall f, s x <> OItem f) -> (exists f, s' z = OItem (Some f)) <-> (exists f, s z = OItem (Some f)) \/ (exists y0, VCopy x y = VArm z y0)).
    { intros z -> F1 F2. up; [|split; [auto|intros [H'|[? H']]; [auto|discriminate]]]. split; [intros [f E]; destruct (F1 _ E)|]. intros [[f E]|[? E]]; [destruct (F2 _ E)|discriminate]. }
    assert (Hcopy : s' = upd s x (s y) -> es = [VCopy x y] -> (forall f, s y <> OItem f) -> (forall f, s x <> OItem f) -> EI s' (tr ++ es)).
    { intros -> -> F1 F2. apply (ei_event s); auto; rewrite ?ref_app, ?valr_app; cbn [ref_event val_event]; try discriminate.
      - intros z. up; auto.
      - intros z c st. up; auto.
      - intros z. up; auto.
      - intros z c st. up; auto. }
    destruct (s x) eqn:Ex, (s y) eqn:Ey; try discriminate; injection H as <- <-; apply Hcopy; congruence.
  - destruct (s x) eqn:Ex; try discriminate. injection H as <- <-. apply (ei_event s); auto; rewrite ?ref_app, ?valr_app; cbn [ref_event val_event]; try discriminate; auto.
    + intros z. split; [auto|intros [H|[y H]]; [auto|discriminate]].
    + intros z b [= <- <-]. pose proof (Hc x) as E. rewrite (Hv x), Ex in E. cbn [held] in E. destruct (ref tr x), f; cbn in E; try discriminate; split; congruence.
  - destruct (s x) as [|[[c st]|]| |] eqn:Ex; try discriminate. injection H as <- <-. apply (ei_event s); auto; rewrite ?ref_app, ?valr_app; cbn [ref_event val_event]; try discriminate; auto.
    + intros z c' st' E. up; auto. congruence.
    + intros z. up; auto. rewrite <- Hc. destruct (ref tr x) as [[c' st']|]; reflexivity.
    + intros z c' st' E Hs. up; auto. rewrite (Hb _ _ _ E Hs). cbn [fst]. now rewrite Hs.
    + intros z. split; [auto|intros [H|[y H]]; [auto|discriminate]].
    + intros z c' st' a' r [= <- <- <- <- <-]. rewrite Hv, Ex. auto.
  - destruct (s x) as [| |c st|] eqn:Ex; try discriminate. injection H as <- <-. pose proof (Hr _ _ _ Ex) as Er. pose proof (Hv x) as Ev. rewrite Ex in Ev. cbn [held] in Ev.
    apply (ei_event s); auto; rewrite ?ref_app, ?valr_app; cbn [ref_event val_event]; try discriminate; auto.
    + intros z. up; auto. rewrite Ev. reflexivity.
    + intros z c' st'. up; auto. intros [= <- <-]. rewrite Er. reflexivity.
    + intros z. up; auto. rewrite Er, Ev. reflexivity.
    + intros z c' st'. up; auto. discriminate.
    + intros z. up; [|split; [auto|intros [H|[y H]]; [auto|discriminate]]]. split; [intros [f H]; discriminate|]. intros [[f H]|[y H]]; congruence.
    + intros z c' st' a' r [= <- <- <- <- <-]. auto.
  - destruct (s x) eqn:Ex; try discriminate. injection H as <- <-. rewrite app_nil_r. destruct HI as [H1 H2 H3 H4 H5 H6 H7 H8 H9]. constructor; auto.
    + intros z. rewrite H1. up; auto. rewrite Ex. reflexivity.
    + intros z c st. up; auto. discriminate.
    + intros z c st. up; auto. discriminate.
    + intros z. rewrite <- H5. up; [|reflexivity]. rewrite Ex. split; intros [f E]; discriminate.
  - destruct (s x) as [| | |[f|]] eqn:Ex; try discriminate; destruct (s y) as [|[f'|]| |] eqn:Ey; try discriminate. injection H as <- <-.
    apply (ei_event s); auto; rewrite ?ref_app, ?valr_app; cbn [ref_event val_event]; try discriminate; auto.
    + intros z. rewrite Hv. up; auto. rewrite Ex. reflexivity.
    + intros z c st. up; auto. discriminate.
    + intros z c st. up; auto. discriminate.
    + intros z. up; [split; [intros _; right; eauto|intros _; eauto]|]. split; [auto|intros [H|[w H]]; [auto|congruence]].
Qed.
Lemma e_inv ls s tr : run step e_init ls = Running s tr -> EI s tr.
Proof. apply (run_inv step EI); [apply ei_init|intros; eapply ei_step; eauto]. Qed.

Theorem any_receiver_runs ls s tr : run step e_init ls = Running s tr -> sets_run beh ref tr.
Proof. intros H. apply (e_sets _ _ (e_inv _ _ _ H)). Qed.
Theorem callback_runs ls s tr : run step e_init ls = Running s tr -> calls_run beh valr tr.
Proof. intros H. apply (e_calls _ _ (e_inv _ _ _ H)). Qed.
Theorem callback_stateless ls s tr : run step e_init ls = Running s tr -> (forall c, stateless beh c) -> calls_run beh ref tr.
Proof.
  intros H Hs t1 x c st a r t2 E. pose proof (e_inv _ _ _ H) as HI. split; [eapply (e_scalls _ _ HI); eauto|eapply (e_calls _ _ HI); eauto].
Qed.
Theorem callback_bool ls s tr : run step e_init ls = Running s tr -> bools ref tr.
Proof. intros H. apply (e_bools _ _ (e_inv _ _ _ H)). Qed.
(** a step fails exactly if it breaks the rule *)
Theorem fails_iff ls s tr l : run step e_init ls = Running s tr -> step s l <> Disabled -> (exists f es, step s l = Fail f es) <-> ~ nonnull ref tr l.
Proof.
  intros H Hd. pose proof (e_inv _ _ _ H) as HI. assert (Hn : forall x, s x = OCb None -> ref tr x = None).
  { intros x E. pose proof (e_cls _ _ HI x) as Ec. rewrite (e_val _ _ HI), E in Ec. destruct (ref tr x); [discriminate|reflexivity]. }
  assert (Hsm : forall x f, s x = OCb (Some f) -> ref tr x <> None).
  { intros x f E. pose proof (e_cls _ _ HI x) as Ec. rewrite (e_val _ _ HI), E in Ec. destruct (ref tr x); [discriminate|destruct f; discriminate]. }
  destruct l as [x|x c st|x c st|x y|x|x a|x a|x|x y]; cbn [e_step nonnull] in *.
  - destruct (s x); try congruence. split; [intros (f & es & E); discriminate|tauto].
  - destruct (s x); try congruence. split; [intros (f & es & E); discriminate|tauto].
  - destruct (s x); try congruence. split; [intros (f & es & E); discriminate|tauto].
  - destruct (s x), (s y); try congruence; split; try tauto; intros (? & es & E); discriminate.
  - destruct (s x); try congruence. split; [intros (? & es & E); discriminate|tauto].
  - destruct (s x) as [|[[c st]|]| |] eqn:Ex; try congruence.
    + split; [intros (f & es & E); discriminate|]. intros F. elim F. eauto.
    + split; [intros _ F; apply F; auto|eauto].
  - destruct (s x); try congruence. split; [intros (? & es & E); discriminate|tauto].
  - destruct (s x); try congruence. split; [intros (? & es & E); discriminate|tauto].
  - pose proof (e_arm _ _ HI x) as Ha. destruct (s x) as [| | |[f|]] eqn:Ex; try congruence; destruct (s y) as [|[f'|]| |] eqn:Ey; try congruence.
    + split; [|eauto]. intros _ [_ F]. destruct (proj1 Ha) as [z Hz]; eauto. exact (F z Hz).
    + split; [|eauto]. intros _ [_ F]. destruct (proj1 Ha) as [z Hz]; eauto. exact (F z Hz).
    + split; [intros (? & es & E); discriminate|]. intros F. elim F. split; [eauto|]. intros z Hz. destruct (proj2 Ha) as [g E]; eauto. discriminate.
    + split; [|eauto]. intros _ [F _]. apply F. auto.
Qed.
(** there is no way to arm an item again *)
Theorem arm_once ls s tr x y l z : run step e_init ls = Running s tr -> In (VArm x y) tr -> l = LArm x z -> forall s' es, step s l <> Next s' es.
Proof.
  intros H Hy -> s' es E. pose proof (e_inv _ _ _ H) as HI. destruct (proj2 (e_arm _ _ HI x)) as [f Ef]; eauto. cbn [e_step] in E. rewrite Ef in E. destruct (s z); discriminate.
Qed.
End Beh.
