(** post_ack_handle variables: the invariants. *)
From Coq Require Import List Arith Bool Lia.
From Verif Require Import Lts ListFacts M_Wait S_Wait P_Wait M_PostAck S_PostAck P_PostAck P_PostAckRun P_PostAckMain M_PostAckMove S_PostAckMove.
Import ListNotations.

Section Move.
Context {T : Type}.
Notation P := (post_ack T).
Variable eager : bool.
Notation vstep := (v_step (T := T) eager).
Notation vtrace := (list (vevent (T := T))).

Definition rep (h : hold) : hvar := match h with Empty => hv_null | Holds o => HVr (Some o) false | Acked o => HVr (Some o) true end.

Lemma api_app (a b : vtrace) : api (a ++ b) = api a ++ api b. Proof. apply flat_map_app. Qed.
Lemma api_VB es : api (T := T) (map VB es) = es. Proof. induction es as [|e es IH]; simpl; [reflexivity|]. now rewrite IH. Qed.
Lemma vars_snoc (tr : vtrace) e : vars_of (tr ++ [e]) = vars_step (vars_of tr) e. Proof. unfold vars_of. now rewrite fold_left_app. Qed.
Lemma acking_snoc (tr : vtrace) e : acking (tr ++ [e]) = acking_step (acking tr) e. Proof. unfold acking. now rewrite fold_left_app. Qed.
Lemma vars_VB (tr : vtrace) es : vars_of (tr ++ map VB es) = vars_of tr.
Proof. unfold vars_of. rewrite fold_left_app. generalize (fold_left vars_step tr (fun _ => None)). induction es as [|e es IH]; intros m; simpl; auto. Qed.
Lemma acking_VB (tr : vtrace) es : acking (tr ++ map VB es) = acking tr.
Proof. unfold acking. rewrite fold_left_app. generalize (fold_left acking_step tr (fun _ => false)). induction es as [|e es IH]; intros m; simpl; auto. Qed.
Lemma quiet_prefix (tr es : vtrace) : quiet (tr ++ es) -> quiet tr.
Proof. intros H t1 e t2 ->. apply (H t1 e (t2 ++ es)). now rewrite <- app_assoc. Qed.
Lemma rule_prefix (tr es : vtrace) : v_rule (tr ++ es) -> v_rule tr.
Proof.
  intros (A & B & C). split; [exact (quiet_prefix _ _ A)|]. split.
  - intros t1 e t2 ->. apply (B t1 e (t2 ++ es)). now rewrite <- app_assoc.
  - intros t1 e t2 E. apply (C t1 e (t2 ++ api es)). rewrite api_app, E. now rewrite <- app_assoc.
Qed.
Lemma in_VB (es : list (event P)) x o : ~ In (VNew x o) (map (VB (T := T)) es).
Proof. intros H. apply in_map_iff in H. destruct H as (e & [=] & _). Qed.

Record J (s : vst (T := T)) (tr : vtrace) : Prop := MkJ {
  j_run : exists ls, run (step P eager) (c_init P) ls = Running (v_s s) (api tr);
  j_rep : forall x, v_var s x = option_map rep (vars_of tr x);
  j_uni : forall x y o a b, v_var s x = Some (HVr (Some o) a) -> v_var s y = Some (HVr (Some o) b) -> x = y;
  j_av : forall o, v_avail s o = true -> forall x a, v_var s x <> Some (HVr (Some o) a);
  j_got : forall o, v_avail s o = true -> 0 < notified o (api tr);
  j_has : forall x o a, v_var s x = Some (HVr (Some o) a) -> 0 < notified o (api tr);
  j_ack : forall o x, v_ack s o = Some x -> v_var s x = Some (HVr (Some o) false) /\ acking tr x = true;
  j_busy : forall x, acking tr x = true -> exists o, v_ack s o = Some x;
  j_kept : forall x o, In (VNew x o) tr -> (exists y, v_var s y = Some (HVr (Some o) false)) \/ In (EPrim (EAck o : PE P)) (api tr);
  j_acked : forall x o, v_var s x = Some (HVr (Some o) true) -> In (EPrim (EAck o : PE P)) (api tr);
  j_run_ack : forall o x, v_ack s o = Some x -> In (EPrim (EAck o : PE P)) (api tr) }.

Lemma run_snoc ls s tr l s' es : run (step P eager) (c_init P) ls = Running s tr -> step P eager s l = Next s' es -> run (step P eager) (c_init P) (ls ++ [l]) = Running s' (tr ++ es).
Proof. intros H Hs. unfold run in *. rewrite run_from_app, H. cbn [run_from]. now rewrite Hs. Qed.
Lemma run_fail ls s tr l f es : run (step P eager) (c_init P) ls = Running s tr -> step P eager s l = Fail f es -> run (step P eager) (c_init P) (ls ++ [l]) = Failed f (tr ++ es).
Proof. intros H Hs. unfold run in *. rewrite run_from_app, H. cbn [run_from]. now rewrite Hs. Qed.
Lemma notified_app o (a b : list (event P)) : notified o (a ++ b) = notified o a + notified o b.
Proof. apply ndone_app. Qed.
Lemma gets_done o es : gets (T := T) o es = true -> exists p, In (EDone (P := P) o (Some p)) es.
Proof.
  unfold gets. intros H. apply existsb_exists in H. destruct H as (e & Hin & He). destruct e as [|o' v| | |]; try discriminate. destruct v as [p|]; [|discriminate]. apply Nat.eqb_eq in He. subst. eauto.
Qed.
Lemma notified_pos o p (es : list (event P)) : In (EDone (P := P) o (Some p)) es -> 0 < notified o es.
Proof. apply done_notified. Qed.
Lemma drop_unacked h o : hv_drop_ok h = true -> h = HVr (Some o) false -> False.
Proof. intros H ->. discriminate. Qed.
Lemma rep_holds m o : option_map rep m = Some (HVr (Some o) false) -> m = Some (Holds o).
Proof. destruct m as [[|o'|o']|]; simpl; intros H; try discriminate; injection H as ->; reflexivity. Qed.

(** A call that only concerns variables *)
Lemma J_pure s tr e var' avail' : J s tr -> api (tr ++ [e]) = api tr -> acking (tr ++ [e]) = acking tr ->
  (forall x, var' x = option_map rep (vars_of (tr ++ [e]) x)) ->
  (forall x y o a b, var' x = Some (HVr (Some o) a) -> var' y = Some (HVr (Some o) b) -> x = y) ->
  (forall x o a, var' x = Some (HVr (Some o) a) -> (exists x0, v_var s x0 = Some (HVr (Some o) a)) \/ (a = false /\ v_avail s o = true)) ->
  (forall o, avail' o = true -> v_avail s o = true /\ forall x a, var' x <> Some (HVr (Some o) a)) ->
  (forall x, acking tr x = true -> var' x = v_var s x) ->
  (forall x o, v_var s x = Some (HVr (Some o) false) -> exists y, var' y = Some (HVr (Some o) false)) ->
  (forall x o, e = VNew x o -> exists y, var' y = Some (HVr (Some o) false)) ->
  J (VS (v_s s) var' avail' (v_ack s)) (tr ++ [e]).
Proof.
  intros [A1 A2 A3 A4 A5 A6 A7 A8 A9 A10 A11] Ea Ek H1 H2 H3 H4 H5 H6 H7. split; simpl; rewrite ?Ea, ?Ek.
  - exact A1.
  - exact H1.
  - exact H2.
  - intros o Ho. apply (H4 o Ho).
  - intros o Ho. apply A5, (H4 o Ho).
  - intros x o a Hx. destruct (H3 _ _ _ Hx) as [(x0 & H)|[_ H]]; eauto.
  - intros o x Ho. destruct (A7 o x Ho) as [B1 B2]. split; [|exact B2]. now rewrite (H5 x B2).
  - exact A8.
  - intros x o Hin. apply in_app_iff in Hin. destruct Hin as [Hin|[E|[]]].
    + destruct (A9 x o Hin) as [(y & Hy)|H]; [|now right]. left. exact (H6 y o Hy).
    + left. exact (H7 x o E).
  - intros x o Hx. destruct (H3 _ _ _ Hx) as [(x0 & H)|[H _]]; [exact (A10 x0 o H)|discriminate].
  - exact A11.
Qed.

Lemma quiet_last (tr : vtrace) e es : quiet (tr ++ e :: es) -> forall x, In x (touched e) -> acking tr x = false.
Proof. intros H. exact (H tr e es eq_refl). Qed.

Lemma J_init : J v_init [].
Proof. split; simpl; try discriminate; try tauto. exists []. reflexivity. Qed.

Ltac ups := unfold upd in *; repeat match goal with
  | H : context [Nat.eqb ?a ?b] |- _ => destruct (Nat.eqb_spec a b); subst; try discriminate; try congruence
  | |- context [Nat.eqb ?a ?b] => destruct (Nat.eqb_spec a b); subst; try discriminate; try congruence
  end.

Ltac inj := repeat match goal with H : Some (HVr (Some _) _) = Some (HVr (Some _) _) |- _ => injection H; clear H; intros; subst end.

Ltac uni A3 := exfalso; inj;
  repeat match goal with E1 : v_var ?s ?p = ?q, E2 : ?q = Some (HVr (Some _) _) |- _ => let H := fresh in pose proof (eq_trans E1 E2) as H; clear E2; revert H end; intros;
  match goal with E1 : v_var ?s ?p = Some (HVr (Some ?o) _), E2 : v_var ?s ?q = Some (HVr (Some ?o) _) |- _ => assert_fails (constr_eq p q); pose proof (A3 _ _ _ _ _ E1 E2) end; congruence.

Ltac av A4 := inj; repeat match goal with E1 : v_var ?s ?p = ?q, E2 : ?q = Some (HVr (Some _) _) |- _ => let H := fresh in pose proof (eq_trans E1 E2) as H; clear E2; revert H end; intros; eapply A4; eassumption.

Ltac fr := left; match goal with E1 : v_var ?s ?p = ?q, E2 : ?q = Some (HVr (Some _) _) |- _ => exists p; congruence end.

(** A step that makes calls on the agents and posts but changes no variable *)
Lemma J_base s tr l s' es avail' pre : J s tr -> step P eager (v_s s) l = Next s' es -> (pre = [] \/ exists x, pre = [VRead x]) ->
  (forall o, avail' o = true -> v_avail s o = true \/ gets o es = true) -> J (VS s' (v_var s) avail' (v_ack s)) (tr ++ pre ++ map VB es).
Proof.
  intros HJ Hs Hp Hav. pose proof HJ as [A1 A2 A3 A4 A5 A6 A7 A8 A9 A10 A11]. destruct A1 as (ls & Hr).
  assert (E1 : api (tr ++ pre ++ map VB es) = api tr ++ es). { rewrite !api_app, api_VB. destruct Hp as [->|(x & ->)]; reflexivity. }
  assert (E2 : vars_of (tr ++ pre ++ map VB es) = vars_of tr). { rewrite app_assoc, vars_VB. destruct Hp as [->|(x & ->)]; [now rewrite app_nil_r|now rewrite vars_snoc]. }
  assert (E3 : acking (tr ++ pre ++ map VB es) = acking tr). { rewrite app_assoc, acking_VB. destruct Hp as [->|(x & ->)]; [now rewrite app_nil_r|now rewrite acking_snoc]. }
  pose proof (run_snoc _ _ _ _ _ _ Hr Hs) as Hr'.
  assert (Hn : forall o, gets o es = true -> 0 < notified o es). { intros o Ho. destruct (gets_done _ _ Ho) as (p & Hin). exact (notified_pos _ _ _ Hin). }
  split; cbn [v_s v_var v_avail v_ack]; rewrite ?E1, ?E2, ?E3.
  - eauto.
  - exact A2.
  - exact A3.
  - intros o Ho x a Hx. destruct (Hav o Ho) as [H|H]; [exact (A4 o H x a Hx)|]. specialize (Hn o H). specialize (A6 _ _ _ Hx).
    pose proof (t_once _ _ _ (post_ack_tlaws T) _ _ _ Hr' o) as Hle. rewrite notified_app in Hle. lia.
  - intros o Ho. rewrite notified_app. destruct (Hav o Ho) as [H|H]; [specialize (A5 o H)|specialize (Hn o H)]; lia.
  - intros x o a Hx. rewrite notified_app. specialize (A6 _ _ _ Hx). lia.
  - exact A7.
  - exact A8.
  - intros x o Hin. rewrite in_app_iff in *. destruct Hin as [Hin|Hin].
    + destruct (A9 x o Hin) as [H|H]; [now left|right; now left].
    + exfalso. apply in_app_iff in Hin. destruct Hin as [Hin|Hin]; [|exact (in_VB _ _ _ Hin)]. destruct Hp as [->|(z & ->)]; [destruct Hin|destruct Hin as [[=]|[]]].
  - intros x o Hx. apply in_app_iff. left. exact (A10 x o Hx).
  - intros o x Hx. apply in_app_iff. left. exact (A11 o x Hx).
Qed.

Lemma J_step s tr l s' es : J s tr -> v_step eager s l = Next s' es -> quiet (tr ++ es) -> J s' (tr ++ es).
Proof.
  intros HJ Hs HQ. pose proof HJ as [A1 A2 A3 A4 A5 A6 A7 A8 A9 A10 A11]. destruct l as [l|x o|x|y x|y x|x y|x|x|o|x|x]; cbn [v_step hv_swap hv_nd hv_acked hv_null] in Hs.
  - destruct (handle_step l); [discriminate|]. destruct (step P eager (v_s s) l) as [s1 es1| |] eqn:Hl; try discriminate. injection Hs as <- <-.
    apply (J_base s tr l s1 es1 _ [] HJ Hl); [now left|]. intros o Ho. apply orb_true_iff in Ho. tauto.
  - destruct (v_var s x) eqn:Ex; [discriminate|]. destruct (v_avail s o) eqn:Ho; [|discriminate]. injection Hs as <- <-.
    pose proof (quiet_last _ _ _ HQ x (or_introl eq_refl)) as Hq. apply J_pure; auto.
    + rewrite api_app. apply app_nil_r.
    + now rewrite acking_snoc.
    + intros z. rewrite vars_snoc. simpl. ups. reflexivity.
    + intros a b o' f g Ha Hb. ups; eauto; inj; exfalso; eapply A4; eassumption.
    + intros z o' f Hz. ups; [injection Hz as <- <-; auto|eauto].
    + intros o' Ho'. ups. split; [exact Ho'|]. intros z f Hz. ups. exact (A4 _ Ho' _ _ Hz).
    + intros z Hz. ups.
    + intros z o' Hz. exists z. ups.
    + intros z o' [= <- <-]. exists x. ups.
  - destruct (v_var s x) eqn:Ex; [discriminate|]. injection Hs as <- <-.
    pose proof (quiet_last _ _ _ HQ x (or_introl eq_refl)) as Hq. apply J_pure; auto.
    + rewrite api_app. apply app_nil_r.
    + now rewrite acking_snoc.
    + intros z. rewrite vars_snoc. simpl. ups. reflexivity.
    + intros a b o' f g Ha Hb. ups; eauto.
    + intros z o' f Hz. ups; eauto; fr.
    + intros o' Ho'. split; [exact Ho'|]. intros z f Hz. ups. exact (A4 _ Ho' _ _ Hz).
    + intros z Hz. ups.
    + intros z o' Hz. exists z. ups.
    + intros z o' [=].
  - destruct (v_var s y) eqn:Ey; [discriminate|]. destruct (v_var s x) as [a|] eqn:Ex; [|discriminate]. injection Hs as <- <-.
    pose proof (quiet_last _ _ _ HQ x (or_intror (or_introl eq_refl))) as Hq. pose proof (quiet_last _ _ _ HQ y (or_introl eq_refl)) as Hq'.
    assert (Hne : x <> y) by congruence. destruct a as [nd ak]. simpl. apply J_pure; auto.
    + rewrite api_app. apply app_nil_r.
    + now rewrite acking_snoc.
    + intros z. rewrite vars_snoc. simpl. ups; try reflexivity; now rewrite <- A2, Ex.
    + intros z w o' f g Hz Hw. ups; eauto; uni A3.
    + intros z o' f Hz. ups; eauto; fr.
    + intros o' Ho'. split; [exact Ho'|]. intros z f Hz. ups; av A4.
    + intros z Hz. ups.
    + intros z o' Hz. destruct (Nat.eq_dec z x) as [->|Hzx]; [exists y|exists z]; ups.
    + intros z o' [=].
  - destruct (v_var s x) as [a|] eqn:Ex; [|discriminate]. destruct a as [nd ak]. simpl in Hs.
    destruct (upd (v_var s) x (Some (HVr None false)) y) as [b|] eqn:Ey; [|discriminate]. destruct b as [nd' ak']. simpl in Hs.
    destruct (hv_drop_ok {| hv_nd := nd'; hv_acked := ak' |}) eqn:Hd; [|discriminate]. injection Hs as <- <-.
    pose proof (quiet_last _ _ _ HQ x (or_intror (or_introl eq_refl))) as Hq. pose proof (quiet_last _ _ _ HQ y (or_introl eq_refl)) as Hq'.
    apply J_pure; auto.
    + rewrite api_app. apply app_nil_r.
    + now rewrite acking_snoc.
    + intros z. rewrite vars_snoc. simpl. ups; try reflexivity; try (now rewrite <- A2, Ex).
    + intros z w o' f g Hz Hw. ups; eauto; uni A3.
    + intros z o' f Hz. ups; eauto; fr.
    + intros o' Ho'. split; [exact Ho'|]. intros z f Hz. ups; av A4.
    + intros z Hz. ups.
    + intros z o' Hz. destruct (Nat.eq_dec z x) as [->|Hzx]; [exists y; ups|]. exists z. ups. exfalso. apply (drop_unacked _ o' Hd). congruence.
    + intros z o' [=].
  - destruct (v_var s x) as [a|] eqn:Ex; [|discriminate]. destruct (v_var s y) as [b|] eqn:Ey; [|discriminate]. destruct a as [nd ak], b as [nd' ak']. simpl in Hs. injection Hs as <- <-.
    pose proof (quiet_last _ _ _ HQ y (or_intror (or_introl eq_refl))) as Hq. pose proof (quiet_last _ _ _ HQ x (or_introl eq_refl)) as Hq'.
    apply J_pure; auto.
    + rewrite api_app. apply app_nil_r.
    + now rewrite acking_snoc.
    + intros z. rewrite vars_snoc. simpl. ups; try reflexivity; rewrite <- ?A2, ?Ex, ?Ey; reflexivity.
    + intros z w o' f g Hz Hw. ups; eauto; uni A3.
    + intros z o' f Hz. ups; eauto; fr.
    + intros o' Ho'. split; [exact Ho'|]. intros z f Hz. ups; av A4.
    + intros z Hz. ups.
    + intros z o' Hz. destruct (Nat.eq_dec z x) as [->|Hzx]; [exists y; ups|]. destruct (Nat.eq_dec z y) as [->|Hzy]; [exists x; ups|]. exists z. ups.
    + intros z o' [=].
  - destruct (v_var s x) as [a|] eqn:Ex; [|discriminate]. destruct (hv_drop_ok a) eqn:Hd; [|discriminate]. injection Hs as <- <-.
    pose proof (quiet_last _ _ _ HQ x (or_introl eq_refl)) as Hq. apply J_pure; auto.
    + rewrite api_app. apply app_nil_r.
    + now rewrite acking_snoc.
    + intros z. rewrite vars_snoc. simpl. ups. reflexivity.
    + intros z w o' f g Hz Hw. ups; eauto.
    + intros z o' f Hz. ups; eauto; fr.
    + intros o' Ho'. split; [exact Ho'|]. intros z f Hz. ups. exact (A4 _ Ho' _ _ Hz).
    + intros z Hz. ups.
    + intros z o' Hz. exists z. ups. exfalso. apply (drop_unacked _ o' Hd). congruence.
    + intros z o' [=].
  - pose proof (quiet_last tr (VAck x)) as HQ0. destruct (v_var s x) as [[[o|] [|]]|] eqn:Ex; try discriminate.
    destruct (step P eager (v_s s) (LPrim (KAck o : PL P))) as [s1 es1| |] eqn:Hl; try discriminate. destruct A1 as (ls & Hr). pose proof (run_snoc _ _ _ _ _ _ Hr Hl) as Hr'.
    assert (He : es1 = [EPrim (EAck o : PE P)]).
    { simpl in Hl. destruct (k_hd _ o) as [|p|p|p|p]; try discriminate. destruct (k_nd _ p) as [nd|]; [|discriminate]. destruct (n_done nd); [discriminate|]. destruct (n_acks nd); [discriminate|].
      injection Hl as _ <-. reflexivity. }
    subst es1. assert (Hq : acking tr x = false).
    { destruct (acked_now s1 o); injection Hs as <- <-; exact (HQ0 _ HQ x (or_introl eq_refl)). }
    assert (Hno : forall o', v_ack s o' <> Some x) by (intros o' E; apply A7 in E; destruct E; congruence).
    destruct (acked_now s1 o) eqn:Hk; injection Hs as <- <-; simpl map; simpl app.
    + assert (E1 : api (tr ++ [VAck x; VB (EPrim (EAck o : PE P)); VAcked x]) = api tr ++ [EPrim (EAck o : PE P)]) by (rewrite api_app; reflexivity).
      assert (E2 : vars_of (tr ++ [VAck x; VB (EPrim (EAck o : PE P)); VAcked x]) = upd (vars_of tr) x (Some (Acked o))).
      { unfold vars_of. rewrite fold_left_app. simpl. change (fold_left vars_step tr _) with (vars_of tr). rewrite A2 in Ex. apply rep_holds in Ex. now rewrite Ex. }
      assert (E3 : acking (tr ++ [VAck x; VB (EPrim (EAck o : PE P)); VAcked x]) = upd (upd (acking tr) x true) x false) by (unfold acking; rewrite fold_left_app; reflexivity).
      split; cbn [v_s v_var v_avail v_ack]; rewrite ?E1, ?E2, ?E3.
      * eauto.
      * intros z. ups. reflexivity.
      * intros z w o' f g Hz Hw. ups; eauto; uni A3.
      * intros o' Ho' z f Hz. ups; [injection Hz as <- _; exact (A4 _ Ho' _ _ Ex)|exact (A4 _ Ho' _ _ Hz)].
      * intros o' Ho'. rewrite notified_app. specialize (A5 _ Ho'). lia.
      * intros z o' f Hz. rewrite notified_app. ups; [injection Hz as <- _; specialize (A6 _ _ _ Ex)|specialize (A6 _ _ _ Hz)]; lia.
      * intros o' z Hz. pose proof (A7 _ _ Hz) as [B1 B2]. ups. auto.
      * intros z Hz. ups. auto.
      * intros z o' Hin. assert (Hin' : In (VNew z o') tr) by (apply in_app_iff in Hin; destruct Hin as [Hin|[[=]|[[=]|[[=]|[]]]]]; exact Hin).
        destruct (A9 _ _ Hin') as [(w & Hw)|H]; [|right; apply in_app_iff; now left].
        destruct (Nat.eq_dec w x) as [->|Hwx]; [right; apply in_app_iff; right; left; congruence|left; exists w; ups].
      * intros z o' Hz. apply in_app_iff. ups; [right; left; congruence|left; exact (A10 _ _ Hz)].
      * intros o' z Hz. apply in_app_iff. left. exact (A11 _ _ Hz).
    + assert (E1 : api (tr ++ [VAck x; VB (EPrim (EAck o : PE P))]) = api tr ++ [EPrim (EAck o : PE P)]) by (rewrite api_app; reflexivity).
      assert (E2 : vars_of (tr ++ [VAck x; VB (EPrim (EAck o : PE P))]) = vars_of tr) by (unfold vars_of; rewrite fold_left_app; reflexivity).
      assert (E3 : acking (tr ++ [VAck x; VB (EPrim (EAck o : PE P))]) = upd (acking tr) x true) by (unfold acking; rewrite fold_left_app; reflexivity).
      assert (Hnone : v_ack s o = None). { destruct (v_ack s o) as [z|] eqn:Ez; [|reflexivity]. exfalso. destruct (A7 _ _ Ez) as [B1 B2]. pose proof (A3 _ _ _ _ _ Ex B1). congruence. }
      split; cbn [v_s v_var v_avail v_ack]; rewrite ?E1, ?E2, ?E3; auto.
      * eauto.
      * intros o' Ho'. rewrite notified_app. specialize (A5 _ Ho'). lia.
      * intros z o' f Hz. rewrite notified_app. specialize (A6 _ _ _ Hz). lia.
      * intros o' z Hz. destruct (Nat.eq_dec o' o) as [->|Hno']; [rewrite upd_same in Hz; injection Hz as <-; split; [exact Ex|now rewrite upd_same]|]. rewrite upd_other in Hz by congruence. destruct (A7 _ _ Hz) as [B1 B2]. split; [exact B1|]. rewrite upd_other; [exact B2|]. intros ->. exact (Hno _ Hz).
      * intros z Hz. ups; [exists o; ups|]. destruct (A8 _ Hz) as (o' & Ho'). exists o'. ups.
      * intros z o' Hin. assert (Hin' : In (VNew z o') tr) by (apply in_app_iff in Hin; destruct Hin as [Hin|[[=]|[[=]|[]]]]; exact Hin).
        destruct (A9 _ _ Hin') as [H|H]; [now left|right; apply in_app_iff; now left].
      * intros z o' Hz. apply in_app_iff. left. exact (A10 _ _ Hz).
      * intros o' z Hz. apply in_app_iff. ups; [right; now left|left; exact (A11 _ _ Hz)].
  - destruct (v_ack s o) as [x|] eqn:Ek; [|discriminate]. destruct (step P eager (v_s s) (LPrim (KAckStep o : PL P))) as [s1 es1| |] eqn:Hl; try discriminate.
    destruct (acked_now s1 o) eqn:Hk.
    2:{ injection Hs as <- <-. apply (J_base s tr _ s1 es1 _ [] HJ Hl); [now left|]. auto. }
    destruct (A7 _ _ Ek) as [Ex Hx]. rewrite Ex in Hs. injection Hs as <- <-. unfold hv_ack. cbn [hv_nd]. destruct A1 as (ls & Hr). pose proof (run_snoc _ _ _ _ _ _ Hr Hl) as Hr'.
    assert (E1 : api (tr ++ map VB es1 ++ [VAcked x]) = api tr ++ es1). { rewrite !api_app, api_VB. simpl. now rewrite app_nil_r. }
    assert (E2 : vars_of (tr ++ map VB es1 ++ [VAcked x]) = upd (vars_of tr) x (Some (Acked o))).
    { rewrite app_assoc, vars_snoc, vars_VB. simpl. rewrite A2 in Ex. apply rep_holds in Ex. now rewrite Ex. }
    assert (E3 : acking (tr ++ map VB es1 ++ [VAcked x]) = upd (acking tr) x false) by (rewrite app_assoc, acking_snoc, acking_VB; reflexivity).
    split; cbn [v_s v_var v_avail v_ack hv_ack hv_nd]; rewrite ?E1, ?E2, ?E3.
    + eauto.
    + intros z. ups. reflexivity.
    + intros z w o' f g Hz Hw. ups; eauto; uni A3.
    + intros o' Ho' z f Hz. ups; [injection Hz as <- _; exact (A4 _ Ho' _ _ Ex)|exact (A4 _ Ho' _ _ Hz)].
    + intros o' Ho'. rewrite notified_app. specialize (A5 _ Ho'). lia.
    + intros z o' f Hz. rewrite notified_app. ups; [injection Hz as <- _; specialize (A6 _ _ _ Ex)|specialize (A6 _ _ _ Hz)]; lia.
    + intros o' z Hz. destruct (Nat.eq_dec o' o) as [->|Hno']; [rewrite upd_same in Hz; discriminate|]. rewrite upd_other in Hz by congruence. destruct (A7 _ _ Hz) as [B1 B2]. assert (z <> x) by congruence. rewrite !upd_other by congruence. auto.
    + intros z Hz. ups. destruct (A8 _ Hz) as (o' & Ho'). exists o'. ups.
    + intros z o' Hin. assert (Hin' : In (VNew z o') tr).
      { rewrite !in_app_iff in Hin. destruct Hin as [Hin|[Hin|[[=]|[]]]]; [exact Hin|]. destruct (in_VB _ _ _ Hin). }
      destruct (A9 _ _ Hin') as [(w & Hw)|H]; [|right; apply in_app_iff; now left].
      destruct (Nat.eq_dec w x) as [->|Hwx]; [right; apply in_app_iff; left; assert (o' = o) by congruence; subst; exact (A11 _ _ Ek)|left; exists w; ups].
    + intros z o' Hz. apply in_app_iff. left. ups; [injection Hz as <-; exact (A11 _ _ Ek)|exact (A10 _ _ Hz)].
    + intros o' z Hz. apply in_app_iff. left. ups. exact (A11 _ _ Hz).
  - destruct (v_var s x) as [[[o|] ak]|] eqn:Ex; try discriminate. destruct (step P eager (v_s s) (LPrim (KRead o : PL P))) as [s1 es1| |] eqn:Hl; try discriminate. injection Hs as <- <-.
    apply (J_base s tr _ s1 es1 _ [VRead x] HJ Hl); [right; eauto|]. auto.
  - destruct (v_var s x) as [a|] eqn:Ex; [|discriminate]. injection Hs as <- <-. destruct s as [s0 var av ak]. apply (J_pure (VS s0 var av ak)); auto.
    + rewrite api_app. apply app_nil_r.
    + now rewrite acking_snoc.
    + intros z. rewrite vars_snoc. exact (A2 z).
    + intros z o' f Hz. left. eauto.
    + intros z o' Hz. eauto.
    + intros z o' [=].
Qed.

Lemma J_of ls s tr : run vstep v_init ls = Running s tr -> quiet tr -> J s tr.
Proof. intros Hr. revert Hr. apply (run_inv_client vstep quiet J v_init quiet_prefix J_init). intros s0 tr0 l s' es HJ Hs HQ. exact (J_step _ _ _ _ _ HJ Hs HQ). Qed.

(** ** The calls on the handles *)
Definition evs (r : outcome (cst P) (event P)) : list (event P) := match r with Next _ es | Fail _ es => es | Disabled => [] end.
Definition no_handle (e : event P) : Prop := match e with EPrim (EAck _) | EPrim (ERead _ _) => False | _ => True end.

Lemma retire_evs (k : kst T) a r es0 es : (exists k' tk, retire_one k a r es0 = POk k' tk es) \/ (exists f, retire_one k a r es0 = PFail f es) -> forall e, In e es -> In e es0 \/ e = EDetached a.
Proof.
  assert (Hd : forall k2, (exists k' tk, det_next (T := T) k2 a r es0 = POk k' tk es) \/ (exists f, det_next k2 a r es0 = PFail f es) -> forall e, In e es -> In e es0 \/ e = EDetached a).
  { intros k2. unfold det_next. destruct (Nat.eqb _ _); intros [(k' & tk & [= _ _ <-])|(f & [=])] e; [rewrite in_app_iff; simpl; intuition|tauto]. }
  unfold retire_one. destruct (negb _); [intros [(k' & tk & [=])|(f & [= _ <-])] e; tauto|]. destruct (find_seq _ _) as [p|]; [|intros [(k' & tk & [=])|(f & [= _ <-])] e; tauto].
  destruct (k_nd k p) as [nd|]; [|intros [(k' & tk & [=])|(f & [= _ <-])] e; tauto]. destruct (n_acks nd) as [|[|n]]; [intros [(k' & tk & [=])|(f & [= _ <-])] e; tauto|intros [(k' & tk & [= _ _ <-])|(f & [=])] e; tauto|apply Hd].
Qed.
Lemma prim_evs (k : kst T) pl es : handle_step (LPrim (pl : PL P)) = false -> (exists k' tk, k_step k pl = POk k' tk es) \/ (exists f, k_step k pl = PFail f es) ->
  forall e, In e es -> no_handle (EPrim (e : PE P)).
Proof.
  intros Hh H e Hin.
  assert (Hd : forall k2 a r es0, (exists k' tk, det_next (T := T) k2 a r es0 = POk k' tk es) \/ (exists f, det_next k2 a r es0 = PFail f es) -> In e es0 \/ e = EDetached a).
  { intros k2 a r es0. unfold det_next. destruct (Nat.eqb _ _); intros [(k' & tk & [= _ _ <-])|(f & [=])]; [rewrite in_app_iff in Hin; simpl in Hin; intuition|tauto]. }
  destruct pl as [a|a|a|p x|o|o|o]; try discriminate Hh; simpl in H.
  - destruct (g_mech _); destruct H as [(k' & tk & [= ])|(f & [= ])]; subst; destruct Hin as [<-|[]]; exact I.
  - destruct (negb _); [destruct H as [(k' & tk & [= ])|(f & [= ])]; subst; destruct Hin as [<-|[]]; exact I|]. destruct (g_det _); [destruct H as [(k' & tk & [= ])|(f & [= ])]|].
    destruct (k_active _); [destruct H as [(k' & tk & [= ])|(f & [= ])]; subst; destruct Hin as [<-|[]]; exact I|]. destruct (Nat.ltb _ _).
    + destruct (retire_evs _ _ _ _ _ H e Hin) as [[<-|[]]| ->]; exact I.
    + destruct H as [(k' & tk & [= ])|(f & [= ])]; subst. destruct Hin as [<-|[<-|[]]]; exact I.
  - destruct (g_det _) as [[r [p|]]|]; [| |destruct H as [(k' & tk & [= ])|(f & [= ])]].
    + destruct (post_complete _ p); [|destruct H as [(k' & tk & [= ])|(f & [= ])]; subst; destruct Hin]. destruct (Hd _ _ _ _ H) as [[<-|[]]| ->]; exact I.
    + destruct (retire_evs _ _ _ _ _ H e Hin) as [[]| ->]; exact I.
  - destruct (k_nd _ p); [destruct H as [(k' & tk & [= ])|(f & [= ])]|]. destruct (k_active _).
    + destruct (k_pq _); destruct H as [(k' & tk & [= ])|(f & [= ])]; subst; [destruct Hin as [<-|[<-|[]]]|destruct Hin as [<-|[]]]; exact I.
    + destruct (negb _); [|destruct (existsb _ _)]; destruct H as [(k' & tk & [= ])|(f & [= ])]; subst; destruct Hin as [<-|[]]; exact I.
Qed.
Lemma base_evs s l : handle_step l = false -> forall e, In e (evs (step P eager s l)) -> no_handle e.
Proof.
  intros Hh e. destruct l as [o tok a|o x|c|k|k|pl|o].
  - simpl. destruct (o_l _); try (intros []). unfold k_start. destruct (negb _); [intros [<-|[]]; exact I|]. destruct (Nat.ltb _ _); [|intros [<-|[]]; exact I].
    destruct (negb _); [intros [<-|[]]; exact I|]. destruct (find_seq _ _); intros [<-|[]]; exact I.
  - simpl. unfold path_step. destruct (get_pc x _) as [| | | |m| | |]; try (intros []); destruct (negb _); try (intros []).
    + destruct (o_fast _); [intros [<-|[]]; exact I|intros []].
    + destruct (o_tok _); [destruct (e_req _)|]; intros [].
    + destruct (p_try _ _); intros [].
    + destruct (do_trans _ _ _); intros [].
    + destruct (o_tok _); [|intros []]. destruct (e_req _); [intros []|]. destruct (memb _ _); intros [].
    + destruct (p_resume _ _); [intros [<-|[]]; exact I|intros []].
  - intros [<-|[]]. exact I.
  - simpl. destruct (nth_error _ k); [|intros []]. destruct (loop_ready _ _ _); [|intros []]. destruct (lp_rest _); [intros []|]. destruct (negb _); [intros []|]. destruct (o_c _); intros [].
  - simpl. destruct (nth_error _ k); [|intros []]. destruct (loop_ready _ _ _); [|intros []]. destruct (lp_rest _); [intros []|]. destruct (negb _); [intros []|]. destruct (o_p _); intros [].
  - simpl. destruct (k_step (c_prim s) pl) as [k' tk es| |f es] eqn:Hk; try (intros []); intros Hin; apply in_map_iff in Hin; destruct Hin as (e0 & <- & Hin); apply (prim_evs (c_prim s) pl es Hh); eauto.
  - simpl. destruct (_ && _); [intros [<-|[]]; exact I|intros []].
Qed.
Lemma ack_evs s o : evs (step P eager s (LPrim (KAck o : PL P))) = [EPrim (EAck o : PE P)].
Proof.
  simpl. destruct (k_hd _ o) as [|p|p|p|p]; try reflexivity. destruct (k_nd _ p) as [nd|]; [|reflexivity]. destruct (n_done nd); [reflexivity|]. destruct (n_acks nd); reflexivity.
Qed.
Lemma ackstep_evs s o e : In e (evs (step P eager s (LPrim (KAckStep o : PL P)))) -> no_handle e.
Proof.
  simpl. destruct (k_hd _ o) as [|p|p|p|p]; try (intros []).
  - destruct (negb _); [intros []|]. destruct (memb _ _); intros [].
  - destruct (post_complete _ p); [intros [<-|[]]; exact I|intros []].
Qed.
Lemma read_evs s o : (exists v, evs (step P eager s (LPrim (KRead o : PL P))) = [EPrim (ERead o v : PE P)]) \/ evs (step P eager s (LPrim (KRead o : PL P))) = [].
Proof.
  simpl. destruct (k_hd _ o) as [|p|p|p|p]; simpl; eauto; (destruct (k_nd _ p) as [nd|]; [|simpl; eauto]); destruct (n_done nd); simpl; eauto.
Qed.

Lemma wb_ext (tr es : list (event P)) : well_behaved tr -> (forall t1 e t2, es = t1 ++ e :: t2 -> call_ok (spec (tr ++ t1)) e) -> well_behaved (tr ++ es).
Proof.
  intros HW H t1 e t2 E. apply app_eq_app in E. destruct E as (m & [(-> & E)|(-> & E)]).
  - destruct m as [|e' m]; simpl in E; [rewrite app_nil_r in *; specialize (H [] e t2 (eq_sym E)); now rewrite app_nil_r in H|]. injection E as <- _. exact (HW t1 e m eq_refl).
  - exact (H m e t2 E).
Qed.
Lemma agent_call s e : agent_ok (T := T) s e -> no_handle e -> call_ok s e.
Proof. destruct e as [| | | |[| | | | | |]]; simpl; tauto. Qed.

Lemma held_keep o p (tr es : list (event P)) : In (o, p) (sp_held (spec tr)) -> ~ In (EPrim (EAck o : PE P)) es -> In (o, p) (sp_held (spec (tr ++ es))).
Proof.
  intros H. induction es as [|e es IH] using rev_ind; intros Hn; [now rewrite app_nil_r|]. rewrite app_assoc, spec_app.
  assert (H1 : In (o, p) (sp_held (spec (tr ++ es)))) by (apply IH; intros Hin; apply Hn, in_app_iff; now left). simpl.
  destruct e as [o' tok b|o' v|e|o'|[b|b|b|q y|q|o'|o' v]]; simpl; auto.
  - destruct (agent_of o' _); simpl; auto. destruct v; auto. apply in_app_iff. now left.
  - apply filter_In. split; [exact H1|]. simpl. apply negb_true_iff, Nat.eqb_neq. intros ->. apply Hn, in_app_iff. right. now left.
Qed.
Lemma held_new ls s o p t1 t2 : run (step P eager) (c_init P) ls = Running s (t1 ++ EDone (P := P) o (Some p) :: t2) -> well_behaved (t1 ++ EDone (P := P) o (Some p) :: t2) ->
  ~ In (EPrim (EAck o : PE P)) t2 -> In (o, p) (sp_held (spec (t1 ++ EDone (P := P) o (Some p) :: t2))).
Proof.
  intros Hr HW Hn. destruct (post_ack_some T eager _ _ _ _ _ _ Hr HW) as (a & later & Ha & _). change (t1 ++ EDone (P := P) o (Some p) :: t2) with (t1 ++ [EDone (P := P) o (Some p)] ++ t2). rewrite app_assoc.
  apply held_keep; [|exact Hn]. rewrite spec_app. simpl. rewrite Ha. simpl. apply in_app_iff. right. now left.
Qed.

Definition J2 (s : vst (T := T)) (tr : vtrace) : Prop :=
  well_behaved (api tr) /\
  forall o, v_avail s o = true \/ (exists x, v_var s x = Some (HVr (Some o) false)) /\ v_ack s o = None -> exists p, In (o, p) (sp_held (spec (api tr))).

Lemma holds_free s tr x o : J s tr -> vars_of tr x = Some (Holds o) -> acking tr x = false -> v_var s x = Some (HVr (Some o) false) /\ v_ack s o = None.
Proof.
  intros HJ Hx Hq. assert (Ex : v_var s x = Some (HVr (Some o) false)) by (rewrite (j_rep _ _ HJ), Hx; reflexivity). split; [exact Ex|].
  destruct (v_ack s o) as [y|] eqn:Ey; [|reflexivity]. exfalso. destruct (j_ack _ _ HJ _ _ Ey) as [B1 B2]. pose proof (j_uni _ _ HJ _ _ _ _ _ Ex B1). congruence.
Qed.

(** the agent calls of the rule *)
Lemma rule_agent (tr es : vtrace) bes : v_rule (tr ++ es) -> api es = bes -> well_behaved (api tr) -> (forall e, In e bes -> no_handle e) -> well_behaved (api tr ++ bes).
Proof.
  intros (_ & _ & H) <- HW Hn. apply wb_ext; [exact HW|]. intros t1 e t2 E. apply agent_call; [|apply Hn; rewrite E; apply in_elt].
  apply (H (api tr ++ t1) e t2). rewrite api_app, E. now rewrite <- app_assoc.
Qed.

Lemma rule_handle (tr es : vtrace) s e x o : J s tr -> J2 s tr -> v_rule (tr ++ e :: es) -> (e = VAck x \/ e = VRead x) -> v_var s x = Some (HVr (Some o) false) \/ (exists a, v_var s x = Some (HVr (Some o) a)) ->
  v_var s x = Some (HVr (Some o) false) /\ v_ack s o = None /\ exists p, In (o, p) (sp_held (spec (api tr))).
Proof.
  intros HJ [_ H2] (HQ & HH & _) He Hx. specialize (HH tr e es eq_refl). pose proof (quiet_last _ _ _ HQ) as Hq.
  assert (Hh : exists o', vars_of tr x = Some (Holds o')) by (destruct He as [-> | ->]; exact HH). destruct Hh as (o' & Ho').
  assert (Hk : acking tr x = false) by (apply Hq; destruct He as [-> | ->]; now left).
  destruct (holds_free _ _ _ _ HJ Ho' Hk) as [B1 B2]. assert (o' = o) by (destruct Hx as [Hx|(a & Hx)]; congruence). subst o'. split; [exact B1|]. split; [exact B2|]. apply H2. right. eauto.
Qed.

Lemma not_ack_in o (es : list (event P)) : (forall e, In e es -> no_handle e) -> ~ In (EPrim (EAck o : PE P)) es.
Proof. intros H Hin. exact (H _ Hin). Qed.

Lemma J2_step s tr l s' es : J s tr -> J2 s tr -> v_step eager s l = Next s' es -> v_rule (tr ++ es) -> J2 s' (tr ++ es).
Proof.
  intros HJ HJ2 Hs HR. pose proof HJ2 as [HW HH]. pose proof HJ as [(ls & Hr) A2 A3 A4 A5 A6 A7 A8 A9 A10 A11].
  assert (Hpure : forall e var' avail', api (tr ++ [e]) = api tr -> (forall o, avail' o = true -> v_avail s o = true) ->
    (forall x o, var' x = Some (HVr (Some o) false) -> (exists x0, v_var s x0 = Some (HVr (Some o) false)) \/ v_avail s o = true) -> J2 (VS (v_s s) var' avail' (v_ack s)) (tr ++ [e])).
  { intros e var' avail' E H1 H2. split; rewrite E; [exact HW|]. simpl. intros o [Ho|[(x & Hx) Ho]]; [auto|]. destruct (H2 x o Hx) as [H|H]; auto. }
  destruct l as [l|x o|x|y x|y x|x y|x|x|o|x|x]; cbn [v_step hv_swap hv_nd hv_acked hv_null] in Hs.
  - destruct (handle_step l) eqn:Hh; [discriminate|]. destruct (step P eager (v_s s) l) as [s1 es1| |] eqn:Hl; try discriminate. injection Hs as <- <-.
    assert (Hn : forall e, In e es1 -> no_handle e). { intros e Hin. apply (base_evs (v_s s) l Hh). rewrite Hl. exact Hin. }
    pose proof (run_snoc _ _ _ _ _ _ Hr Hl) as Hr'. assert (HW' : well_behaved (api tr ++ es1)) by (exact (rule_agent _ _ _ HR (api_VB _) HW Hn)).
    assert (E : api (tr ++ map VB es1) = api tr ++ es1) by now rewrite api_app, api_VB.
    split; rewrite E; [exact HW'|]. simpl. intros o Ho. destruct (gets o es1) eqn:Hg.
    + destruct (gets_done _ _ Hg) as (p & Hin). exists p. destruct (in_split _ _ Hin) as (u1 & u2 & Eu). rewrite Eu in Hr', HW', Hn |- *. rewrite app_assoc in *. apply (held_new _ _ _ _ _ _ Hr' HW').
      apply not_ack_in. intros e He. apply Hn, in_app_iff. right. now right.
    + destruct (HH o) as (p & Hp); [simpl in Ho; tauto|]. exists p. apply held_keep; [exact Hp|]. now apply not_ack_in.
  - destruct (v_var s x) eqn:Ex; [discriminate|]. destruct (v_avail s o) eqn:Ho; [|discriminate]. injection Hs as <- <-. apply Hpure.
    + rewrite api_app. apply app_nil_r.
    + intros o' Ho'. ups.
    + intros z o' Hz. ups; [right; congruence|eauto].
  - destruct (v_var s x) eqn:Ex; [discriminate|]. injection Hs as <- <-. apply Hpure; auto.
    + rewrite api_app. apply app_nil_r.
    + intros z o' Hz. ups; eauto.
  - destruct (v_var s y) eqn:Ey; [discriminate|]. destruct (v_var s x) as [a|] eqn:Ex; [|discriminate]. injection Hs as <- <-. apply Hpure; auto.
    + rewrite api_app. apply app_nil_r.
    + destruct a as [nd ak]. intros z o' Hz. simpl in Hz. ups; eauto; fr.
  - destruct (v_var s x) as [a|] eqn:Ex; [|discriminate]. destruct a as [nd ak]. simpl in Hs.
    destruct (upd (v_var s) x (Some (HVr None false)) y) as [b|] eqn:Ey; [|discriminate]. destruct b as [nd' ak']. simpl in Hs.
    destruct (hv_drop_ok {| hv_nd := nd'; hv_acked := ak' |}) eqn:Hd; [|discriminate]. injection Hs as <- <-. apply Hpure; auto.
    + rewrite api_app. apply app_nil_r.
    + intros z o' Hz. ups; eauto; fr.
  - destruct (v_var s x) as [a|] eqn:Ex; [|discriminate]. destruct (v_var s y) as [b|] eqn:Ey; [|discriminate]. destruct a as [nd ak], b as [nd' ak']. simpl in Hs. injection Hs as <- <-. apply Hpure; auto.
    + rewrite api_app. apply app_nil_r.
    + intros z o' Hz. ups; eauto; fr.
  - destruct (v_var s x) as [a|] eqn:Ex; [|discriminate]. destruct (hv_drop_ok a) eqn:Hd; [|discriminate]. injection Hs as <- <-. apply Hpure; auto.
    + rewrite api_app. apply app_nil_r.
    + intros z o' Hz. ups; eauto.
  - destruct (v_var s x) as [[[o|] [|]]|] eqn:Ex; try discriminate. pose proof (ack_evs (v_s s) o) as He.
    destruct (step P eager (v_s s) (LPrim (KAck o : PL P))) as [s1 es1| |] eqn:Hl; try discriminate. simpl in He. subst es1.
    assert (Hb : v_rule (tr ++ [VAck x])). { destruct (acked_now s1 o); injection Hs as <- <-; [apply (rule_prefix _ ([VB (EPrim (EAck o : PE P))] ++ [VAcked x]))|apply (rule_prefix _ [VB (EPrim (EAck o : PE P))])]; now rewrite <- app_assoc. }
    destruct (rule_handle tr [] s (VAck x) x o HJ HJ2 Hb (or_introl eq_refl) (or_introl Ex)) as (_ & Hnone & q & Hq).
    assert (HW' : well_behaved (api tr ++ [EPrim (EAck o : PE P)])).
    { apply wb_ext; [exact HW|]. intros t1 e t2 E. destruct t1 as [|? [|? ?]]; try discriminate. injection E as <- <-. rewrite app_nil_r. simpl. eauto. }
    assert (Hk : forall o', o' <> o -> v_avail s o' = true \/ (exists z, v_var s z = Some (HVr (Some o') false)) /\ v_ack s o' = None -> exists p, In (o', p) (sp_held (spec (api tr ++ [EPrim (EAck o : PE P)])))).
    { intros o' Hne Ho'. destruct (HH o' Ho') as (p & Hp). exists p. apply held_keep; [exact Hp|]. intros [E|[]]. congruence. }
    destruct (acked_now s1 o) eqn:Hka; injection Hs as <- <-; split.
    + rewrite api_app. exact HW'.
    + rewrite api_app. simpl. intros o' Ho'. destruct (Nat.eq_dec o' o) as [->|Hne].
      * exfalso. destruct Ho' as [Ho'|[(z & Hz) _]]; [exact (A4 _ Ho' _ _ Ex)|]. ups. pose proof (A3 _ _ _ _ _ Ex Hz). congruence.
      * apply (Hk o' Hne). destruct Ho' as [Ho'|[(z & Hz) Hn]]; [now left|right]. ups. eauto.
    + rewrite api_app. exact HW'.
    + rewrite api_app. simpl. intros o' Ho'. destruct (Nat.eq_dec o' o) as [->|Hne].
      * exfalso. destruct Ho' as [Ho'|[_ Hn]]; [exact (A4 _ Ho' _ _ Ex)|]. rewrite upd_same in Hn. discriminate.
      * apply (Hk o' Hne). destruct Ho' as [Ho'|[Hz Hn]]; [now left|right]. rewrite upd_other in Hn by congruence. auto.
  - destruct (v_ack s o) as [x|] eqn:Ek; [|discriminate]. pose proof (ackstep_evs (v_s s) o) as He. destruct (step P eager (v_s s) (LPrim (KAckStep o : PL P))) as [s1 es1| |] eqn:Hl; try discriminate.
    simpl in He. destruct (A7 _ _ Ek) as [Ex Hx]. rewrite Ex in Hs.
    assert (Hk : forall o', v_avail s o' = true \/ (exists z, v_var s z = Some (HVr (Some o') false)) /\ v_ack s o' = None -> exists p, In (o', p) (sp_held (spec (api tr ++ es1)))).
    { intros o' Ho'. destruct (HH o' Ho') as (p & Hp). exists p. apply held_keep; [exact Hp|]. apply not_ack_in. exact He. }
    destruct (acked_now s1 o) eqn:Hka; injection Hs as <- <-.
    + assert (E : api (map VB es1 ++ [VAcked x]) = es1) by (rewrite api_app, api_VB; apply app_nil_r).
      split; rewrite api_app, E; [exact (rule_agent _ _ _ HR E HW He)|]. unfold hv_ack. simpl. intros o' Ho'. apply Hk. destruct Ho' as [Ho'|[(z & Hz) Hn]]; [now left|]. right.
      destruct (Nat.eq_dec z x) as [->|Hzx]; [rewrite upd_same in Hz; discriminate|]. rewrite upd_other in Hz by congruence.
      assert (o' <> o) by (intros ->; pose proof (A3 _ _ _ _ _ Ex Hz); congruence). rewrite upd_other in Hn by congruence. eauto.
    + split; rewrite api_app, api_VB; [exact (rule_agent _ _ _ HR (api_VB _) HW He)|]. simpl. exact Hk.
  - destruct (v_var s x) as [[[o|] ak]|] eqn:Ex; try discriminate. pose proof (read_evs (v_s s) o) as He. destruct (step P eager (v_s s) (LPrim (KRead o : PL P))) as [s1 es1| |] eqn:Hl; try discriminate. injection Hs as <- <-.
    simpl in He. destruct (rule_handle _ _ _ _ x o HJ HJ2 HR (or_intror eq_refl) (or_intror (ex_intro _ ak Ex))) as (_ & _ & q & Hq).
    assert (E : api (tr ++ VRead x :: map VB es1) = api tr ++ es1) by (rewrite api_app; simpl; now rewrite api_VB).
    split; rewrite E.
    + destruct He as [(v & ->)| ->]; [|now rewrite app_nil_r]. apply wb_ext; [exact HW|]. intros t1 e t2 E'. destruct t1 as [|? [|? ?]]; try discriminate. injection E' as <- <-. rewrite app_nil_r. simpl. eauto.
    + simpl. intros o' Ho'. destruct (HH o' Ho') as (p & Hp). exists p. apply held_keep; [exact Hp|]. destruct He as [(v & ->)| ->]; simpl; intros [E'|[]] || intros []. discriminate.
  - destruct (v_var s x) as [a|] eqn:Ex; [|discriminate]. injection Hs as <- <-. destruct s as [s0 var av ak]. apply (Hpure (VBool x _) var av); auto.
    + rewrite api_app. apply app_nil_r.
    + eauto.
Qed.

Lemma J2_of ls s tr : run vstep v_init ls = Running s tr -> v_rule tr -> J s tr /\ J2 s tr.
Proof.
  intros Hr. revert Hr. apply (run_inv_client vstep v_rule (fun s tr => J s tr /\ J2 s tr) v_init rule_prefix).
  - split; [exact J_init|]. split; [intros [|] ? ? E; discriminate|]. simpl. intros o [[=]|[(x & [=]) _]].
  - intros s0 tr0 l s' es [HJ HJ2] Hs HR. split; [exact (J_step _ _ _ _ _ HJ Hs (proj1 HR))|exact (J2_step _ _ _ _ _ HJ HJ2 Hs HR)].
Qed.

(** ** Results *)
Lemma move_base ls s tr : run vstep v_init ls = Running s tr -> v_rule tr -> (exists ls', run (step P eager) (c_init P) ls' = Running (v_s s) (api tr)) /\ well_behaved (api tr).
Proof. intros Hr HR. destruct (J2_of _ _ _ Hr HR) as [HJ [HW _]]. split; [exact (j_run _ _ HJ)|exact HW]. Qed.

Lemma move_fail ls f tr : run vstep v_init ls = Failed f tr -> v_rule tr -> eager = true /\ f = UseAfterFree /\ exists o, In (EDestroy (P := P) o) (api tr) /\ notified o (api tr) = 1 /\ cancel_requested o (api tr).
Proof.
  intros Hr HR. unfold run in Hr. destruct (run_from_failed _ _ _ _ _ _ Hr) as (ls1 & l & s & tr1 & es & H1 & Hs & ->). destruct (J2_of _ _ _ H1 (rule_prefix _ _ HR)) as [HJ HJ2].
  destruct (j_run _ _ HJ) as (bls & Hb). pose proof HJ2 as [HW HH].
  assert (Hfin : forall bl f bes, step P eager (v_s s) bl = Fail f bes -> api (tr1 ++ es) = api tr1 ++ bes -> well_behaved (api tr1 ++ bes) ->
    eager = true /\ f = UseAfterFree /\ exists o, In (EDestroy (P := P) o) (api (tr1 ++ es)) /\ notified o (api (tr1 ++ es)) = 1 /\ cancel_requested o (api (tr1 ++ es))).
  { intros bl f0 bes Hbs -> HWb. exact (post_ack_fail T eager _ _ _ (run_fail _ _ _ _ _ _ Hb Hbs) HWb). }
  pose proof HR as (HQ & HO & _).
  assert (Hrep : forall x o, v_var s x = Some (HVr (Some o) false) -> vars_of tr1 x = Some (Holds o)) by (intros x o Hx; rewrite (j_rep _ _ HJ) in Hx; exact (rep_holds _ _ Hx)).
  destruct l as [l|x o|x|y x|y x|x y|x|x|o|x|x]; cbn [v_step hv_swap hv_nd hv_acked hv_null] in Hs.
  - destruct (handle_step l) eqn:Hh; [discriminate|]. destruct (step P eager (v_s s) l) as [s1 es1| |f1 es1] eqn:Hl; try discriminate. injection Hs as <- <-.
    apply (Hfin l f1 es1 Hl); [now rewrite api_app, api_VB|]. apply (rule_agent _ _ _ HR (api_VB _) HW). intros e Hin. apply (base_evs (v_s s) l Hh). rewrite Hl. exact Hin.
  - destruct (v_var s x); [discriminate|]. destruct (v_avail s o); discriminate.
  - destruct (v_var s x); discriminate.
  - destruct (v_var s y); [discriminate|]. destruct (v_var s x); discriminate.
  - exfalso. destruct (v_var s x) as [a|] eqn:Ex; [|discriminate]. destruct a as [nd ak]. simpl in Hs.
    destruct (upd (v_var s) x (Some (HVr None false)) y) as [b|] eqn:Ey; [|discriminate]. destruct b as [nd' ak']. simpl in Hs.
    destruct (hv_drop_ok {| hv_nd := nd'; hv_acked := ak' |}) eqn:Hd; [discriminate|]. injection Hs as <- <-. specialize (HO tr1 _ [] eq_refl). simpl in HO.
    destruct (Nat.eq_dec y x) as [->|Hne]; [rewrite upd_same in Ey; injection Ey as <- <-; discriminate|]. rewrite upd_other in Ey by congruence.
    destruct nd' as [o|]; [|discriminate]. destruct ak'; [discriminate|]. exact (HO Hne o (Hrep _ _ Ey)).
  - destruct (v_var s x); [|discriminate]. destruct (v_var s y); discriminate.
  - exfalso. destruct (v_var s x) as [[nd ak]|] eqn:Ex; [|discriminate]. destruct (hv_drop_ok {| hv_nd := nd; hv_acked := ak |}) eqn:Hd; [discriminate|]. injection Hs as <- <-. specialize (HO tr1 _ [] eq_refl). simpl in HO.
    destruct nd as [o|]; [|discriminate]. destruct ak; [discriminate|]. exact (HO o (Hrep _ _ Ex)).
  - destruct (v_var s x) as [[[o|] ak]|] eqn:Ex; [destruct ak| |discriminate].
    + exfalso. injection Hs as <- <-. destruct (HO tr1 _ [] eq_refl) as (o' & Ho'). rewrite (j_rep _ _ HJ), Ho' in Ex. discriminate.
    + pose proof (ack_evs (v_s s) o) as He. destruct (step P eager (v_s s) (LPrim (KAck o : PL P))) as [s1 es1| |f1 es1] eqn:Hl; try discriminate; [destruct (acked_now s1 o); discriminate|].
      simpl in He. subst es1. injection Hs as <- <-. destruct (rule_handle _ _ _ _ x o HJ HJ2 HR (or_introl eq_refl) (or_introl Ex)) as (_ & _ & q & Hq).
      apply (Hfin _ _ _ Hl); [rewrite api_app; reflexivity|]. apply wb_ext; [exact HW|]. intros t1 e t2 E. destruct t1 as [|? [|? ?]]; try discriminate. injection E as <- <-. rewrite app_nil_r. simpl. eauto.
    + exfalso. injection Hs as <- <-. destruct (HO tr1 _ [] eq_refl) as (o' & Ho'). rewrite (j_rep _ _ HJ), Ho' in Ex. discriminate.
  - destruct (v_ack s o) as [x|] eqn:Ek; [|discriminate]. pose proof (ackstep_evs (v_s s) o) as He. destruct (j_ack _ _ HJ _ _ Ek) as [Ex Hx]. rewrite Ex in Hs.
    destruct (step P eager (v_s s) (LPrim (KAckStep o : PL P))) as [s1 es1| |f1 es1] eqn:Hl; try discriminate; [destruct (acked_now s1 o); discriminate|].
    injection Hs as <- <-. apply (Hfin _ _ _ Hl); [now rewrite api_app, api_VB|]. exact (rule_agent _ _ _ HR (api_VB _) HW He).
  - destruct (v_var s x) as [[[o|] ak]|] eqn:Ex; [| |discriminate].
    + pose proof (read_evs (v_s s) o) as He. destruct (step P eager (v_s s) (LPrim (KRead o : PL P))) as [s1 es1| |f1 es1] eqn:Hl; try discriminate. injection Hs as <- <-. simpl in He.
      destruct (rule_handle _ _ _ _ x o HJ HJ2 HR (or_intror eq_refl) (or_intror (ex_intro _ ak Ex))) as (_ & _ & q & Hq).
      apply (Hfin _ _ _ Hl); [rewrite api_app; simpl; now rewrite api_VB|]. destruct He as [(v & ->)| ->]; [|now rewrite app_nil_r].
      apply wb_ext; [exact HW|]. intros t1 e t2 E'. destruct t1 as [|? [|? ?]]; try discriminate. injection E' as <- <-. rewrite app_nil_r. simpl. eauto.
    + exfalso. injection Hs as <- <-. destruct (HO tr1 _ [] eq_refl) as (o' & Ho'). rewrite (j_rep _ _ HJ), Ho' in Ex. discriminate.
  - destruct (v_var s x); discriminate.
Qed.

Lemma owner_var s tr x o : J s tr -> owner (vars_of tr) x o -> exists a, v_var s x = Some (HVr (Some o) a).
Proof. intros HJ [H|H]; rewrite (j_rep _ _ HJ), H; simpl; eauto. Qed.

Lemma move_owner ls s tr x y o : run vstep v_init ls = Running s tr -> quiet tr -> owner (vars_of tr) x o -> owner (vars_of tr) y o -> x = y.
Proof.
  intros Hr HQ Hx Hy. pose proof (J_of _ _ _ Hr HQ) as HJ. destruct (owner_var _ _ _ _ HJ Hx) as (a & Ha). destruct (owner_var _ _ _ _ HJ Hy) as (b & Hb). exact (j_uni _ _ HJ _ _ _ _ _ Ha Hb).
Qed.

Lemma move_kept ls s tr x o : run vstep v_init ls = Running s tr -> quiet tr -> In (VNew x o) tr -> (exists y, vars_of tr y = Some (Holds o)) \/ In (EPrim (EAck o : PE P)) (api tr).
Proof.
  intros Hr HQ Hin. pose proof (J_of _ _ _ Hr HQ) as HJ. destruct (j_kept _ _ HJ _ _ Hin) as [(y & Hy)|H]; [left|now right]. exists y. rewrite (j_rep _ _ HJ) in Hy. exact (rep_holds _ _ Hy).
Qed.

Lemma move_acked ls s tr x o : run vstep v_init ls = Running s tr -> quiet tr -> vars_of tr x = Some (Acked o) -> In (EPrim (EAck o : PE P)) (api tr).
Proof. intros Hr HQ Hx. pose proof (J_of _ _ _ Hr HQ) as HJ. apply (j_acked _ _ HJ x). rewrite (j_rep _ _ HJ), Hx. reflexivity. Qed.

Lemma acks_app o (a b : list (event P)) : acks o (a ++ b) = acks o a + acks o b.
Proof. unfold acks. now rewrite filter_app, app_length. Qed.
Lemma acks_once (tr : list (event P)) o : well_behaved tr -> acks o tr + length (filter (fun x => Nat.eqb (fst x) o) (sp_held (spec tr))) <= notified o tr.
Proof.
  induction tr as [|e tr IH] using rev_ind; intros HW; [reflexivity|]. specialize (IH (wb_prefix T _ _ HW)). specialize (HW tr e [] eq_refl).
  rewrite acks_app, notified_app, spec_app. destruct e as [o' tok b|o' v|e|o'|[b|b|b|q y|q|o'|o' v]]; simpl in *; unfold acks at 2; simpl; try lia.
  - destruct (agent_of o' (spec tr)); simpl; [|lia]. destruct v as [p|]; [|lia]. rewrite filter_app, app_length. simpl. destruct (Nat.eqb o' o); simpl; lia.
  - destruct (Nat.eqb_spec o' o) as [->|Hne]; simpl.
    + assert (E : forall l, filter (fun x : nat * nat => fst x =? o) (filter (fun x => negb (fst x =? o)) l) = []).
      { induction l as [|a l IHl]; simpl; [reflexivity|]. destruct (fst a =? o) eqn:E; simpl; [exact IHl|rewrite E; exact IHl]. }
      rewrite E. simpl. destruct HW as (p & Hp). assert (Hpos : 0 < length (filter (fun x => Nat.eqb (fst x) o) (sp_held (spec tr)))).
      { destruct (filter _ _) eqn:F; [|simpl; lia]. exfalso. assert (Hin : In (o, p) (filter (fun x => Nat.eqb (fst x) o) (sp_held (spec tr)))) by (apply filter_In; split; [exact Hp|simpl; apply Nat.eqb_refl]). rewrite F in Hin. destruct Hin. }
      lia.
    + assert (E : forall l, length (filter (fun x : nat * nat => fst x =? o) (filter (fun x => negb (fst x =? o')) l)) <= length (filter (fun x : nat * nat => fst x =? o) l)).
      { induction l as [|a l IHl]; simpl; [lia|]. destruct (Nat.eqb_spec (fst a) o') as [E|E]; simpl; destruct (fst a =? o); simpl; lia. }
      specialize (E (sp_held (spec tr))). lia.
Qed.
Lemma move_acks ls s tr o : run vstep v_init ls = Running s tr -> v_rule tr -> acks o (api tr) <= 1.
Proof.
  intros Hr HR. destruct (move_base _ _ _ Hr HR) as [(bls & Hb) HW]. pose proof (acks_once _ o HW). pose proof (t_once _ _ _ (post_ack_tlaws T) _ _ _ Hb o). lia.
Qed.

(** what operator bool says *)
Lemma move_bool ls s t1 x b t2 : run vstep v_init ls = Running s (t1 ++ VBool x b :: t2) -> quiet (t1 ++ VBool x b :: t2) -> (b = true <-> exists o, owner (vars_of t1) x o).
Proof.
  intros Hr HQ. destruct (run_split_event _ _ _ _ _ _ _ Hr) as (ls1 & l & ls2 & s1 & s2 & tr0 & e1 & e2 & -> & H1 & Hs & -> & _).
  assert (HQ0 : quiet tr0) by (apply (quiet_prefix _ (e1 ++ VBool x b :: t2)); now rewrite app_assoc). pose proof (J_of _ _ _ H1 HQ0) as HJ.
  assert (Hl : exists a, v_var s1 x = Some a /\ e1 = [] /\ b = match hv_nd a with Some _ => true | None => false end).
  { assert (Hno : forall es, ~ In (VBool x b) (map (VB (T := T)) es)) by (intros es Hin; apply in_map_iff in Hin; destruct Hin as (? & [=] & _)).
    destruct l as [l|z o|z|y z|y z|z y|z|z|o|z|z]; cbn [v_step hv_swap] in Hs.
    - destruct (handle_step l); [discriminate|]. destruct (step P eager (v_s s1) l) as [? es1| |]; try discriminate. injection Hs as _ E. destruct (Hno es1). rewrite E. apply in_elt.
    - destruct (v_var s1 z); [discriminate|]. destruct (v_avail s1 o); [|discriminate]. injection Hs as _ E. destruct e1 as [|? [|]]; discriminate.
    - destruct (v_var s1 z); [discriminate|]. injection Hs as _ E. destruct e1 as [|? [|]]; discriminate.
    - destruct (v_var s1 y); [discriminate|]. destruct (v_var s1 z); [|discriminate]. injection Hs as _ E. destruct e1 as [|? [|]]; discriminate.
    - destruct (v_var s1 z); [|discriminate]. destruct (upd _ _ _ y); [|discriminate]. destruct (hv_drop_ok _); [|discriminate]. injection Hs as _ E. destruct e1 as [|? [|]]; discriminate.
    - destruct (v_var s1 z); [|discriminate]. destruct (v_var s1 y); [|discriminate]. injection Hs as _ E. destruct e1 as [|? [|]]; discriminate.
    - destruct (v_var s1 z); [|discriminate]. destruct (hv_drop_ok _); [|discriminate]. injection Hs as _ E. destruct e1 as [|? [|]]; discriminate.
    - destruct (v_var s1 z) as [[[o|] [|]]|]; try discriminate. destruct (step P eager (v_s s1) _) as [s3 es1| |]; try discriminate. exfalso. destruct (acked_now s3 o); injection Hs as _ E.
      + destruct e1 as [|? e1]; [discriminate|]. injection E as _ E. assert (Hin : In (VBool x b) (map VB es1 ++ [VAcked z])) by (rewrite E; apply in_elt). apply in_app_iff in Hin. destruct Hin as [Hin|[[=]|[]]]. exact (Hno _ Hin).
      + destruct e1 as [|? e1]; [discriminate|]. injection E as _ E. apply (Hno es1). rewrite E. apply in_elt.
    - destruct (v_ack s1 o) as [z|]; [|discriminate]. destruct (step P eager (v_s s1) _) as [s3 es1| |]; try discriminate. exfalso. destruct (acked_now s3 o).
      + destruct (v_var s1 z); [|discriminate]. injection Hs as _ E. assert (Hin : In (VBool x b) (map VB es1 ++ [VAcked z])) by (rewrite E; apply in_elt). apply in_app_iff in Hin. destruct Hin as [Hin|[[=]|[]]]. exact (Hno _ Hin).
      + injection Hs as _ E. apply (Hno es1). rewrite E. apply in_elt.
    - destruct (v_var s1 z) as [[[o|] ak]|]; try discriminate. destruct (step P eager (v_s s1) _) as [s3 es1| |]; try discriminate. injection Hs as _ E. exfalso.
      destruct e1 as [|? e1]; [discriminate|]. injection E as _ E. apply (Hno es1). rewrite E. apply in_elt.
    - destruct (v_var s1 z) as [a|] eqn:Ez; [|discriminate]. injection Hs as _ E. destruct e1 as [|? [|]]; try discriminate. injection E as <- <- _. eauto. }
  destruct Hl as (a & Ea & -> & ->). rewrite app_nil_r. rewrite (j_rep _ _ HJ) in Ea. unfold owner. destruct (vars_of tr0 x) as [[|o|o]|]; simpl in Ea; try discriminate; injection Ea as <-; simpl.
  - split; [discriminate|intros (o & [[=]|[=]])].
  - split; [eauto|reflexivity].
  - split; [eauto|reflexivity].
Qed.

(** dropping a handle that was not acknowledged *)
Lemma move_drop ls s tr x o : run vstep v_init ls = Running s tr -> quiet tr -> vars_of tr x = Some (Holds o) ->
  vstep s (MDestroy x) = Fail AssertFailed [VDestroy x] /\ forall y h, y <> x -> vars_of tr y = Some h -> vstep s (MAssign x y) = Fail AssertFailed [VAssign x y].
Proof.
  intros Hr HQ Hx. pose proof (J_of _ _ _ Hr HQ) as HJ. pose proof (j_rep _ _ HJ x) as Ex. rewrite Hx in Ex. simpl in Ex. split.
  - simpl. now rewrite Ex.
  - intros y h Hne Hy. pose proof (j_rep _ _ HJ y) as Ey. rewrite Hy in Ey. simpl in Ey. cbn [v_step]. rewrite Ey. cbn [hv_swap]. rewrite upd_other by congruence. rewrite Ex. reflexivity.
Qed.

(** what * returns *)
Lemma move_read ls s t1 x t2 : run vstep v_init ls = Running s (t1 ++ VRead x :: t2) -> v_rule (t1 ++ VRead x :: t2) ->
  exists o p obj t3, vars_of t1 x = Some (Holds o) /\ t2 = VB (EPrim (ERead o (Some obj) : PE P)) :: t3 /\ In (EDone (P := P) o (Some p)) (api t1) /\ In (EPrim (EPost p obj : PE P)) (api t1).
Proof.
  intros Hr HR. destruct (move_base _ _ _ Hr HR) as [(bls & Hb) HW].
  pose proof HR as (_ & HO & _). destruct (HO t1 _ t2 eq_refl) as (o & Ho).
  assert (Hform : exists v t3, t2 = VB (EPrim (ERead o v : PE P)) :: t3).
  { destruct (run_split_event _ _ _ _ _ _ _ Hr) as (ls1 & l & ls2 & s1 & s2 & tr0 & e1 & e2 & -> & H1 & Hs & -> & Hrest).
    assert (HR0 : v_rule tr0) by (apply (rule_prefix _ (e1 ++ VRead x :: t2)); now rewrite app_assoc). destruct (J2_of _ _ _ H1 HR0) as [HJ _].
    destruct (run_from_trace_prefix _ _ _ _ _ _ Hrest) as (es' & Hes). 
    assert (Ht2 : t2 = e2 ++ es') by (rewrite <- !app_assoc in Hes; apply app_inv_head in Hes; apply app_inv_head in Hes; simpl in Hes; now injection Hes).
    assert (Hno : forall es, ~ In (VRead x) (map (VB (T := T)) es)) by (intros es Hin; apply in_map_iff in Hin; destruct Hin as (? & [=] & _)).
    destruct l as [l|z o'|z|y z|y z|z y|z|z|o'|z|z]; cbn [v_step hv_swap] in Hs.
    - destruct (handle_step l); [discriminate|]. destruct (step P eager (v_s s1) l) as [? es1| |]; try discriminate. injection Hs as _ E. destruct (Hno es1). rewrite E. apply in_elt.
    - destruct (v_var s1 z); [discriminate|]. destruct (v_avail s1 o'); [|discriminate]. injection Hs as _ E. destruct e1 as [|? [|]]; discriminate.
    - destruct (v_var s1 z); [discriminate|]. injection Hs as _ E. destruct e1 as [|? [|]]; discriminate.
    - destruct (v_var s1 y); [discriminate|]. destruct (v_var s1 z); [|discriminate]. injection Hs as _ E. destruct e1 as [|? [|]]; discriminate.
    - destruct (v_var s1 z); [|discriminate]. destruct (upd _ _ _ y); [|discriminate]. destruct (hv_drop_ok _); [|discriminate]. injection Hs as _ E. destruct e1 as [|? [|]]; discriminate.
    - destruct (v_var s1 z); [|discriminate]. destruct (v_var s1 y); [|discriminate]. injection Hs as _ E. destruct e1 as [|? [|]]; discriminate.
    - destruct (v_var s1 z); [|discriminate]. destruct (hv_drop_ok _); [|discriminate]. injection Hs as _ E. destruct e1 as [|? [|]]; discriminate.
    - destruct (v_var s1 z) as [[[o2|] [|]]|]; try discriminate. destruct (step P eager (v_s s1) _) as [s3 es1| |]; try discriminate. exfalso. destruct (acked_now s3 o2); injection Hs as _ E.
      + destruct e1 as [|? e1]; [discriminate|]. injection E as _ E. assert (Hin : In (VRead x) (map VB es1 ++ [VAcked z])) by (rewrite E; apply in_elt). apply in_app_iff in Hin. destruct Hin as [Hin|[[=]|[]]]. exact (Hno _ Hin).
      + destruct e1 as [|? e1]; [discriminate|]. injection E as _ E. apply (Hno es1). rewrite E. apply in_elt.
    - destruct (v_ack s1 o') as [z|]; [|discriminate]. destruct (step P eager (v_s s1) _) as [s3 es1| |]; try discriminate. exfalso. destruct (acked_now s3 o').
      + destruct (v_var s1 z); [|discriminate]. injection Hs as _ E. assert (Hin : In (VRead x) (map VB es1 ++ [VAcked z])) by (rewrite E; apply in_elt). apply in_app_iff in Hin. destruct Hin as [Hin|[[=]|[]]]. exact (Hno _ Hin).
      + injection Hs as _ E. apply (Hno es1). rewrite E. apply in_elt.
    - destruct (v_var s1 z) as [[[o2|] ak]|] eqn:Ez; try discriminate.
      destruct (step P eager (v_s s1) (LPrim (KRead o2 : PL P))) as [s3 es1| |] eqn:Hl; try discriminate. injection Hs as _ E.
      destruct e1 as [|? e1]; [|exfalso; injection E as _ E; apply (Hno es1); rewrite E; apply in_elt]. injection E as -> E. rewrite app_nil_r in Ho.
      rewrite (j_rep _ _ HJ), Ho in Ez. simpl in Ez. injection Ez as <- _.
      assert (He : exists v, es1 = [EPrim (ERead o v : PE P)]).
      { simpl in Hl. destruct (k_hd _ o) as [|p|p|p|p]; try discriminate; (destruct (k_nd _ p) as [nd|]; [|discriminate]); (destruct (n_done nd); [discriminate|]); injection Hl as _ <-; simpl; eauto. }
      destruct He as (v & ->). exists v, es'. rewrite Ht2, <- E. reflexivity.
    - destruct (v_var s1 z) as [a|] eqn:Ez; [|discriminate]. injection Hs as _ E. destruct e1 as [|? [|]]; discriminate. }
  destruct Hform as (v & t3 & ->).
  assert (E : api (t1 ++ VRead x :: VB (EPrim (ERead o v : PE P)) :: t3) = api t1 ++ EPrim (ERead o v : PE P) :: api t3) by (rewrite api_app; reflexivity). rewrite E in Hb, HW.
  destruct (post_ack_read T eager _ _ _ _ _ _ Hb HW) as (p & obj & -> & H1 & H2). exists o, p, obj, t3. auto.
Qed.
End Move.

Lemma move_safe T ls f tr : run (v_step (T := T) false) v_init ls = Failed f tr -> ~ v_rule tr.
Proof. intros Hr HR. destruct (move_fail false _ _ _ Hr HR) as [H _]. discriminate. Qed.

(** ** Checking the client rule *)
Section Check.
Context {T : Type}.
Notation P := (post_ack T).
Definition holds_okb (m : vars) (e : vevent (T := T)) : bool :=
  match e with
  | VAck x | VRead x => match m x with Some (Holds _) => true | _ => false end
  | VDestroy x => match m x with Some (Holds _) => false | _ => true end
  | VAssign y x => (y =? x) || match m y with Some (Holds _) => false | _ => true end
  | _ => true
  end.
Definition agent_okb (s : @sp T) (e : event P) : bool := match e with EPrim (EAck _) | EPrim (ERead _ _) => true | _ => call_okb T s e end.
Fixpoint v_ruleb (m : vars) (b : nat -> bool) (s : @sp T) (tr : list (vevent (T := T))) : bool :=
  match tr with
  | [] => true
  | e :: tr' => forallb (fun x => negb (b x)) (touched e) && holds_okb m e && match e with VB e => agent_okb s e | _ => true end &&
      v_ruleb (vars_step m e) (acking_step b e) (match e with VB e => sp_step s e | _ => s end) tr'
  end.
Lemma v_ruleb_gen (tr : list (vevent (T := T))) : forall m b s, v_ruleb m b s tr = true ->
  (forall t1 e t2, tr = t1 ++ e :: t2 -> forall x, In x (touched e) -> fold_left acking_step t1 b x = false) /\
  (forall t1 e t2, tr = t1 ++ e :: t2 -> holds_ok (fold_left vars_step t1 m) e) /\
  (forall t1 e t2, api tr = t1 ++ e :: t2 -> agent_ok (fold_left sp_step t1 s) e).
Proof.
  induction tr as [|e tr IH]; intros m b s H.
  - repeat split; intros [|] ? ? E; discriminate.
  - simpl in H. apply andb_true_iff in H. destruct H as [H H4]. apply andb_true_iff in H. destruct H as [H H3]. apply andb_true_iff in H. destruct H as [H1 H2].
    destruct (IH _ _ _ H4) as (I1 & I2 & I3). split; [|split].
    + intros [|e1 t1] e' t2 E; injection E as <- E; [|exact (I1 t1 e' t2 E)]. intros x Hx. rewrite forallb_forall in H1. specialize (H1 x Hx). now apply negb_true_iff in H1.
    + intros [|e1 t1] e' t2 E; injection E as <- E; [|exact (I2 t1 e' t2 E)]. simpl. destruct e; simpl in *; try exact I.
      * intros Hne o Ho. apply orb_true_iff in H2. destruct H2 as [H2|H2]; [apply Nat.eqb_eq in H2; congruence|]. rewrite Ho in H2. discriminate.
      * intros o Ho. rewrite Ho in H2. discriminate.
      * destruct (m x) as [[| |]|]; try discriminate. eauto.
      * destruct (m x) as [[| |]|]; try discriminate. eauto.
    + intros t1 e' t2 E. destruct e; try exact (I3 t1 e' t2 E). simpl in E. destruct t1 as [|e1 t1]; injection E as <- E; [|exact (I3 t1 e' t2 E)].
      simpl. destruct e as [| | | |[| | | | | |]]; try exact I; try (apply call_okb_ok; exact H3).
Qed.
Lemma v_ruleb_sound tr : v_ruleb (fun _ => None) (fun _ => false) sp_init tr = true -> v_rule tr.
Proof. intros H. destruct (v_ruleb_gen _ _ _ _ H) as (A & B & C). split; [exact A|split; [exact B|exact C]]. Qed.
End Check.
