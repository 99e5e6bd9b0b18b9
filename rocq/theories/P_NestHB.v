(** Happens-before in nestings of the algorithms. *)
From Coq Require Import List Arith Bool Lia.
From Verif Require Import Lts ListFacts M_Nest S_Nest P_Nest M_NestHB S_NestHB.
Import ListNotations.

Section HInd.
Variable P : hop -> Prop.
Hypotheses (Hnew : forall x, P (HNew x)) (Hleaf : forall i v, P (HLeaf i v)) (Hfn : forall f k v, P (HFn f k v)) (Htrans : forall f o, P o -> P (HTrans f o))
  (Hrep : forall c g body o, P o -> P (HRep c g body o)) (Hseq : forall l o, P o -> P (HSeq l o))
  (Hall : forall st ctr vs vc os, Forall P os -> P (HAll st ctr vs vc os)) (Hrace : forall r st nd w vs vc vw rem os, Forall P os -> P (HRace r st nd w vs vc vw rem os))
  (Hset : forall a v, P (HSet a v)) (Hfin : P HFin).
Fixpoint hop_ind' (o : hop) : P o :=
  let all := fix go (l : list hop) : Forall P l := match l with [] => Forall_nil P | y :: l' => Forall_cons y (hop_ind' y) (go l') end in
  match o with
  | HNew x => Hnew x | HLeaf i v => Hleaf i v | HFn f k v => Hfn f k v | HTrans f o' => Htrans f o' (hop_ind' o')
  | HRep c g body o' => Hrep c g body o' (hop_ind' o') | HSeq l o' => Hseq l o' (hop_ind' o')
  | HAll st ctr vs vc os => Hall st ctr vs vc os (all os) | HRace r st nd w vs vc vw rem os => Hrace r st nd w vs vc vw rem os (all os)
  | HSet a v => Hset a v | HFin => Hfin
  end.
End HInd.

(** ** Without views this is M_Nest.v *)
Fixpoint er (o : hop) : op :=
  match o with
  | HNew x => ONew x | HLeaf i _ => OLeaf i | HFn f k _ => OFn f k | HTrans f o' => OTrans f (er o') | HRep c g body o' => ORep c g body (er o')
  | HSeq l o' => OSeq l (er o') | HAll st ctr _ _ os => OAll st ctr (map er os) | HRace r st nd w _ _ _ rem os => ORace r st nd w rem (map er os)
  | HSet a _ => OSet a | HFin => OFin
  end.
Definition ero (r : outcome hop nevent) : outcome op nevent :=
  match r with Next o es => Next (er o) es | Disabled => Disabled | Fail f es => Fail f es end.
Lemma ero_within c c' r : (forall o, er (c o) = c' (er o)) -> ero (hwithin c r) = within c' (ero r).
Proof. intros H. destruct r; simpl; auto. now rewrite H. Qed.
Lemma ero_emit es r : ero (hemit es r) = emit es (ero r).
Proof. now destruct r. Qed.
Lemma er_start x : forall v n, o_start x = (er (fst (h_start x v n)), snd (h_start x v n)).
Proof.
  induction x using ex_ind'; intros v n; simpl; auto.
  - rewrite (IHx v n). now destruct (h_start x v n).
  - rewrite (IHx v n). now destruct (h_start x v n).
  - now rewrite map_map.
  - now rewrite map_map.
Qed.
Lemma ero_start x v n : ero (hstart_of x v n) = start_of x.
Proof. unfold hstart_of, start_of. rewrite (er_start x v n). now destruct (h_start x v n). Qed.
Lemma er_k f a k v n : ero (hk_step f a k v n) = k_step f a k.
Proof.
  unfold hk_step, k_step. rewrite ero_emit. f_equal. destruct k; auto.
  - apply ero_start.
  - now destruct (a =? 0).
  - rewrite (ero_within _ (ORep c g body)) by auto. now rewrite ero_start.
  - apply ero_start.
Qed.
Lemma hset_dec o : {p | o = HSet (fst p) (snd p)} + {forall a v, o <> HSet a v}.
Proof. destruct o; try (right; intros ? ?; discriminate). left. now exists (a, v). Qed.
Lemma er_set o : (forall a v, o <> HSet a v) -> forall a, er o <> OSet a.
Proof. intros H a E. destruct o; try discriminate. now destruct (H a0 v). Qed.
Definition oset {A} (o : op) (f : nat -> A) (d : A) : A := match o with OSet w => f w | _ => d end.
Definition hset {A} (o : hop) (f : nat -> kview -> A) (d : A) : A := match o with HSet w v => f w v | _ => d end.
Lemma ohset (o : hop) (f : nat -> outcome op nevent) d (g : nat -> kview -> outcome hop nevent) d' :
  (forall a v, o = HSet a v -> f a = ero (g a v)) -> d = ero d' -> oset (er o) f d = ero (hset o g d').
Proof. intros H1 H2. destruct o; simpl; auto. Qed.
Lemma er_step o : forall p e n, o_step (er o) p e = ero (h_step o p e n).
Proof.
  induction o using hop_ind'; intros p e n.
  - reflexivity.
  - simpl. destruct p; auto. now destruct e.
  - simpl. destruct p; auto. destruct e; auto. now rewrite er_k.
  - refine (ohset o (fun w => match p, e with [], None => _ | _, _ => Disabled end) (within (OTrans f) (o_step (er o) p e))
      (fun w v => match p, e with [], None => _ | _, _ => Disabled end) (hwithin (HTrans f) (h_step o p e n)) _ _).
    + intros a v _. destruct p; auto. now destruct e.
    + rewrite (ero_within _ (OTrans f)) by auto. now rewrite (IHo p e n).
  - refine (ohset o (fun w => match p, e with [], None => _ | _, _ => Disabled end) (within (ORep c g body) (o_step (er o) p e))
      (fun w v => match p, e with [], None => _ | _, _ => Disabled end) (hwithin (HRep c g body) (h_step o p e n)) _ _).
    + intros a v _. destruct p; auto. now destruct e.
    + rewrite (ero_within _ (ORep c g body)) by auto. now rewrite (IHo p e n).
  - refine (ohset o (fun w => match p, e, l with [], None, [] => _ | [], None, x :: l' => _ | _, _, _ => Disabled end) (within (OSeq l) (o_step (er o) p e))
      (fun w v => match p, e, l with [], None, [] => _ | [], None, x :: l' => _ | _, _, _ => Disabled end) (hwithin (HSeq l) (h_step o p e n)) _ _).
    + intros a v _. destruct p; auto. destruct e; auto. destruct l; auto. rewrite (ero_within _ (OSeq l)) by auto. now rewrite ero_start.
    + rewrite (ero_within _ (OSeq l)) by auto. now rewrite (IHo p e n).
  - destruct p as [|i p]; simpl.
    + destruct e; auto. rewrite nth_error_map, map_length. destruct (nth_error os st) as [o|]; simpl; [|now destruct (st =? length os)].
      destruct o; simpl; auto. rewrite (er_start x vs n). destruct (h_start x vs n). simpl. now rewrite map_set_nth.
    + rewrite !child_nth, nth_error_map. destruct (nth_error os i) as [o|] eqn:Hi; auto. rewrite Forall_forall in H. specialize (H o (nth_error_In _ _ Hi)).
      assert (K : forall o', er (HAll st ctr vs vc (set_nth os i o')) = OAll st ctr (set_nth (map er os) i (er o'))) by (intros; simpl; now rewrite map_set_nth).
      refine (ohset o (fun w0 => match p, e with [], None => all_done st ctr (map er os) i | _, _ => Disabled end) (within (fun o'' => OAll st ctr (set_nth (map er os) i o'')) (o_step (er o) p e))
        (fun w0 v => match p, e with [], None => hall_done st ctr vs vc os i v | _, _ => Disabled end) (hwithin (fun o'' => HAll st ctr vs vc (set_nth os i o'')) (h_step o p e n)) _ _).
      * intros a v _. destruct p; auto. destruct e; auto.
        unfold all_done, hall_done. rewrite map_length. destruct ctr as [|[|c]]; auto; [now destruct (st <=? length os)|]. simpl. now rewrite map_set_nth.
      * match goal with |- within ?c' _ = ero (hwithin ?c _) => rewrite (ero_within c c' _ K) end. now rewrite (H p e n).
  - destruct p as [|i p]; simpl.
    + destruct e; auto. rewrite nth_error_map. destruct (nth_error os st) as [o|]; simpl; auto.
      destruct o; simpl; auto. rewrite (er_start x vs n). destruct (h_start x vs n). simpl. now rewrite map_set_nth.
    + rewrite map_length. destruct (i =? length os); [destruct p; auto; destruct e; auto; now destruct rem|].
      rewrite !child_nth, nth_error_map. destruct (nth_error os i) as [o|] eqn:Hi; auto. rewrite Forall_forall in H. specialize (H o (nth_error_In _ _ Hi)).
      assert (K : forall o', er (HRace r st nd w vs vc vw rem (set_nth os i o')) = ORace r st nd w rem (set_nth (map er os) i (er o'))) by (intros; simpl; now rewrite map_set_nth).
      refine (ohset o (fun w0 => match p, e with [], None => race_done r st nd w rem (map er os) i | _, _ => Disabled end) (within (fun o'' => ORace r st nd w rem (set_nth (map er os) i o'')) (o_step (er o) p e))
        (fun w0 v => match p, e with [], None => hrace_done r st nd w vs vc vw rem os i v | _, _ => Disabled end) (hwithin (fun o'' => HRace r st nd w vs vc vw rem (set_nth os i o'')) (h_step o p e n)) _ _).
      * intros a v _. destruct p; auto. destruct e; auto. unfold race_done, hrace_done. rewrite map_length. destruct (S nd =? length os).
        -- match goal with |- match ?X with _ => _ end = _ => now destruct X end.
        -- simpl. now rewrite map_set_nth.
      * match goal with |- within ?c' _ = ero (hwithin ?c _) => rewrite (ero_within c c' _ K) end. now rewrite (H p e n).
  - reflexivity.
  - reflexivity.
Qed.

(** ** What is known when the operation completes *)
Fixpoint kn (o : hop) : list nat :=
  match o with
  | HNew _ | HFin => [] | HLeaf _ v | HFn _ _ v | HSet _ v => v | HTrans _ o' | HRep _ _ _ o' | HSeq _ o' => kn o'
  | HAll _ _ vs vc os => vs ++ vc ++ flat_map kn os
  | HRace _ st _ _ vs vc _ _ os => (if st =? 0 then vs else []) ++ vc ++ flat_map kn os
  end.
Inductive hw : hop -> Prop :=
| hw_new : forall x, hw (HNew x)
| hw_leaf : forall i v, hw (HLeaf i v)
| hw_fn : forall f k v, hw (HFn f k v)
| hw_trans : forall f o, hw o -> hw (HTrans f o)
| hw_rep : forall c g body o, hw o -> hw (HRep c g body o)
| hw_seq : forall l o, hw o -> hw (HSeq l o)
| hw_all : forall st ctr vs vc os, (forall o, In o os -> hw o) -> (length os < st -> incl vs vc) -> hw (HAll st ctr vs vc os)
| hw_race : forall r st nd w vs vc vw rem os, (forall o, In o os -> hw o) -> (0 < st -> incl vs (vc ++ flat_map kn os)) -> hw (HRace r st nd w vs vc vw rem os)
| hw_set : forall a v, hw (HSet a v)
| hw_fin : hw HFin.

Lemma new_kn l : flat_map kn (map HNew l) = [].
Proof. induction l; simpl; auto. Qed.
Lemma start_kn x : forall v n o es, h_start x v n = (o, es) -> hw o /\ incl (grow v n es) (kn o) /\ forall e, In e es -> of_client e.
Proof.
  assert (K : forall (v : list nat) n (e : nevent), incl (grow v n [e]) (v ++ [n])) by (intros; apply incl_refl).
  assert (C : forall (e e' : nevent), of_client e -> In e' [e] -> of_client e') by (intros e e' H [<-|[]]; auto).
  induction x using ex_ind'; simpl; intros v n o es E; try (inversion E; subst; split; [constructor|split; [apply K|intros e' [<-|[]]; exact I]]).
  - destruct (h_start x v n) as [o1 es1] eqn:Ex. inversion E; subst. destruct (IHx _ _ _ _ Ex) as (A & B & D). split; [now constructor|auto].
  - destruct (h_start x v n) as [o1 es1] eqn:Ex. inversion E; subst. destruct (IHx _ _ _ _ Ex) as (A & B & D). split; [now constructor|auto].
  - inversion E; subst. simpl. rewrite new_kn. unfold grow. simpl. rewrite !app_nil_r. split; [|split; [apply incl_refl|intros e []]].
    constructor; [|simpl; rewrite map_length; lia]. intros o [<-|Ho]; [constructor|]. apply in_map_iff in Ho as (y & <- & _). constructor.
  - inversion E; subst. simpl. rewrite new_kn. unfold grow. simpl. rewrite !app_nil_r. split; [|split; [apply incl_refl|intros e []]].
    constructor; [|lia]. intros o [<-|Ho]; [constructor|]. apply in_map_iff in Ho as (y & <- & _). constructor.
Qed.

(** es are made from n on; those of the client are known *)
Definition told (n : nat) (es : list nevent) (v : list nat) : Prop := forall j e, nth_error es j = Some e -> of_client e -> In (n + j) v.
Definition better (o o' : hop) (n : nat) (es : list nevent) : Prop := hw o' /\ incl (kn o) (kn o') /\ told n es (kn o').
Lemma grow_told v n es : told n es (grow v n es).
Proof. intros j e H _. apply in_or_app. right. apply in_seq. assert (j < length es) by (apply nth_error_Some; congruence). lia. Qed.
Lemma told_incl n es v v' : told n es v -> incl v v' -> told n es v'.
Proof. intros H I j e E C. apply I. eauto. Qed.
Lemma told_nil n v : told n [] v.
Proof. intros [|j] e E; discriminate. Qed.
Lemma start_better x v n o es : hstart_of x v n = Next o es -> hw o /\ incl v (kn o) /\ told n es (kn o).
Proof.
  unfold hstart_of. destruct (h_start x v n) as [o1 es1] eqn:E. intros F. inversion F; subst. destruct (start_kn _ _ _ _ _ E) as (A & B & _).
  split; [auto|split]; [intros y Hy; apply B; apply in_or_app; now left|]. eapply told_incl; [apply grow_told|exact B].
Qed.
Lemma told_cons n e es v : In n v -> told (S n) es v -> told n (e :: es) v.
Proof. intros H T [|j] e' E C; simpl in E; [now rewrite Nat.add_0_r|]. replace (n + S j) with (S n + j) by lia. eauto. Qed.
Lemma told_one v n e : told n [e] (v ++ [n]).
Proof. apply told_cons; [apply in_or_app; right; now left|apply told_nil]. Qed.
Lemma hwithin_next c r o es : hwithin c r = Next o es -> exists o', r = Next o' es /\ o = c o'.
Proof. destruct r as [o' es'| |]; simpl; intros E; inversion E; subst. eauto. Qed.
Lemma k_better f a k v n o es : hk_step f a k v n = Next o es -> hw o /\ incl v (kn o) /\ told n es (kn o).
Proof.
  unfold hk_step. intros E.
  assert (K : forall r, hemit [NRet f a] r = Next o es -> (forall o' es', r = Next o' es' -> hw o' /\ incl (v ++ [n]) (kn o') /\ told (S n) es' (kn o')) -> hw o /\ incl v (kn o) /\ told n es (kn o)).
  { intros r F H. destruct r as [o' es'| |]; inversion F; subst. destruct (H _ _ eq_refl) as (A & B & D). split; [auto|split].
    - intros y Hy. apply B. apply in_or_app. now left.
    - apply told_cons; auto. apply B. apply in_or_app. right. now left. }
  apply (K _ E). clear K E. intros o' es' E. destruct k.
  - inversion E; subst. split; [constructor|split; [apply incl_refl|apply told_nil]].
  - eapply start_better; eauto.
  - destruct (a =? 0); inversion E; subst; (split; [constructor|split]); try apply told_nil; try apply incl_refl; [|apply told_one]. simpl. apply incl_appl, incl_refl.
  - apply hwithin_next in E as (o1 & E & ->). destruct (start_better _ _ _ _ _ E) as (A & B & D). split; [now constructor|auto].
  - inversion E; subst. split; [constructor|split; [simpl; apply incl_appl, incl_refl|apply told_one]].
  - eapply start_better; eauto.
Qed.
Lemma kn_set os i o o' : nth_error os i = Some o -> incl (kn o) (kn o') -> incl (flat_map kn os) (flat_map kn (set_nth os i o')).
Proof.
  revert i. induction os as [|a os IH]; intros [|i] H I; simpl in *; try discriminate.
  - inversion H; subst. apply incl_app; [now apply incl_appl|apply incl_appr, incl_refl].
  - apply incl_app; [apply incl_appl, incl_refl|apply incl_appr; eauto].
Qed.
Lemma kn_in os i o : nth_error os i = Some o -> incl (kn o) (flat_map kn os).
Proof. intros H y Hy. apply in_flat_map. exists o. split; auto. eapply nth_error_In; eauto. Qed.
Lemma kn_new os i o o' : nth_error os i = Some o -> incl (kn o') (flat_map kn (set_nth os i o')).
Proof. intros H. apply (kn_in _ i). now apply (nth_error_set_nth_same os i o' o). Qed.
Lemma kn_fin os i a v : nth_error os i = Some (HSet a v) -> incl (flat_map kn os) (v ++ flat_map kn (set_nth os i HFin)).
Proof.
  revert i. induction os as [|o os IH]; intros [|i] H; simpl in *; try discriminate.
  - inversion H; subst. apply incl_refl.
  - apply incl_app; [apply incl_appr, incl_appl, incl_refl|]. intros y Hy. apply (IH _ H) in Hy. rewrite !in_app_iff in *. tauto.
Qed.
Lemma kn_last os i a v : nth_error os i = Some (HSet a v) -> sum (map unfin (map er os)) = 1 -> incl (flat_map kn os) v.
Proof.
  intros H E y Hy. apply (kn_fin _ _ _ _ H) in Hy. apply in_app_or in Hy as [Hy|Hy]; auto. exfalso.
  assert (Hi : nth_error (map er os) i = Some (OSet a)) by (now rewrite nth_error_map, H).
  pose proof (sum_map_set_nth unfin (map er os) i OFin _ Hi) as F. simpl in F. change OFin with (er HFin) in F. rewrite <- map_set_nth in F.
  apply in_flat_map in Hy as (o & Ho & Hy). assert (er o = OFin) by (apply (unfin_all (map er (set_nth os i HFin))); [lia|now apply in_map]).
  destruct o; try discriminate. destruct Hy.
Qed.
Lemma hw_sets os i o' : (forall o, In o os -> hw o) -> hw o' -> forall o, In o (set_nth os i o') -> hw o.
Proof. intros H Ho o Hi. apply In_set_nth in Hi as [->|Hi]; auto. Qed.
Ltac inclt := repeat first [apply incl_refl | apply incl_app | assumption]; intros ? ?; rewrite ?in_app_iff in *; intuition auto.

Lemma step_better o : forall p e n o' es, wf (er o) -> hw o -> h_step o p e n = Next o' es -> better o o' n es.
Proof.
  induction o using hop_ind'; intros p e n o' es W Q E; simpl in E; try discriminate.
  - destruct p; [|discriminate]. destruct e as [a|]; inversion E; subst. split; [constructor|split; [simpl; apply incl_appl, incl_refl|apply told_one]].
  - destruct p; [|discriminate]. destruct e as [a|]; [|discriminate]. eapply k_better; eauto.
  - inversion W; subst. inversion Q; subst. destruct (hset_dec o) as [[[a v] ->]|N].
    + destruct p; [|discriminate]. destruct e; inversion E; subst. split; [constructor|split; [simpl; apply incl_appl, incl_refl|apply told_one]].
    + assert (F : hwithin (HTrans f) (h_step o p e n) = Next o' es) by (destruct o; auto; now destruct (N a v)).
      apply hwithin_next in F as (o1 & F & ->). destruct (IHo _ _ _ _ _ ltac:(auto) ltac:(auto) F) as (A & B & D). split; [now constructor|auto].
  - inversion W; subst. inversion Q; subst. destruct (hset_dec o) as [[[a v] ->]|N].
    + destruct p; [|discriminate]. destruct e; inversion E; subst. split; [constructor|split; [simpl; apply incl_appl, incl_refl|apply told_one]].
    + assert (F : hwithin (HRep c g body) (h_step o p e n) = Next o' es) by (destruct o; auto; now destruct (N a v)).
      apply hwithin_next in F as (o1 & F & ->). destruct (IHo _ _ _ _ _ ltac:(auto) ltac:(auto) F) as (A & B & D). split; [now constructor|auto].
  - inversion W; subst. inversion Q; subst. destruct (hset_dec o) as [[[a v] ->]|N].
    + destruct p; [|discriminate]. destruct e; [discriminate|]. destruct l as [|x l].
      * inversion E; subst. split; [constructor|split; [apply incl_refl|apply told_nil]].
      * apply hwithin_next in E as (o1 & E & ->). destruct (start_better _ _ _ _ _ E) as (A & B & D). split; [now constructor|auto].
    + assert (F : hwithin (HSeq l) (h_step o p e n) = Next o' es) by (destruct o; auto; now destruct (N a v)).
      apply hwithin_next in F as (o1 & F & ->). destruct (IHo _ _ _ _ _ ltac:(auto) ltac:(auto) F) as (A & B & D). split; [now constructor|auto].
  - inversion Q as [| | | | | |? ? ? ? ? Qc Qv| | |]; subst. destruct p as [|i p].
    + destruct e; [discriminate|]. destruct (nth_error os st) as [[x| | | | | | | | |]|] eqn:Hn; try discriminate.
      * destruct (h_start x vs n) as [o1 es1] eqn:Ex. inversion E; subst. destruct (start_kn _ _ _ _ _ Ex) as (A1 & A2 & A3).
        assert (L : st < length os) by (apply nth_error_Some; congruence). split; [|split].
        -- constructor; [now apply hw_sets|]. rewrite set_nth_length. lia.
        -- simpl. pose proof (kn_set os st (HNew x) o1 Hn ltac:(intros ? [])). unfold grow. inclt.
        -- simpl. eapply told_incl; [apply grow_told|]. intros y Hy. apply in_or_app. left. exact Hy.
      * destruct (Nat.eqb_spec st (length os)); inversion E; subst. split; [|split; [|apply told_nil]].
        -- constructor; auto. intros _. apply incl_appl, incl_refl.
        -- simpl. inclt.
    + rewrite child_nth in E. destruct (nth_error os i) as [o|] eqn:Hi; [|discriminate]. destruct (hset_dec o) as [[[a v] ->]|N].
      * simpl in E. destruct p; [|discriminate]. destruct e; [discriminate|]. inversion W as [| | | | | |? ? ? Wc Ws Wt Wk Wp| | |]; subst. unfold hall_done in E.
        pose proof (kn_fin _ _ _ _ Hi) as HF.
        destruct (sum (map unfin (map er os))) as [|[|c]] eqn:Ec; [discriminate| |].
        -- destruct (Nat.leb_spec st (length os)); inversion E; subst. split; [constructor|split; [|apply told_nil]]. specialize (Qv ltac:(lia)).
           pose proof (kn_last _ _ _ _ Hi Ec). simpl. inclt.
        -- inversion E; subst. split; [|split; [|apply told_nil]].
           ++ constructor; [apply hw_sets; auto; constructor|]. rewrite set_nth_length. intros L. specialize (Qv L). inclt.
           ++ simpl. intros y Hy. rewrite !in_app_iff in *. destruct Hy as [|[|Hy]]; auto. apply HF in Hy. rewrite in_app_iff in Hy. tauto.
      * assert (F : hwithin (fun o'' => HAll st ctr vs vc (set_nth os i o'')) (h_step o p e n) = Next o' es) by (destruct o; auto; now destruct (N a v)).
        apply hwithin_next in F as (o1 & F & ->). inversion W as [| | | | | |? ? ? Wc Ws Wt Wk Wp| | |]; subst. pose proof (nth_error_In _ _ Hi) as Hin.
        rewrite Forall_forall in H. destruct (H o Hin _ _ _ _ _ (Wc _ (in_map er _ _ Hin)) (Qc _ Hin) F) as (A & B & D). split; [|split].
        -- constructor; [now apply hw_sets|]. now rewrite set_nth_length.
        -- simpl. pose proof (kn_set os i o o1 Hi B). inclt.
        -- eapply told_incl; [exact D|]. simpl. pose proof (kn_new os i o o1 Hi). inclt.
  - inversion Q as [| | | | | | |? ? ? ? ? ? ? ? ? Qc Qv| |]; subst. destruct p as [|i p].
    + destruct e; [discriminate|]. destruct (nth_error os st) as [[x| | | | | | | | |]|] eqn:Hn; try discriminate.
      destruct (h_start x vs n) as [o1 es1] eqn:Ex. inversion E; subst. destruct (start_kn _ _ _ _ _ Ex) as (A1 & A2 & A3).
      pose proof (kn_set os st (HNew x) o1 Hn ltac:(intros ? [])) as K1. pose proof (kn_new os st (HNew x) o1 Hn) as K2. split; [|split].
      * constructor; [now apply hw_sets|]. intros _. intros y Hy. apply in_or_app. right. auto.
      * simpl. intros y Hy. rewrite !in_app_iff in *. destruct (st =? 0) eqn:E0; [|destruct Hy as [[]|[|]]; auto].
        destruct Hy as [Hy|[|]]; auto. right. apply K2, A2. apply in_or_app. now left.
      * simpl. eapply told_incl; [apply (grow_told vs)|]. intros y Hy. apply in_or_app. right. auto.
    + destruct (i =? length os).
      { destruct p; [|discriminate]. destruct e; [discriminate|]. destruct rem; inversion E; subst. split; [|split; [apply incl_refl|]].
        - constructor; auto.
        - intros [|[|j]] e He C; inversion He; subst. destruct C. }
      rewrite child_nth in E. destruct (nth_error os i) as [o|] eqn:Hi; [|discriminate]. destruct (hset_dec o) as [[[a v] ->]|N].
      * simpl in E. destruct p; [|discriminate]. destruct e; [discriminate|]. inversion W as [| | | | | | |? ? ? ? ? ? Wc Ws Wt Wk Wp W0 W1| |]; subst. unfold hrace_done in E.
        pose proof (kn_fin _ _ _ _ Hi) as HF. rewrite map_length in *.
        assert (Hst : 0 < st).
        { destruct st; [|lia]. assert (N : is_new (OSet a)) by (apply (Wt i); [now rewrite nth_error_map, Hi|lia]). destruct N. }
        assert (E0 : st =? 0 = false) by (apply Nat.eqb_neq; lia).
        destruct (Nat.eqb_spec (S nd) (length os)) as [En|En].
        -- match type of E with match ?X with _ => _ end = _ => destruct X end; inversion E; subst. split; [constructor|split; [|apply told_nil]].
           pose proof (kn_last _ _ _ _ Hi ltac:(lia)) as KL. simpl. rewrite E0. simpl. apply incl_app; [apply incl_appr, incl_refl|now apply incl_appl].
        -- inversion E; subst. specialize (Qv Hst). split; [|split; [|apply told_nil]].
           ++ constructor; [apply hw_sets; auto; constructor|]. intros _ y Hy. apply Qv in Hy. rewrite !in_app_iff in *. destruct Hy as [|Hy]; auto. apply HF in Hy. rewrite in_app_iff in Hy. tauto.
           ++ simpl. rewrite E0. intros y Hy. rewrite !in_app_iff in *. destruct Hy as [|[|Hy]]; auto. apply HF in Hy. rewrite in_app_iff in Hy. tauto.
      * assert (F : hwithin (fun o'' => HRace r st nd w vs vc vw rem (set_nth os i o'')) (h_step o p e n) = Next o' es) by (destruct o; auto; now destruct (N a v)).
        apply hwithin_next in F as (o1 & F & ->). inversion W as [| | | | | | |? ? ? ? ? ? Wc Ws Wt Wk Wp W0 W1| |]; subst. pose proof (nth_error_In _ _ Hi) as Hin.
        rewrite Forall_forall in H. destruct (H o Hin _ _ _ _ _ (Wc _ (in_map er _ _ Hin)) (Qc _ Hin) F) as (A & B & D).
        pose proof (kn_set os i o o1 Hi B) as K. split; [|split].
        -- constructor; [now apply hw_sets|]. intros L y Hy. apply (Qv L) in Hy. rewrite in_app_iff in *. destruct Hy; auto.
        -- simpl. inclt.
        -- eapply told_incl; [exact D|]. simpl. pose proof (kn_new os i o o1 Hi). inclt.
Qed.

(** ** The whole expression *)
Record HI (x : ex) (s : hop * nat) (tr : list hevent) : Prop := MkHI {
  hi_n : snd s = length tr;
  hi_nest : exists ls, run n_step (n_init x) ls = Running (er (fst s)) (forget tr);
  hi_hw : hw (fst s);
  hi_all : fst s <> HFin -> forall m e, nth_error tr m = Some (HE e) -> of_client e -> In m (kn (fst s));
  hi_nodone : fst s <> HFin -> forall a b, ~ In (HDone a b) tr;
  hi_sees : sees_all tr }.
Lemma run_snoc (f : op -> nlabel -> outcome op nevent) i ls s tr l s' es : run f i ls = Running s tr -> f s l = Next s' es -> run f i (ls ++ [l]) = Running s' (tr ++ es).
Proof. intros R E. unfold run in *. rewrite run_from_app, R. simpl. now rewrite E. Qed.
Lemma er_n o n l : n_step (er o) l = match hn_step (o, n) l with Next (o', _) es => Next (er o') (forget es) | Disabled => Disabled | Fail f es => Fail f (forget es) end.
Proof.
  assert (M : forall es, forget (map HE es) = es) by (intros es; unfold forget; rewrite map_map; apply map_id).
  assert (K : forall r, match h_lift n r with Next (o', _) es => Next (er o') (forget es) | Disabled => Disabled | Fail f es => Fail f (forget es) end = ero r)
    by (intros [| |]; simpl; now rewrite ?M).
  destruct l as [|p|p v]; cbn [n_step hn_step].
  - destruct o; simpl er; cbv iota; auto. rewrite K. now rewrite ero_start.
  - assert (D : (exists a v, o = HSet a v /\ p = []) \/ n_step (er o) (NLStep p) = o_step (er o) p None /\ hn_step (o, n) (NLStep p) = h_lift n (h_step o p None n)).
    { destruct p; [|now right; destruct o]. destruct o; try (now right). left. eauto. }
    destruct D as [(a & v & -> & ->)|[D1 D2]]; [reflexivity|]. cbn [n_step hn_step] in D1, D2. rewrite D1, D2, K. apply er_step.
  - rewrite K. destruct o; apply er_step.
Qed.
Lemma forget_app a b : forget (a ++ b) = forget a ++ forget b.
Proof. apply map_app. Qed.
Lemma hi_init x : HI x (hn_init x) [].
Proof.
  constructor; simpl; auto.
  - now exists [].
  - constructor.
  - intros _ [|m] e E; discriminate.
  - intros a b [|] u E; discriminate.
Qed.
Lemma sees_snoc_he tr es : sees_all tr -> sees_all (tr ++ map HE es).
Proof.
  intros H. induction es as [|e es IH] using rev_ind; [now rewrite app_nil_r|]. rewrite map_app, app_assoc. intros a b t u E.
  destruct u as [|y u _] using rev_ind; [apply app_inj_tail in E as [_ E]; discriminate|]. rewrite app_comm_cons, app_assoc in E. apply app_inj_tail in E as [E _]. eapply IH; eauto.
Qed.
Lemma hi_step x s tr l s' es : HI x s tr -> hn_step s l = Next s' es -> HI x s' (tr ++ es).
Proof.
  intros H E. destruct s as [o n]. destruct s' as [o' n']. destruct (hi_nest _ _ _ H) as (ls & R). simpl in R.
  assert (R' : exists ls, run n_step (n_init x) ls = Running (er o') (forget (tr ++ es))).
  { exists (ls ++ [l]). rewrite forget_app. eapply run_snoc; eauto. rewrite (er_n o n l), E. reflexivity. }
  pose proof (ni_wf _ _ _ (ni_run_all _ _ _ _ R)) as W. pose proof (hi_n _ _ _ H) as Hn. simpl in Hn. pose proof (hi_hw _ _ _ H) as Q. simpl in Q.
  assert (K : forall r es', (forall o1 es1, r = Next o1 es1 -> better o o1 n es1) -> h_lift n r = Next (o', n') es' -> es = es' -> o <> HFin -> HI x (o', n') (tr ++ es)).
  { intros r es' B F -> N. destruct r as [o1 es1| |]; inversion F; subst. destruct (B _ _ eq_refl) as (B1 & B2 & B3). constructor; simpl; auto.
    - rewrite app_length, map_length. auto.
    - intros _ m e Hm C. destruct (Nat.lt_ge_cases m (length tr)) as [L|L].
      + rewrite nth_error_app1 in Hm by auto. apply B2. now apply (hi_all _ _ _ H N m e).
      + rewrite nth_error_app2 in Hm by auto. rewrite nth_error_map in Hm. destruct (nth_error es1 (m - length tr)) as [e1|] eqn:E1; inversion Hm; subst.
        replace m with (length tr + (m - length tr)) by lia. eapply B3; eauto.
    - intros _ a b Hi. apply in_app_or in Hi as [Hi|Hi]; [now apply (hi_nodone _ _ _ H N a b)|]. apply in_map_iff in Hi as (? & ? & _). discriminate.
    - apply sees_snoc_he. apply H. }
  destruct l as [|p|p v]; cbn [hn_step] in E.
  - destruct o; try discriminate. eapply K; eauto; [|discriminate]. intros o1 es1 F. destruct (start_better _ _ _ _ _ F) as (A & B & D). split; [auto|split; auto].
  - assert (D : (exists a v, o = HSet a v /\ p = []) \/ hn_step (o, n) (NLStep p) = h_lift n (h_step o p None n)).
    { destruct p; [|now right; destruct o]. destruct o; try (now right). left. eauto. }
    destruct D as [(a & v & -> & ->)|D]; cbn [hn_step] in *.
    + inversion E; subst. constructor; simpl; auto.
      * rewrite app_length. simpl. lia.
      * constructor.
      * intros a' b' t u Et. destruct u as [|y u _] using rev_ind.
        -- apply app_inj_tail in Et as [<- Et]. inversion Et; subst. intros m e Hm C. now apply (hi_all _ _ _ H ltac:(discriminate) m e).
        -- rewrite app_comm_cons, app_assoc in Et. apply app_inj_tail in Et as [Et _]. eapply (hi_sees _ _ _ H); eauto.
    + rewrite D in E. eapply K; eauto; [intros; eapply step_better; eauto|]. intros ->. discriminate.
  - assert (D : h_lift n (h_step o p (Some v) n) = Next (o', n') es) by (destruct o; exact E). eapply K; eauto; [intros; eapply step_better; eauto|]. intros ->. discriminate.
Qed.
Lemma hi_run x ls s tr : run hn_step (hn_init x) ls = Running s tr -> HI x s tr.
Proof. apply (run_inv hn_step (HI x) (hn_init x) (hi_init x)). intros; eapply hi_step; eauto. Qed.
Lemma nest_sees x ls s tr : run hn_step (hn_init x) ls = Running s tr -> sees_all tr.
Proof. intros R. apply (hi_run _ _ _ _ R). Qed.
Lemma nest_erase x ls s tr : run hn_step (hn_init x) ls = Running s tr -> exists ls o, run n_step (n_init x) ls = Running o (forget tr).
Proof. intros R. destruct (hi_nest _ _ _ (hi_run _ _ _ _ R)) as (ls' & R'). eauto. Qed.
