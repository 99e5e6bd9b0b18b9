(** Nestings of the algorithms. *)
From Coq Require Import List Arith Bool Lia.
From Verif Require Import Lts ListFacts M_Nest S_Nest.
Import ListNotations.

(** ** Induction principles *)
Section Ind.
Variable P : ex -> Prop.
Hypotheses (Hinv : forall f, P (XInv f)) (Hleaf : forall i, P (XLeaf i)) (Htrans : forall x f, P x -> P (XTrans x f))
  (Hite : forall c a b, P a -> P b -> P (XIte c a b)) (Hrep : forall c g body, (forall v, P (body v)) -> P (XRep c g body))
  (Hlet : forall p g body, (forall v, P (body v)) -> P (XLet p g body)) (Hseq : forall x l, P x -> Forall P l -> P (XSeq x l))
  (Hall : forall x l, P x -> Forall P l -> P (XAll x l)) (Hrace : forall r x l, P x -> Forall P l -> P (XRace r x l)).
Fixpoint ex_ind' (x : ex) : P x :=
  let all := fix go (l : list ex) : Forall P l := match l with [] => Forall_nil P | y :: l' => Forall_cons y (ex_ind' y) (go l') end in
  match x with
  | XInv f => Hinv f | XLeaf i => Hleaf i | XTrans y f => Htrans y f (ex_ind' y)
  | XIte c a b => Hite c a b (ex_ind' a) (ex_ind' b)
  | XRep c g body => Hrep c g body (fun v => ex_ind' (body v))
  | XLet p g body => Hlet p g body (fun v => ex_ind' (body v))
  | XSeq y l => Hseq y l (ex_ind' y) (all l)
  | XAll y l => Hall y l (ex_ind' y) (all l)
  | XRace r y l => Hrace r y l (ex_ind' y) (all l)
  end.
End Ind.
Section OInd.
Variable P : op -> Prop.
Hypotheses (Hnew : forall x, P (ONew x)) (Hleaf : forall i, P (OLeaf i)) (Hfn : forall f k, P (OFn f k)) (Htrans : forall f o, P o -> P (OTrans f o))
  (Hrep : forall c g body o, P o -> P (ORep c g body o)) (Hseq : forall l o, P o -> P (OSeq l o))
  (Hall : forall st ctr os, Forall P os -> P (OAll st ctr os)) (Hrace : forall r st nd w rem os, Forall P os -> P (ORace r st nd w rem os))
  (Hset : forall v, P (OSet v)) (Hfin : P OFin).
Fixpoint op_ind' (o : op) : P o :=
  let all := fix go (l : list op) : Forall P l := match l with [] => Forall_nil P | y :: l' => Forall_cons y (op_ind' y) (go l') end in
  match o with
  | ONew x => Hnew x | OLeaf i => Hleaf i | OFn f k => Hfn f k | OTrans f o' => Htrans f o' (op_ind' o')
  | ORep c g body o' => Hrep c g body o' (op_ind' o') | OSeq l o' => Hseq l o' (op_ind' o')
  | OAll st ctr os => Hall st ctr os (all os) | ORace r st nd w rem os => Hrace r st nd w rem os (all os)
  | OSet v => Hset v | OFin => Hfin
  end.
End OInd.

Lemma child_nth {A B} (f : A -> B) d l i : child f d l i = match nth_error l i with Some a => f a | None => d end.
Proof. revert i. induction l as [|a l IH]; intros [|i]; simpl; auto. Qed.
Lemma within_next c r o es : within c r = Next o es -> exists o', r = Next o' es /\ o = c o'.
Proof. destruct r as [o' es'| |]; simpl; intros E; inversion E; subst. eauto. Qed.
Lemma within_dis c r : within c r = Disabled -> r = Disabled.
Proof. destruct r; simpl; intros; congruence. Qed.
Lemma within_fail c r f es : within c r = Fail f es -> r = Fail f es.
Proof. destruct r; simpl; intros E; inversion E; subst; auto. Qed.
Lemma emit_next es0 r o es : emit es0 r = Next o es -> exists es', r = Next o es' /\ es = es0 ++ es'.
Proof. destruct r as [o' es'| |]; simpl; intros E; inversion E; subst. eauto. Qed.

(** ** Interleavings *)
Lemma nth_set_nth {A} (l : list A) i j x : nth_error (set_nth l i x) j = if i =? j then (if i <? length l then Some x else None) else nth_error l j.
Proof.
  destruct (Nat.eqb_spec i j) as [->|N]; [|now apply nth_error_set_nth_other].
  destruct (Nat.ltb_spec j (length l)) as [L|L].
  - destruct (nth_error l j) as [y|] eqn:E; [now apply (nth_error_set_nth_same l j x y)|]. apply nth_error_None in E. lia.
  - apply nth_error_None. rewrite set_nth_length. lia.
Qed.
Lemma nth_ext_eq {A} (l l' : list A) : (forall i, nth_error l i = nth_error l' i) -> l = l'.
Proof.
  revert l'. induction l as [|a l IH]; intros [|a' l'] H; auto; [specialize (H 0); discriminate|specialize (H 0); discriminate|].
  f_equal; [specialize (H 0); simpl in H; congruence|]. apply IH. intros i. exact (H (S i)).
Qed.
Lemma set_nth_id {A} (l : list A) i x : nth_error l i = Some x -> set_nth l i x = l.
Proof. intros H. apply nth_ext_eq. intros j. rewrite nth_set_nth. destruct (Nat.eqb_spec i j) as [<-|]; auto. assert (i < length l) by (apply nth_error_Some; congruence). destruct (Nat.ltb_spec i (length l)); [auto|lia]. Qed.
Lemma set_nth_twice {A} (l : list A) i x y : set_nth (set_nth l i x) i y = set_nth l i y.
Proof. apply nth_ext_eq. intros j. rewrite !nth_set_nth, set_nth_length. destruct (i =? j); auto. Qed.

Lemma shuffle_child {A} (ts : list (list A)) i es u t : nth_error ts i = Some (es ++ u) -> shuffle (set_nth ts i u) t -> shuffle ts (es ++ t).
Proof.
  revert ts. induction es as [|e es IH]; intros ts H S; simpl in *; [now rewrite (set_nth_id _ _ _ H) in S|].
  econstructor; [exact H|]. apply IH; [now apply (nth_error_set_nth_same ts i _ (e :: es ++ u))|]. now rewrite set_nth_twice.
Qed.
Lemma shuffle_pick {A} (ts : list (list A)) : (exists i a u, nth_error ts i = Some (a :: u)) \/ (forall t, In t ts -> t = []).
Proof.
  induction ts as [|[|a u] ts IH]; [now right| |left; now exists 0, a, u].
  destruct IH as [(i & a & u & H)|H]; [left; now exists (S i), a, u|right]. intros t [<-|Ht]; auto.
Qed.
Lemma shuffle_ex {A} (ts : list (list A)) : exists t, shuffle ts t.
Proof.
  remember (sum (map (@length A) ts)) as n eqn:E. revert ts E. induction n as [n IH] using lt_wf_ind. intros ts ->.
  destruct (shuffle_pick ts) as [(i & a & u & H)|H]; [|exists []; now constructor].
  destruct (IH (sum (map (@length A) (set_nth ts i u)))) with (ts := set_nth ts i u) as [t Ht]; auto.
  - pose proof (sum_map_set_nth (@length A) ts i u (a :: u) H) as E. simpl length in E. lia.
  - exists (a :: t). econstructor; eauto.
Qed.

Lemma nth_aug {A} (ts : list (list A)) w cs i : nth_error (aug ts w cs) i = match nth_error ts i with Some t => Some (if i =? w then t ++ cs else t) | None => None end.
Proof.
  unfold aug. destruct (nth_error ts w) as [t|] eqn:E.
  - rewrite nth_set_nth. assert (w < length ts) by (apply nth_error_Some; congruence). destruct (Nat.ltb_spec w (length ts)); [|lia].
    rewrite (Nat.eqb_sym i w). destruct (Nat.eqb_spec w i) as [<-|]; [now rewrite E|]. now destruct (nth_error ts i).
  - destruct (Nat.eqb_spec i w) as [->|]; [now rewrite E|]. now destruct (nth_error ts i).
Qed.
Lemma aug_length {A} (ts : list (list A)) w cs : length (aug ts w cs) = length ts.
Proof. unfold aug. destruct (nth_error ts w); auto. now rewrite set_nth_length. Qed.
Lemma shuffle_aug {A} (ts : list (list A)) w cs i es u t : nth_error ts i = Some u -> shuffle (aug ts w cs) t -> shuffle (aug (set_nth ts i (es ++ u)) w cs) (es ++ t).
Proof.
  intros H S. assert (L : i < length ts) by (apply nth_error_Some; congruence).
  apply (shuffle_child _ i es (if i =? w then u ++ cs else u)).
  - rewrite nth_aug, nth_set_nth, Nat.eqb_refl. destruct (Nat.ltb_spec i (length ts)); [|lia]. destruct (i =? w); [now rewrite app_assoc|auto].
  - match goal with |- shuffle ?X t => replace X with (aug ts w cs) end; auto. apply nth_ext_eq. intros j.
    rewrite nth_set_nth, !nth_aug, aug_length, set_nth_length, nth_set_nth. destruct (Nat.eqb_spec i j) as [<-|]; auto.
    destruct (Nat.ltb_spec i (length ts)); [|lia]. now rewrite H.
Qed.
Lemma shuffle_set {A} (ts : list (list A)) i es u t : nth_error ts i = Some u -> shuffle ts t -> shuffle (set_nth ts i (es ++ u)) (es ++ t).
Proof.
  intros H S. apply (shuffle_child _ i es u); [now apply (nth_error_set_nth_same ts i _ u)|]. now rewrite set_nth_twice, (set_nth_id _ _ _ H).
Qed.

(** ** What a started operation may still do *)
Inductive obeh : op -> list nevent -> nat -> Prop :=
| o_new : forall x t v, beh x t v -> obeh (ONew x) t v
| o_leaf : forall i v, obeh (OLeaf i) [NComp i v] v
| o_fn : forall f k v t w, kbeh k v t w -> obeh (OFn f k) (NRet f v :: t) w
| o_trans : forall f o t w v, obeh o t w -> obeh (OTrans f o) (t ++ [NCall f w; NRet f v]) v
| o_rep : forall c g body o t w t' w', obeh o t w -> beh (XRep c g body) t' w' -> obeh (ORep c g body o) (t ++ t') w'
| o_seq0 : forall o t w, obeh o t w -> obeh (OSeq [] o) t w
| o_seq1 : forall x l o t w t' w', obeh o t w -> behs x l t' w' -> obeh (OSeq (x :: l) o) (t ++ t') w'
| o_all : forall st ctr os ts t, obehl os ts -> shuffle ts t -> obeh (OAll st ctr os) t 0
| o_race0 : forall r st w rem os w' ts t, obehl os ts -> w' < length os -> shuffle (aug ts w' (cancels r w' (length os))) t -> obeh (ORace r st 0 w rem os) t 0
| o_race1 : forall r st nd w rem os ts t, obehl os ts -> shuffle (aug ts w (map (NCancel r) rem)) t -> obeh (ORace r st (S nd) w rem os) t 0
| o_set : forall v, obeh (OSet v) [] v
| o_fin : obeh OFin [] 0
with kbeh : kont -> nat -> list nevent -> nat -> Prop :=
| k_set : forall v, kbeh KSet v [] v
| k_ite : forall a b v t w, beh (if v =? 0 then b else a) t w -> kbeh (KIte a b) v t w
| k_end : forall c g body, kbeh (KRepC c g body) 0 [] 0
| k_rep : forall c g body v y t w, v <> 0 -> kbeh (KRepF c g body) y t w -> kbeh (KRepC c g body) v (NCall g 0 :: NRet g y :: t) w
| k_repf : forall c g body v t w t' w', beh (body v) t w -> beh (XRep c g body) t' w' -> kbeh (KRepF c g body) v (t ++ t') w'
| k_letp : forall g body v y t w, beh (body y) t w -> kbeh (KLetP g body) v (NCall g v :: NRet g y :: t) w
| k_letf : forall body v t w, beh (body v) t w -> kbeh (KLetF body) v t w
with obehl : list op -> list (list nevent) -> Prop :=
| ol_nil : obehl [] []
| ol_cons : forall o l t v ts, obeh o t v -> obehl l ts -> obehl (o :: l) (t :: ts).

Lemma obehl_length os ts : obehl os ts -> length ts = length os.
Proof. revert ts. induction os; intros ts H; inversion H; subst; simpl; auto. Qed.
Lemma obehl_nth os ts i o : obehl os ts -> nth_error os i = Some o -> exists t v, nth_error ts i = Some t /\ obeh o t v.
Proof.
  revert ts i. induction os as [|o' os IH]; intros ts [|i] H E; simpl in E; try discriminate; inversion H; subst.
  - inversion E; subst. simpl. eauto.
  - simpl. eauto.
Qed.
Lemma obehl_set os ts i o t v : obehl os ts -> obeh o t v -> obehl (set_nth os i o) (set_nth ts i t).
Proof.
  revert ts i. induction os as [|o' os IH]; intros ts i H Ho; inversion H; subst; destruct i; simpl; econstructor; eauto.
Qed.
Lemma obehl_new l ts : obehl (map ONew l) ts <-> behl l ts.
Proof.
  revert ts. induction l as [|x l IH]; intros ts; split; intros H; inversion H; subst; try constructor.
  - match goal with H : obeh (ONew _) _ _ |- _ => inversion H; subst end. econstructor; [eassumption|]. now apply IH.
  - simpl. econstructor; [constructor; eassumption|]. now apply IH.
Qed.
(** a step of the i-th one *)
Lemma obehl_step os i o o' es ts : nth_error os i = Some o -> (forall t w, obeh o' t w -> exists w', obeh o (es ++ t) w') ->
  obehl (set_nth os i o') ts -> exists u, nth_error ts i = Some u /\ obehl os (set_nth ts i (es ++ u)).
Proof.
  intros H K B. destruct (obehl_nth _ _ i o' B) as (u & v & Hu & Ho); [now apply (nth_error_set_nth_same os i o' o)|].
  exists u. split; auto. destruct (K _ _ Ho) as (w' & Ho'). rewrite <- (set_nth_id os i o H) at 1. rewrite <- (set_nth_twice os i o' o). now apply (obehl_set _ _ _ _ _ w').
Qed.

Lemma start_beh x : forall o es t v, o_start x = (o, es) -> obeh o t v -> beh x (es ++ t) v.
Proof.
  induction x using ex_ind'; simpl; intros o es t v E B.
  - inversion E; subst. inversion B; subst. match goal with H : kbeh _ _ _ _ |- _ => inversion H; subst end. constructor.
  - inversion E; subst. inversion B; subst. constructor.
  - destruct (o_start x) as [o1 es1]. inversion E; subst. inversion B; subst. rewrite app_assoc. constructor. eapply IHx; eauto.
  - inversion E; subst. inversion B; subst. match goal with H : kbeh _ _ _ _ |- _ => inversion H; subst end. simpl.
    destruct (Nat.eqb_spec v0 0) as [->|]; [now constructor|now apply b_then].
  - inversion E; subst. inversion B; subst. match goal with H : kbeh _ _ _ _ |- _ => inversion H; subst end; simpl; [constructor|].
    match goal with H : kbeh _ _ _ _ |- _ => inversion H; subst end. econstructor; eauto.
  - inversion E; subst. inversion B; subst. match goal with H : kbeh _ _ _ _ |- _ => inversion H; subst end. simpl. now constructor.
  - destruct (o_start x) as [o1 es1]. inversion E; subst. constructor. inversion B; subst; [constructor; eapply IHx; eauto|]. rewrite app_assoc. econstructor; [eapply IHx; eauto|auto].
  - inversion E; subst. inversion B; subst. simpl. match goal with H : obehl _ _ |- _ => change (obehl (map ONew (x :: l)) ts) in H; apply obehl_new in H end. econstructor; eauto.
  - inversion E; subst. inversion B; subst. simpl. match goal with H : obehl _ _ |- _ => change (obehl (map ONew (x :: l)) ts) in H; apply obehl_new in H end.
    match goal with H : shuffle _ _ |- _ => rename H into Hs end. match goal with H : w' < _ |- _ => rename H into Hw end.
    simpl in Hs, Hw. rewrite map_length in Hs, Hw. econstructor; eauto.
Qed.
Lemma start_of_beh x o es t v : start_of x = Next o es -> obeh o t v -> beh x (es ++ t) v.
Proof. unfold start_of. destruct (o_start x) as [o1 es1] eqn:E. intros F. inversion F; subst. eapply start_beh; eauto. Qed.
Lemma k_beh f v k o es t w : k_step f v k = Next o es -> obeh o t w -> exists u, es ++ t = NRet f v :: u /\ kbeh k v u w.
Proof.
  intros E B. unfold k_step in E. apply emit_next in E as (es' & E & ->). simpl. eexists. split; [reflexivity|]. destruct k.
  - inversion E; subst. inversion B; subst. constructor.
  - constructor. eapply start_of_beh; eauto.
  - destruct (Nat.eqb_spec v 0) as [->|N]; inversion E; subst; inversion B; subst; simpl; [constructor|]. constructor; auto.
  - apply within_next in E as (o' & E & ->). inversion B; subst. rewrite app_assoc. econstructor; [eapply start_of_beh; eauto|auto].
  - inversion E; subst. inversion B; subst. match goal with H : kbeh _ _ _ _ |- _ => inversion H; subst end. now constructor.
  - constructor. eapply start_of_beh; eauto.
Qed.

(** ** Well-formed states *)
Definition is_new (o : op) : Prop := match o with ONew _ => True | _ => False end.
Definition unfin (o : op) : nat := match o with OFin => 0 | _ => 1 end.
Definition mid (o : op) : Prop := match o with ONew _ | OFin => False | _ => True end.
Definition staged (st : nat) (os : list op) : Prop := forall i o, nth_error os i = Some o -> (is_new o <-> st <= i).
Inductive wf : op -> Prop :=
| w_new : forall x, wf (ONew x)
| w_leaf : forall i, wf (OLeaf i)
| w_fn : forall f k, wf (OFn f k)
| w_trans : forall f o, wf o -> mid o -> wf (OTrans f o)
| w_rep : forall c g body o, wf o -> mid o -> wf (ORep c g body o)
| w_seq : forall l o, wf o -> mid o -> wf (OSeq l o)
| w_all : forall st ctr os, (forall o, In o os -> wf o) -> st <= S (length os) -> staged st os -> ctr = sum (map unfin os) -> 0 < ctr -> wf (OAll st ctr os)
| w_race : forall r st nd w rem os, (forall o, In o os -> wf o) -> st <= length os -> staged st os -> nd + sum (map unfin os) = length os -> nd < length os ->
    (nd = 0 -> rem = []) -> (0 < nd -> nth_error os w = Some OFin) -> wf (ORace r st nd w rem os)
| w_set : forall v, wf (OSet v)
| w_fin : wf OFin.

Lemma start_wf x : forall o es, o_start x = (o, es) -> wf o /\ mid o.
Proof.
  induction x using ex_ind'; simpl; intros o es E; try (inversion E; subst; split; [constructor|exact I]).
  - destruct (o_start x) as [o1 es1]. inversion E; subst. destruct (IHx _ _ eq_refl). split; [now constructor|exact I].
  - destruct (o_start x) as [o1 es1]. inversion E; subst. destruct (IHx _ _ eq_refl). split; [now constructor|exact I].
  - intros o [<-|Ho]; [constructor|]. apply in_map_iff in Ho as (y & <- & _). constructor.
  - lia.
  - intros i o Hi. change (nth_error (map ONew (x :: l)) i = Some o) in Hi. rewrite nth_error_map in Hi. destruct (nth_error (x :: l) i); inversion Hi; subst. simpl. split; [lia|auto].
  - simpl. f_equal. clear. induction l as [|y l IH]; simpl; auto.
  - lia.
  - intros o [<-|Ho]; [constructor|]. apply in_map_iff in Ho as (y & <- & _). constructor.
  - lia.
  - intros i o Hi. change (nth_error (map ONew (x :: l)) i = Some o) in Hi. rewrite nth_error_map in Hi. destruct (nth_error (x :: l) i); inversion Hi; subst. simpl. split; [lia|auto].
  - simpl. f_equal. clear. induction l as [|y l IH]; simpl; auto.
  - simpl. lia.
  - auto.
  - lia.
Qed.
Lemma start_of_wf x o es : start_of x = Next o es -> wf o /\ mid o.
Proof. unfold start_of. destruct (o_start x) as [o1 es1] eqn:E. intros F. inversion F; subst. eapply start_wf; eauto. Qed.
Lemma mid_unfin o : mid o -> unfin o = 1.
Proof. destruct o; simpl; tauto. Qed.
Lemma mid_new o : mid o -> ~ is_new o.
Proof. destruct o; simpl; tauto. Qed.
Lemma staged_set st os i o o' : nth_error os i = Some o -> (is_new o' <-> is_new o) -> staged st os -> staged st (set_nth os i o').
Proof.
  intros H N S j o1 Hj. rewrite nth_set_nth in Hj. destruct (Nat.eqb_spec i j) as [<-|]; [|now apply S].
  destruct (i <? length os); inversion Hj; subst. rewrite N. now apply S.
Qed.
Lemma staged_start st os x o' : nth_error os st = Some (ONew x) -> mid o' -> staged st os -> staged (S st) (set_nth os st o').
Proof.
  intros H N S j o1 Hj. rewrite nth_set_nth in Hj. destruct (Nat.eqb_spec st j) as [<-|Hd].
  - destruct (st <? length os); inversion Hj; subst. split; intros Hn; [now apply mid_new in N|lia].
  - rewrite (S _ _ Hj). lia.
Qed.
Lemma unfin_set os i o o' : nth_error os i = Some o -> unfin o' = unfin o -> sum (map unfin (set_nth os i o')) = sum (map unfin os).
Proof. intros H E. pose proof (sum_map_set_nth unfin os i o' o H). lia. Qed.
Lemma wf_set os i o' : (forall o, In o os -> wf o) -> wf o' -> forall o, In o (set_nth os i o') -> wf o.
Proof. intros H Ho o Hi. apply In_set_nth in Hi as [->|Hi]; auto. Qed.
Lemma unfin_all os : sum (map unfin os) = 0 -> forall o, In o os -> o = OFin.
Proof. induction os as [|a os IH]; simpl; intros E o H; [destruct H|]. destruct H as [<-|H]; [destruct a; simpl in E; auto; lia|apply IH; auto; lia]. Qed.
Lemma fin_beh os : (forall o, In o os -> o = OFin \/ exists v, o = OSet v) -> exists ts, obehl os ts /\ forall t, In t ts -> t = [].
Proof.
  induction os as [|o os IH]; intros H; [exists []; split; [constructor|intros t []]|].
  destruct IH as (ts & B & E); [intros; apply H; now right|]. exists ([] :: ts). split; [|intros t [<-|Ht]; auto].
  destruct (H o) as [->|[v ->]]; [now left| |]; econstructor; eauto; constructor.
Qed.
Lemma others_fin os i v : nth_error os i = Some (OSet v) -> sum (map unfin os) = 1 -> forall o, In o os -> o = OFin \/ exists v, o = OSet v.
Proof.
  intros H E o Ho. pose proof (sum_map_set_nth unfin os i OFin (OSet v) H) as F. simpl in F.
  destruct (In_set_nth_intro os i OFin o _ H Ho) as [->|Hi]; [right; eauto|left]. apply (unfin_all (set_nth os i OFin)); auto. lia.
Qed.
Lemma shuffle_empty {A} (ts : list (list A)) w : (forall t, In t ts -> t = []) -> shuffle (aug ts w []) [].
Proof.
  intros H. constructor. intros t Ht. apply In_nth_error in Ht as [j Hj]. rewrite nth_aug in Hj. destruct (nth_error ts j) as [u|] eqn:E; inversion Hj; subst.
  apply nth_error_In in E. rewrite (H _ E). now destruct (j =? w).
Qed.
Lemma set_fin os i v ts : nth_error os i = Some (OSet v) -> obehl (set_nth os i OFin) ts -> obehl os ts.
Proof.
  intros H B. destruct (obehl_step os i (OSet v) OFin [] ts H) as (u & Hu & B'); auto.
  - intros t w Ht. inversion Ht; subst. exists v. constructor.
  - simpl in B'. now rewrite (set_nth_id _ _ _ Hu) in B'.
Qed.

Definition good_step (o : op) (o' : op) (es : list nevent) : Prop := wf o' /\ mid o' /\ forall t w, obeh o' t w -> obeh o (es ++ t) w.

Lemma all_done_good st ctr os i v o' es : wf (OAll st ctr os) -> nth_error os i = Some (OSet v) -> all_done st ctr os i = Next o' es -> good_step (OAll st ctr os) o' es.
Proof.
  intros W H E. inversion W as [| | | | | |? ? ? Wc Ws Wt Wk Wp| | |]; subst. unfold all_done in E.
  destruct (sum (map unfin os)) as [|[|c]] eqn:Ec; [discriminate| |].
  - destruct (st <=? length os); inversion E; subst. split; [constructor|split; [exact I|]]. intros t w B. inversion B; subst.
    destruct (fin_beh os) as (ts & B1 & B2); [eapply others_fin; eauto|]. econstructor; [exact B1|now constructor].
  - inversion E; subst. assert (Es : sum (map unfin (set_nth os i OFin)) = S c) by (pose proof (sum_map_set_nth unfin os i OFin _ H); simpl in *; lia).
    split; [|split; [exact I|]].
    + constructor; [apply wf_set; auto; constructor|now rewrite set_nth_length|apply (staged_set _ _ _ (OSet v)); auto; simpl; tauto|auto|lia].
    + intros t w B. inversion B; subst. econstructor; eauto. eapply set_fin; eauto.
Qed.
Lemma race_done_good r st nd w rem os i v o' es : wf (ORace r st nd w rem os) -> nth_error os i = Some (OSet v) -> race_done r st nd w rem os i = Next o' es ->
  good_step (ORace r st nd w rem os) o' es.
Proof.
  intros W H E. inversion W as [| | | | | | |? ? ? ? ? ? Wc Ws Wt Wk Wp W0 W1| |]; subst. unfold race_done in E.
  assert (Hi : i < length os) by (apply nth_error_Some; congruence).
  assert (Es : S (sum (map unfin (set_nth os i OFin))) = sum (map unfin os)) by (pose proof (sum_map_set_nth unfin os i OFin _ H); simpl in *; lia).
  destruct (Nat.eqb_spec (S nd) (length os)) as [En|En].
  - assert (F : forall o, In o os -> o = OFin \/ exists v, o = OSet v) by (eapply others_fin; eauto; lia).
    destruct (fin_beh os F) as (ts & B1 & B2).
    destruct (Nat.eqb_spec nd 0) as [->|Hn].
    + destruct (filter _ _) eqn:Ef; inversion E; subst. split; [constructor|split; [exact I|]]. intros t u B. inversion B; subst.
      apply (o_race0 r st w rem os i ts); auto. unfold cancels. rewrite Ef. now apply shuffle_empty.
    + destruct rem; inversion E; subst. split; [constructor|split; [exact I|]]. intros t u B. inversion B; subst.
      destruct nd; [lia|]. apply (o_race1 r st nd w [] os ts); auto. now apply shuffle_empty.
  - inversion E; subst. split; [|split; [exact I|]].
    + constructor; rewrite ?set_nth_length; [apply wf_set; auto; constructor|auto|apply (staged_set _ _ _ (OSet v)); auto; simpl; tauto|lia|lia|lia|].
      intros _. destruct (Nat.eqb_spec nd 0) as [->|Hn]; [now apply (nth_error_set_nth_same os i OFin (OSet v))|].
      rewrite nth_error_set_nth_other; [apply W1; lia|]. intros <-. rewrite (W1 ltac:(lia)) in H. discriminate.
    + intros t u B. inversion B as [| | | | | | | | |? ? ? ? ? ? ts ? B1 B2| |]; subst. pose proof (set_fin _ _ _ _ H B1) as B3.
      destruct (Nat.eqb_spec nd 0) as [->|Hn].
      * now apply (o_race0 r st w rem os i ts).
      * destruct nd; [lia|]. now apply (o_race1 r st nd w rem os ts).
Qed.

Lemma step_good o : forall p e o' es, wf o -> o_step o p e = Next o' es -> good_step o o' es.
Proof.
  induction o using op_ind'; intros p e o' es W E; simpl in E; try discriminate.
  - destruct p; [|discriminate]. destruct e as [v|]; inversion E; subst. split; [constructor|split; [exact I|]]. intros t w B. inversion B; subst. constructor.
  - destruct p; [|discriminate]. destruct e as [v|]; [|discriminate].
    assert (wf o' /\ mid o') as [Ww Wm].
    { unfold k_step in E. apply emit_next in E as (es' & E & ->). destruct k; try (inversion E; subst; split; [constructor|exact I]).
      - eapply start_of_wf; eauto.
      - destruct (v =? 0); inversion E; subst; split; constructor.
      - apply within_next in E as (o1 & E & ->). destruct (start_of_wf _ _ _ E). split; [now constructor|exact I].
      - eapply start_of_wf; eauto. }
    split; [auto|split; [auto|]]. intros t w B. destruct (k_beh _ _ _ _ _ _ _ E B) as (u & -> & K). now constructor.
  - inversion W; subst. assert (K : forall v, o = OSet v \/ within (OTrans f) (o_step o p e) = Next o' es -> good_step (OTrans f o) o' es).
    { intros v [->|F]; [destruct p; [|discriminate]; destruct e; inversion E; subst|].
      - split; [constructor|split; [exact I|]]. intros t w B. inversion B; subst. match goal with H : kbeh _ _ _ _ |- _ => inversion H; subst end.
        change (obeh (OTrans f (OSet v)) ([] ++ [NCall f v; NRet f w]) w). econstructor. constructor.
      - apply within_next in F as (o1 & F & ->). destruct (IHo _ _ _ _ ltac:(auto) F) as (A1 & A2 & A3). split; [now constructor|split; [exact I|]].
        intros t w B. inversion B; subst. rewrite app_assoc. constructor. auto. }
    destruct o; try (apply (K 0); right; exact E); apply (K v); now left.
  - inversion W; subst. assert (K : forall v, o = OSet v \/ within (ORep c g body) (o_step o p e) = Next o' es -> good_step (ORep c g body o) o' es).
    { intros v [->|F]; [destruct p; [|discriminate]; destruct e; inversion E; subst|].
      - split; [constructor|split; [exact I|]]. intros t w B. change (obeh (ORep c g body (OSet v)) ([] ++ (NCall c 0 :: t)) w). econstructor; [constructor|].
        apply (start_beh (XRep c g body) _ [NCall c 0] t w eq_refl B).
      - apply within_next in F as (o1 & F & ->). destruct (IHo _ _ _ _ ltac:(auto) F) as (A1 & A2 & A3). split; [now constructor|split; [exact I|]].
        intros t w B. inversion B; subst. rewrite app_assoc. econstructor; eauto. }
    destruct o; try (apply (K 0); right; exact E); apply (K v); now left.
  - inversion W; subst. assert (K : forall v, o = OSet v \/ within (OSeq l) (o_step o p e) = Next o' es -> good_step (OSeq l o) o' es).
    { intros v [->|F]; [destruct p; [|discriminate]; destruct e; [discriminate|]; destruct l as [|x l]|].
      - inversion E; subst. split; [constructor|split; [exact I|]]. intros t w B. inversion B; subst. constructor. constructor.
      - apply within_next in E as (o1 & E & ->). destruct (start_of_wf _ _ _ E) as [A1 A2]. split; [now constructor|split; [exact I|]].
        intros t w B. change (es ++ t) with ([] ++ (es ++ t)). econstructor; [constructor|]. inversion B; subst.
        + constructor. eapply start_of_beh; eauto.
        + rewrite app_assoc. econstructor; [eapply start_of_beh; eauto|auto].
      - apply within_next in F as (o1 & F & ->). destruct (IHo _ _ _ _ ltac:(auto) F) as (A1 & A2 & A3). split; [now constructor|split; [exact I|]].
        intros t w B. inversion B; subst; [constructor; auto|]. rewrite app_assoc. econstructor; eauto. }
    destruct o; try (apply (K 0); right; exact E); apply (K v); now left.
  - destruct p as [|i p].
    + inversion W as [| | | | | |? ? ? Wc Ws Wt Wk Wp| | |]; subst. destruct e; [discriminate|]. destruct (nth_error os st) as [[x| | | | | | | | |]|] eqn:Hn; try discriminate.
      * destruct (o_start x) as [o1 es1] eqn:Ex. inversion E; subst. destruct (start_wf _ _ _ Ex) as [A1 A2].
        assert (L : st < length os) by (apply nth_error_Some; congruence). split; [|split; [exact I|]].
        -- constructor; rewrite ?set_nth_length; [now apply wf_set|lia|eapply staged_start; eauto| |auto]. symmetry. apply (unfin_set _ _ (ONew x)); auto. now apply mid_unfin.
        -- intros t w B. inversion B; subst. destruct (obehl_step os st (ONew x) o1 es ts Hn) as (u & Hu & B'); auto.
           { intros t' w Ht. exists w. constructor. eapply start_beh; eauto. }
           econstructor; [exact B'|]. now apply shuffle_set.
      * destruct (Nat.eqb_spec st (length os)); inversion E; subst. split; [|split; [exact I|]].
        -- constructor; auto. intros i o Hi. assert (i < length os) by (apply nth_error_Some; congruence). rewrite (Wt _ _ Hi). lia.
        -- intros t w B. inversion B; subst. econstructor; eauto.
    + rewrite child_nth in E. destruct (nth_error os i) as [o|] eqn:Hi; [|discriminate].
      assert (K : (exists v, o = OSet v) \/ within (fun o'' => OAll st ctr (set_nth os i o'')) (o_step o p e) = Next o' es).
      { destruct o; try (right; exact E). left. eauto. }
      destruct K as [[v ->]|F].
      * destruct p; [|discriminate]. destruct e; [discriminate|]. eapply all_done_good; eauto.
      * inversion W as [| | | | | |? ? ? Wc Ws Wt Wk Wp| | |]; subst. apply within_next in F as (o1 & F & ->).
        rewrite Forall_forall in H. destruct (H o (nth_error_In _ _ Hi) _ _ _ _ (Wc _ (nth_error_In _ _ Hi)) F) as (A1 & A2 & A3).
        assert (M : mid o) by (destruct o; try exact I; discriminate). split; [|split; [exact I|]].
        -- constructor; rewrite ?set_nth_length; [now apply wf_set|auto| | |auto].
           ++ apply (staged_set _ _ _ o); auto. split; intros N; [now apply mid_new in A2|now apply mid_new in M].
           ++ symmetry. apply (unfin_set _ _ o); auto. now rewrite !mid_unfin.
        -- intros t w B. inversion B; subst. destruct (obehl_step os i o o1 es ts Hi) as (u & Hu & B'); auto.
           { intros t' w Ht. exists w. auto. }
           econstructor; [exact B'|]. now apply shuffle_set.
  - destruct p as [|i p].
    + inversion W as [| | | | | | |? ? ? ? ? ? Wc Ws Wt Wk Wp W0 W1| |]; subst. destruct e; [discriminate|]. destruct (nth_error os st) as [[x| | | | | | | | |]|] eqn:Hn; try discriminate.
      destruct (o_start x) as [o1 es1] eqn:Ex. inversion E; subst. destruct (start_wf _ _ _ Ex) as [A1 A2].
      assert (L : st < length os) by (apply nth_error_Some; congruence).
      assert (Q : sum (map unfin (set_nth os st o1)) = sum (map unfin os)) by (apply (unfin_set _ _ (ONew x)); auto; now apply mid_unfin).
      split; [|split; [exact I|]].
      * constructor; rewrite ?set_nth_length; [now apply wf_set|lia|eapply staged_start; eauto|lia|lia|auto|]. intros Hd. rewrite nth_error_set_nth_other; auto.
        intros <-. rewrite (W1 Hd) in Hn. discriminate.
      * intros t u B. assert (K : forall t' u', obeh o1 t' u' -> exists w', obeh (ONew x) (es ++ t') w') by (intros t' u' Ht; exists u'; constructor; eapply start_beh; eauto).
        inversion B as [| | | | | | | |? ? ? ? ? w' ts ? B1 B2 B3|? ? ? ? ? ? ts ? B1 B2| |]; subst; rewrite ?set_nth_length in *;
          destruct (obehl_step os st (ONew x) o1 es ts Hn K B1) as (z & Hu & B'); [eapply o_race0; eauto|eapply o_race1; eauto]; now apply shuffle_aug.
    + destruct (Nat.eqb_spec i (length os)) as [->|Hne].
      { inversion W as [| | | | | | |? ? ? ? ? ? Wc Ws Wt Wk Wp W0 W1| |]; subst. destruct p; [|discriminate]. destruct e; [discriminate|]. destruct rem as [|j rem]; inversion E; subst.
        assert (Hd : 0 < nd) by (destruct nd; [discriminate W0; auto|lia]). split; [|split; [exact I|]].
        - constructor; auto. lia.
        - intros t u B. destruct nd; [lia|]. inversion B as [| | | | | | | | |? ? ? ? ? ? ts ? B1 B2| |]; subst. apply (o_race1 r st nd w (j :: rem) os ts); auto.
          destruct (obehl_nth _ _ _ _ B1 (W1 Hd)) as (y & v & Hy & By). inversion By; subst.
          apply (shuffle_child _ w [NCancel r j] (map (NCancel r) rem)); [now rewrite nth_aug, Hy, Nat.eqb_refl|].
          match goal with |- shuffle ?X t => replace X with (aug ts w (map (NCancel r) rem)) end; auto. apply nth_ext_eq. intros m.
          rewrite nth_set_nth, !nth_aug, aug_length. rewrite (Nat.eqb_sym m w). destruct (Nat.eqb_spec w m) as [<-|]; auto.
          assert (w < length ts) by (apply nth_error_Some; congruence). destruct (Nat.ltb_spec w (length ts)); [|lia]. now rewrite Hy. }
      rewrite child_nth in E. destruct (nth_error os i) as [o|] eqn:Hi; [|discriminate].
      assert (K : (exists v, o = OSet v) \/ within (fun o'' => ORace r st nd w rem (set_nth os i o'')) (o_step o p e) = Next o' es).
      { destruct o; try (right; exact E). left. eauto. }
      destruct K as [[v ->]|F].
      * destruct p; [|discriminate]. destruct e; [discriminate|]. eapply race_done_good; eauto.
      * inversion W as [| | | | | | |? ? ? ? ? ? Wc Ws Wt Wk Wp W0 W1| |]; subst. apply within_next in F as (o1 & F & ->).
        rewrite Forall_forall in H. destruct (H o (nth_error_In _ _ Hi) _ _ _ _ (Wc _ (nth_error_In _ _ Hi)) F) as (A1 & A2 & A3).
        assert (M : mid o) by (destruct o; try exact I; discriminate).
        assert (Q : sum (map unfin (set_nth os i o1)) = sum (map unfin os)) by (apply (unfin_set _ _ o); auto; now rewrite !mid_unfin).
        split; [|split; [exact I|]].
        -- constructor; rewrite ?set_nth_length; [now apply wf_set|auto| |lia|lia|auto|].
           ++ apply (staged_set _ _ _ o); auto. split; intros N; [now apply mid_new in A2|now apply mid_new in M].
           ++ intros Hd. rewrite nth_error_set_nth_other; auto. intros ->. rewrite (W1 Hd) in Hi. inversion Hi; subst. exact M.
        -- intros t u B. assert (K : forall t' u', obeh o1 t' u' -> exists w', obeh o (es ++ t') w') by (intros t' u' Ht; exists u'; auto).
           inversion B as [| | | | | | | |? ? ? ? ? w' ts ? B1 B2 B3|? ? ? ? ? ? ts ? B1 B2| |]; subst; rewrite ?set_nth_length in *;
             destruct (obehl_step os i o o1 es ts Hi K B1) as (z & Hu & B'); [eapply o_race0; eauto|eapply o_race1; eauto]; now apply shuffle_aug.
Qed.

(** ** Every operation can be completed *)
Lemma behl_ex l : Forall (fun x => exists t v, beh x t v) l -> exists ts, behl l ts.
Proof. induction 1 as [|x l (t & v & B) _ (ts & Bs)]; [exists []; constructor|exists (t :: ts); econstructor; eauto]. Qed.
Lemma behs_ex l : Forall (fun x => exists t v, beh x t v) l -> forall x, (exists t v, beh x t v) -> exists t v, behs x l t v.
Proof.
  induction 1 as [|y l Hy _ IH]; intros x (t & v & B); [exists t, v; now constructor|].
  destruct (IH y Hy) as (t' & v' & B'). exists (t ++ t'), v'. econstructor; eauto.
Qed.
Lemma beh_ex x : exists t v, beh x t v.
Proof.
  induction x using ex_ind'.
  - exists [NCall f 0; NRet f 0], 0. constructor.
  - exists [NLeaf i; NComp i 0], 0. constructor.
  - destruct IHx as (t & w & B). exists (t ++ [NCall f w; NRet f 0]), 0. now constructor.
  - destruct IHx2 as (t & w & B). eexists _, w. apply b_else. exact B.
  - eexists _, 0. constructor.
  - destruct (H 0) as (t & w & B). eexists _, w. apply (b_let p g body 0 0). exact B.
  - destruct (behs_ex l H x IHx) as (t & v & B). exists t, v. now constructor.
  - destruct (behl_ex (x :: l)) as (ts & B); [now constructor|]. destruct (shuffle_ex ts) as (t & S). exists t, 0. econstructor; eauto.
  - destruct (behl_ex (x :: l)) as (ts & B); [now constructor|]. destruct (shuffle_ex (aug ts 0 (cancels r 0 (length (x :: l))))) as (t & S). exists t, 0.
    econstructor; eauto. simpl. lia.
Qed.
Lemma obehl_ex os : (forall o, In o os -> exists t v, obeh o t v) -> exists ts, obehl os ts.
Proof.
  induction os as [|o os IH]; intros H; [exists []; constructor|]. destruct (H o) as (t & v & B); [now left|]. destruct IH as (ts & Bs); [intros; apply H; now right|].
  exists (t :: ts). econstructor; eauto.
Qed.
Lemma kbeh_ex k : exists v t w, kbeh k v t w.
Proof.
  destruct k.
  - exists 0, [], 0. constructor.
  - destruct (beh_ex b) as (t & w & B). exists 0, t, w. now constructor.
  - exists 0, [], 0. constructor.
  - destruct (beh_ex (body 0)) as (t & w & B). exists 0. do 2 eexists. econstructor; [eassumption|apply b_end].
  - destruct (beh_ex (body 0)) as (t & w & B). exists 0. do 2 eexists. constructor. eassumption.
  - destruct (beh_ex (body 0)) as (t & w & B). exists 0. do 2 eexists. constructor. eassumption.
Qed.
Lemma obeh_ex o : wf o -> exists t v, obeh o t v.
Proof.
  induction o using op_ind'; intros W.
  - destruct (beh_ex x) as (t & v & B). exists t, v. now constructor.
  - exists [NComp i 0], 0. constructor.
  - destruct (kbeh_ex k) as (v & t & w & B). exists (NRet f v :: t), w. now constructor.
  - inversion W; subst. destruct IHo as (t & w & B); auto. exists (t ++ [NCall f w; NRet f 0]), 0. now constructor.
  - inversion W; subst. destruct IHo as (t & w & B); auto. do 2 eexists. econstructor; [exact B|apply b_end].
  - inversion W; subst. destruct IHo as (t & w & B); auto. destruct l as [|x l]; [exists t, w; now constructor|].
    destruct (behs_ex l) with (x := x) as (t' & w' & B'); [apply Forall_forall; intros; apply beh_ex|apply beh_ex|]. exists (t ++ t'), w'. econstructor; eauto.
  - inversion W; subst. rewrite Forall_forall in H. destruct (obehl_ex os) as (ts & B); [auto|]. destruct (shuffle_ex ts) as (t & S). exists t, 0. econstructor; eauto.
  - inversion W; subst. rewrite Forall_forall in H. destruct (obehl_ex os) as (ts & B); [auto|]. destruct nd.
    + destruct (shuffle_ex (aug ts 0 (cancels r 0 (length os)))) as (t & S). exists t, 0. econstructor; eauto. 
    + destruct (shuffle_ex (aug ts w (map (NCancel r) rem))) as (t & S). exists t, 0. econstructor; eauto.
  - exists [], v. constructor.
  - exists [], 0. constructor.
Qed.

(** ** Running leaf operations and user functions *)
Fixpoint rl (o : op) : nat :=
  match o with OLeaf _ => 1 | OTrans _ o' | ORep _ _ _ o' | OSeq _ o' => rl o' | OAll _ _ os | ORace _ _ _ _ _ os => sum (map rl os) | _ => 0 end.
Fixpoint rf (o : op) : nat :=
  match o with OFn _ _ => 1 | OTrans _ o' | ORep _ _ _ o' | OSeq _ o' => rf o' | OAll _ _ os | ORace _ _ _ _ _ os => sum (map rf os) | _ => 0 end.
Definition no_done (es : list nevent) : Prop := forall v, ~ In (NDone v) es.
Definition counts (l f l' f' : nat) (es : list nevent) : Prop :=
  l' + total n_comp es = l + total n_leaf es /\ f' + total n_ret es = f + total n_call es /\ no_done es.
Lemma total_app f a b : total f (a ++ b) = total f a + total f b.
Proof. unfold total. rewrite map_app. induction (map f a); simpl; lia. Qed.
Ltac cnt_now := unfold counts, total, no_done; simpl; repeat split; try lia; intros ? ?; intuition discriminate.

Lemma sum_map_new (f : op -> nat) l : (forall x, f (ONew x) = 0) -> sum (map f (map ONew l)) = 0.
Proof. intros H. induction l; simpl; auto. now rewrite H, IHl. Qed.
Lemma start_counts x : forall o es, o_start x = (o, es) -> counts 0 0 (rl o) (rf o) es.
Proof.
  induction x using ex_ind'; simpl; intros o es E; try (inversion E; subst; cnt_now).
  - destruct (o_start x) as [o1 es1]. inversion E; subst. exact (IHx _ _ eq_refl).
  - destruct (o_start x) as [o1 es1]. inversion E; subst. exact (IHx _ _ eq_refl).
  - inversion E; subst. unfold counts. simpl. rewrite !sum_map_new by reflexivity. cnt_now.
  - inversion E; subst. unfold counts. simpl. rewrite !sum_map_new by reflexivity. cnt_now.
Qed.
Lemma start_of_counts x o es : start_of x = Next o es -> counts 0 0 (rl o) (rf o) es.
Proof. unfold start_of. destruct (o_start x) as [o1 es1] eqn:E. intros F. inversion F; subst. eapply start_counts; eauto. Qed.
Lemma counts_set os i o o' es : nth_error os i = Some o -> counts (rl o) (rf o) (rl o') (rf o') es ->
  counts (sum (map rl os)) (sum (map rf os)) (sum (map rl (set_nth os i o'))) (sum (map rf (set_nth os i o'))) es.
Proof.
  intros H (A & B & C). pose proof (sum_map_set_nth rl os i o' o H). pose proof (sum_map_set_nth rf os i o' o H). repeat split; auto; lia.
Qed.
Lemma fin_counts (f : op -> nat) os : f OFin = 0 -> (forall v, f (OSet v) = 0) -> (forall o, In o os -> o = OFin \/ exists v, o = OSet v) -> sum (map f os) = 0.
Proof. intros H1 H2 H. induction os as [|o os IH]; simpl; auto. rewrite IH by (intros; apply H; now right). destruct (H o) as [->|[v ->]]; [now left| |]; rewrite ?H1, ?H2; auto. Qed.

Lemma step_counts o : forall p e o' es, wf o -> o_step o p e = Next o' es -> counts (rl o) (rf o) (rl o') (rf o') es.
Proof.
  induction o using op_ind'; intros p e o' es W E; simpl in E; try discriminate.
  - destruct p; [|discriminate]. destruct e as [v|]; inversion E; subst. cnt_now.
  - destruct p; [|discriminate]. destruct e as [v|]; [|discriminate]. unfold k_step in E. apply emit_next in E as (es' & E & ->).
    assert (K : counts 0 0 (rl o') (rf o') es').
    { destruct k; try (inversion E; subst; cnt_now).
      - eapply start_of_counts; eauto.
      - destruct (v =? 0); inversion E; subst; cnt_now.
      - apply within_next in E as (o1 & E & ->). simpl. eapply start_of_counts; eauto.
      - eapply start_of_counts; eauto. }
    destruct K as (A & B & C). unfold counts. rewrite !total_app. unfold total at 1 3 5 7. simpl. repeat split; try lia. intros v0 [F|F]; [discriminate|now apply (C v0)].
  - inversion W; subst. assert (K : (exists v, o = OSet v) \/ within (OTrans f) (o_step o p e) = Next o' es) by (destruct o; try (right; exact E); left; eauto).
    destruct K as [[v ->]|F]; [destruct p; [|discriminate]; destruct e; inversion E; subst; cnt_now|].
    apply within_next in F as (o1 & F & ->). simpl. eauto.
  - inversion W; subst. assert (K : (exists v, o = OSet v) \/ within (ORep c g body) (o_step o p e) = Next o' es) by (destruct o; try (right; exact E); left; eauto).
    destruct K as [[v ->]|F]; [destruct p; [|discriminate]; destruct e; inversion E; subst; cnt_now|].
    apply within_next in F as (o1 & F & ->). simpl. eauto.
  - inversion W; subst. assert (K : (exists v, o = OSet v) \/ within (OSeq l) (o_step o p e) = Next o' es) by (destruct o; try (right; exact E); left; eauto).
    destruct K as [[v ->]|F].
    + destruct p; [|discriminate]; destruct e; [discriminate|]. destruct l; [inversion E; subst; cnt_now|]. apply within_next in E as (o1 & E & ->). simpl. eapply start_of_counts; eauto.
    + apply within_next in F as (o1 & F & ->). simpl. eauto.
  - destruct p as [|i p].
    + destruct e; [discriminate|]. destruct (nth_error os st) as [[x| | | | | | | | |]|] eqn:Hn; try discriminate.
      * destruct (o_start x) as [o1 es1] eqn:Ex. inversion E; subst. apply (counts_set _ _ (ONew x)); auto. eapply start_counts; eauto.
      * destruct (st =? length os); inversion E; subst. cnt_now.
    + rewrite child_nth in E. destruct (nth_error os i) as [o|] eqn:Hi; [|discriminate].
      assert (K : (exists v, o = OSet v) \/ within (fun o'' => OAll st ctr (set_nth os i o'')) (o_step o p e) = Next o' es).
      { destruct o; try (right; exact E). left. eauto. }
      inversion W as [| | | | | |? ? ? Wc Ws Wt Wk Wp| | |]; subst. destruct K as [[v ->]|F].
      * destruct p; [|discriminate]. destruct e; [discriminate|]. unfold all_done in E. destruct (sum (map unfin os)) as [|[|c]] eqn:Ec; [discriminate| |].
        -- destruct (st <=? length os); inversion E; subst. unfold counts. simpl. rewrite !fin_counts; [cnt_now|auto|auto|eapply others_fin; eauto|auto|auto|eapply others_fin; eauto].
        -- inversion E; subst. apply (counts_set _ _ (OSet v)); auto. cnt_now.
      * apply within_next in F as (o1 & F & ->). rewrite Forall_forall in H. apply (counts_set _ _ o); auto. apply nth_error_In in Hi. eauto.
  - destruct p as [|i p].
    + destruct e; [discriminate|]. destruct (nth_error os st) as [[x| | | | | | | | |]|] eqn:Hn; try discriminate.
      destruct (o_start x) as [o1 es1] eqn:Ex. inversion E; subst. apply (counts_set _ _ (ONew x)); auto. eapply start_counts; eauto.
    + destruct (i =? length os).
      { destruct p; [|discriminate]. destruct e; [discriminate|]. destruct rem; inversion E; subst. cnt_now. }
      rewrite child_nth in E. destruct (nth_error os i) as [o|] eqn:Hi; [|discriminate].
      assert (K : (exists v, o = OSet v) \/ within (fun o'' => ORace r st nd w rem (set_nth os i o'')) (o_step o p e) = Next o' es).
      { destruct o; try (right; exact E). left. eauto. }
      inversion W as [| | | | | | |? ? ? ? ? ? Wc Ws Wt Wk Wp W0 W1| |]; subst. destruct K as [[v ->]|F].
      * destruct p; [|discriminate]. destruct e; [discriminate|]. unfold race_done in E. destruct (Nat.eqb_spec (S nd) (length os)) as [En|En].
        -- match type of E with match ?X with _ => _ end = _ => destruct X end; inversion E; subst.
           assert (sum (map unfin os) = 1) by lia. unfold counts. simpl. rewrite !fin_counts; [cnt_now|auto|auto|eapply others_fin; eauto|auto|auto|eapply others_fin; eauto].
        -- inversion E; subst. apply (counts_set _ _ (OSet v)); auto. cnt_now.
      * apply within_next in F as (o1 & F & ->). rewrite Forall_forall in H. apply (counts_set _ _ o); auto. apply nth_error_In in Hi. eauto.
Qed.

(** ** Progress *)
Lemma unfin_pos os : 0 < sum (map unfin os) -> exists i o, nth_error os i = Some o /\ o <> OFin.
Proof.
  induction os as [|o os IH]; simpl; [lia|]. intros H. destruct o; try (exists 0; eexists; split; [reflexivity|discriminate]).
  destruct IH as (i & o & Hi & Ho); [simpl in H; lia|]. now exists (S i), o.
Qed.
Lemma sum_in (f : op -> nat) os i o : nth_error os i = Some o -> sum (map f os) = 0 -> f o = 0.
Proof. revert i. induction os as [|a os IH]; intros [|i] H E; simpl in *; try discriminate; [inversion H; subst; lia|apply (IH i); auto; lia]. Qed.
Lemma set_dec o : {v | o = OSet v} + {forall v, o <> OSet v}.
Proof. destruct o; try (right; intros ?; discriminate). left. eauto. Qed.
Lemma o_progress o : wf o -> mid o -> (forall v, o <> OSet v) -> rl o = 0 -> rf o = 0 -> exists p, o_step o p None <> Disabled.
Proof.
  induction o using op_ind'; intros W M N L F; simpl in M, L, F; try tauto; try discriminate.
  - inversion W; subst. destruct (set_dec o) as [[v ->]|Hs]; [exists []; discriminate|]. destruct IHo as (p & Hp); auto. exists p. intros E. apply Hp. simpl in E.
    destruct o; try (apply within_dis in E; exact E). now destruct (Hs v).
  - inversion W; subst. destruct (set_dec o) as [[v ->]|Hs]; [exists []; discriminate|]. destruct IHo as (p & Hp); auto. exists p. intros E. apply Hp. simpl in E.
    destruct o; try (apply within_dis in E; exact E). now destruct (Hs v).
  - inversion W; subst. destruct (set_dec o) as [[v ->]|Hs].
    { exists []. simpl. destruct l; [discriminate|]. unfold start_of. now destruct (o_start e). }
    destruct IHo as (p & Hp); auto. exists p. intros E. apply Hp. simpl in E.
    destruct o; try (apply within_dis in E; exact E). now destruct (Hs v).
  - inversion W as [| | | | | |? ? ? Wc Ws Wt Wk Wp| | |]; subst. destruct (Nat.le_gt_cases st (length os)) as [Hst|Hst].
    + exists []. simpl. destruct (nth_error os st) as [o|] eqn:Hn.
      * assert (is_new o) by (now apply (Wt _ _ Hn)). destruct o; simpl in *; try tauto. now destruct (o_start x).
      * apply nth_error_None in Hn. replace (st =? length os) with true by (symmetry; apply Nat.eqb_eq; lia). discriminate.
    + destruct (unfin_pos os Wp) as (i & o & Hi & Ho). assert (Li : i < length os) by (apply nth_error_Some; congruence).
      assert (Hnew : ~ is_new o) by (rewrite (Wt _ _ Hi); lia). destruct (set_dec o) as [[v ->]|Hs].
      * exists [i]. simpl. rewrite child_nth, Hi. unfold all_done. destruct (sum (map unfin os)) as [|[|c]]; try discriminate. now destruct (st <=? length os).
      * rewrite Forall_forall in H. destruct (H o (nth_error_In _ _ Hi)) as (p & Hp); auto; [apply Wc; eapply nth_error_In; eauto|destruct o; simpl in *; tauto|eapply (sum_in rl); eauto|eapply (sum_in rf); eauto|].
        exists (i :: p). simpl. rewrite child_nth, Hi. intros E. apply Hp. destruct o; try (apply within_dis in E; exact E). now destruct (Hs v).
  - inversion W as [| | | | | | |? ? ? ? ? ? Wc Ws Wt Wk Wp W0 W1| |]; subst. destruct (Nat.lt_ge_cases st (length os)) as [Hst|Hst].
    + exists []. simpl. destruct (nth_error os st) as [o|] eqn:Hn; [|apply nth_error_None in Hn; lia].
      assert (is_new o) by (now apply (Wt _ _ Hn)). destruct o; simpl in *; try tauto. now destruct (o_start x).
    + destruct (unfin_pos os ltac:(lia)) as (i & o & Hi & Ho). assert (Li : i < length os) by (apply nth_error_Some; congruence).
      assert (Hnew : ~ is_new o) by (rewrite (Wt _ _ Hi); lia). destruct (set_dec o) as [[v ->]|Hs].
      * exists [i]. simpl. destruct (Nat.eqb_spec i (length os)); [lia|]. rewrite child_nth, Hi. unfold race_done. destruct (S nd =? length os); [|discriminate].
        match goal with |- match ?X with _ => _ end <> _ => destruct X end; discriminate.
      * rewrite Forall_forall in H. destruct (H o (nth_error_In _ _ Hi)) as (p & Hp); auto; [apply Wc; eapply nth_error_In; eauto|destruct o; simpl in *; tauto|eapply (sum_in rl); eauto|eapply (sum_in rf); eauto|].
        exists (i :: p). simpl. destruct (Nat.eqb_spec i (length os)); [lia|]. rewrite child_nth, Hi. intros E. apply Hp. destruct o; try (apply within_dis in E; exact E). now destruct (Hs v).
  - now destruct (N v).
Qed.

(** ** The whole expression *)
Record NI (x : ex) (o : op) (tr : list nevent) : Prop := MkNI {
  ni_wf : wf o;
  ni_new : is_new o -> o = ONew x /\ tr = [];
  ni_run : o <> OFin -> no_done tr /\ forall t v, obeh o t v -> beh x (tr ++ t) v;
  ni_fin : o = OFin -> exists t v, tr = t ++ [NDone v] /\ no_done t /\ beh x t v;
  ni_cnt : rl o + total n_comp tr = total n_leaf tr /\ rf o + total n_ret tr = total n_call tr }.
Lemma no_done_app a b : no_done a -> no_done b -> no_done (a ++ b).
Proof. intros H1 H2 v H. apply in_app_or in H as [H|H]; [apply (H1 v)|apply (H2 v)]; auto. Qed.
Lemma ni_init x : NI x (n_init x) [].
Proof.
  constructor; unfold n_init.
  - constructor.
  - auto.
  - intros _. split; [intros v []|]. intros t v B. now inversion B; subst.
  - discriminate.
  - auto.
Qed.
Lemma ni_next x o o' tr es : NI x o tr -> wf o' -> mid o' -> (forall t w, obeh o' t w -> obeh o (es ++ t) w) -> counts (rl o) (rf o) (rl o') (rf o') es -> o <> OFin -> NI x o' (tr ++ es).
Proof.
  intros H W M B (C1 & C2 & C3) N. constructor; auto.
  - intros Hn. now apply mid_new in M.
  - intros _. destruct (ni_run _ _ _ H N) as [D R]. split; [now apply no_done_app|]. intros t v Ht. rewrite <- app_assoc. auto.
  - intros ->. destruct M.
  - destruct (ni_cnt _ _ _ H). rewrite !total_app. lia.
Qed.
Lemma ni_step x o tr l o' es : NI x o tr -> n_step o l = Next o' es -> NI x o' (tr ++ es).
Proof.
  intros H E. destruct l as [|p|p v]; simpl in E.
  - destruct o as [y| | | | | | | | |]; try discriminate. destruct (start_of_wf _ _ _ E) as [W M]. apply (ni_next x (ONew y)); auto; [|eapply start_of_counts; eauto|discriminate].
    intros t w B. constructor. eapply start_of_beh; eauto.
  - assert (K : (p = [] /\ exists v, o = OSet v /\ o' = OFin /\ es = [NDone v]) \/ o_step o p None = Next o' es).
    { destruct p; [|now right]. destruct o; try (now right). left. inversion E; subst. split; eauto. }
    destruct K as [(-> & v & -> & -> & ->)|F].
    + destruct (ni_run _ _ _ H ltac:(discriminate)) as [D R]. constructor.
      * constructor.
      * intros [].
      * congruence.
      * intros _. exists tr, v. repeat split; auto. rewrite <- (app_nil_r tr). apply R. constructor.
      * destruct (ni_cnt _ _ _ H). rewrite !total_app. unfold total at 2 4 6 8. simpl in *. lia.
    + destruct (step_good _ _ _ _ _ (ni_wf _ _ _ H) F) as (A1 & A2 & A3). eapply ni_next; eauto; [eapply step_counts; eauto; apply H|]. intros ->. discriminate.
  - destruct (step_good _ _ _ _ _ (ni_wf _ _ _ H) E) as (A1 & A2 & A3). eapply ni_next; eauto; [eapply step_counts; eauto; apply H|]. intros ->. discriminate.
Qed.
Lemma ni_run_all x ls o tr : run n_step (n_init x) ls = Running o tr -> NI x o tr.
Proof. apply (run_inv n_step (NI x) (n_init x) (ni_init x)). intros; eapply ni_step; eauto. Qed.

Lemma nest_done x ls o tr v : run n_step (n_init x) ls = Running o tr -> In (NDone v) tr -> exists t, tr = t ++ [NDone v] /\ no_done t /\ beh x t v.
Proof.
  intros R Hd. pose proof (ni_run_all _ _ _ _ R) as H. assert (o = OFin).
  { destruct o; auto; exfalso; destruct (ni_run _ _ _ H ltac:(discriminate)) as [D _]; now apply (D v). }
  destruct (ni_fin _ _ _ H H0) as (t & v' & -> & D & B). apply in_app_or in Hd as [Hd|[Hd|[]]]; [now destruct (D v)|]. inversion Hd; subst. eauto.
Qed.
Lemma nest_prefix x ls o tr : run n_step (n_init x) ls = Running o tr -> exists t v u, beh x t v /\ t ++ [NDone v] = tr ++ u.
Proof.
  intros R. pose proof (ni_run_all _ _ _ _ R) as H. assert (D : o = OFin \/ o <> OFin) by (destruct o; (now left) || (right; discriminate)). destruct D as [E|E].
  - destruct (ni_fin _ _ _ H E) as (t & v & -> & _ & B). exists t, v, []. split; auto. now rewrite app_nil_r.
  - destruct (obeh_ex o (ni_wf _ _ _ H)) as (u & v & B). exists (tr ++ u), v, (u ++ [NDone v]). split; [now apply (ni_run _ _ _ H E)|now rewrite app_assoc].
Qed.
Lemma nest_once x ls o tr : run n_step (n_init x) ls = Running o tr -> (exists v t, tr = t ++ [NDone v] /\ no_done t) \/ no_done tr.
Proof.
  intros R. pose proof (ni_run_all _ _ _ _ R) as H. assert (D : o = OFin \/ o <> OFin) by (destruct o; (now left) || (right; discriminate)). destruct D as [E|E].
  - left. destruct (ni_fin _ _ _ H E) as (t & v & -> & D & _). now exists v, t.
  - right. now apply (ni_run _ _ _ H).
Qed.
Lemma nest_idle x ls o tr v : run n_step (n_init x) ls = Running o tr -> In (NDone v) tr -> env_idle tr.
Proof.
  intros R Hd. pose proof (ni_run_all _ _ _ _ R) as H. assert (E : o = OFin).
  { destruct o; auto; exfalso; destruct (ni_run _ _ _ H ltac:(discriminate)) as [D _]; now apply (D v). }
  destruct (ni_cnt _ _ _ H) as [C1 C2]. subst. simpl in *. split; lia.
Qed.
Lemma n_step_old s l s' es : wf s -> ~ is_new s -> n_step s l = Next s' es -> wf s' /\ ~ is_new s'.
Proof.
  intros W N E. destruct l as [|p|p v]; simpl in E.
  - destruct s; try discriminate. destruct N. exact I.
  - assert (K : (exists v, s' = OFin) \/ o_step s p None = Next s' es) by (destruct p; [|now right]; destruct s; try (now right); left; inversion E; subst; eauto).
    destruct K as [[v ->]|F]; [split; [constructor|intros []]|]. destruct (step_good _ _ _ _ _ W F) as (A1 & A2 & _). split; auto. now apply mid_new.
  - destruct (step_good _ _ _ _ _ W E) as (A1 & A2 & _). split; auto. now apply mid_new.
Qed.
Lemma n_run_old ls : forall s tr0 o tr, wf s -> ~ is_new s -> run_from n_step s tr0 ls = Running o tr -> ~ is_new o.
Proof.
  induction ls as [|l ls IH]; simpl; intros s tr0 o tr W N R; [inversion R; subst; auto|].
  destruct (n_step s l) as [s' es| |] eqn:E; try discriminate. destruct (n_step_old _ _ _ _ W N E). eapply IH; eauto.
Qed.
Lemma n_started x ls o tr : run n_step (n_init x) ls = Running o tr -> In NLStart ls -> ~ is_new o.
Proof.
  intros R Hs. destruct ls as [|l ls]; [destruct Hs|]. unfold run, n_init in R. simpl in R. destruct (n_step (ONew x) l) as [s' es| |] eqn:E; try discriminate.
  destruct l as [|[|]|]; simpl in E; try discriminate. destruct (start_of_wf _ _ _ E) as [W M]. eapply n_run_old; eauto. now apply mid_new.
Qed.
Lemma nest_progress x ls o tr : run n_step (n_init x) ls = Running o tr -> In NLStart ls -> env_idle tr -> (forall p, n_step o (NLStep p) = Disabled) -> exists v, In (NDone v) tr.
Proof.
  intros R Hs [E1 E2] Hq. pose proof (ni_run_all _ _ _ _ R) as H. destruct (ni_cnt _ _ _ H) as [C1 C2]. pose proof (n_started _ _ _ _ R Hs) as Hn.
  assert (D : o = OFin \/ o <> OFin) by (destruct o; (now left) || (right; discriminate)). destruct D as [E|E].
  - destruct (ni_fin _ _ _ H E) as (t & v & -> & _). exists v. apply in_or_app. right. now left.
  - exfalso. destruct (set_dec o) as [[v ->]|Hset]; [now specialize (Hq [])|].
    destruct (o_progress o (ni_wf _ _ _ H)) as (p & Hp); auto; [destruct o; simpl in *; tauto|lia|lia|]. apply Hp. specialize (Hq p). simpl in Hq.
    destruct p; auto. now destruct o.
Qed.

(** ** Sequential expressions do not fail *)
Inductive seqk : kont -> Prop :=
| sk_set : seqk KSet
| sk_ite : forall a b, sequential a -> sequential b -> seqk (KIte a b)
| sk_repc : forall c g body, (forall v, sequential (body v)) -> seqk (KRepC c g body)
| sk_repf : forall c g body, (forall v, sequential (body v)) -> seqk (KRepF c g body)
| sk_letp : forall g body, (forall v, sequential (body v)) -> seqk (KLetP g body)
| sk_letf : forall body, (forall v, sequential (body v)) -> seqk (KLetF body).
Inductive seqo : op -> Prop :=
| so_new : forall x, sequential x -> seqo (ONew x)
| so_leaf : forall i, seqo (OLeaf i)
| so_fn : forall f k, seqk k -> seqo (OFn f k)
| so_trans : forall f o, seqo o -> seqo (OTrans f o)
| so_rep : forall c g body o, (forall v, sequential (body v)) -> seqo o -> seqo (ORep c g body o)
| so_seq : forall l o, (forall y, In y l -> sequential y) -> seqo o -> seqo (OSeq l o)
| so_set : forall v, seqo (OSet v)
| so_fin : seqo OFin.
Lemma start_seq x : sequential x -> forall o es, o_start x = (o, es) -> seqo o.
Proof.
  induction x using ex_ind'; simpl; intros S o es E; inversion S; subst; try (inversion E; subst; now repeat constructor).
  - destruct (o_start x) as [o1 es1]. inversion E; subst. constructor. eauto.
  - destruct (o_start x) as [o1 es1]. inversion E; subst. constructor; [intros; match goal with H : forall y, _ -> sequential y |- _ => apply H end; now right|]. eapply IHx; eauto.
    match goal with H : forall y, _ -> sequential y |- _ => apply H end. now left.
Qed.
Lemma start_of_seq x : sequential x -> exists o es, start_of x = Next o es /\ seqo o.
Proof. intros S. unfold start_of. destruct (o_start x) as [o es] eqn:E. exists o, es. split; auto. eapply start_seq; eauto. Qed.
Lemma within_seq c r o es : within c r = Next o es -> (forall o', r = Next o' es -> seqo (c o')) -> seqo o.
Proof. intros E H. apply within_next in E as (o' & E & ->). auto. Qed.
Lemma seq_step o : forall p e, seqo o -> (forall o' es, o_step o p e = Next o' es -> seqo o') /\ forall f es, o_step o p e <> Fail f es.
Proof.
  induction o using op_ind'; intros p e S; simpl; try (split; intros; discriminate); inversion S; subst.
  - destruct p; [|split; discriminate]. destruct e; split; try discriminate. intros o' es E. inversion E; subst. constructor.
  - destruct p; [|split; discriminate]. destruct e as [v|]; [|split; discriminate]. unfold k_step.
    assert (K : forall r, (exists o' es', r = Next o' es' /\ seqo o') -> (forall o' es, emit [NRet f v] r = Next o' es -> seqo o') /\ (forall f0 es, emit [NRet f v] r <> Fail f0 es)).
    { intros r (o' & es' & -> & So). simpl. split; [intros ? ? E; now inversion E; subst|discriminate]. }
    apply K. clear K. match goal with H : seqk _ |- _ => inversion H; subst end.
    + do 2 eexists. split; [reflexivity|constructor].
    + apply start_of_seq. now destruct (v =? 0).
    + destruct (v =? 0); do 2 eexists; (split; [reflexivity|]); [constructor|]. constructor. now constructor.
    + destruct (start_of_seq (body v)) as (o & es & -> & So); auto. simpl. do 2 eexists. split; [reflexivity|]. now constructor.
    + do 2 eexists. split; [reflexivity|]. constructor. now constructor.
    + now apply start_of_seq.
  - destruct (IHo p e ltac:(auto)) as [A B].
    destruct (set_dec o) as [[v ->]|Hs].
    + destruct p; [|split; discriminate]. destruct e; split; try discriminate. intros o' es E. inversion E; subst. now repeat constructor.
    + match goal with |- (forall o' es, ?X = _ -> _) /\ _ => replace X with (within (OTrans f) (o_step o p e)) by (destruct o; auto; now destruct (Hs v)) end.
      split; [intros o' es E; apply within_next in E as (o1 & E & ->); constructor; eauto|intros f0 es E; apply within_fail in E; eapply B; eauto].
  - destruct (IHo p e ltac:(auto)) as [A B]. destruct (set_dec o) as [[v ->]|Hs].
    + destruct p; [|split; discriminate]. destruct e; split; try discriminate. intros o' es E. inversion E; subst. constructor. now constructor.
    + match goal with |- (forall o' es, ?X = _ -> _) /\ _ => replace X with (within (ORep c g body) (o_step o p e)) by (destruct o; auto; now destruct (Hs v)) end.
      split; [intros o' es E; apply within_next in E as (o1 & E & ->); constructor; eauto|intros f0 es E; apply within_fail in E; eapply B; eauto].
  - destruct (IHo p e ltac:(auto)) as [A B]. destruct (set_dec o) as [[v ->]|Hs].
    + destruct p; [|split; discriminate]. destruct e; [split; discriminate|]. destruct l as [|x l].
      * split; [|discriminate]. intros o' es E. inversion E; subst. constructor.
      * destruct (start_of_seq x) as (o & es & -> & So); [match goal with H : forall y, _ -> sequential y |- _ => apply H end; now left|]. simpl. split; [|discriminate].
        intros o' es' E. inversion E; subst. constructor; auto. intros y Hy. match goal with H : forall y, _ -> sequential y |- _ => apply H end. now right.
    + match goal with |- (forall o' es, ?X = _ -> _) /\ _ => replace X with (within (OSeq l) (o_step o p e)) by (destruct o; auto; now destruct (Hs v)) end.
      split; [intros o' es E; apply within_next in E as (o1 & E & ->); constructor; eauto|intros f0 es E; apply within_fail in E; eapply B; eauto].
Qed.
Lemma seq_n_step o l : seqo o -> (forall o' es, n_step o l = Next o' es -> seqo o') /\ forall f es, n_step o l <> Fail f es.
Proof.
  intros S. destruct l as [|p|p v]; simpl.
  - destruct o; try (split; discriminate). inversion S; subst. destruct (start_of_seq x) as (o & es & -> & So); auto. split; [|discriminate]. intros ? ? E. now inversion E; subst.
  - destruct (seq_step o p None S) as [A B]. destruct p; auto. destruct o; auto. split; [|discriminate]. intros ? ? E. inversion E; subst. constructor.
  - now apply seq_step.
Qed.
Lemma nest_seq_safe x : sequential x -> forall ls f tr, run n_step (n_init x) ls <> Failed f tr.
Proof.
  intros S ls. unfold run. assert (K : forall s tr0 f tr, seqo s -> run_from n_step s tr0 ls <> Failed f tr).
  { induction ls as [|l ls IH]; simpl; intros s tr0 f tr So; [discriminate|]. destruct (seq_n_step s l So) as [A B].
    destruct (n_step s l) as [s' es| |f0 es]; [|discriminate|]; [apply IH; eauto|]. now destruct (B f0 es). }
  intros f tr. apply K. now constructor.
Qed.
