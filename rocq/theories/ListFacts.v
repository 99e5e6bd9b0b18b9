(** Auxiliary facts about lists, counts and maps (no model content). *)
From Coq Require Import List Arith Bool Lia.
From Verif Require Import Lts.
Import ListNotations.

Lemma memb_In x l : memb x l = true <-> In x l.
Proof.
  unfold memb. rewrite existsb_exists. split.
  - intros (y & Hy & He). apply Nat.eqb_eq in He. now subst.
  - intros H. exists x. split; auto. apply Nat.eqb_refl.
Qed.

Lemma memb_not_In x l : memb x l = false <-> ~ In x l.
Proof. rewrite <- memb_In. destruct (memb x l); split; intros; congruence. Qed.

Lemma cnt_app x l1 l2 : cnt x (l1 ++ l2) = cnt x l1 + cnt x l2.
Proof. unfold cnt. apply count_occ_app. Qed.

Lemma cnt_cons x y l : cnt x (y :: l) = (if Nat.eq_dec y x then 1 else 0) + cnt x l.
Proof. unfold cnt. simpl. destruct (Nat.eq_dec y x); reflexivity. Qed.

Lemma cnt_nil x : cnt x [] = 0.
Proof. reflexivity. Qed.

Lemma cnt_zero x l : cnt x l = 0 <-> ~ In x l.
Proof. unfold cnt. symmetry. apply count_occ_not_In. Qed.

Lemma cnt_pos x l : cnt x l > 0 <-> In x l.
Proof. unfold cnt. symmetry. apply count_occ_In. Qed.

Global Arguments cnt : simpl never.

Lemma cnt_remove1_same x l : In x l -> S (cnt x (remove1 x l)) = cnt x l.
Proof.
  induction l as [|h t IH]; simpl; [tauto|].
  intros H. destruct (Nat.eqb h x) eqn:He.
  - apply Nat.eqb_eq in He. subst. rewrite cnt_cons. destruct (Nat.eq_dec x x); [reflexivity|congruence].
  - apply Nat.eqb_neq in He. rewrite !cnt_cons. destruct (Nat.eq_dec h x); [congruence|].
    destruct H; [congruence|]. simpl. auto.
Qed.

Lemma cnt_remove1_other x y l : x <> y -> cnt x (remove1 y l) = cnt x l.
Proof.
  intros Hxy. induction l as [|h t IH]; simpl; [reflexivity|].
  destruct (Nat.eqb h y) eqn:He.
  - apply Nat.eqb_eq in He. subst. rewrite cnt_cons. destruct (Nat.eq_dec y x); [congruence|reflexivity].
  - rewrite !cnt_cons. now rewrite IH.
Qed.

Lemma In_remove1 x y l : In x (remove1 y l) -> In x l.
Proof.
  induction l as [|h t IH]; simpl; [tauto|].
  destruct (Nat.eqb h y); simpl; tauto.
Qed.

Lemma In_remove1_NoDup x y l : NoDup l -> (In x (remove1 y l) <-> In x l /\ x <> y).
Proof.
  intros Hnd. induction l as [|h t IH]; simpl; [tauto|].
  inversion Hnd as [|? ? Hh Ht]; subst. specialize (IH Ht).
  destruct (Nat.eqb h y) eqn:He.
  - apply Nat.eqb_eq in He. subst. split.
    + intros Hx. split; [auto|]. intros ->. auto.
    + intros [[Hx|Hx] Hne]; congruence.
  - apply Nat.eqb_neq in He. simpl. rewrite IH. split.
    + intros [->|[Hx Hne]]; auto.
    + intros [[Hx|Hx] Hne]; auto.
Qed.

Lemma NoDup_remove1 y l : NoDup l -> NoDup (remove1 y l).
Proof.
  intros Hnd. induction l as [|h t IH]; simpl; [constructor|].
  inversion Hnd as [|? ? Hh Ht]; subst.
  destruct (Nat.eqb h y); [exact Ht|].
  constructor; auto. intros Hx. apply In_remove1 in Hx. auto.
Qed.

Lemma NoDup_cnt l : NoDup l -> forall x, cnt x l <= 1.
Proof. intros H x. unfold cnt. now apply NoDup_count_occ. Qed.

Lemma In_snoc {A} (l : list A) x y : In y (l ++ [x]) <-> In y l \/ y = x.
Proof. rewrite in_app_iff. simpl. intuition. Qed.
Lemma NoDup_snoc {A} (l : list A) x : NoDup l -> ~ In x l -> NoDup (l ++ [x]).
Proof.
  intros H Hx. induction l as [|h t IH]; simpl.
  - constructor; [simpl; tauto|constructor].
  - inversion H; subst. constructor.
    + rewrite in_app_iff. simpl. intros [Hh|[Hh|[]]]; subst; [tauto|]. apply Hx. now left.
    + apply IH; auto. intros Hi. apply Hx. now right.
Qed.

Lemma nth_error_set_nth_same {A} (l : list A) i x y :
  nth_error l i = Some y -> nth_error (set_nth l i x) i = Some x.
Proof. revert i. induction l as [|h t IH]; intros [|i]; simpl; intros H; try discriminate; auto. Qed.

Lemma nth_error_set_nth_other {A} (l : list A) i j x :
  i <> j -> nth_error (set_nth l i x) j = nth_error l j.
Proof.
  revert i j. induction l as [|h t IH]; intros [|i] [|j] H; simpl; auto; try congruence.
Qed.

Lemma set_nth_length {A} (l : list A) i x : length (set_nth l i x) = length l.
Proof. revert i. induction l as [|h t IH]; intros [|i]; simpl; auto. Qed.

Lemma In_set_nth {A} (l : list A) i x y : In y (set_nth l i x) -> y = x \/ In y l.
Proof.
  revert i. induction l as [|h t IH]; intros [|i]; simpl; auto.
  - intros [->|H]; auto.
  - intros [->|H]; auto. destruct (IH _ H); auto.
Qed.

Lemma In_set_nth_intro {A} (l : list A) i x y z :
  nth_error l i = Some z -> In y l -> y = z \/ In y (set_nth l i x).
Proof.
  revert i. induction l as [|h t IH]; intros [|i]; simpl; try discriminate.
  - intros [= ->] [->|H]; auto.
  - intros Hn [->|H]; auto. destruct (IH _ Hn H); auto.
Qed.

Lemma set_nth_In {A} (l : list A) i x z : nth_error l i = Some z -> In x (set_nth l i x).
Proof.
  revert i. induction l as [|h t IH]; intros [|i]; simpl; try discriminate; eauto.
Qed.

Lemma map_set_nth {A B} (f : A -> B) l i x : map f (set_nth l i x) = set_nth (map f l) i (f x).
Proof. revert i. induction l as [|h t IH]; intros [|i]; simpl; auto. now rewrite IH. Qed.

Lemma sum_app l1 l2 : sum (l1 ++ l2) = sum l1 + sum l2.
Proof. induction l1; simpl; lia. Qed.

Lemma sum_set_nth l i x y : nth_error l i = Some y -> sum (set_nth l i x) + y = sum l + x.
Proof.
  revert i. induction l as [|h t IH]; intros [|i]; simpl; try discriminate.
  - intros [= ->]. lia.
  - intros H. specialize (IH _ H). lia.
Qed.

Lemma sum_map_set_nth {A} (f : A -> nat) l i x y :
  nth_error l i = Some y -> sum (map f (set_nth l i x)) + f y = sum (map f l) + f x.
Proof.
  intros H. rewrite map_set_nth. apply sum_set_nth. now rewrite nth_error_map, H.
Qed.

Lemma sum_map_le {A} (f : A -> nat) l x : In x l -> f x <= sum (map f l).
Proof. induction l as [|h t IH]; simpl; [tauto|]. intros [->|H]; [lia|]. specialize (IH H). lia. Qed.

Lemma sum_map_0 {A} (f : A -> nat) l : (forall x, In x l -> f x = 0) -> sum (map f l) = 0.
Proof.
  induction l as [|h t IH]; simpl; auto. intros H.
  rewrite (H h (or_introl eq_refl)). simpl. auto.
Qed.

Lemma sum_map_ext {A} (f g : A -> nat) l : (forall x, In x l -> f x = g x) -> sum (map f l) = sum (map g l).
Proof. intros H. now rewrite (map_ext_in f g l H). Qed.

Lemma sum_map_mono {A} (f g : A -> nat) l : (forall x, In x l -> f x <= g x) -> sum (map f l) <= sum (map g l).
Proof.
  induction l as [|h t IH]; simpl; auto. intros H.
  pose proof (H h (or_introl eq_refl)) as H1.
  assert (H2 : sum (map f t) <= sum (map g t)) by auto. lia.
Qed.

(** Subsequences. *)
Inductive subseq {A} : list A -> list A -> Prop :=
| sub_nil l : subseq [] l
| sub_keep x a b : subseq a b -> subseq (x :: a) (x :: b)
| sub_skip x a b : subseq a b -> subseq a (x :: b).

Lemma subseq_app_r {A} (a b : list A) x : subseq a b -> subseq a (b ++ [x]).
Proof. induction 1; simpl; constructor; auto. Qed.

Lemma subseq_snoc {A} (a b : list A) x : subseq a b -> subseq (a ++ [x]) (b ++ [x]).
Proof.
  induction 1 as [l|y a b H IH|y a b H IH]; simpl.
  - induction l as [|h t IH]; simpl; [repeat constructor|constructor; auto].
  - now constructor.
  - now constructor.
Qed.

Lemma subseq_remove1 o a b : subseq a b -> subseq (remove1 o a) b.
Proof.
  induction 1 as [l|y a b H IH|y a b H IH]; simpl.
  - constructor.
  - destruct (Nat.eqb y o); constructor; auto.
  - now constructor.
Qed.

Lemma subseq_cons_inv {A} (x : A) a b : subseq (x :: a) b -> exists b1 b2, b = b1 ++ x :: b2 /\ subseq a b2.
Proof.
  induction b as [|h t IH]; intros H; inversion H; subst.
  - exists [], t. auto.
  - destruct (IH H2) as (b1 & b2 & -> & Hs). exists (h :: b1), b2. auto.
Qed.

Lemma subseq_In {A} (a b : list A) x : subseq a b -> In x a -> In x b.
Proof. induction 1; simpl; intuition. Qed.

Lemma subseq_NoDup {A} (a b : list A) : subseq a b -> NoDup b -> NoDup a.
Proof.
  induction 1 as [l|y a b H IH|y a b H IH]; intros Hnd; [constructor| |]; inversion Hnd; subst; auto.
  constructor; auto. intros Hin. eapply subseq_In in Hin; eauto.
Qed.

Lemma flat_map_nil {A B} (f : A -> list B) l : (forall x, In x l -> f x = []) -> flat_map f l = [].
Proof. induction l as [|h t IH]; simpl; auto. intros H. rewrite (H h (or_introl eq_refl)), IH; auto. Qed.

Lemma flat_map_nil_In {A B} (f : A -> list B) l x : flat_map f l = [] -> In x l -> f x = [].
Proof.
  induction l as [|h t IH]; simpl; [tauto|]. intros H. apply app_eq_nil in H. destruct H as [H1 H2].
  intros [->|Hin]; auto.
Qed.

Lemma flat_map_ext_in {A B} (f g : A -> list B) l : (forall x, In x l -> f x = g x) -> flat_map f l = flat_map g l.
Proof. induction l as [|h t IH]; simpl; auto. intros H. rewrite (H h (or_introl eq_refl)), IH; auto. Qed.

Lemma NoDup_app_disjoint {A} (l1 l2 : list A) : NoDup (l1 ++ l2) -> forall x, In x l1 -> In x l2 -> False.
Proof.
  induction l1 as [|y l1 IH]; simpl; intros H x H1 H2; [auto|]. inversion H as [|? ? Hn Hd]; subst.
  destruct H1 as [->|H1]; [apply Hn; apply in_app_iff; auto|eauto].
Qed.
