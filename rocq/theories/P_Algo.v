(** The sequential algorithms: the invariant. *)
From Coq Require Import List Arith Lia Bool.
From Verif Require Import Lts ListFacts M_Algo S_Algo.
Import ListNotations.

(** * Behaviours *)
Inductive kf := KTr (f : nat) | KSeq (l : list sender) | KRep (c g : nat) (body : nat -> sender).
Fixpoint semseq (l : list sender) : beh :=
  match l with [] => ret 0 | s :: l' => match l' with [] => sem s | _ => bind (sem s) (fun _ => semseq l') end end.
Lemma sem_seq l : sem (SSeq l) = semseq l.
Proof. simpl. induction l as [|s l IH]; [reflexivity|]. simpl. destruct l; [reflexivity|]. rewrite IH. reflexivity. Qed.

Definition kap (k : kf) (v : nat) : beh :=
  match k with KTr f => call f v | KSeq l => semseq l | KRep c g body => sem (SRep c g body) end.
Fixpoint krun (P : beh) (K : list kf) : beh := match K with [] => P | k :: K' => krun (bind P (kap k)) K' end.
Definition der (es : list mevent) (P : beh) : beh := fun t r => P (es ++ t) r.
Definition sub (Q : beh) (es : list mevent) (P : beh) : Prop := forall t r, Q t r -> P (es ++ t) r.

Lemma krun_sub es K : forall Q P, sub Q es P -> sub (krun Q K) es (krun P K).
Proof.
  induction K as [|k K IH]; intros Q P Hs; simpl; [exact Hs|]. apply IH. intros t r [[Hq ->]|(t1 & v & t2 & -> & H1 & H2)].
  - left. split; [|reflexivity]. apply Hs; auto.
  - right. exists (es ++ t1), v, t2. rewrite app_assoc. repeat split; auto.
Qed.
Lemma krun_nil K : forall P : beh, P [] None -> krun P K [] None.
Proof. induction K as [|k K IH]; intros P Hp; simpl; [exact Hp|]. apply IH. left. auto. Qed.
Lemma sub_der es P : sub (der es P) es P.
Proof. intros t r Ht; exact Ht. Qed.
Lemma krun_ret k v K : sub (krun (kap k v) K) [] (krun (ret v) (k :: K)).
Proof.
  simpl. apply krun_sub. intros t r Ht. right. exists [], v, t. unfold ret. auto.
Qed.
Lemma sub_trans P Q R es es' : sub P es Q -> sub Q es' R -> sub P (es' ++ es) R.
Proof. intros H1 H2 t r Ht. rewrite <- app_assoc. apply H2, H1, Ht. Qed.
Lemma call_nil f x : call f x [] None. Proof. left; auto. Qed.
Lemma call_1 f x : call f x [ECall f x] None. Proof. right; left; auto. Qed.
Lemma call_2 f x v : call f x [ECall f x; ERet f v] (Some v). Proof. right; right; exists v; auto. Qed.
Lemma call_2n f x v : call f x [ECall f x; ERet f v] None. Proof. right; right; exists v; auto. Qed.
Lemma leaf_2 i v : leaf i [ELeaf i; EComp i v] (Some v). Proof. right; right; exists v; auto. Qed.
Lemma leaf_2n i v : leaf i [ELeaf i; EComp i v] None. Proof. right; right; exists v; auto. Qed.
Lemma bind_none (P : beh) Q t : P t None -> bind P Q t None. Proof. left; auto. Qed.
Lemma bind_some (P : beh) (Q : nat -> beh) t1 v t2 r : P t1 (Some v) -> Q v t2 r -> bind P Q (t1 ++ t2) r.
Proof. right; exists t1, v, t2; auto. Qed.

Lemma sem_nil : forall s, wf s -> sem s [] None.
Proof.
  fix IH 2. intros s Hw. destruct Hw as [f|i|s f Hw|c a b Ha Hb|c g body Hb|p g body Hb|l Hl Hin|g x body Hb].
  - apply call_nil.
  - left; auto.
  - simpl. apply bind_none, IH, Hw.
  - simpl. apply bind_none, call_nil.
  - simpl. apply loop_cond, call_nil.
  - simpl. apply bind_none, call_nil.
  - rewrite sem_seq. destruct l as [|s l]; [congruence|]. assert (Hs : sem s [] None) by (apply IH, Hin; left; reflexivity).
    simpl. destruct l; [exact Hs|]. apply bind_none, Hs.
  - simpl. apply bind_none, call_nil.
Qed.
Lemma semseq_nil l : l <> [] -> (forall s, In s l -> wf s) -> semseq l [] None.
Proof. intros H1 H2. rewrite <- sem_seq. apply sem_nil. constructor; auto. Qed.

(** * The heap *)
Definition holds (H : heap) (d : option nat) (a : nat) : Prop :=
  match d with None => a = 0 | Some q => exists n, H q = Some n /\ n_box n = Some a end.
Definition passk (k : kind) : bool := match k with NIte _ _ _ | NLet _ _ _ => true | _ => false end.
Definition kseq (l : list sender) (K : list kf) : list kf := match l with [] => K | _ => KSeq l :: K end.

(** [par H d r K L]: an operation in the box of [d] whose receiver is [r] continues with [K]; it is contained in the operations [L]. *)
Inductive par (H : heap) : option nat -> rcv -> list kf -> list nat -> Prop :=
| p_root : par H None RRoot [] []
| p_trans d f r K L : par H d r K L -> par H d (RTrans f r) (KTr f :: K) L
| p_pass d p n r K L : par H d r K L -> holds H d p -> H p = Some n -> passk (n_kind n) = true -> par H (Some p) r K (p :: L)
| p_seq d p l dr b i K L : par H d dr K L -> holds H d p -> H p = Some (N (NSeq l) dr b) -> i < length l -> (forall s, In s l -> wf s) ->
    par H (Some p) (RSeq p i) (kseq (skipn (S i) l) K) (p :: L)
| p_rep d p c g body dr b K L : par H d dr K L -> holds H d p -> H p = Some (N (NRep c g body) dr b) -> (forall w, wf (body w)) ->
    par H (Some p) (RRep p) (KRep c g body :: K) (p :: L).

Lemma par_hd H d r K L : par H d r K L -> match d with None => L = [] | Some p => exists L', L = p :: L' end.
Proof. induction 1; eauto. Qed.
Lemma holds_agree H H' d a K r L : par H d r K L -> (forall x, In x L -> H' x = H x) -> holds H d a -> holds H' d a.
Proof.
  intros Hp Ha Hh. apply par_hd in Hp. destruct d as [p|]; [|exact Hh]. destruct Hp as [L' ->]. destruct Hh as (n & Hn & Hb).
  exists n. rewrite Ha; [auto|left; reflexivity].
Qed.
Lemma par_agree H H' d r K L : par H d r K L -> (forall x, In x L -> H' x = H x) -> par H' d r K L.
Proof.
  induction 1 as [|d f r K L Hp IH|d p n r K L Hp IH Hh Hn Hk|d p l dr b i K L Hp IH Hh Hn Hi Hw|d p c g body dr b K L Hp IH Hh Hn Hw];
    intros Ha; econstructor; eauto; try (apply IH; intros x Hx; apply Ha; try right; exact Hx);
    try (eapply holds_agree; [exact Hp| |exact Hh]; intros x Hx; apply Ha; right; exact Hx); rewrite Ha; eauto; left; reflexivity.
Qed.
Lemma par_head H H' d r K L : par H d r K L -> (forall x, In x (tl L) -> H' x = H x) ->
  (forall p n, d = Some p -> H p = Some n -> exists b, H' p = Some (with_box n b)) -> par H' d r K L.
Proof.
  induction 1 as [|d f r K L Hp IH|d p n r K L Hp IH Hh Hn Hk|d p l dr b i K L Hp IH Hh Hn Hi Hw|d p c g body dr b K L Hp IH Hh Hn Hw];
    intros Ha Hd; try (simpl in Ha; destruct (Hd _ _ eq_refl Hn) as [b' Hb']).
  - constructor.
  - constructor. apply IH; auto.
  - eapply p_pass; eauto; [exact (par_agree _ _ _ _ _ _ Hp Ha)|exact (holds_agree _ _ _ _ _ _ _ Hp Ha Hh)].
  - eapply p_seq; eauto; [exact (par_agree _ _ _ _ _ _ Hp Ha)|exact (holds_agree _ _ _ _ _ _ _ Hp Ha Hh)].
  - eapply p_rep; eauto; [exact (par_agree _ _ _ _ _ _ Hp Ha)|exact (holds_agree _ _ _ _ _ _ _ Hp Ha Hh)].
Qed.
Lemma par_live H d r K L : par H d r K L -> forall a, In a L -> H a <> None.
Proof. induction 1; simpl; intros a Ha; try tauto; auto; destruct Ha as [<-|Ha]; auto; congruence. Qed.

Lemma par_strip H d f r K L : par H d (RTrans f r) K L -> exists K', K = KTr f :: K' /\ par H d r K' L.
Proof.
  remember (RTrans f r) as r0 eqn:E. induction 1 as [|d f' r' K L Hp IH|d p n r' K L Hp IH Hh Hn Hk| |]; try discriminate.
  - injection E as -> ->. eauto.
  - destruct (IH E) as (K' & -> & Hp'). exists K'. split; [reflexivity|]. eapply p_pass; eauto.
Qed.

(** ** Destruction *)
Definition destr (H : heap) (a : nat) (S0 : list nat) : Prop :=
  forall n, length S0 <= n -> exists H', destroy n H a = inl H' /\ forall x, H' x = if memb x S0 then None else H x.
Definition fin (H : heap) (h : nat) : Prop := exists n, H h = Some n /\ n_box n = None /\ forall p g b, n_kind n <> NLet p g b.

Lemma destr_fin H h : fin H h -> destr H h [h].
Proof.
  intros (n & Hn & Hb & Hl) [|m] Hm; [simpl in Hm; lia|]. exists (upd H h None). split.
  - simpl. rewrite Hn, Hb. destruct (n_kind n) eqn:E; try reflexivity. destruct (Hl _ _ _ eq_refl).
  - intros x. unfold upd. simpl. rewrite (Nat.eqb_sym x h). destruct (h =? x); reflexivity.
Qed.
Lemma destr_pass H p n a S0 : H p = Some n -> n_box n = Some a -> passk (n_kind n) = true -> destr H a S0 -> destr H p (p :: S0).
Proof.
  intros Hn Hb Hk Hd [|m] Hm; [simpl in Hm; lia|]. destruct (Hd m) as (H' & E & Hx); [simpl in Hm; lia|].
  exists (upd H' p None). split.
  - simpl. rewrite Hn, Hb. destruct (n_kind n); try discriminate; rewrite E; reflexivity.
  - intros x. unfold upd. simpl. rewrite Hx, (Nat.eqb_sym x p). destruct (p =? x); reflexivity.
Qed.

(** The innermost operation around [d] that is not an ite or let operation *)
Inductive base (H : heap) : option nat -> rcv -> list kf -> list nat -> Prop :=
| b_root : base H None RRoot [] []
| b_seq d p l dr b i K L : par H d dr K L -> holds H d p -> H p = Some (N (NSeq l) dr b) -> i < length l -> (forall s, In s l -> wf s) ->
    base H (Some p) (RSeq p i) (kseq (skipn (S i) l) K) (p :: L)
| b_rep d p c g body dr b K L : par H d dr K L -> holds H d p -> H p = Some (N (NRep c g body) dr b) -> (forall w, wf (body w)) ->
    base H (Some p) (RRep p) (KRep c g body :: K) (p :: L).
Lemma par_base H d r K L : par H d r K L -> (forall f r', r <> RTrans f r') ->
  exists P L0 d1, L = P ++ L0 /\ base H d1 r K L0 /\
    forall a S0, holds H d a -> destr H a S0 -> exists c S1, holds H d1 c /\ destr H c S1 /\ length S1 = length P + length S0 /\ forall x, In x S1 <-> In x P \/ In x S0.
Proof.
  induction 1 as [|d f r K L Hp IH|d p n r K L Hp IH Hh Hn Hk|d p l dr b i K L Hp IH Hh Hn Hi Hw|d p c g body dr b K L Hp IH Hh Hn Hw]; intros Ht.
  - exists [], [], None. split; [reflexivity|]. split; [constructor|]. intros a S0 Ha Hd. exists a, S0. simpl. split; [auto|]. split; [auto|]. split; [reflexivity|tauto].
  - destruct (Ht _ _ eq_refl).
  - destruct (IH Ht) as (P & L0 & d1 & -> & Hb & Hup). exists (p :: P), L0, d1. split; [reflexivity|]. split; [exact Hb|].
    intros a S0 (n' & Hn' & Hbx) Hd. rewrite Hn in Hn'. injection Hn' as <-.
    destruct (Hup p (p :: S0) Hh (destr_pass _ _ _ _ _ Hn Hbx Hk Hd)) as (c & S1 & H1 & H2 & H3 & H4).
    exists c, S1. split; [auto|]. split; [auto|]. simpl in *. split; [lia|]. intros x. rewrite H4. tauto.
  - exists [], (p :: L), (Some p). split; [reflexivity|]. split; [econstructor; eauto|]. intros a S0 Ha Hd. exists a, S0. simpl. split; [auto|]. split; [auto|]. split; [reflexivity|tauto].
  - exists [], (p :: L), (Some p). split; [reflexivity|]. split; [econstructor; eauto|]. intros a S0 Ha Hd. exists a, S0. simpl. split; [auto|]. split; [auto|]. split; [reflexivity|tauto].
Qed.

(** * The invariant *)
Definition snd_of (k : kind) : sender :=
  match k with NInv f => SInv f | NLeaf i _ => SLeaf i | NIte c a b => SIte c a b | NRep c g b => SRep c g b | NLet p g b => SLet p g b | NSeq l => SSeq l end.
Definition fresh (n : node) : Prop := n_box n = None /\ wf (snd_of (n_kind n)) /\ forall i, n_kind n <> NLeaf i true.
Definition free (H : heap) (d : option nat) : Prop := match d with None => True | Some p => exists n, H p = Some n /\ n_box n = None end.
Definition sb (d : option nat) : list frame := match d with None => [] | Some p => [CStartBox p] end.
Definition std (d : option nat) : bool := match d with None => false | Some _ => true end.

(** How many steps are left *)
Fixpoint tw (s : sender) : nat := match s with STrans s' _ => S (tw s') | SSeq l => match l with x :: _ => 5 + tw x | [] => 5 end | _ => 4 end.
Lemma tw_4 s : 4 <= tw s.
Proof. induction s; simpl; try lia. destruct l; lia. Qed.
Definition seqw (l : list sender) : nat := match l with x :: _ => 2 + tw x | [] => 0 end.
Fixpoint kw (K : list kf) : nat := match K with [] => 0 | KTr _ :: K' => kw K' | KSeq l :: K' => seqw l + kw K' | KRep _ _ _ :: K' => 1 + kw K' end.
Lemma kw_kseq l K : kw (kseq l K) = seqw l + kw K.
Proof. destruct l; reflexivity. Qed.

(** The running part of a call stack; [lv] are the live objects, the flag tells if start() was called. *)
Inductive act (e : sender) (H : heap) : nat -> list nat -> bool -> list frame -> beh -> Prop :=
| A_conn s r d K L : par H d r K L -> free H d -> wf s -> (d = None -> islet s -> islet e) -> act e H (tw s) L (std d) (CConn s r d :: sb d) (krun (sem s) K)
| A_lam g x body r d K L : par H d r K L -> free H d -> (forall w, wf (body w)) -> (d = None -> forall w, islet (body w) -> islet e) ->
    act e H 0 L (std d) (CFn g x (FLam body r d) :: sb d) (krun (der [ECall g x] (sem (SLam g x body))) K)
| A_startbox p a n K L : par H (Some p) (n_rcv n) K L -> holds H (Some p) a -> H a = Some n -> fresh n ->
    act e H (tw (snd_of (n_kind n)) - 1) (a :: L) true [CStartBox p] (krun (sem (snd_of (n_kind n))) K)
| A_start d a n K L : par H d (n_rcv n) K L -> holds H d a -> H a = Some n -> fresh n ->
    act e H (tw (snd_of (n_kind n)) - 2) (a :: L) true [CStart a] (krun (sem (snd_of (n_kind n))) K)
| A_inv d f x h r K L : par H d r K L -> holds H d h -> H h = Some (N (NInv f) r None) ->
    act e H 0 (h :: L) true [CFn f x (FInv h)] (krun (der [ECall f x] (call f x)) K)
| A_tr d f x h r K L : par H d r K L -> holds H d h -> fin H h ->
    act e H 0 (h :: L) true [CFn f x (FTr h r)] (krun (der [ECall f x] (call f x)) K)
| A_set d h r v K L : par H d r K L -> holds H d h -> fin H h -> act e H (1 + length L + kw K) (h :: L) true [CSet h r v] (krun (ret v) K)
| A_ite d p c a b r K L : par H d r K L -> holds H d p -> H p = Some (N (NIte c a b) r None) -> wf (SIte c a b) ->
    act e H 0 (p :: L) true [CFn c 0 (FIte p)] (krun (der [ECall c 0] (sem (SIte c a b))) K)
| A_repc d p c g body r K L : par H d r K L -> holds H d p -> H p = Some (N (NRep c g body) r None) -> wf (SRep c g body) ->
    act e H 0 (p :: L) true [CFn c 0 (FRepC p)] (krun (der [ECall c 0] (sem (SRep c g body))) K)
| A_repf d p c v g body r K L : par H d r K L -> holds H d p -> H p = Some (N (NRep c g body) r None) -> wf (SRep c g body) ->
    act e H 0 (p :: L) true [CFn g 0 (FRepF p)] (krun (der [ECall c 0; ERet c (S v); ECall g 0] (sem (SRep c g body))) K)
| A_letp d p c g body r K L : par H d r K L -> holds H d p -> H p = Some (N (NLet c g body) r None) -> wf (SLet c g body) ->
    act e H 0 (p :: L) true [CFn c 0 (FLetP p)] (krun (der [ECall c 0] (sem (SLet c g body))) K)
| A_letf d p c x g body r K L : par H d r K L -> holds H d p -> H p = Some (N (NLet c g body) r None) -> wf (SLet c g body) ->
    act e H 0 (p :: L) true [CFn g x (FLetF p)] (krun (der [ECall c 0; ERet c x; ECall g x] (sem (SLet c g body))) K)
| A_step d p i l r K L : par H d r K L -> holds H d p -> H p = Some (N (NSeq l) r None) -> i < length l -> (forall s, In s l -> wf s) ->
    act e H (seqw (skipn i l)) (p :: L) true [CStep p i] (krun (semseq (skipn i l)) K)
| A_loop d p c g body r K L : par H d r K L -> holds H d p -> H p = Some (N (NRep c g body) r None) -> wf (SRep c g body) ->
    act e H 1 (p :: L) true [CLoop p] (krun (sem (SRep c g body)) K).

Definition passive (fs : list frame) : Prop := forall fr, In fr fs -> exists p i, fr = CAfter p i.
Definition Sim (e : sender) (tr : list mevent) (B : beh) : Prop := sub B (obs tr) (sem e).
Definition lives (s : mst) (lv : list nat) : Prop :=
  NoDup lv /\ (forall a, m_heap s a <> None <-> In a lv) /\ forall a, In a lv -> a < m_nxt s.
Definition notdone (tr : list mevent) : Prop := (forall v, ~ In (EDone v) tr) /\ ~ In EDestroy tr.

(** start() was called. *)
Definition thr0 (l : list (list frame)) : Prop := nth_error l 0 = Some [] /\ 1 < length l.
(** Call stack [k] runs, the others have nothing to do. *)
Definition frames (s : mst) : nat := sum (map (@length frame) (m_thr s)).
Definition Jact (e : sender) (s : mst) (tr : list mevent) (lv : list nat) (w : nat) : Prop := exists k fs pas B st w0, w + length fs = w0 + frames s /\
  nth_error (m_thr s) k = Some (fs ++ pas) /\ passive pas /\ (forall j th, j <> k -> nth_error (m_thr s) j = Some th -> passive th) /\
  act e (m_heap s) w0 lv st fs B /\ Sim e tr B /\ m_leafs s = [] /\ notdone tr /\
  (if st then In EStart tr /\ thr0 (m_thr s) else ~ In EStart tr /\ length (m_thr s) = 1 /\ m_nxt s = 0 /\ pas = []).
(** connect() has returned, start() was not called. *)
Definition Juns (e : sender) (s : mst) (tr : list mevent) (lv : list nat) : Prop := exists n K,
  m_thr s = [[]] /\ lv = [0] /\ m_heap s 0 = Some n /\ fresh n /\ par (m_heap s) None (n_rcv n) K [] /\
  Sim e tr (krun (sem (snd_of (n_kind n))) K) /\ m_leafs s = [] /\ notdone tr /\ ~ In EStart tr /\
  ((exists p g b, n_kind n = NLet p g b) -> islet e).
(** The leaf operation [h] was started and has not completed. *)
Definition Jwait (e : sender) (s : mst) (tr : list mevent) (lv : list nat) : Prop := exists d h i r K L t,
  (forall th, In th (m_thr s) -> passive th) /\ thr0 (m_thr s) /\ lv = h :: L /\ par (m_heap s) d r K L /\ holds (m_heap s) d h /\
  m_heap s h = Some (N (NLeaf i true) r None) /\ m_leafs s = [h] /\ Sim e tr (krun (der [ELeaf i] (leaf i)) K) /\ notdone tr /\
  In EStart tr /\ obs tr = t ++ [ELeaf i].
(** The receiver was notified. *)
Definition ended (e : sender) (tr t2 : list mevent) : Prop := exists t1 v, tr = t1 ++ EDone v :: t2 /\ notdone t1 /\ sem e (obs t1) (Some v) /\ In EStart t1.
Definition Jdone (e : sender) (s : mst) (tr : list mevent) (lv : list nat) : Prop := exists d h L,
  (forall th, In th (m_thr s) -> passive th) /\ thr0 (m_thr s) /\ lv = h :: L /\ par (m_heap s) d RRoot [] L /\ holds (m_heap s) d h /\
  fin (m_heap s) h /\ m_leafs s = [] /\ ended e tr [].
(** The operation was destroyed. *)
Definition Jdead (e : sender) (s : mst) (tr : list mevent) (lv : list nat) : Prop :=
  (forall th, In th (m_thr s) -> passive th) /\ lv = [] /\ m_leafs s = [] /\
  (ended e tr [EDestroy] /\ 1 < length (m_thr s) \/ exists t1, tr = t1 ++ [EDestroy] /\ notdone t1 /\ ~ In EStart t1 /\ sem e (obs t1) None).
Definition Jw (e : sender) (s : mst) (tr : list mevent) (w : nat) : Prop := exists lv, lives s lv /\
  (Jact e s tr lv w \/ w = frames s /\ (Juns e s tr lv \/ Jwait e s tr lv \/ Jdone e s tr lv \/ Jdead e s tr lv)).
Definition J (e : sender) (s : mst) (tr : list mevent) : Prop := exists w, Jw e s tr w.

(** * Steps *)
Lemma lives_len s lv : lives s lv -> length lv <= m_nxt s.
Proof.
  intros (Hn & _ & Hl). rewrite <- (seq_length (m_nxt s) 0). apply NoDup_incl_length; auto.
  intros a Ha. apply in_seq. specialize (Hl _ Ha). lia.
Qed.
Lemma alloc_ok s kd r d K L : lives s L -> par (m_heap s) d r K L -> free (m_heap s) d -> (d = None -> m_nxt s = 0) ->
  exists s', alloc s kd r d = inl s' /\ lives s' (m_nxt s :: L) /\ m_thr s' = m_thr s /\ m_leafs s' = m_leafs s /\ m_nxt s' = S (m_nxt s) /\
    par (m_heap s') d r K L /\ holds (m_heap s') d (m_nxt s) /\ m_heap s' (m_nxt s) = Some (N kd r None).
Proof.
  intros (Hnd & Hlv & Hlt) Hp Hf Hz. assert (Hnx : ~ In (m_nxt s) L) by (intros Hc; specialize (Hlt _ Hc); lia).
  destruct d as [p|].
  - destruct Hf as (n & Hn & Hb). destruct (par_hd _ _ _ _ _ Hp) as [L' ->]. unfold alloc. rewrite Hn, Hb.
    eexists. split; [reflexivity|]. simpl. assert (Hpn : p <> m_nxt s) by (intros ->; apply Hnx; left; reflexivity).
    inversion_clear Hnd as [|? ? Hpl Hnd'].
    split; [|split; [reflexivity|]; split; [reflexivity|]; split; [reflexivity|]; split; [|split]].
    + split; [|split]; simpl.
      * constructor; [exact Hnx|constructor; auto].
      * intros a. unfold upd. destruct (Nat.eqb_spec a p) as [->|Ha].
        { split; [auto|discriminate]. }
        destruct (Nat.eqb_spec a (m_nxt s)) as [->|Ha'].
        { split; [auto|discriminate]. }
        rewrite Hlv. simpl. split; [auto|]. intros [Hc|[Hc|Hc]]; auto; congruence.
      * intros a [<-|Ha]; [lia|]. specialize (Hlt _ Ha). lia.
    + apply (par_head (m_heap s)); auto.
      * simpl. intros x Hx. unfold upd. destruct (Nat.eqb_spec x p) as [->|]; [contradiction|].
        destruct (Nat.eqb_spec x (m_nxt s)) as [->|]; [|reflexivity]. destruct Hnx; right; exact Hx.
      * intros q n' [= <-] Hn'. rewrite Hn in Hn'. injection Hn' as <-. exists (Some (m_nxt s)). apply upd_same.
    + exists (with_box n (Some (m_nxt s))). rewrite upd_same. auto.
    + unfold upd. destruct (Nat.eqb_spec (m_nxt s) p) as [E|]; [congruence|]. rewrite Nat.eqb_refl. reflexivity.
  - specialize (Hz eq_refl). assert (L = []) as -> by (exact (par_hd _ _ _ _ _ Hp)). unfold alloc. eexists. split; [reflexivity|]. simpl. rewrite Hz in *.
    split; [|split; [reflexivity|]; split; [reflexivity|]; split; [reflexivity|]; split; [|split]].
    + split; [|split]; simpl.
      * constructor; auto.
      * intros a. unfold upd. destruct (Nat.eqb_spec a 0) as [->|Ha]; [split; [auto|discriminate]|]. rewrite Hlv. simpl. split; [tauto|]. intros [Hc|[]]. congruence.
      * intros a [<-|[]]. lia.
    + apply (par_agree _ _ _ _ _ _ Hp). intros x [].
    + reflexivity.
    + apply upd_same.
Qed.

Lemma destroy_ok s h P p L0 n c S1 : lives s (h :: P ++ p :: L0) -> m_heap s p = Some n -> n_box n = Some c -> destr (m_heap s) c S1 ->
  length S1 = length P + 1 -> (forall x, In x S1 <-> In x P \/ In x [h]) ->
  exists H', destroy_box s p = inl H' /\ (forall x, In x L0 -> H' x = m_heap s x) /\ H' p = Some (with_box n None) /\ lives (with_heap s H') (p :: L0).
Proof.
  intros Hl Hn Hb Hd Hlen Hin. pose proof (lives_len _ _ Hl) as Hle. simpl in Hle. rewrite app_length in Hle. simpl in Hle.
  destruct Hl as (Hnd & Hlv & Hlt). destruct (Hd (m_nxt s)) as (H1 & E1 & Hx); [lia|].
  assert (Hnd2 : NoDup (p :: L0) /\ forall x, In x (p :: L0) -> ~ In x S1).
  { inversion_clear Hnd as [|? ? Hh Hnd']. split.
    - clear - Hnd'. induction P as [|a P IH]; [exact Hnd'|]. apply IH. inversion Hnd'; auto.
    - intros x Hx1 Hx2. apply Hin in Hx2. destruct Hx2 as [Hx2|[<-|[]]].
      + exact (NoDup_app_disjoint _ _ Hnd' _ Hx2 Hx1).
      + apply Hh, in_or_app. right; exact Hx1. }
  destruct Hnd2 as [Hnd2 Hdis].
  exists (upd H1 p (Some (with_box n None))). unfold destroy_box. rewrite Hn, Hb, E1. split; [reflexivity|].
  assert (Hout : forall x, In x (p :: L0) -> H1 x = m_heap s x).
  { intros x Hxi. rewrite Hx. destruct (memb x S1) eqn:E; [|reflexivity]. apply memb_In in E. destruct (Hdis _ Hxi E). }
  inversion_clear Hnd2 as [|? ? Hp0 Hnd0].
  split; [|split].
  - intros x Hxi. unfold upd. destruct (Nat.eqb_spec x p) as [->|]; [contradiction|]. apply Hout. right; exact Hxi.
  - apply upd_same.
  - split; [constructor; auto|]. split; simpl.
    + intros x. unfold upd. destruct (Nat.eqb_spec x p) as [->|Hxp]; [split; [auto|discriminate]|].
      rewrite Hx. destruct (memb x S1) eqn:E.
      * split; [congruence|]. apply memb_In in E. intros [Hc|Hc]; [congruence|]. destruct (Hdis x); auto. right; exact Hc.
      * rewrite Hlv. apply memb_not_In in E. rewrite Hin in E. simpl. rewrite in_app_iff. simpl. simpl in E. tauto.
    + intros x Hxi. apply Hlt. right. apply in_or_app. right. exact Hxi.
Qed.

Lemma obs_app a b : obs (a ++ b) = obs a ++ obs b.
Proof. apply filter_app. Qed.
Lemma Sim_step e tr B es B' : Sim e tr B -> sub B' (obs es) B -> Sim e (tr ++ es) B'.
Proof. intros H1 H2. unfold Sim. rewrite obs_app. exact (sub_trans _ _ _ _ _ H2 H1). Qed.

Definition plain (es : list mevent) : Prop := forall x, In x es -> is_obs x = true.
Lemma plain_nil : plain []. Proof. intros x []. Qed.
Lemma notdone_plain tr es : notdone tr -> plain es -> notdone (tr ++ es).
Proof.
  intros [H1 H2] Hp. split; [intros v|]; intros Hi; apply in_app_iff in Hi; destruct Hi as [Hi|Hi]; try apply Hp in Hi; try discriminate; eauto.
  exact (H1 _ Hi).
Qed.
Lemma start_plain tr es : plain es -> (In EStart (tr ++ es) <-> In EStart tr).
Proof. intros Hp. rewrite in_app_iff. split; [|auto]. intros [Hi|Hi]; auto. apply Hp in Hi; discriminate. Qed.

Lemma thr0_set l k fs : thr0 l -> k <> 0 -> thr0 (set_nth l k fs).
Proof. intros [H1 H2] Hk. split; [rewrite nth_error_set_nth_other; auto|rewrite set_nth_length; auto]. Qed.
Ltac hs := cbn [m_thr m_heap m_nxt m_leafs with_thr with_heap].
Lemma Jact_go e s tr k fs pas B (st : bool) s1 fs' pas' B' lv' es w0 w w0' :
  w + length fs = w0 + frames s ->
  nth_error (m_thr s) k = Some (fs ++ pas) -> passive pas -> (forall j th, j <> k -> nth_error (m_thr s) j = Some th -> passive th) ->
  Sim e tr B -> m_leafs s = [] -> notdone tr ->
  (if st then In EStart tr /\ thr0 (m_thr s) else ~ In EStart tr /\ length (m_thr s) = 1 /\ m_nxt s = 0 /\ pas = []) ->
  fs <> [] -> m_thr s1 = m_thr s -> m_leafs s1 = m_leafs s -> passive pas' -> (st = false -> m_nxt s1 = 0 /\ pas' = []) ->
  lives s1 lv' -> act e (m_heap s1) w0' lv' st fs' B' -> sub B' (obs es) B -> plain es ->
  exists w', (w0' + length pas' < w0 + length pas -> w' < w) /\ Jw e (with_thr s1 k (fs' ++ pas')) (tr ++ es) w'.
Proof.
  intros Hw Hk Hpas Hoth Hsim Hlf Hnd Hst Hne Ht Hl Hpas' Hst' Hlv Hact Hsub Hpl.
  assert (Hfr : frames (with_thr s1 k (fs' ++ pas')) + (length fs + length pas) = frames s + (length fs' + length pas')).
  { unfold frames. hs. rewrite Ht, <- !app_length. exact (sum_map_set_nth (@length frame) _ _ _ _ Hk). }
  assert (Hge : length fs + length pas <= frames s).
  { rewrite <- app_length. exact (sum_map_le (@length frame) _ _ (nth_error_In _ _ Hk)). }
  exists (w0' + frames (with_thr s1 k (fs' ++ pas')) - length fs'). split; [lia|].
  exists lv'. split; [exact Hlv|]. left. exists k, fs', pas', B', st, w0'. split; [lia|]. hs. rewrite Ht.
  split; [exact (nth_error_set_nth_same _ _ _ _ Hk)|]. split; [exact Hpas'|]. split.
  { intros j th Hj. rewrite nth_error_set_nth_other by auto. apply Hoth; auto. }
  split; [exact Hact|]. split; [exact (Sim_step _ _ _ _ _ Hsim Hsub)|]. split; [congruence|]. split; [apply notdone_plain; auto|].
  destruct st.
  - destruct Hst as [H1 H2]. split; [apply start_plain; auto|]. apply thr0_set; auto. intros ->. destruct H2 as [H2 _]. rewrite H2 in Hk. injection Hk as Hk.
    symmetry in Hk. apply app_eq_nil in Hk. tauto.
  - destruct Hst as (H1 & H2 & H3 & H4). destruct (Hst' eq_refl) as [H5 H6]. rewrite start_plain by auto. rewrite set_nth_length. auto.
Qed.

Ltac pl := let y := fresh in let Hy := fresh in intros y Hy; simpl in Hy; repeat (destruct Hy as [<-|Hy]; [reflexivity|]); destruct Hy.
Lemma passive_cons p i pas : passive pas -> passive (CAfter p i :: pas).
Proof. intros H fr [<-|Hf]; eauto. Qed.
Lemma fin_intro H h k r : H h = Some (N k r None) -> (forall p g b, k <> NLet p g b) -> fin H h.
Proof. intros H1 H2. exists (N k r None). auto. Qed.
Lemma skipn_nth {A} (l : list A) i x : nth_error l i = Some x -> skipn i l = x :: skipn (S i) l.
Proof. revert i. induction l as [|y l IH]; intros [|i] Hn; try discriminate; simpl in *; [congruence|]. apply IH; auto. Qed.
Lemma krun_semseq x l K : sub (krun (sem x) (kseq l K)) [] (krun (semseq (x :: l)) K).
Proof. destruct l; simpl; apply krun_sub; intros t r Ht; exact Ht. Qed.

(** One step of the running call stack *)
Ltac wl := try (rewrite ?app_length, ?kw_kseq; cbn [length kw]; lia); try (simpl; lia).
Lemma act_step e s tr lv k fr fs pas B st w0 w :
  w + length (fr :: fs) = w0 + frames s -> lives s lv -> nth_error (m_thr s) k = Some ((fr :: fs) ++ pas) -> passive pas -> (forall j th, j <> k -> nth_error (m_thr s) j = Some th -> passive th) ->
  act e (m_heap s) w0 lv st (fr :: fs) B -> Sim e tr B -> m_leafs s = [] -> notdone tr ->
  (if st then In EStart tr /\ thr0 (m_thr s) else ~ In EStart tr /\ length (m_thr s) = 1 /\ m_nxt s = 0 /\ pas = []) ->
  match fr with CFn _ _ _ => True | _ => exists s' es, frame_step s k fr (fs ++ pas) = Next s' es /\ exists w', w' < w /\ Jw e s' (tr ++ es) w' end.
Proof.
  intros Hwt Hlv Hk Hpas Hoth Hact Hsim Hlf Hnd Hst.
  assert (Hgo : forall s1 fs' pas' B' lv' es w0', m_thr s1 = m_thr s -> m_leafs s1 = m_leafs s -> passive pas' -> (st = false -> m_nxt s1 = 0 /\ pas' = []) ->
    lives s1 lv' -> act e (m_heap s1) w0' lv' st fs' B' -> sub B' (obs es) B -> plain es -> w0' + length pas' < w0 + length pas ->
    exists w', w' < w /\ Jw e (with_thr s1 k (fs' ++ pas')) (tr ++ es) w').
  { intros. edestruct (Jact_go e s tr k (fr :: fs) pas B st) as (w' & Hlt & HJ); eauto. discriminate. }
  assert (Hfrm : fs = [] -> forall s1, m_thr s1 = m_thr s -> frames (with_thr s1 k pas) + 1 = frames s).
  { intros -> s1 Ht. pose proof (sum_map_set_nth (@length frame) _ _ pas _ Hk) as Hs. unfold frames. hs. rewrite Ht. simpl in Hs. lia. }
  inversion Hact as [s0 r d K L H0 H1 H2 H3|g x body r d K L H0 H1 H2 H3|p a n K L H0 H1 H2 H3|d a n K L H0 H1 H2 H3|d f x h r K L H0 H1 H2|d f x h r K L H0 H1 H2|
    d h r v K L H0 H1 H2|d p c a b r K L H0 H1 H2 H3|d p c g body r K L H0 H1 H2 H3|d p c v g body r K L H0 H1 H2 H3|d p c g body r K L H0 H1 H2 H3|
    d p c x g body r K L H0 H1 H2 H3|d p i l r K L H0 H1 H2 H3 H4|d p c g body r K L H0 H1 H2 H3]; subst; try exact I; simpl app.
  - (* connect *)
    assert (Hz : d = None -> m_nxt s = 0) by (intros ->; apply Hst).
    assert (Hmake : forall kd, snd_of kd = s0 -> (forall i, kd <> NLeaf i true) -> exists s' es,
      match alloc s kd r d with inl s' => Next (with_thr s' k (sb d ++ pas)) [] | inr f => Fail f [] end = Next s' es /\ exists w', w' < w /\ Jw e s' (tr ++ es) w').
    { intros kd Hkd Hl. destruct (alloc_ok s kd r d K lv Hlv H0 H1 Hz) as (s1 & E & Hl1 & Ht1 & Hf1 & Hn1 & Hp1 & Hh1 & Hx1). rewrite E.
      eexists _, _. split; [reflexivity|]. assert (Hfr : fresh (N kd r None)) by (split; [reflexivity|]; simpl; rewrite Hkd; auto).
      destruct d as [p|].
      - eapply Hgo; eauto; [discriminate|exact (A_startbox e _ p _ (N kd r None) _ _ Hp1 Hh1 Hx1 Hfr)| |apply plain_nil|].
        { cbn [n_kind]. rewrite Hkd. intros t rr Ht; exact Ht. }
        cbn [n_kind]. rewrite Hkd. pose proof (tw_4 s0). lia.
      - pose proof (par_hd _ _ _ _ _ Hp1) as HL. simpl in HL. subst lv. destruct Hst as (Hs1 & Hs2 & Hs3 & ->). rewrite Hs3 in *.
        exists (frames (with_thr s1 k (sb None ++ []))). split; [simpl sb; specialize (Hfrm eq_refl s1 Ht1); simpl in Hwt, Hfrm |- *; pose proof (tw_4 s0); lia|].
        exists [0]. split; [exact Hl1|]. right. split; [reflexivity|]. left. exists (N kd r None), K. hs. rewrite Ht1, Hf1, !app_nil_r.
        destruct (m_thr s) as [|th [|? ?]]; try discriminate. destruct k as [|[|k]]; try discriminate.
        split; [reflexivity|]. split; [reflexivity|]. split; [exact Hx1|]. split; [exact Hfr|]. split; [exact Hp1|].
        split; [cbn [n_kind]; rewrite Hkd; exact Hsim|]. split; [exact Hlf|]. split; [exact Hnd|]. split; [exact Hs1|].
        intros (pp & g & b & Hc). simpl in Hc. rewrite <- Hkd, Hc in H3. apply H3; [reflexivity|]. constructor. }
    destruct s0; simpl; try (apply Hmake; [reflexivity|discriminate]).
    + (* transform *)
      eexists _, _. split; [reflexivity|]. inversion H2; subst. eapply (Hgo s (CConn s0 (RTrans f r) d :: sb d) pas _ lv); eauto.
      * intros Hd. destruct d; [discriminate|]. destruct Hst as (? & ? & ? & ?). auto.
      * apply (A_conn e _ s0 (RTrans f r) d (KTr f :: K)); auto. { constructor; auto. } { intros Hd Hi. apply H3; auto. constructor; auto. }
      * intros t rr Ht; exact Ht.
      * apply plain_nil.
      * simpl. lia.
    + (* lambda *)
      eexists _, _. split; [reflexivity|]. inversion H2; subst. eapply (Hgo s (CFn g x (FLam body r d) :: sb d) pas _ lv); eauto.
      * intros Hd. destruct d; [discriminate|]. destruct Hst as (? & ? & ? & ?). auto.
      * apply A_lam; eauto. intros Hd u Hi. apply H3; auto. econstructor; eauto.
      * apply krun_sub, sub_der.
      * pl.
      * simpl. lia.
  - (* start the operation in the box *)
    destruct H1 as (np & Hnp & Hb). simpl. rewrite Hnp, Hb. eexists _, _. split; [reflexivity|].
    eapply (Hgo s [CStart a] pas _ (a :: L)); eauto; [discriminate|eapply A_start; eauto; exists np; auto|intros t rr Ht; exact Ht|apply plain_nil|].
    pose proof (tw_4 (snd_of (n_kind n))). lia.
  - (* start() *)
    simpl. rewrite H2. destruct n as [kd r bx]. destruct H3 as (Hb & Hw & Hl). simpl in Hb, Hw, Hl, H0. subst bx. simpl n_kind in *.
    destruct kd as [f|i stt|c aa bb|c g body|p g body|l]; simpl.
    + eexists _, _. split; [reflexivity|]. eapply (Hgo s [CFn f 0 (FInv a)] pas _ (a :: L)); eauto; [discriminate|eapply A_inv; eauto| |pl|wl].
      apply krun_sub, sub_der.
    + destruct stt; [destruct (Hl i); reflexivity|]. eexists _, _. split; [reflexivity|].
      exists (frames (with_thr s k pas)). split; [specialize (Hfrm eq_refl s eq_refl); simpl in Hwt |- *; lia|].
      exists (a :: L). assert (HaL : ~ In a L) by (destruct Hlv as (Hn & _); inversion Hn; auto). split.
      { destruct Hlv as (Hn & Hx & Hlt). split; [exact Hn|]. split; [|exact Hlt]. simpl. intros b. unfold upd. destruct (Nat.eqb_spec b a) as [->|].
        - split; [intros; left; reflexivity|discriminate].
        - apply Hx. }
      right. split; [reflexivity|]. right. left. exists d, a, i, r, K, L, (obs tr). hs. destruct Hst as [Hs1 Hs2].
      assert (Hag : forall x, In x L -> upd (m_heap s) a (Some (N (NLeaf i true) r None)) x = m_heap s x).
      { intros x Hx. unfold upd. destruct (Nat.eqb_spec x a) as [->|]; [contradiction|reflexivity]. }
      assert (Hk0 : k <> 0) by (intros ->; destruct Hs2 as [Hs2 _]; rewrite Hs2 in Hk; discriminate).
      split; [|split; [|split; [|split; [|split; [|split; [|split; [|split; [|split; [|split]]]]]]]]].
      * intros th Hth. apply In_nth_error in Hth. destruct Hth as [j Hj]. destruct (Nat.eq_dec k j) as [<-|Hjk].
        { rewrite (nth_error_set_nth_same _ _ _ _ Hk) in Hj. injection Hj as <-. exact Hpas. }
        rewrite nth_error_set_nth_other in Hj by auto. exact (Hoth _ _ (not_eq_sym Hjk) Hj).
      * apply thr0_set; auto.
      * reflexivity.
      * exact (par_agree _ _ _ _ _ _ H0 Hag).
      * exact (holds_agree _ _ _ _ _ _ _ H0 Hag H1).
      * apply upd_same.
      * rewrite Hlf. reflexivity.
      * eapply Sim_step; [exact Hsim|]. apply krun_sub, sub_der.
      * apply notdone_plain; auto. pl.
      * apply in_or_app; auto.
      * rewrite obs_app. reflexivity.
    + eexists _, _. split; [reflexivity|]. eapply (Hgo s [CFn c 0 (FIte a)] pas _ (a :: L)); eauto; [discriminate|eapply A_ite; eauto| |pl|wl].
      apply krun_sub, sub_der.
    + eexists _, _. split; [reflexivity|]. eapply (Hgo s [CLoop a] pas _ (a :: L)); eauto; [discriminate|eapply A_loop; eauto| |pl|wl].
      intros t rr Ht; exact Ht.
    + eexists _, _. split; [reflexivity|]. eapply (Hgo s [CFn p 0 (FLetP a)] pas _ (a :: L)); eauto; [discriminate|eapply A_letp; eauto| |pl|wl].
      apply krun_sub, sub_der.
    + eexists _, _. split; [reflexivity|]. inversion Hw; subst. eapply (Hgo s [CStep a 0] pas _ (a :: L)); eauto; [discriminate| | |pl|wl].
      * eapply (A_step e _ d a 0 l); eauto. destruct l; [congruence|simpl; lia].
      * cbn [snd_of]. rewrite sem_seq. intros t rr Ht; exact Ht.
      * destruct l; simpl; lia.
  - (* set_value() *)
    destruct H2 as (n & Hn & Hbn & Hkn). cbn [frame_step]. rewrite Hn. assert (Hfin : fin (m_heap s) h) by (exists n; auto).
    assert (Hdf := destr_fin _ _ Hfin). destruct r as [|f r|p i|p].
    + (* the client's receiver *)
      eexists _, _. split; [reflexivity|]. destruct (par_base _ _ _ _ _ H0) as (P & L0 & d1 & -> & Hb & _); [discriminate|].
      inversion Hb; subst. rewrite app_nil_r in *.
      exists (frames (with_thr s k pas)). split; [specialize (Hfrm eq_refl s eq_refl); simpl in Hwt |- *; lia|].
      exists (h :: P). split; [exact Hlv|]. right. split; [reflexivity|]. right. right. left. exists d, h, P. hs.
      destruct Hst as [Hs1 Hs2]. assert (Hk0 : k <> 0) by (intros ->; destruct Hs2 as [Hs2 _]; rewrite Hs2 in Hk; discriminate).
      split; [|split; [|split; [|split; [|split; [|split; [|split]]]]]]; auto.
      * intros th Hth. apply In_nth_error in Hth. destruct Hth as [j Hj]. destruct (Nat.eq_dec k j) as [<-|Hjk].
        { rewrite (nth_error_set_nth_same _ _ _ _ Hk) in Hj. injection Hj as <-. exact Hpas. }
        rewrite nth_error_set_nth_other in Hj by auto. exact (Hoth _ _ (not_eq_sym Hjk) Hj).
      * apply thr0_set; auto.
      * exists tr, v. split; [reflexivity|]. split; [exact Hnd|]. split; [|exact Hs1].
        rewrite <- (app_nil_r (obs tr)). apply Hsim. simpl. unfold ret. auto.
    + (* transform *)
      eexists _, _. split; [reflexivity|]. destruct (par_strip _ _ _ _ _ _ H0) as (K' & -> & Hp').
      eapply (Hgo s [CFn f v (FTr h r)] pas _ (h :: L)); eauto; [discriminate|eapply A_tr; eauto| |pl|wl].
      eapply (sub_trans _ _ _ [ECall f v] []); [|apply (krun_ret (KTr f))]. apply krun_sub, sub_der.
    + (* sequence *)
      destruct (par_base _ _ _ _ _ H0) as (P & L0 & d1 & -> & Hb & Hup); [discriminate|].
      inversion Hb as [|d0 p' l dr b i' K0 L1 Hp0 Hh0 Hn0 Hi0 Hw0|]; subst.
      destruct (Hup _ _ H1 Hdf) as (c & S1 & (np & Hnp & Hbp) & Hd1 & Hlen & Hin). rewrite Hn0 in Hnp. injection Hnp as <-. simpl in Hbp. subst b.
      destruct (destroy_ok s h P p L1 _ c S1 Hlv Hn0 eq_refl Hd1 Hlen Hin) as (H' & E & Hag & Hp' & Hl'). rewrite E, Hp'. cbn [with_box n_kind n_rcv].
      assert (Hp0' := par_agree _ _ _ _ _ _ Hp0 Hag). assert (Hh0' := holds_agree _ _ _ _ _ _ _ Hp0 Hag Hh0).
      destruct (Nat.eqb_spec (S i) (length l)) as [El|El].
      * eexists _, _. split; [reflexivity|]. eapply (Hgo (with_heap s H') [CSet p dr v] pas _ (p :: L1)); eauto; [discriminate| | |apply plain_nil|wl].
        { eapply A_set; eauto. eapply fin_intro; eauto. discriminate. }
        { rewrite skipn_all2 by lia. intros t rr Ht; exact Ht. }
        wl.
      * eexists _, _. split; [reflexivity|]. eapply (Hgo (with_heap s H') [CStep p (S i)] pas _ (p :: L1)); eauto; [discriminate| | |apply plain_nil|wl].
        { eapply A_step; eauto. lia. }
        { destruct (skipn (S i) l) as [|x l'] eqn:Es; [apply (f_equal (@length _)) in Es; rewrite skipn_length in Es; simpl in Es; lia|].
          apply (krun_ret (KSeq (x :: l'))). }
        wl.
    + (* repeat_while *)
      destruct (par_base _ _ _ _ _ H0) as (P & L0 & d1 & -> & Hb & Hup); [discriminate|].
      inversion Hb as [| |d0 p' c0 g body dr b K0 L1 Hp0 Hh0 Hn0 Hw0]; subst.
      destruct (Hup _ _ H1 Hdf) as (c & S1 & (np & Hnp & Hbp) & Hd1 & Hlen & Hin). rewrite Hn0 in Hnp. injection Hnp as <-. simpl in Hbp. subst b.
      destruct (destroy_ok s h P p L1 _ c S1 Hlv Hn0 eq_refl Hd1 Hlen Hin) as (H' & E & Hag & Hp' & Hl'). rewrite E.
      assert (Hp0' := par_agree _ _ _ _ _ _ Hp0 Hag). assert (Hh0' := holds_agree _ _ _ _ _ _ _ Hp0 Hag Hh0).
      eexists _, _. split; [reflexivity|]. eapply (Hgo (with_heap s H') [CLoop p] pas _ (p :: L1)); eauto; [discriminate| | |apply plain_nil|wl].
      * eapply A_loop; eauto. constructor; auto.
      * apply (krun_ret (KRep c0 g body)).
      * wl.
  - (* do_step() *)
    simpl. rewrite H2. destruct (nth_error l i) as [x|] eqn:En; [|apply nth_error_None in En; lia].
    eexists _, _. split; [reflexivity|]. eapply (Hgo s [CConn x (RSeq p i) (Some p); CStartBox p] (CAfter p (Some i) :: pas) _ (p :: L)); eauto;
      [apply passive_cons; auto|discriminate| | |apply plain_nil|wl].
    + apply (A_conn e _ x (RSeq p i) (Some p)).
      * eapply p_seq; eauto.
      * exists (N (NSeq l) r None). auto.
      * apply H4. exact (nth_error_In _ _ En).
      * discriminate.
    + rewrite (skipn_nth _ _ _ En). apply krun_semseq.
    + rewrite (skipn_nth _ _ _ En). wl.
  - (* loop_() *)
    simpl. rewrite H2. eexists _, _. split; [reflexivity|]. eapply (Hgo s [CFn c 0 (FRepC p)] pas _ (p :: L)); eauto; [discriminate|eapply A_repc; eauto| |pl|wl].
    apply krun_sub, sub_der.
Qed.

Lemma bind_call f x v (Q : nat -> beh) t r : Q v t r -> bind (call f x) Q (ECall f x :: ERet f v :: t) r.
Proof. intros Hq. apply (bind_some (call f x) Q [ECall f x; ERet f v] v t r); auto. apply call_2. Qed.

(** A user function returns on the running call stack. *)
Lemma fn_step_ok e s tr lv k f x kk fs pas B st v w0 w :
  w + length (CFn f x kk :: fs) = w0 + frames s -> lives s lv -> nth_error (m_thr s) k = Some ((CFn f x kk :: fs) ++ pas) -> passive pas -> (forall j th, j <> k -> nth_error (m_thr s) j = Some th -> passive th) ->
  act e (m_heap s) w0 lv st (CFn f x kk :: fs) B -> Sim e tr B -> m_leafs s = [] -> notdone tr ->
  (if st then In EStart tr /\ thr0 (m_thr s) else ~ In EStart tr /\ length (m_thr s) = 1 /\ m_nxt s = 0 /\ pas = []) ->
  exists s' es, fn_step s k f v kk (fs ++ pas) = Next s' es /\ J e s' (tr ++ es).
Proof.
  intros Hwt Hlv Hk Hpas Hoth Hact Hsim Hlf Hnd Hst.
  assert (Hgo : forall s1 fs' pas' B' lv' es w0', m_thr s1 = m_thr s -> m_leafs s1 = m_leafs s -> passive pas' -> (st = false -> m_nxt s1 = 0 /\ pas' = []) ->
    lives s1 lv' -> act e (m_heap s1) w0' lv' st fs' B' -> sub B' (obs es) B -> plain es -> J e (with_thr s1 k (fs' ++ pas')) (tr ++ es)).
  { intros. edestruct (Jact_go e s tr k (CFn f x kk :: fs) pas B st) as (w' & _ & HJ); eauto; [discriminate|]. exists w'. exact HJ. }
  inversion Hact as [s0 r d K L H0 H1 H2 H3|g x0 body r d K L H0 H1 H2 H3|p a n K L H0 H1 H2 H3|d a n K L H0 H1 H2 H3|d f0 x0 h r K L H0 H1 H2|d f0 x0 h r K L H0 H1 H2|
    d h r v0 K L H0 H1 H2|d p c a b r K L H0 H1 H2 H3|d p c g body r K L H0 H1 H2 H3|d p c v0 g body r K L H0 H1 H2 H3|d p c g body r K L H0 H1 H2 H3|
    d p c x0 g body r K L H0 H1 H2 H3|d p i l r K L H0 H1 H2 H3 H4|d p c g body r K L H0 H1 H2 H3]; subst; simpl app; cbn [fn_step].
  - (* lambda *)
    eexists _, _. split; [reflexivity|]. eapply (Hgo s (CConn (body v) r d :: sb d) pas _ lv); eauto; [| | |pl].
    + intros Hd. destruct d; [discriminate|]. destruct Hst as (? & ? & ? & ?). auto.
    + apply A_conn; eauto.
    + apply krun_sub. intros t rr Ht. simpl. apply bind_call. exact Ht.
  - (* invocable *)
    rewrite H2. eexists _, _. split; [reflexivity|]. cbn [n_rcv]. eapply (Hgo s [CSet h r v] pas _ (h :: L)); eauto; [discriminate| | |pl].
    + eapply A_set; eauto. eapply fin_intro; eauto. discriminate.
    + apply krun_sub. intros t rr [-> [->| ->]]; simpl; [apply call_2n|apply call_2].
  - (* transform *)
    destruct H2 as (n & Hn & Hb & Hl). rewrite Hn. eexists _, _. split; [reflexivity|]. eapply (Hgo s [CSet h r v] pas _ (h :: L)); eauto; [discriminate| | |pl].
    + eapply A_set; eauto. exists n; auto.
    + apply krun_sub. intros t rr [-> [->| ->]]; simpl; [apply call_2n|apply call_2].
  - (* ite *)
    rewrite H2. eexists _, _. split; [reflexivity|]. inversion H3; subst.
    eapply (Hgo s [CConn (if v =? 0 then b else a) r (Some p); CStartBox p] pas _ (p :: L)); eauto; [discriminate| | |pl].
    + apply (A_conn e _ _ r (Some p)); [|exists (N (NIte f a b) r None); auto|destruct (v =? 0); auto|discriminate].
      eapply p_pass; eauto.
    + apply krun_sub. intros t rr Ht. simpl. apply bind_call. destruct (v =? 0); exact Ht.
  - (* repeat_while: condition *)
    rewrite H2. destruct v as [|v]; cbn [Nat.eqb]; (eexists _, _; split; [reflexivity|]).
    + eapply (Hgo s [CSet p r 0] pas _ (p :: L)); eauto; [discriminate| | |pl].
      * eapply A_set; eauto. eapply fin_intro; eauto. discriminate.
      * apply krun_sub. intros t rr [-> Hr]; simpl. apply loop_end; [apply call_2|exact Hr].
    + eapply (Hgo s [CFn g 0 (FRepF p)] pas _ (p :: L)); eauto; [discriminate|eapply (A_repf e _ d p f v); eauto| |pl].
      apply krun_sub. intros t rr Ht. exact Ht.
  - (* repeat_while: factory *)
    rewrite H2. eexists _, _. split; [reflexivity|]. inversion H3; subst.
    eapply (Hgo s [CConn (body v) (RRep p) (Some p); CStartBox p] (CAfter p None :: pas) _ (p :: L)); eauto; [apply passive_cons; auto|discriminate| | |pl].
    + apply (A_conn e _ _ (RRep p) (Some p)); [|exists (N (NRep c f body) r None); auto|auto|discriminate].
      eapply p_rep; eauto.
    + change (sub (krun (bind (sem (body v)) (kap (KRep c f body))) K) [ERet f v] (krun (der [ECall c 0; ERet c (S v0); ECall f 0] (sem (SRep c f body))) K)).
      apply krun_sub. intros t rr [[Ht ->]|(t1 & u & t2 & -> & Hq1 & Hq2)]; unfold der; simpl app.
      * apply (loop_body _ _ [ECall c 0; ERet c (S v0)] v0 (ECall f 0 :: ERet f v :: t)); [apply call_2|]. apply bind_call. exact Ht.
      * apply (loop_again _ _ [ECall c 0; ERet c (S v0)] v0 (ECall f 0 :: ERet f v :: t1) u t2); [apply call_2| |exact Hq2].
        apply bind_call. exact Hq1.
  - (* let: value *)
    rewrite H2. eexists _, _. split; [reflexivity|].
    eapply (Hgo s [CFn g v (FLetF p)] pas _ (p :: L)); eauto; [discriminate|eapply (A_letf e _ d p f v); eauto| |pl].
    apply krun_sub. intros t rr Ht. exact Ht.
  - (* let: sender *)
    rewrite H2. eexists _, _. split; [reflexivity|]. inversion H3; subst.
    eapply (Hgo s [CConn (body v) r (Some p); CStartBox p] pas _ (p :: L)); eauto; [discriminate| | |pl].
    + apply (A_conn e _ _ r (Some p)); [|exists (N (NLet c f body) r None); auto|auto|discriminate].
      eapply p_pass; eauto.
    + apply krun_sub. intros t rr Ht. unfold der. simpl. apply bind_call, bind_call. exact Ht.
Qed.

(** ** All steps *)
Lemma act_nonempty e H w lv st fs B : act e H w lv st fs B -> exists fr fs', fs = fr :: fs'.
Proof. intros Ha; inversion Ha; eauto. Qed.
Lemma passive_pop fr fs : passive (fr :: fs) -> (exists p i, fr = CAfter p i) /\ passive fs.
Proof. intros Hp. split; [apply Hp; left; reflexivity|]. intros x Hx. apply Hp. right; exact Hx. Qed.
Lemma after_step s k p i fs : frame_step s k (CAfter p i) fs = Next (with_thr s k fs) [].
Proof. reflexivity. Qed.
Lemma passive_all s k fs : (forall th, In th (m_thr s) -> passive th) -> passive fs -> forall th, In th (m_thr (with_thr s k fs)) -> passive th.
Proof. intros Ha Hf th Hth. simpl in Hth. apply In_set_nth in Hth. destruct Hth as [->|Hth]; auto. Qed.
Lemma nth0_pop s k fr fs : nth_error (m_thr s) k = Some (fr :: fs) -> thr0 (m_thr s) -> thr0 (set_nth (m_thr s) k fs).
Proof. intros H1 H2. apply thr0_set; auto. intros ->. destruct H2. congruence. Qed.

Lemma J_init e : wf e -> J e (m_init e) [].
Proof.
  intros Hw. exists (tw e), []. split.
  { split; [constructor|]. split; [|intros a []]. intros a. simpl. tauto. }
  left. exists 0, [CConn e RRoot None], [], (krun (sem e) []), false, (tw e). split; [reflexivity|]. simpl.
  split; [reflexivity|]. split; [intros x []|]. split; [intros [|[|j]] th Hj; simpl; congruence|].
  split; [apply (A_conn e _ e RRoot None [] []); simpl; auto; constructor|]. split; [intros t r Ht; exact Ht|].
  split; [reflexivity|]. split; [split; [intros v []|intros []]|]. auto.
Qed.

Definition okstep (e : sender) (tr : list mevent) (o : outcome mst mevent) : Prop :=
  match o with Next s' es => m_rule e (tr ++ es) -> J e s' (tr ++ es) | Disabled => True | Fail f es => ~ m_rule e (tr ++ es) end.

Lemma sum_two (l : list (list frame)) i j x y : i <> j -> nth_error l i = Some x -> nth_error l j = Some y -> length x + length y <= sum (map (@length frame) l).
Proof.
  intros Hne Hi Hj. pose proof (sum_map_set_nth (@length frame) l i [] x Hi) as Hs. simpl in Hs.
  assert (Hj' : nth_error (set_nth l i []) j = Some y) by (rewrite nth_error_set_nth_other; auto).
  pose proof (sum_map_le (@length frame) _ _ (nth_error_In _ _ Hj')). lia.
Qed.
Lemma Jw_LStep e s tr k w : Jw e s tr w -> match m_step s (LStep k) with Next s' es => exists w', w' < w /\ Jw e s' (tr ++ es) w' | Disabled => True | Fail _ _ => False end.
Proof.
  intros (lv & Hlv & HJ). simpl. destruct (nth_error (m_thr s) k) as [[|fr fs]|] eqn:Ek; try exact I.
  assert (Hidle : (forall th, In th (m_thr s) -> passive th) -> exists p i, fr = CAfter p i /\ passive fs).
  { intros Ha. specialize (Ha _ (nth_error_In _ _ Ek)). apply passive_pop in Ha. destruct Ha as [(p & i & ->) Hf]. eauto. }
  assert (Hfrm : frames (with_thr s k fs) + 1 = frames s).
  { pose proof (sum_map_set_nth (@length frame) _ _ fs _ Ek) as Hs. unfold frames. hs. simpl in Hs. lia. }
  destruct HJ as [Hj|[Hw [Hj|[Hj|[Hj|Hj]]]]].
  - destruct Hj as (k0 & fs0 & pas & B & st & w0 & Hw & Hk & Hpas & Hoth & Hact & Hsim & Hlf & Hnd & Hst).
    destruct (act_nonempty _ _ _ _ _ _ _ Hact) as (fr0 & fs1 & ->). destruct (Nat.eq_dec k k0) as [->|Hne].
    + rewrite Ek in Hk. injection Hk as -> ->. pose proof (act_step e s tr lv k0 fr0 fs1 pas B st w0 w Hw Hlv Ek Hpas Hoth Hact Hsim Hlf Hnd Hst) as Hs.
      destruct fr0; try (destruct Hs as (s' & es & -> & Hs); exact Hs). exact I.
    + destruct (passive_pop _ _ (Hoth _ _ Hne Ek)) as [(p & i & ->) Hf]. rewrite after_step. rewrite app_nil_r.
      assert (Hge : length ((fr0 :: fs1) ++ pas) + length (CAfter p i :: fs) <= frames s) by (exact (sum_two _ _ _ _ _ (not_eq_sym Hne) Hk Ek)).
      rewrite app_length in Hge. cbn [length] in Hge, Hw.
      exists (w - 1). split; [lia|]. exists lv. split; [exact Hlv|]. left. exists k0, (fr0 :: fs1), pas, B, st, w0. split; [cbn [length]; lia|]. hs.
      split; [rewrite nth_error_set_nth_other; auto|]. split; [exact Hpas|]. split.
      { intros j th Hj Hth. destruct (Nat.eq_dec k j) as [<-|Hkj].
        - rewrite (nth_error_set_nth_same _ _ _ _ Ek) in Hth. injection Hth as <-. exact Hf.
        - rewrite nth_error_set_nth_other in Hth by auto. exact (Hoth _ _ Hj Hth). }
      split; [exact Hact|]. split; [exact Hsim|]. split; [exact Hlf|]. split; [exact Hnd|].
      destruct st.
      * destruct Hst as [H1 H2]. split; [exact H1|]. exact (nth0_pop _ _ _ _ Ek H2).
      * rewrite set_nth_length. exact Hst.
  - destruct Hj as (n & K & Ht & _). rewrite Ht in Ek. destruct k as [|[|k]]; discriminate.
  - destruct Hj as (d & h & i & r & K & L & t & Ha & Hz & Hrest). destruct (Hidle Ha) as (p & i' & -> & Hf). rewrite after_step. rewrite app_nil_r.
    exists (w - 1). split; [lia|]. exists lv. split; [exact Hlv|]. right. split; [lia|]. right. left. exists d, h, i, r, K, L, t.
    split; [apply passive_all; auto|]. split; [exact (nth0_pop _ _ _ _ Ek Hz)|]. exact Hrest.
  - destruct Hj as (d & h & L & Ha & Hz & Hrest). destruct (Hidle Ha) as (p & i' & -> & Hf). rewrite after_step. rewrite app_nil_r.
    exists (w - 1). split; [lia|]. exists lv. split; [exact Hlv|]. right. split; [lia|]. right. right. left. exists d, h, L.
    split; [apply passive_all; auto|]. split; [exact (nth0_pop _ _ _ _ Ek Hz)|]. exact Hrest.
  - destruct Hj as (Ha & Hrest). destruct (Hidle Ha) as (p & i' & -> & Hf). rewrite after_step. rewrite app_nil_r.
    exists (w - 1). split; [lia|]. exists lv. split; [exact Hlv|]. right. split; [lia|]. right. right. right.
    split; [apply passive_all; auto|]. hs. rewrite set_nth_length. exact Hrest.
Qed.

Lemma J_LStep e s tr k : J e s tr -> okstep e tr (m_step s (LStep k)).
Proof.
  intros [w HJ]. pose proof (Jw_LStep e s tr k w HJ) as Hs. destruct (m_step s (LStep k)); simpl; auto.
  intros _. destruct Hs as (w' & _ & Hs). exists w'. exact Hs.
Qed.

Lemma passive_fn f x kk fs : ~ passive (CFn f x kk :: fs).
Proof. intros Hp. destruct (Hp _ (or_introl eq_refl)) as (p & i & Hc). discriminate. Qed.
Lemma J_LFn e s tr k v : J e s tr -> okstep e tr (m_step s (LFn k v)).
Proof.
  intros (w & lv & Hlv & HJ). simpl. destruct (nth_error (m_thr s) k) as [[|fr fs]|] eqn:Ek; try exact I.
  destruct fr as [| | |f x kk| | | |]; try exact I.
  assert (Hidle : (forall th, In th (m_thr s) -> passive th) -> False).
  { intros Ha. exact (passive_fn _ _ _ _ (Ha _ (nth_error_In _ _ Ek))). }
  destruct HJ as [Hj|[Hwf [Hj|[Hj|[Hj|Hj]]]]].
  - destruct Hj as (k0 & fs0 & pas & B & st & w0 & Hwt & Hk & Hpas & Hoth & Hact & Hsim & Hlf & Hnd & Hst).
    destruct (act_nonempty _ _ _ _ _ _ _ Hact) as (fr0 & fs1 & ->). destruct (Nat.eq_dec k k0) as [->|Hne].
    + rewrite Ek in Hk. injection Hk as <- ->. destruct (fn_step_ok e s tr lv k0 f x kk fs1 pas B st v w0 w Hwt Hlv Ek Hpas Hoth Hact Hsim Hlf Hnd Hst) as (s' & es & -> & Hs).
      simpl. intros _; exact Hs.
    + destruct (passive_fn _ _ _ _ (Hoth _ _ Hne Ek)).
  - destruct Hj as (n & K & Ht & _). rewrite Ht in Ek. destruct k as [|[|k]]; discriminate.
  - destruct Hj as (d & h & i & r & K & L & t & Ha & Hrest). destruct (Hidle Ha).
  - destruct Hj as (d & h & L & Ha & Hrest). destruct (Hidle Ha).
  - destruct Hj as (Ha & Hrest). destruct (Hidle Ha).
Qed.

Lemma J_LComp e s tr a v : J e s tr -> okstep e tr (m_step s (LComp a v)).
Proof.
  intros (w & lv & Hlv & HJ). simpl. destruct (memb a (m_leafs s)) eqn:Em; [|exact I]. apply memb_In in Em.
  destruct HJ as [Hj|[Hwf [Hj|[Hj|[Hj|Hj]]]]].
  - destruct Hj as (k0 & fs0 & pas & B & st & w0 & Hwt & Hk & Hpas & Hoth & Hact & Hsim & Hlf & _). rewrite Hlf in Em. destruct Em.
  - destruct Hj as (n & K & _ & _ & _ & _ & _ & _ & Hlf & _). rewrite Hlf in Em. destruct Em.
  - destruct Hj as (d & h & i & r & K & L & t & Ha & Hz & -> & Hp & Hh & Hn & Hlf & Hsim & Hnd & Hst & Ho).
    rewrite Hlf in *. destruct Em as [->|[]]. rewrite Hn. simpl. rewrite Nat.eqb_refl. intros _.
    exists (1 + length L + kw K + frames s), (a :: L). split; [exact Hlv|]. left. exists (length (m_thr s)), [CSet a r v], [], (krun (ret v) K), true, (1 + length L + kw K).
    split; [unfold frames; hs; rewrite map_app, sum_app; simpl; lia|]. hs.
    split; [rewrite nth_error_app2, Nat.sub_diag by lia; reflexivity|]. split; [intros x []|]. split.
    { intros j th Hj Hth. apply nth_error_In in Hth as Hin. apply in_app_iff in Hin. destruct Hin as [Hin|[<-|[]]]; [auto|].
      destruct (Nat.lt_ge_cases j (length (m_thr s))) as [Hlt|Hge].
      - rewrite nth_error_app1 in Hth by auto. apply Ha. exact (nth_error_In _ _ Hth).
      - assert (Hlt : j < length (m_thr s ++ [[CSet a r v]])) by (apply nth_error_Some; congruence). rewrite app_length in Hlt. simpl in Hlt. lia. }
    split; [eapply A_set; eauto; eapply fin_intro; eauto; discriminate|]. split.
    { eapply Sim_step; [exact Hsim|]. apply krun_sub. intros t' r' [-> [->| ->]]; simpl; [apply leaf_2n|apply leaf_2]. }
    split; [reflexivity|]. split; [apply notdone_plain; auto; pl|]. split; [apply in_or_app; auto|].
    destruct Hz as [Hz1 Hz2]. destruct (m_thr s); [discriminate|]. split; [exact Hz1|]. simpl in *. rewrite app_length. lia.
  - destruct Hj as (d & h & L & _ & _ & _ & _ & _ & _ & Hlf & _). rewrite Hlf in Em. destruct Em.
  - destruct Hj as (_ & _ & Hlf & _). rewrite Hlf in Em. destruct Em.
Qed.

Lemma J_LStart e s tr : J e s tr -> okstep e tr (m_step s LStart).
Proof.
  intros (w & lv & Hlv & HJ). simpl. destruct (m_thr s) as [|[|? ?] [|? ?]] eqn:Et; try exact I.
  destruct HJ as [Hj|[Hwf [Hj|[Hj|[Hj|Hj]]]]].
  - destruct Hj as (k0 & fs0 & pas & B & st & w0 & Hwt & Hk & Hpas & Hoth & Hact & _). rewrite Et in Hk.
    destruct (act_nonempty _ _ _ _ _ _ _ Hact) as (fr0 & fs1 & ->). destruct k0 as [|[|k0]]; discriminate.
  - destruct Hj as (n & K & _ & -> & Hn & Hf & Hp & Hsim & Hlf & Hnd & Hst & _). rewrite Hn. simpl. intros _.
    exists (tw (snd_of (n_kind n)) - 2), [0]. split; [exact Hlv|]. left. exists 1, [CStart 0], [], (krun (sem (snd_of (n_kind n))) K), true, (tw (snd_of (n_kind n)) - 2).
    split; [reflexivity|]. hs.
    split; [reflexivity|]. split; [intros x []|]. split.
    { intros [|[|[|j]]] th Hj; simpl; try congruence. intros [= <-] x []. }
    split; [eapply A_start; eauto; reflexivity|]. split; [eapply Sim_step; [exact Hsim|]; intros t r Ht; exact Ht|].
    split; [exact Hlf|]. split.
    { destruct Hnd as [H1 H2]. split; [intros v|]; intros Hi; apply in_app_iff in Hi; destruct Hi as [Hi|[Hi|[]]]; try discriminate; auto. exact (H1 _ Hi). }
    split; [apply in_or_app; right; left; reflexivity|split; simpl; auto].
  - destruct Hj as (d & h & i & r & K & L & t & Ha & Hz & -> & Hp & Hh & Hn & Hlf & Hsim & Hnd & Hst & Ho).
    destruct Hz as [_ Hz]. rewrite Et in Hz. simpl in Hz. lia.
  - destruct Hj as (d & h & L & Ha & [_ Hz] & _). rewrite Et in Hz. simpl in Hz. lia.
  - destruct Hj as (Ha & -> & Hlf & [[_ Hz]|(t1 & -> & Hnd & Hns & _)]); [rewrite Et in Hz; simpl in Hz; lia|].
    destruct (m_heap s 0) as [n|] eqn:E0.
    { destruct Hlv as (_ & Hx & _). destruct (Hx 0) as [Hx' _]. destruct Hx'. congruence. }
    simpl. intros Hr. rewrite <- app_assoc in Hr. destruct (Hr t1 [EStart] eq_refl) as [[v Hv]|[Hc _]].
    + destruct Hnd as [Hc _]. exact (Hc _ Hv).
    + apply Hc, in_or_app. right. right. left. reflexivity.
Qed.

Lemma rule_start e tr : m_rule e (tr ++ [EDestroy]) -> notdone tr -> In EStart tr -> False.
Proof.
  intros Hr [Hd _] Hs. destruct (Hr tr [] eq_refl) as [[v Hv]|[Hc _]]; [exact (Hd _ Hv)|]. apply Hc, in_or_app. auto.
Qed.
Lemma destroy_root s lv S1 : lives s lv -> destr (m_heap s) 0 S1 -> length S1 <= length lv -> (forall x, In x lv -> In x S1) ->
  exists H', destroy (m_nxt s) (m_heap s) 0 = inl H' /\ lives (with_heap s H') [].
Proof.
  intros Hl Hd Hlen Hin. pose proof (lives_len _ _ Hl) as Hle. destruct (Hd (m_nxt s)) as (H' & E & Hx); [lia|]. exists H'. split; [exact E|].
  split; [constructor|]. split; [|intros a []]. intros a. simpl. rewrite Hx. destruct (memb a S1) eqn:Em; [tauto|]. apply memb_not_In in Em.
  destruct Hl as (_ & Hl & _). rewrite Hl. split; [auto|tauto].
Qed.
Lemma J_LDestroy e s tr : J e s tr -> okstep e tr (m_step s LDestroy).
Proof.
  intros (w & lv & Hlv & HJ). cbn [m_step]. destruct (nth_error (m_thr s) 0) as [[|? ?]|] eqn:Et; try exact I.
  destruct (m_heap s 0) as [n0|] eqn:E0; [|exact I].
  assert (Hbad : notdone tr -> In EStart tr -> okstep e tr (match destroy (m_nxt s) (m_heap s) 0 with inl H => Next (with_heap s H) [EDestroy] | inr f => Fail f [EDestroy] end)).
  { intros H1 H2. destruct (destroy (m_nxt s) (m_heap s) 0); simpl; intros Hr; destruct (rule_start _ _ Hr H1 H2). }
  destruct HJ as [Hj|[Hwf [Hj|[Hj|[Hj|Hj]]]]].
  - destruct Hj as (k0 & fs0 & pas & B & st & w0 & Hwt & Hk & Hpas & Hoth & Hact & Hsim & Hlf & Hnd & Hst). destruct st; [apply Hbad; [exact Hnd|apply Hst]|].
    destruct (act_nonempty _ _ _ _ _ _ _ Hact) as (fr0 & fs1 & ->). destruct Hst as (_ & Hlen & _).
    destruct (m_thr s) as [|th [|? ?]]; try discriminate. destruct k0 as [|[|k0]]; simpl in *; congruence.
  - destruct Hj as (n & K & Ht & -> & Hn & Hf & Hp & Hsim & Hlf & Hnd & Hst & Hlet). simpl.
    assert (Hnl : ~ islet e -> exists H', destroy (m_nxt s) (m_heap s) 0 = inl H' /\ lives (with_heap s H') []).
    { intros Hni. apply (destroy_root s [0] [0] Hlv); auto. apply destr_fin. exists n. destruct Hf as (Hb & _). split; [auto|]. split; [auto|].
      intros p g b Hc. apply Hni, Hlet. eauto. }
    assert (Hrl : m_rule e (tr ++ [EDestroy]) -> ~ islet e).
    { intros Hr. destruct (Hr tr [] eq_refl) as [[v Hv]|[_ Hc]]; auto. destruct Hnd as [Hd _]. destruct (Hd _ Hv). }
    destruct (destroy (m_nxt s) (m_heap s) 0) as [H'|f] eqn:Ed; simpl; intros Hr; destruct (Hnl (Hrl Hr)) as (H'' & E' & Hl'); [|discriminate].
    injection E' as <-. eexists; exists []. split; [exact Hl'|]. right. split; [reflexivity|]. right. right. right. split; [|split; [|split]]; auto.
    + simpl. rewrite Ht. intros th [<-|[]] x [].
    + right. exists tr. split; [reflexivity|]. split; [exact Hnd|]. split; [exact Hst|].
      rewrite <- (app_nil_r (obs tr)). apply Hsim. apply krun_nil, sem_nil. apply Hf.
  - destruct Hj as (d & h & i & r & K & L & t & Ha & Hz & -> & Hp & Hh & Hn & Hlf & Hsim & Hnd & Hst & Ho). apply Hbad; auto.
  - destruct Hj as (d & h & L & Ha & [_ Hz] & -> & Hp & Hh & Hf & Hlf & He).
    destruct (par_base _ _ _ _ _ Hp) as (P & L0 & d1 & -> & Hb & Hup); [discriminate|]. inversion Hb; subst.
    destruct (Hup _ _ Hh (destr_fin _ _ Hf)) as (c & S1 & Hc & Hd1 & Hlen & Hin). simpl in Hc. subst c. rewrite app_nil_r in *.
    destruct (destroy_root s (h :: P) S1 Hlv Hd1) as (H' & E' & Hl'); [simpl in *; lia|intros x Hx; apply Hin; simpl in *; tauto|].
    rewrite E'. simpl. intros _. eexists; exists []. split; [exact Hl'|]. right. split; [reflexivity|]. right. right. right. split; [exact Ha|]. split; [reflexivity|]. split; [exact Hlf|].
    left. split; [|exact Hz]. destruct He as (t1 & v & -> & H1 & H2 & H3). exists t1, v. rewrite <- app_assoc. auto.
  - destruct Hj as (_ & -> & _). destruct Hlv as (_ & Hx & _). destruct (Hx 0) as [Hx' _]. destruct Hx'. congruence.
Qed.

Lemma J_step e s tr l : J e s tr -> okstep e tr (m_step s l).
Proof.
  destruct l as [|k|k v|a v|]; [apply J_LStart|apply J_LStep|apply J_LFn|apply J_LComp|apply J_LDestroy].
Qed.
Lemma m_rule_pre e tr es : m_rule e (tr ++ es) -> m_rule e tr.
Proof.
  intros Hr t1 t2 ->. rewrite <- app_assoc in Hr. destruct (Hr t1 (t2 ++ es) eq_refl) as [Hd|[Hs Hl]]; [auto|]. right. split; [|exact Hl].
  intros Hc. apply Hs. rewrite app_comm_cons, app_assoc. apply in_or_app. left. exact Hc.
Qed.
Lemma J_run e ls s tr : wf e -> run m_step (m_init e) ls = Running s tr -> m_rule e tr -> J e s tr.
Proof.
  intros Hw. apply (run_inv_client m_step (m_rule e) (J e)); [apply m_rule_pre|apply J_init; auto|].
  intros s0 tr0 l s' es Hj Hs Hr. pose proof (J_step e s0 tr0 l Hj) as Ho. rewrite Hs in Ho. apply Ho, Hr.
Qed.

(** * Results *)
Theorem algo_safe e ls f tr : wf e -> run m_step (m_init e) ls = Failed f tr -> ~ m_rule e tr.
Proof.
  intros Hw. apply (run_safe_client m_step (m_rule e) (J e)); [apply m_rule_pre|apply J_init; auto| |].
  - intros s0 tr0 l s' es Hj Hs Hr. pose proof (J_step e s0 tr0 l Hj) as Ho. rewrite Hs in Ho. apply Ho, Hr.
  - intros s0 tr0 l f0 es Hj Hr Hs. pose proof (J_step e s0 tr0 l Hj) as Ho. rewrite Hs in Ho. exact (Ho Hr).
Qed.

Lemma act_prefix e H w lv st fs B : wf e -> act e H w lv st fs B -> B [] None.
Proof.
  intros Hw Ha. inversion Ha; subst; apply krun_nil; try (apply sem_nil; auto; fail); unfold der; simpl app.
  - simpl. apply bind_none, call_1.
  - apply sem_nil. match goal with Hf : fresh _ |- _ => apply Hf end.
  - apply sem_nil. match goal with Hf : fresh _ |- _ => apply Hf end.
  - apply call_1.
  - apply call_1.
  - split; auto.
  - simpl. apply bind_none, call_1.
  - apply loop_cond, call_1.
  - apply (loop_body _ _ [ECall c 0; ERet c (S v)] v [ECall g 0]); [apply call_2|]. apply bind_none, call_1.
  - simpl. apply bind_none, call_1.
  - simpl. apply bind_call, bind_none, call_1.
  - apply semseq_nil; [|intros s Hs; eauto].
    + intros Hc. apply (f_equal (@length _)) in Hc. rewrite skipn_length in Hc. simpl in Hc. lia.
    + match goal with Hf : forall s, In s l -> wf s |- _ => apply Hf end.
      clear - Hs. revert l Hs. induction i as [|i IH]; intros [|x l] Hs; simpl in *; auto.
Qed.
Lemma obs_done_nil t1 v t2 : obs (t1 ++ EDone v :: t2) = obs t1 ++ obs t2.
Proof. rewrite obs_app. reflexivity. Qed.

Theorem algo_refines e ls s tr : wf e -> run m_step (m_init e) ls = Running s tr -> m_rule e tr -> sem e (obs tr) None \/ exists v, In (EDone v) tr.
Proof.
  intros Hw Hr Hc. destruct (J_run e ls s tr Hw Hr Hc) as (w & lv & Hlv & [Hj|[Hwf [Hj|[Hj|[Hj|Hj]]]]]).
  - left. destruct Hj as (k0 & fs0 & pas & B & st & w0 & Hwt & Hk & Hpas & Hoth & Hact & Hsim & _). rewrite <- (app_nil_r (obs tr)). apply Hsim.
    exact (act_prefix _ _ _ _ _ _ _ Hw Hact).
  - left. destruct Hj as (n & K & _ & _ & _ & Hf & _ & Hsim & _). rewrite <- (app_nil_r (obs tr)). apply Hsim. apply krun_nil, sem_nil, Hf.
  - left. destruct Hj as (d & h & i & r & K & L & t & Ha & Hz & -> & Hp & Hh & Hn & Hlf & Hsim & _). rewrite <- (app_nil_r (obs tr)). apply Hsim.
    apply krun_nil. right; left. auto.
  - right. destruct Hj as (d & h & L & _ & _ & _ & _ & _ & _ & _ & (t1 & v & -> & _)). exists v. apply in_or_app. right. left. reflexivity.
  - destruct Hj as (_ & _ & _ & [[(t1 & v & -> & _) _]|(t1 & -> & _ & _ & Hs)]).
    + right. exists v. apply in_or_app. right. left. reflexivity.
    + left. rewrite obs_app. simpl. rewrite app_nil_r. exact Hs.
Qed.

Lemma split_done t1 v t2 t1' v' t2' : notdone t1 -> (t2 = [] \/ t2 = [EDestroy]) -> t1 ++ EDone v :: t2 = t1' ++ EDone v' :: t2' -> t1' = t1 /\ v' = v /\ t2' = t2.
Proof.
  intros [Hn _] Ht. revert t1' Hn. induction t1 as [|x t1 IH]; intros [|y t1'] Hn He; simpl in He.
  - injection He as -> ->. auto.
  - injection He as <- He. destruct Ht as [->| ->].
    + destruct t1'; discriminate.
    + destruct t1' as [|? [|? ?]]; discriminate.
  - injection He as -> He. destruct (Hn v'). left. reflexivity.
  - injection He as <- He. destruct (IH t1') as (-> & H1); auto. intros w Hw. apply (Hn w). right; exact Hw.
Qed.
Theorem algo_done e ls s t1 v t2 : wf e -> run m_step (m_init e) ls = Running s (t1 ++ EDone v :: t2) -> m_rule e (t1 ++ EDone v :: t2) ->
  sem e (obs t1) (Some v) /\ obs t2 = [] /\ (forall v', ~ In (EDone v') (t1 ++ t2)) /\ In EStart t1.
Proof.
  intros Hw Hr Hc. destruct (J_run e ls s _ Hw Hr Hc) as (w & lv & Hlv & HJ).
  assert (Hin : In (EDone v) (t1 ++ EDone v :: t2)) by (apply in_or_app; right; left; reflexivity).
  assert (He : exists t, (t = [] \/ t = [EDestroy]) /\ ended e (t1 ++ EDone v :: t2) t).
  { destruct HJ as [Hj|[Hwf [Hj|[Hj|[Hj|Hj]]]]].
    - destruct Hj as (k0 & fs0 & pas & B & st & w0 & Hwt & Hk & Hpas & Hoth & Hact & Hsim & _ & [Hn _] & _). destruct (Hn _ Hin).
    - destruct Hj as (n & K & _ & _ & _ & Hf & _ & Hsim & _ & [Hn _] & _). destruct (Hn _ Hin).
    - destruct Hj as (d & h & i & r & K & L & t & Ha & Hz & -> & Hp & Hh & Hn & Hlf & Hsim & [Hn' _] & _). destruct (Hn' _ Hin).
    - destruct Hj as (d & h & L & _ & _ & _ & _ & _ & _ & _ & He). eauto.
    - destruct Hj as (_ & _ & _ & [[He _]|(t & Ht & [Hn _] & _)]); [eauto|]. rewrite Ht in Hin. apply in_app_iff in Hin.
      destruct Hin as [Hin|[Hin|[]]]; [destruct (Hn _ Hin)|discriminate]. }
  destruct He as (t & Ht & (u1 & w1 & Heq & Hn & Hs & Hst)). symmetry in Heq. destruct (split_done _ _ _ _ _ _ Hn Ht Heq) as (-> & -> & ->).
  split; [exact Hs|]. split; [destruct Ht as [->| ->]; reflexivity|]. split; [|exact Hst].
  intros v' Hv. apply in_app_iff in Hv. destruct Hn as [Hn _]. destruct Hv as [Hv|Hv]; [exact (Hn _ Hv)|].
  destruct Ht as [->| ->]; [destruct Hv|destruct Hv as [Hv|[]]; discriminate].
Qed.

Theorem algo_freed e ls s tr : wf e -> run m_step (m_init e) ls = Running s tr -> m_rule e tr -> In EDestroy tr -> forall a, m_heap s a = None.
Proof.
  intros Hw Hr Hc Hd a. destruct (J_run e ls s _ Hw Hr Hc) as (w & lv & (_ & Hlv & _) & HJ).
  assert (lv = []) as ->.
  { destruct HJ as [Hj|[Hwf [Hj|[Hj|[Hj|Hj]]]]].
    - destruct Hj as (k0 & fs0 & pas & B & st & w0 & Hwt & Hk & Hpas & Hoth & Hact & Hsim & _ & [_ Hn] & _). destruct (Hn Hd).
    - destruct Hj as (n & K & _ & _ & _ & Hf & _ & Hsim & _ & [_ Hn] & _). destruct (Hn Hd).
    - destruct Hj as (d & h & i & r & K & L & t & Ha & Hz & -> & Hp & Hh & Hn & Hlf & Hsim & [_ Hn'] & _). destruct (Hn' Hd).
    - destruct Hj as (d & h & L & _ & _ & _ & _ & _ & _ & _ & (t1 & v & -> & [_ Hn] & _)). apply in_app_iff in Hd.
      destruct Hd as [Hd|[Hd|[]]]; [destruct (Hn Hd)|discriminate].
    - destruct Hj as (_ & -> & _). reflexivity. }
  destruct (m_heap s a) eqn:E; [|reflexivity]. destruct (Hlv a) as [H1 _]. destruct H1. congruence.
Qed.

(** ** Progress *)
Theorem algo_progress e ls s tr : wf e -> run m_step (m_init e) ls = Running s tr -> m_rule e tr -> In EStart tr ->
  (forall k, m_step s (LStep k) = Disabled /\ forall v, m_step s (LFn k v) = Disabled) ->
  (exists v, In (EDone v) tr) \/ exists i t a, obs tr = t ++ [ELeaf i] /\ forall v, exists s', m_step s (LComp a v) = Next s' [EComp i v].
Proof.
  intros Hw Hr Hc Hst Hq. destruct (J_run e ls s _ Hw Hr Hc) as (w & lv & Hlv & HJ).
  destruct HJ as [Hj|[Hwf [Hj|[Hj|[Hj|Hj]]]]].
  - destruct Hj as (k0 & fs0 & pas & B & st & w0 & Hwt & Hk & Hpas & Hoth & Hact & Hsim & Hlf & Hnd & Hs).
    destruct (act_nonempty _ _ _ _ _ _ _ Hact) as (fr0 & fs1 & ->). destruct (Hq k0) as [H1 H2].
    pose proof (act_step e s tr lv k0 fr0 fs1 pas B st w0 w Hwt Hlv Hk Hpas Hoth Hact Hsim Hlf Hnd Hs) as Ha.
    simpl in H1, H2. rewrite Hk in H1, H2. simpl in H1, H2.
    destruct fr0 as [| | |f x kk| | | |]; try (destruct Ha as (s' & es & Ha & _); congruence).
    destruct (fn_step_ok e s tr lv k0 f x kk fs1 pas B st 0 w0 w Hwt Hlv Hk Hpas Hoth Hact Hsim Hlf Hnd Hs) as (s' & es & Hf & _).
    rewrite (H2 0) in Hf. discriminate.
  - destruct Hj as (n & K & _ & _ & _ & Hf & _ & Hsim & _ & _ & Hn & _). contradiction.
  - destruct Hj as (d & h & i & r & K & L & t & Ha & Hz & -> & Hp & Hh & Hn & Hlf & Hsim & Hnd & _ & Ho). right. exists i, t, h. split; [exact Ho|].
    intros v. simpl. rewrite Hlf, Hn. simpl. rewrite Nat.eqb_refl. simpl. eauto.
  - left. destruct Hj as (d & h & L & _ & _ & _ & _ & _ & _ & _ & (t1 & v & -> & _)). exists v. apply in_or_app. right. left. reflexivity.
  - destruct Hj as (_ & _ & _ & [[(t1 & v & -> & _) _]|(t1 & -> & _ & Hs & _)]).
    + left. exists v. apply in_or_app. right. left. reflexivity.
    + apply in_app_iff in Hst. destruct Hst as [Hst|[Hst|[]]]; [contradiction|discriminate].
Qed.

(** ** Termination *)
Theorem algo_finishes e ls s tr : wf e -> run m_step (m_init e) ls = Running s tr -> m_rule e tr ->
  exists m, forall ls' s' tr', (forall l, In l ls' -> exists k, l = LStep k) -> run_from m_step s tr ls' = Running s' tr' -> length ls' <= m.
Proof.
  intros Hw Hr Hc. destruct (J_run e ls s _ Hw Hr Hc) as (w & HJ). exists w. clear - HJ.
  revert s tr HJ. induction w as [w IH] using lt_wf_ind. intros s tr HJ ls' s' tr' Hl Hrun. destruct ls' as [|l ls']; [simpl; lia|].
  destruct (Hl l (or_introl eq_refl)) as [k ->]. simpl in Hrun. pose proof (Jw_LStep e s tr k w HJ) as Hs. simpl in Hs.
  destruct (nth_error (m_thr s) k) as [[|fr fs]|]; try discriminate. destruct (frame_step s k fr fs) as [s1 es| |f es]; try discriminate.
  destruct Hs as (w' & Hlt & HJ'). specialize (IH w' Hlt s1 _ HJ' ls' s' tr'). simpl.
  assert (length ls' <= w') by (apply IH; auto; intros l0 H0; apply Hl; right; exact H0). lia.
Qed.
