(** The happens-before model of cancellation_event: what the steps access, and what they change. *)
From Coq Require Import List Arith Bool Lia.
From Verif Require Import Lts ListFacts M_HB P_HB M_Cancel S_Cancel P_Cancel P_CancelInv P_CancelStep M_CancelHB S_CancelHB.
Import ListNotations.

(** ** Releases *)
Lemma rel_split {m v l1 x acq l3 m' v'} : m_exec m v (l1 ++ Rmw x acq true :: l3) = Some (m', v') ->
  exists m1 v1, m_exec m v (l1 ++ [Rmw x acq true]) = Some (m1, v1) /\ m_exec m1 v1 l3 = Some (m', v') /\ incl (mv_cur v1) (mm_rel m1 x).
Proof.
  intros He. change (Rmw x acq true :: l3) with ([Rmw x acq true] ++ l3) in He. rewrite app_assoc, exec_app in He.
  destruct (m_exec m v (l1 ++ [Rmw x acq true])) as [[m1 v1]|] eqn:E1; [|discriminate]. exists m1, v1. split; [reflexivity|]. split; [exact He|]. exact (exec_unlock _ _ _ _ _ _ _ E1).
Qed.
Lemma rel_cur {m v l1 x acq l3 m' v'} : m_exec m v (l1 ++ Rmw x acq true :: l3) = Some (m', v') -> incl (mv_cur v) (mm_rel m' x).
Proof.
  intros He. destruct (rel_split He) as (m1 & v1 & E1 & E3 & Hi). apply eff_exec in E1, E3.
  eapply incl_tran; [apply (ef_cur _ _ _ _ _ E1)|]. eapply incl_tran; [exact Hi|]. apply (ef_rel _ _ _ _ _ E3).
Qed.
Lemma rel_new {m v l1 x acq l3 m' v'} y : m_exec m v (l1 ++ Rmw x acq true :: l3) = Some (m', v') -> (forall b, ~ In (Touch y b) l3) ->
  forall i a p, nth_error (mm_log m') i = Some (a, p) -> ma_loc a = y -> nth_error (mm_log m) i = Some (a, p) \/ In i (mm_rel m' x).
Proof.
  intros He H3 i a p Hn Hl. destruct (rel_split He) as (m1 & v1 & E1 & E3 & Hi). apply eff_exec in E1, E3.
  destruct (eff_cases E3 _ _ _ Hn) as [[_ Ho]|(_ & _ & Ht)]; [|subst y; now apply H3 in Ht].
  destruct (eff_cases E1 _ _ _ Ho) as [[_ Ho1]|(_ & Hin & _)]; [auto|right]. apply (ef_rel _ _ _ _ _ E3), Hi, Hin.
Qed.
Lemma rel_kn {m v l1 x acq l3 m' v'} y : m_exec m v (l1 ++ Rmw x acq true :: l3) = Some (m', v') -> (forall b, ~ In (Touch y b) l3) ->
  kn (mm_log m) (mm_rel m x ++ mv_cur v) y -> kn (mm_log m') (mm_rel m' x) y.
Proof.
  intros He H3 Hk i a p Hn Hl. destruct (rel_new y He H3 _ _ _ Hn Hl) as [Ho|Hi]; [|exact Hi]. specialize (Hk _ _ _ Ho Hl). apply in_app_or in Hk.
  destruct Hk as [Hk|Hk]; [apply (ef_rel _ _ _ _ _ (eff_exec _ _ _ _ _ He)), Hk|apply (rel_cur He), Hk].
Qed.
Definition no_acq (a : mact) : bool := match a with Rmw _ false _ => true | _ => false end.
Lemma no_acq_cur l : forall m v m' v', forallb no_acq l = true -> m_exec m v l = Some (m', v') -> mv_cur v' = mv_cur v.
Proof.
  induction l as [|a l IH]; intros m v m' v' Hl H; cbn [m_exec] in H; [injection H as <- <-; auto|]. simpl in Hl. apply andb_true_iff in Hl. destruct Hl as [Ha Hl].
  destruct a as [|x [|] r|]; try discriminate. cbn [m_exec1] in H. apply IH in H; [|exact Hl]. exact H.
Qed.
Lemma rel_all {m v l1 x acq l3 m' v'} : m_exec m v (l1 ++ Rmw x acq true :: l3) = Some (m', v') -> forallb no_acq l3 = true -> incl (mv_cur v') (mm_rel m' x).
Proof.
  intros He H3. destruct (rel_split He) as (m1 & v1 & E1 & E3 & Hi). rewrite (no_acq_cur _ _ _ _ _ H3 E3). apply eff_exec in E3. eapply incl_tran; [exact Hi|]. apply (ef_rel _ _ _ _ _ E3).
Qed.

(** ** The shape of a step *)
Definition pre (s : cst) (l : clabel) : list mact :=
  match l with
  | LNew c _ | LSet c _ _ => make c
  | LUnbind c | LReset c => [Touch (l_nd c) false]
  | LDel c => if n_obs (c_nd s c) then [] else [Touch (l_nd c) false]
  | _ => []
  end.
Definition post (s : cst) (l : clabel) : list mact :=
  match l with
  | LSet c (Some e) force => if e_req (c_ev s e) && force then [Touch (l_nd c) false] else []
  | LDel c => make c
  | _ => []
  end.
(** the event whose mutex is locked and unlocked *)
Definition sec (s : cst) (l : clabel) : option nat :=
  match l with
  | LNew c (Some e) => if e_req (c_ev s e) then None else Some e
  | LSet c tok _ => tok
  | LUnbind c | LReset c => n_tok (c_nd s c)
  | LDel c => if n_obs (c_nd s c) then None else n_tok (c_nd s c)
  | LCancel e | LResetEv e | LQuery e => Some e
  | LFQuery k => match nth_error (c_fns s) k with Some (FRun _ e _) => Some e | _ => None end
  | _ => None
  end.
(** the nodes whose hooks are accessed meanwhile *)
Definition body (s : cst) (l : clabel) : list nat :=
  let del c := match n_tok (c_nd s c) with Some e => if e_req (c_ev s e) then [] else e_cbs (c_ev s e) | None => [] end in
  match l with
  | LNew c (Some e) | LSet c (Some e) _ => if e_req (c_ev s e) then [] else e_cbs (c_ev s e) ++ [c]
  | LUnbind c | LReset c | LDel c => del c
  | LCancel e => e_cbs (c_ev s e)
  | _ => []
  end.
Lemma acts_sec s l e : sec s l = Some e ->
  ch_acts s l = (pre s l ++ [Touch (l_ev e) false]) ++ Lock (x_e e) :: (Touch (l_st e) true :: hooks (body s l)) ++ Unlock (x_e e) :: know e :: post s l.
Proof.
  destruct l as [c [e0|]|c|c [e0|] f|c|c|e0|e0|e0|e0|i|k|k]; cbn [sec pre body post ch_acts]; intros H; try discriminate.
  - destruct (e_req (c_ev s e0)); [discriminate|]. injection H as ->. unfold enter, leave, make. repeat rewrite <- app_assoc. reflexivity.
  - unfold erase. rewrite H. unfold enter, leave. destruct (e_req _); repeat rewrite <- app_assoc; reflexivity.
  - injection H as ->. unfold enter, leave, make. destruct (e_req _); repeat rewrite <- app_assoc; reflexivity.
  - unfold erase. rewrite H. unfold enter, leave. destruct (e_req _); repeat rewrite <- app_assoc; reflexivity.
  - destruct (n_obs _); [discriminate|]. unfold erase. rewrite H. unfold enter, leave, make. destruct (e_req _); simpl; repeat rewrite <- app_assoc; reflexivity.
  - injection H as ->. unfold enter, leave. repeat rewrite <- app_assoc. reflexivity.
  - injection H as ->. reflexivity.
  - injection H as ->. reflexivity.
  - destruct (nth_error (c_fns s) k) as [[c e0 h|]|]; try discriminate. injection H as ->. reflexivity.
Qed.
(** steps about one node that has no event *)
Definition plain (s : cst) (l : clabel) : Prop :=
  match l with
  | LNew _ None | LSet _ None _ | LUnbind _ | LReset _ | LDel _ => True
  | _ => False
  end.
Lemma acts_plain s l : sec s l = None -> plain s l -> ch_acts s l = pre s l ++ post s l.
Proof.
  destruct l as [c [e0|]|c|c [e0|] f|c|c|e0|e0|e0|e0|i|k|k]; cbn [sec plain pre post ch_acts]; intros H Hp; try discriminate; try contradiction; try reflexivity.
  - unfold erase. rewrite H. reflexivity.
  - unfold erase. rewrite H. reflexivity.
  - destruct (n_obs _); [reflexivity|]. unfold erase. rewrite H. reflexivity.
Qed.

(** ** Locations *)
Ltac lne := unfold l_ev, l_st, l_nd, l_hk in *; lia.
Lemma in_hooks y b l : In (Touch y b) (hooks l) -> exists c, y = l_hk c /\ In c l /\ b = true.
Proof. unfold hooks. intros H. apply in_map_iff in H. destruct H as (c & [= <- <-] & H). eauto. Qed.
Lemma hook_in c l : In c l -> In (Touch (l_hk c) true) (hooks l).
Proof. intros H. apply in_map_iff. eauto. Qed.
Ltac injl := repeat match goal with
  | H : l_ev ?a = l_ev ?b |- _ => assert (a = b) by lne; clear H; try subst a | H : l_st ?a = l_st ?b |- _ => assert (a = b) by lne; clear H; try subst a
  | H : l_nd ?a = l_nd ?b |- _ => assert (a = b) by lne; clear H; try subst a | H : l_hk ?a = l_hk ?b |- _ => assert (a = b) by lne; clear H; try subst a end.
Ltac tin H := repeat first
  [ apply in_app_or in H; destruct H as [H|H]
  | match type of H with
    | In _ (hooks _) => let c := fresh "c'" in let E := fresh "E" in let Hi := fresh "Hi" in let Eb := fresh "Eb" in apply in_hooks in H; destruct H as (c & E & Hi & Eb); try (exfalso; lne)
    | In _ (_ :: _) => destruct H as [H|H]; [try discriminate H; try (injection H as ? ?; try (exfalso; lne); try discriminate)|]
    | In _ [] => destruct H
    end ].

(** l constructs or destroys c *)
Definition mk (l : clabel) (c : nat) : Prop := match l with LNew c' _ | LSet c' _ _ | LDel c' => c' = c | _ => False end.
Definition mkn (l : clabel) (c : nat) : Prop := match l with LNew c' _ | LSet c' _ _ => c' = c | _ => False end.
(** l is a call on c or calls its functor *)
Definition sn (s : cst) (l : clabel) (c : nat) : Prop :=
  match l with
  | LNew c' _ | LSet c' _ _ | LDel c' | LUnbind c' | LReset c' => c' = c
  | LLoop i => exists rest, nth_error (c_loops s) i = Some (CL (c :: rest) None)
  | _ => False
  end.
(** l locks the mutex of e *)
Definition sts (s : cst) (l : clabel) (e : nat) : Prop := sec s l = Some e \/ (exists c, l = LNew c (Some e) /\ e_req (c_ev s e) = true) \/ l = LDelEv e.
Definition evs (s : cst) (l : clabel) (e : nat) : Prop := sts s l e \/ exists k c, l = LRet k /\ nth_error (c_fns s) k = Some (FRun c e HCtor).

Lemma pre_in s l y b : In (Touch y b) (pre s l) -> exists c, sn s l c /\ (y = l_nd c /\ (b = true -> mkn l c) \/ y = l_hk c /\ mkn l c).
Proof.
  destruct l as [c t|c|c t f|c|c|e0|e0|e0|e0|i|k|k]; cbn [pre]; unfold make; intros H; try (destruct H; fail).
  - exists c. split; [reflexivity|]. destruct H as [[= <- <-]|[[= <- <-]|[]]]; simpl; auto.
  - exists c. split; [reflexivity|]. destruct H as [[= <- <-]|[]]. left. split; [reflexivity|discriminate].
  - exists c. split; [reflexivity|]. destruct H as [[= <- <-]|[[= <- <-]|[]]]; simpl; auto.
  - exists c. split; [reflexivity|]. destruct H as [[= <- <-]|[]]. left. split; [reflexivity|discriminate].
  - exists c. split; [reflexivity|]. destruct (n_obs _); [destruct H|]. destruct H as [[= <- <-]|[]]. left. split; [reflexivity|discriminate].
Qed.
Lemma post_in s l y b : In (Touch y b) (post s l) -> exists c, sn s l c /\ (y = l_nd c /\ (b = true -> l = LDel c) \/ y = l_hk c /\ l = LDel c).
Proof.
  destruct l as [c t|c|c [e|] f|c|c|e0|e0|e0|e0|i|k|k]; cbn [post]; unfold make; intros H; try (destruct H; fail).
  - exists c. split; [reflexivity|]. destruct (_ && _); [|destruct H]. destruct H as [[= <- <-]|[]]. left. split; [reflexivity|discriminate].
  - exists c. split; [reflexivity|]. destruct H as [[= <- <-]|[[= <- <-]|[]]]; simpl; auto.
Qed.
Lemma mkn_mk l c : mkn l c -> mk l c. Proof. destruct l; simpl; auto; contradiction. Qed.
Lemma body_in s l c : In c (body s l) -> exists e, sec s l = Some e /\ (In c (e_cbs (c_ev s e)) \/ mkn l c) \/ exists c0, l = LDel c0 /\ sec s l = None.
Proof.
  destruct l as [c0 [e|]|c0|c0 [e|] f|c0|c0|e0|e0|e0|e0|i|k|k]; cbn [body sec mkn]; intros H; try (destruct H; fail).
  - destruct (e_req _); [destruct H|]. exists e. left. split; [reflexivity|]. apply in_app_or in H. destruct H as [H|[H|[]]]; auto.
  - destruct (n_tok _) as [e|]; [|destruct H]. exists e. left. split; [reflexivity|]. destruct (e_req _); [destruct H|]. auto.
  - exists e. left. split; [reflexivity|]. destruct (e_req _); [destruct H|]. apply in_app_or in H. destruct H as [H|[H|[]]]; auto.
  - destruct (n_tok _) as [e|]; [|destruct H]. exists e. left. split; [reflexivity|]. destruct (e_req _); [destruct H|]. auto.
  - destruct (n_obs _) eqn:Eo; [exists 0; right; eauto|]. destruct (n_tok _) as [e|]; [|destruct H]. exists e. left. split; [reflexivity|]. destruct (e_req _); [destruct H|]. auto.
  - exists e0. auto.
Qed.
(** the head of the list that l takes a node from *)
Definition head (s : cst) (l : clabel) (c : nat) (rest : list nat) : Prop := exists i, l = LLoop i /\ nth_error (c_loops s) i = Some (CL (c :: rest) None).

Lemma plain_t s l y b (P : nat -> Prop) : sec s l = None -> plain s l -> In (Touch y b) (ch_acts s l) ->
  (exists c, y = l_nd c /\ sn s l c /\ (b = true -> mk l c)) \/ (exists c, y = l_hk c /\ (mk l c \/ P c)).
Proof.
  intros Hsec Hp H. rewrite acts_plain in H by auto. apply in_app_or in H. destruct H as [H|H].
  - apply pre_in in H. destruct H as (c & Hn & [[-> Hb]|[-> Hb]]); [left|right]; exists c; (split; [reflexivity|]); [split; [exact Hn|]; intros E; apply mkn_mk; auto|left; now apply mkn_mk].
  - apply post_in in H. destruct H as (c & Hn & [[-> Hb]|[-> Hb]]); [left|right]; exists c; (split; [reflexivity|]); [split; [exact Hn|]; intros E; rewrite (Hb E); reflexivity|left; rewrite Hb; reflexivity].
Qed.
Lemma t_all s l y b : In (Touch y b) (ch_acts s l) ->
  (exists e, y = l_ev e /\ evs s l e /\ (b = true -> l = LDelEv e)) \/ (exists e, y = l_st e /\ sts s l e) \/
  (exists c, y = l_nd c /\ sn s l c /\ (b = true -> mk l c)) \/
  (exists c, y = l_hk c /\ (mk l c \/ (exists e, sec s l = Some e /\ In c (e_cbs (c_ev s e))) \/ exists c0 rest, head s l c0 rest /\ In c (c0 :: rest))).
Proof.
  intros H. destruct (sec s l) as [e|] eqn:Hsec.
  - rewrite (acts_sec _ _ _ Hsec) in H. assert (Hst : sts s l e) by (left; exact Hsec). apply in_app_or in H. destruct H as [H|[H|H]]; [|discriminate|].
    + apply in_app_or in H. destruct H as [H|[[= <- <-]|[]]].
      * apply pre_in in H. destruct H as (c & Hn & [[-> Hb]|[-> Hb]]); [|right; right; right; eauto using mkn_mk]. right. right. left. exists c. split; [reflexivity|]. split; [exact Hn|]. intros E. apply mkn_mk. auto.
      * left. exists e. split; [reflexivity|]. split; [left; exact Hst|discriminate].
    + apply in_app_or in H. destruct H as [[[= <- <-]|H]|[H|[H|H]]]; try discriminate.
      * right. left. eauto.
      * apply in_hooks in H. destruct H as (c & -> & Hi & _). right. right. right. exists c. split; [reflexivity|]. destruct (body_in _ _ _ Hi) as [e' [[E [Hc|Hm]]|(c0 & -> & E)]]; [|left; now apply mkn_mk|congruence]. right. left. exists e. split; [reflexivity|]. congruence.
      * apply post_in in H. destruct H as (c & Hn & [[-> Hb]|[-> Hb]]); [|right; right; right; exists c; subst l; simpl; auto]. right. right. left. exists c. split; [reflexivity|]. split; [exact Hn|]. intros E. rewrite (Hb E). reflexivity.
  - destruct l as [c [e|]|c|c [e|] f|c|c|e|e|e|e|i|k|k]; try (cbn in Hsec; discriminate);
      try (right; right; refine (plain_t s _ y b (fun c => _) Hsec I H); fail).
    + cbn [sec] in Hsec. destruct (e_req (c_ev s e)) eqn:Er; [|discriminate]. cbn [ch_acts] in H. rewrite Er in H.
      assert (Hst : sts s (LNew c (Some e)) e) by (right; left; eauto). unfold make, enter in H. simpl in H.
      destruct H as [H|[H|[H|[H|[H|[H|[H|[]]]]]]]]; try discriminate; injection H as <- <-.
      * right. right. left. exists c. simpl. auto.
      * right. right. right. exists c. simpl. auto.
      * left. exists e. split; [reflexivity|]. split; [left; exact Hst|discriminate].
      * right. left. eauto.
      * right. right. left. exists c. simpl. auto.
    + cbn [ch_acts] in H. assert (Hst : sts s (LDelEv e) e) by (right; right; reflexivity). destruct H as [H|[H|[H|[]]]]; try discriminate; injection H as <- <-; [left|right; left]; eauto.
      exists e. split; [reflexivity|]. split; [left; exact Hst|auto].
    + cbn [ch_acts] in H. destruct (nth_error (c_loops s) i) as [[[|c rest] [|]]|] eqn:Hi; try (destruct H; fail). apply in_app_or in H. destruct H as [H|[H|[]]].
      * apply in_hooks in H. destruct H as (c1 & -> & Hc & _). right. right. right. exists c1. split; [reflexivity|]. right. right. exists c, rest. split; [exists i; auto|exact Hc].
      * injection H as <- <-. right. right. left. exists c. split; [reflexivity|]. split; [exists rest; exact Hi|discriminate].
    + cbn [ch_acts] in H. destruct (nth_error (c_fns s) k) as [[c e [| |]|]|] eqn:Hk; try (destruct H; fail). destruct H as [H|[H|[H|[]]]]; try discriminate. injection H as <- <-.
      left. exists e. split; [reflexivity|]. split; [right; eauto|discriminate].
    + cbn [sec ch_acts] in *. destruct (nth_error (c_fns s) k) as [[c e h|]|]; try discriminate; destruct H.
Qed.
Lemma t_ev {s l e b} : In (Touch (l_ev e) b) (ch_acts s l) -> evs s l e /\ (b = true -> l = LDelEv e).
Proof. intros H. apply t_all in H. destruct H as [(e' & E & H)|[(e' & E & H)|[(c & E & H)|(c & E & H)]]]; [injl; auto|lne|lne|lne]. Qed.
Lemma t_st {s l e b} : In (Touch (l_st e) b) (ch_acts s l) -> sts s l e.
Proof. intros H. apply t_all in H. destruct H as [(e' & E & H)|[(e' & E & H)|[(c & E & H)|(c & E & H)]]]; [lne|injl; auto|lne|lne]. Qed.
Lemma t_nd {s l c b} : In (Touch (l_nd c) b) (ch_acts s l) -> sn s l c /\ (b = true -> mk l c).
Proof. intros H. apply t_all in H. destruct H as [(e' & E & H)|[(e' & E & H)|[(c' & E & H)|(c' & E & H)]]]; [lne|lne|injl; auto|lne]. Qed.
Lemma t_hk {s l c b} : In (Touch (l_hk c) b) (ch_acts s l) -> mk l c \/ (exists e, sec s l = Some e /\ In c (e_cbs (c_ev s e))) \/ exists c0 rest, head s l c0 rest /\ In c (c0 :: rest).
Proof. intros H. apply t_all in H. destruct H as [(e' & E & H)|[(e' & E & H)|[(c' & E & H)|(c' & E & H)]]]; [lne|lne|lne|injl; auto]. Qed.
